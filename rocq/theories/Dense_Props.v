(** * Theorems on MatrixDense and SparseRow (C05 dense part, C06, C07, C61) *)
From Verif Require Import Base BaseR Matrix_Model Matrix_Spec Dense_Model Dense_Spec Dense_Proofs.
Open Scope R_scope.

Example dops_ok : Forall (dop_ok 2 3) [DOp 0 2 5 INSERT; DOp 1 0 1 ADD; DOp 0 2 1 ADD].
Proof. repeat constructor. Qed.

(** C07 *)
Theorem C07_dense_storage :
  forall m n v ops,
  Forall (dop_ok m n) ops ->
  exists A, foldM dstep ops (dense_new m n v) = Ok A /\
    forall i j, (i < m)%nat -> (j < n)%nat ->
      dget A i j = Ok (fold_left tbl_upd ops (fun _ _ => v) i j).
Proof. exact @dense_history. Qed.
Print Assumptions C07_dense_storage.
Example C07_case : fold_left tbl_upd [DOp 0 2 5 INSERT; DOp 1 0 1 ADD; DOp 0 2 1 ADD] (fun _ _ => 0) 0%nat 2%nat = 6.
Proof. unfold tbl_upd. simpl. ring. Qed.

(** C07: whole-row and whole-column insertion are sequences of scalar ones. *)
Theorem C07_dense_row_insert :
  forall A i v ty,
  dwf A -> (i < dm A)%nat -> length v = dn A ->
  dinsert_row A i v ty = foldM dstep (map (fun j => DOp i j (nth j v 0) ty) (seq 0 (dn A))) A.
Proof. exact @dinsert_row_ok. Qed.
Print Assumptions C07_dense_row_insert.
Theorem C07_dense_col_insert :
  forall A j v ty,
  dwf A -> (j < dn A)%nat -> length v = dm A ->
  dinsert_col A j v ty = foldM dstep (map (fun i => DOp i j (nth i v 0) ty) (seq 0 (dm A))) A.
Proof. exact @dinsert_col_ok. Qed.
Print Assumptions C07_dense_col_insert.

(** C05, dense part (also states what multiply computes) *)
Theorem C05_dense_transpose_adjoint :
  forall m n v ops w z,
  Forall (dop_ok m n) ops -> length w = m -> length z = n ->
  exists A Az Atw, foldM dstep ops (dense_new m n v) = Ok A /\
    dmultiply A z = Ok Az /\ dmultiply_transpose A w = Ok Atw /\
    length Az = m /\ length Atw = n /\
    (forall i, (i < m)%nat -> nth i Az 0 =
        rsum n (fun j => fold_left tbl_upd ops (fun _ _ => v) i j * nth j z 0)) /\
    dot w Az = dot Atw z.
Proof. exact @dense_adjoint. Qed.
Print Assumptions C05_dense_transpose_adjoint.

(** C06: for every history of SparseRow insertions *)
Theorem C06_sparse_row_ordered_map :
  forall ops,
  let l := fold_left sr_step ops [] in
  strictly_increasing l /\
  (forall k, sval l k = fold_left vec_upd ops (fun _ => 0) k) /\
  (forall k, In k (map fst l) -> sr_get k l = Ok (fold_left vec_upd ops (fun _ => 0) k) /\
      exists p v, sr_find k l = Z.of_nat p /\ nth_error l p = Some (k, v)) /\
  (forall k, ~ In k (map fst l) -> sr_find k l = (-1)%Z /\ sr_get k l = UB /\
      fold_left vec_upd ops (fun _ => 0) k = 0).
Proof. exact @sr_history. Qed.
Print Assumptions C06_sparse_row_ordered_map.
Example C06_case : fold_left sr_step [SOp 3 1 INSERT; SOp 1 2 ADD; SOp 3 4 ADD] [] = [(1%Z, 2); (3%Z, 4 + 1)].
Proof. unfold sr_step, sr_insert; simpl. destruct (Req_EM_T 1 0); [lra|]. simpl.
  destruct (Req_EM_T (4 + 1) 0); [lra|]. reflexivity. Qed.

(** C61: the range form adds v*r on [a,b) and nothing else, provided r has no
    stored column b ... *)
Theorem C61_range_insert_partial :
  forall a b r v l k,
  (a < b)%Z -> strictly_increasing r -> strictly_increasing l ->
  ~ In b (map fst r) ->
  strictly_increasing (sr_insert_range a b r v ADD l) /\
  sval (sr_insert_range a b r v ADD l) k =
  if ((a <=? k) && (k <? b))%Z then sval l k + sval r k * v else sval l k.
Proof. exact @sr_insert_range_add. Qed.
Print Assumptions C61_range_insert_partial.
(** ... and leaks column b otherwise. *)
Theorem C61_range_insert_refuted :
  exists a b r l, (a < b)%Z /\ strictly_increasing r /\ strictly_increasing l /\
    sval (sr_insert_range a b r 1 ADD l) b <> sval l b.
Proof. exact @sr_insert_range_leak. Qed.
Print Assumptions C61_range_insert_refuted.
