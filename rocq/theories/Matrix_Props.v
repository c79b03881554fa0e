(** * Theorems on the sparse matrix (C01 - C05) *)
From Verif Require Import Base BaseR Matrix_Model Matrix_Spec Matrix_Proofs.
Open Scope R_scope.

(** A sort function satisfying the assumption exists. *)
Example is_sort_inhabited : exists srt, is_sort srt.
Proof. exists isort. exact isort_is_sort. Qed.

Example ex_ops_ok : Forall (op_ok (length [2;2]%nat) 3) ex_ops.
Proof. repeat constructor; simpl; lia. Qed.
Example ex_ops_run : exists A, run (preallocate [2;2]%nat) ex_ops = Ok (ex_flags, A).
Proof. eexists. reflexivity. Qed.
Example ex_ops_touched : forall i, (i < length [2;2]%nat)%nat -> touched i ex_ops ex_flags.
Proof.
  intros [|[|i]] H; simpl in H; [| |lia].
  - exists (Op 0 2 5 INSERT). simpl. auto.
  - exists (Op 1 0 1 INSERT). simpl. auto.
Qed.
Example ex_contrib : contrib 0 (at_col [1;10;100]) ex_ops ex_flags = 602.
Proof. unfold contrib. simpl. unfold at_col. simpl. ring. Qed.

(** C01 *)
Theorem C01_multiply_reflects_insertions :
  forall srt caps n ops x, is_sort srt ->
  Forall (op_ok (length caps) n) ops -> length x = n ->
  exists flags A, run (preallocate caps) ops = Ok (flags, A) /\ length flags = length ops /\
    ((forall i, (i < length caps)%nat -> touched i ops flags) ->
     exists C y, assemble srt n A = Ok C /\ multiply C x = Ok y /\ length y = length caps /\
       forall i, (i < length caps)%nat -> nth i y 0 = contrib i (at_col x) ops flags) /\
    ((exists i, (i < length caps)%nat /\ ~ touched i ops flags) -> assemble srt n A = UB).
Proof. exact matrix_multiply_reflects_insertions. Qed.
Print Assumptions C01_multiply_reflects_insertions.

(** C02 *)
Theorem C02_assembled_structure :
  forall srt caps n ops, is_sort srt ->
  Forall (op_ok (length caps) n) ops ->
  exists flags A, run (preallocate caps) ops = Ok (flags, A) /\ length flags = length ops /\
    ((forall i, (i < length caps)%nat -> touched i ops flags) ->
     exists C, assemble srt n A = Ok C /\ csr_wf (length caps) n C) /\
    ((exists i, (i < length caps)%nat /\ ~ touched i ops flags) -> assemble srt n A = UB).
Proof. exact matrix_structure. Qed.
Print Assumptions C02_assembled_structure.

(** C03: scalar form.  A rejected call changes nothing and only happens when the
    row is full (and, for ADD, the column is absent); an accepted call adds
    exactly v to entry (i,j); capacities are never exceeded. *)
Theorem C03_scalar_insert_truthful_partial :
  forall caps n ops o,
  Forall (op_ok (length caps) n) ops -> op_ok (length caps) n o ->
  exists flags A b A', run (preallocate caps) ops = Ok (flags, A) /\
    insert A (o_i o) (o_j o) (o_v o) (o_t o) = Ok (b, A') /\
    (b = false -> A' = A /\ nth (o_i o) (map snd A) 0%nat = nth (o_i o) caps 0%nat /\
        (o_t o = ADD -> forall t, In t (fst (nth (o_i o) A ([], 0%nat))) -> tj t <> o_j o)) /\
    (b = true -> forall k x, (k < length caps)%nat ->
        stored A' k x = stored A k x + (if Nat.eqb k (o_i o) then o_v o * x (o_j o) else 0)) /\
    map (fun rw => length (fst rw)) A' = caps /\
    Forall (fun rw => (snd rw <= length (fst rw))%nat) A'.
Proof. exact insert_truthful. Qed.
Print Assumptions C03_scalar_insert_truthful_partial.

(** C03: the row form with INSERT stores everything or nothing. *)
Theorem C03_row_insert_truthful_partial :
  forall caps n ops i es,
  Forall (op_ok (length caps) n) ops -> (i < length caps)%nat ->
  Forall (fun e => (0 <= fst e < Z.of_nat n)%Z) es ->
  exists flags A b A', run (preallocate caps) ops = Ok (flags, A) /\
    insert_row A i es INSERT = Ok (b, A') /\
    (b = false -> A' = A) /\
    (b = true -> forall k x, (k < length caps)%nat ->
        stored A' k x = stored A k x +
          (if Nat.eqb k i then sumR (map (fun e => snd e * x (fst e)) es) else 0)).
Proof. exact insert_row_truthful. Qed.
Print Assumptions C03_row_insert_truthful_partial.
Example C03_row_case : exists A, insert_row (preallocate [2]%nat) 0 [(0%Z,1);(1%Z,1)] INSERT = Ok (true, A).
Proof. eexists. reflexivity. Qed.

(** C03 is false for the triplet and the column overloads: each entry is
    checked against the capacity separately, so two entries for the same row
    write past the end of that row. *)
Theorem C03_triplet_insert_overruns_refuted :
  exists caps es,
    Forall (fun e => (fst e < length caps)%nat /\ (0 <= fst (snd e) < 2)%Z) es /\
    insert_triplets (preallocate caps) es INSERT = UB.
Proof. exact insert_triplets_overrun. Qed.
Print Assumptions C03_triplet_insert_overruns_refuted.

Theorem C03_column_insert_overruns_refuted :
  exists caps j es,
    Forall (fun e => (fst e < length caps)%nat) es /\ (0 <= j < 2)%Z /\
    insert_col (preallocate caps) j es INSERT = UB.
Proof. exact insert_col_overrun. Qed.
Print Assumptions C03_column_insert_overruns_refuted.

(** ... and the row overload with ADD may return false having stored a prefix. *)
Theorem C03_row_add_not_atomic_refuted :
  exists caps es A', Forall (fun e => (0 <= fst e < 2)%Z) es /\
    insert_row (preallocate caps) 0 es ADD = Ok (false, A') /\ A' <> preallocate caps.
Proof. exact insert_row_add_partial_store. Qed.
Print Assumptions C03_row_add_not_atomic_refuted.

(** C04 is false: off-diagonal entries that multiply uses are read as 0. *)
Theorem C04_element_access_refuted :
  forall srt, is_sort srt ->
  exists caps n ops flags A C x y,
    Forall (op_ok (length caps) n) ops /\
    run (preallocate caps) ops = Ok (flags, A) /\ assemble srt n A = Ok C /\
    In (Op 0 1 2 INSERT) ops /\ flags = [true; true; true] /\
    get C 0 1 = Ok 0 /\
    x = [0; 1] /\ multiply C x = Ok y /\ nth 0 y 0 = 2.
Proof. exact get_refuted. Qed.
Print Assumptions C04_element_access_refuted.

(** What does hold: the diagonal is read correctly; every off-diagonal access
    returns 0 whatever was inserted. *)
Theorem C04_element_access_partial :
  forall srt caps n ops, is_sort srt ->
  Forall (op_ok (length caps) n) ops ->
  NoDup (map (fun o => (o_i o, o_j o)) ops) ->
  exists flags A, run (preallocate caps) ops = Ok (flags, A) /\ length flags = length ops /\
    ((forall i, (i < length caps)%nat -> touched i ops flags) ->
     exists C, assemble srt n A = Ok C /\
       forall i j, (i < length caps)%nat -> (i < n)%nat -> (j < n)%nat ->
         get C i j = Ok (if Nat.eqb i j then entry i i ops flags else 0)).
Proof. exact get_after_history. Qed.
Print Assumptions C04_element_access_partial.
Example C04_case : NoDup (map (fun o => (o_i o, o_j o)) wit_ops).
Proof. simpl. repeat constructor; simpl; intuition congruence. Qed.

(** C05, sparse part *)
Theorem C05_sparse_transpose_adjoint :
  forall srt caps n ops w z, is_sort srt ->
  Forall (op_ok (length caps) n) ops -> length w = length caps -> length z = n ->
  exists flags A, run (preallocate caps) ops = Ok (flags, A) /\
    ((forall i, (i < length caps)%nat -> touched i ops flags) ->
     exists C Az Atw, assemble srt n A = Ok C /\ multiply C z = Ok Az /\
       multiply_transpose n C w = Ok Atw /\ length Az = length caps /\ length Atw = n /\
       dot w Az = dot Atw z).
Proof. exact matrix_adjoint. Qed.
Print Assumptions C05_sparse_transpose_adjoint.
