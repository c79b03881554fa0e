(** * Specification vocabulary for MatrixDense and SparseRow *)
From Verif Require Import Base BaseR Matrix_Model Dense_Model.
Open Scope R_scope.

(** The mathematical update of a two-argument table. *)
Record dop := DOp { d_i : nat; d_j : nat; d_x : R; d_t : itype }.
Definition table := nat -> nat -> R.
Definition tbl_upd (f : table) (o : dop) : table := fun i j =>
  if (Nat.eqb i (d_i o) && Nat.eqb j (d_j o))%bool
  then match d_t o with INSERT => d_x o | ADD => f i j + d_x o end
  else f i j.

(** The mathematical update of a sparse vector seen as a function of the column. *)
Record sop := SOp { s_i : Z; s_v : R; s_t : itype }.
Definition vec_upd (f : Z -> R) (o : sop) : Z -> R := fun k =>
  if (k =? s_i o)%Z
  then match s_t o with
       | INSERT => if Req_EM_T (s_v o) 0 then f k else s_v o
       | ADD => f k + s_v o
       end
  else f k.

(** Value of a column of an association list (0 when absent). *)
Fixpoint sval (l : list (Z * R)) (k : Z) : R :=
  match l with
  | [] => 0
  | (c, w) :: r => if (c =? k)%Z then w else sval r k
  end.

Definition strictly_increasing (l : list (Z * R)) : Prop :=
  StronglySorted Z.lt (map fst l).

(** Preconditions and the step function of a history of calls. *)
Definition dop_ok (m n : nat) (o : dop) : Prop := (d_i o < m)%nat /\ (d_j o < n)%nat.
Definition dstep (A : dense) (o : dop) : res dense := dinsert A (d_i o) (d_j o) (d_x o) (d_t o).
Definition sr_step (l : srow) (o : sop) : srow := snd (sr_insert (s_i o) (s_v o) (s_t o) l).
(** Storage has m*n slots (true of every constructed matrix). *)
Definition dwf (A : dense) : Prop := length (dv A) = (dm A * dn A)%nat.
