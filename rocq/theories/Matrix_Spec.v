(** * Specification vocabulary for the sparse matrix *)
From Verif Require Import Base BaseR Matrix_Model.
Open Scope R_scope.

(** What the C++ standard guarantees of [std::sort] for compare_triplet. *)
Definition is_sort (srt : list triplet -> list triplet) : Prop :=
  forall l, Permutation l (srt l) /\
            StronglySorted (fun a b => compare_triplet b a = false) (srt l).

(** A user's call insert(i, j, v, type). *)
Record op := Op { o_i : nat; o_j : Z; o_v : R; o_t : itype }.

(** The preconditions the code states by [Require] (Matrix.i.hh 160-161). *)
Definition op_ok (m n : nat) (o : op) : Prop :=
  (o_i o < m)%nat /\ (0 <= o_j o < Z.of_nat n)%Z.

(** A whole history of scalar insertions; the flags are the values returned. *)
Fixpoint run (A : coo) (ops : list op) : res (list bool * coo) :=
  match ops with
  | [] => Ok ([], A)
  | o :: r =>
      do (b, A') <- insert A (o_i o) (o_j o) (o_v o) (o_t o);
      do (bs, A'') <- run A' r;
      Ok (b :: bs, A'')
  end.

(** Value of x at a column number. *)
Definition at_col (x : list R) (j : Z) : R := nth (Z.to_nat j) x 0.

(** What the accepted calls contribute to component i of A*x. *)
Definition contrib (i : nat) (x : Z -> R) (ops : list op) (flags : list bool) : R :=
  sumR (map (fun of : op * bool =>
               if snd of && Nat.eqb (o_i (fst of)) i
               then o_v (fst of) * x (o_j (fst of)) else 0) (combine ops flags)).

(** Some call for row i was accepted. *)
Definition touched (i : nat) (ops : list op) (flags : list bool) : Prop :=
  exists o, In (o, true) (combine ops flags) /\ o_i o = i.

Definition dot (u v : list R) : R :=
  rsum (length u) (fun i => nth i u 0 * nth i v 0).

(** Structural statement about an assembled matrix. *)
Definition csr_wf (m n : nat) (C : csr) : Prop :=
  length (c_rows C) = S m /\ nth 0 (c_rows C) 0%nat = 0%nat /\
  nth m (c_rows C) 0%nat = length (c_cols C) /\
  length (c_vals C) = length (c_cols C) /\
  (forall i, (i < m)%nat ->
     let a := nth i (c_rows C) 0%nat in
     let b := nth (S i) (c_rows C) 0%nat in
     (a < b)%nat /\
     (forall p, (a <= p < b)%nat -> (0 <= nth p (c_cols C) (-1) < Z.of_nat n)%Z) /\
     (forall p q, (a <= p)%nat -> (p < q)%nat -> (q < b)%nat ->
        (nth p (c_cols C) (-1) <= nth q (c_cols C) (-1))%Z) /\
     ((i < n)%nat -> exists d, nth_error (c_diag C) i = Some (Some d) /\
        (a <= d < b)%nat /\ nth d (c_cols C) (-1)%Z = Z.of_nat i)).

(** The user-level value of entry (i,j): contribution of a unit column. *)
Definition entry (i j : nat) (ops : list op) (flags : list bool) : R :=
  contrib i (fun k => if (k =? Z.of_nat j)%Z then 1 else 0) ops flags.

(** Row k of the operator represented by the (unassembled) storage, applied to x. *)
Definition stored (A : coo) (k : nat) (x : Z -> R) : R :=
  sumR (map (fun t => tv t * x (tj t)) (fst (nth k A ([], 0%nat)))).

(** A concrete history used to show that hypotheses are satisfiable: rows of a
    2x3 matrix with capacities 2 and 2; the fourth call is rejected, the last one merges. *)
Definition ex_ops : list op :=
  [Op 0 2 5 INSERT; Op 1 0 1 INSERT; Op 0 0 2 INSERT; Op 0 1 7 INSERT; Op 0 2 1 ADD].
Definition ex_flags : list bool := [true; true; true; false; true].
