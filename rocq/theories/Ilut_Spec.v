(** * Ilut_Spec: what an incomplete factorisation may be *)
From Verif Require Import Base BaseR Matrix_Model Matrix_Spec Solver_Model Solver_Spec Ilut_Model.
Open Scope nat_scope.

(** What the C++ standard guarantees of std::sort for the two orders. *)
Definition sort_by_size (f : srow -> srow) : Prop :=
  forall l, Permutation l (f l) /\ StronglySorted (fun a b => (Rabs (snd b) <= Rabs (snd a))%R) (f l).
Definition sort_by_column (f : srow -> srow) : Prop :=
  forall l, Permutation l (f l) /\ StronglySorted (fun a b => fst a <= fst b) (f l).

(** Every row stores each of its columns once. *)
Definition strict_rows (n : nat) (C : csr) : Prop :=
  forall i p q, i < n -> row_lo C i <= p -> p < q -> q < row_hi C i -> (col_at C p < col_at C q)%Z.
(** Row i stores column j. *)
Definition stored_at (C : csr) (i j : nat) : Prop := exists p, row_lo C i <= p < row_hi C i /\ col_at C p = Z.of_nat j.

(** L is unit lower and U upper triangular, and their product is the matrix. *)
Record factors (n : nat) (C : csr) (L U : nat -> nat -> R) : Prop := {
  fa_low : forall i k, i < n -> k < n -> i < k -> L i k = 0%R;
  fa_unit : forall i, i < n -> L i i = 1%R;
  fa_upp : forall k j, k < n -> j < n -> j < k -> U k j = 0%R;
  fa_prod : forall i j, i < n -> j < n -> rsum n (fun k => L i k * U k j)%R = mentry C i j
}.

(** The two rules for dropping, for the first row, which is the first row of the
    matrix before anything is dropped.  Entries smaller than the threshold, and only
    these, are dropped (when the limit p allows all): *)
Definition first_row_threshold (n : nat) (C P : csr) (t : R) : Prop :=
  forall j, 0 < j -> j < n -> ((Rabs (mentry C 0 j) < t)%R -> mentry P 0 j = 0%R) /\ ((t <= Rabs (mentry C 0 j))%R -> mentry P 0 j = mentry C 0 j).
(** an entry is not kept when a larger one on the same side of the diagonal is dropped: *)
Definition first_row_largest (n : nat) (C P : csr) : Prop :=
  forall j j', 0 < j -> j < n -> 0 < j' -> j' < n -> mentry P 0 j <> 0%R -> mentry P 0 j' = 0%R -> (Rabs (mentry C 0 j') <= Rabs (mentry C 0 j))%R.

(** A row in the order of its columns, each less than n and stored once. *)
Definition before (a b : nat * R) : Prop := fst a < fst b.
Definition fine (n : nat) (l : srow) : Prop := StronglySorted before l /\ Forall (fun e => fst e < n) l.
