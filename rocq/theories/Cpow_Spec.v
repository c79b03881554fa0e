(** * Specification vocabulary for the power method *)
From Verif Require Import Base BaseR Cpow_Model.
Open Scope R_scope.

(** L1 norm of the first n entries, and a matrix applied to a vector. *)
Definition size1 (n : nat) (x : list R) : R := rsum n (fun i => Rabs (nth i x 0)).
Definition dist1 (n : nat) (x y : list R) : R := rsum n (fun i => Rabs (nth i x 0 - nth i y 0)).
Definition image (n : nat) (A : nat -> nat -> R) (x : list R) (i : nat) : R := rsum n (fun j => A i j * nth j x 0).
(** The norm of A x - l x. *)
Definition resid (n : nat) (A : nat -> nat -> R) (l : R) (x : list R) : R := rsum n (fun i => Rabs (image n A x i - l * nth i x 0)).

(** Multiplying by A (and solving with B) gives the image under the matrix T. *)
Definition realises (n : nat) (mul : list R -> res (list R)) (slv : option (list R -> list R -> res (list R))) (T : nat -> nat -> R) : Prop :=
  forall x0 temp, length x0 = n -> length temp = n ->
    exists x t, apply_op mul slv x0 temp = Ok (x, t) /\ length x = n /\ length t = n /\ forall i, (i < n)%nat -> nth i x 0 = image n T x0 i.

(** Matrices whose rows are alike up to a factor between d and 1. *)
Definition mixing (n : nat) (T : nat -> nat -> R) (e u : nat -> R) (d : R) : Prop :=
  0 < d <= 1 /\ (forall i, (i < n)%nat -> 0 <= e i) /\ (forall j, (j < n)%nat -> 0 <= u j) /\
  (forall i j, (i < n)%nat -> (j < n)%nat -> d * (e i * u j) <= T i j <= e i * u j) /\ 0 < rsum n (fun j => u j * e j).
(** Eigenvalue with a non-negative eigenvector of size 1. *)
Definition eigenpair (n : nat) (T : nat -> nat -> R) (l : R) (v : list R) : Prop :=
  length v = n /\ (forall i, (i < n)%nat -> 0 <= nth i v 0) /\ size1 n v = 1 /\ forall i, (i < n)%nat -> image n T v i = l * nth i v 0.
