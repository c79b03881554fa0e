(** * Specification vocabulary for GMRES *)
From Verif Require Import Base BaseR Vector_Model Vector_Spec Solver_Model Solver_Spec Gmres_Model.
Open Scope R_scope.

(** Linear operators on n-vectors, given by their components. *)
Definition linear (n : nat) (op : list R -> nat -> R) : Prop :=
  forall u v w a, length u = n -> length v = n -> length w = n ->
    (forall i, (i < n)%nat -> cmp w i = cmp u i + a * cmp v i) ->
    forall i, (i < n)%nat -> op w i = op u i + a * op v i.
Definition injective (n : nat) (op : list R -> nat -> R) : Prop :=
  forall v, length v = n -> (forall i, (i < n)%nat -> op v i = 0) -> forall i, (i < n)%nat -> cmp v i = 0.

(** An optional preconditioner computes a linear operator, the identity if absent. *)
Definition is_pc (n : nat) (p : option vop) (op : list R -> nat -> R) : Prop :=
  linear n op /\ match p with Some ap => is_op n ap op | None => forall x i, op x i = cmp x i end.

(** The operator whose Krylov space is searched: left pc, matrix, right pc. *)
Definition chain (n : nat) (L A Rt : list R -> nat -> R) (v : list R) : nat -> R := L (vec n (A (vec n (Rt v)))).
(** The (left preconditioned) residual of x and its Euclidean norm. *)
Definition pres (n : nat) (L A : list R -> nat -> R) (b x : list R) : nat -> R := L (vec n (fun i => cmp b i - A x i)).
Definition pnorm (n : nat) (L A : list R -> nat -> R) (b x : list R) : R := gnorm L2 n (pres n L A b x).

(** Krylov vectors r, K r, K K r, ... *)
Fixpoint krylov (n : nat) (K : list R -> nat -> R) (r : list R) (j : nat) : list R :=
  match j with O => r | S i => vec n (K (krylov n K r i)) end.
(** x + Rt (a_0 r + a_1 K r + ... + a_{k-1} K^{k-1} r) *)
Definition candidate (n : nat) (K Rt : list R -> nat -> R) (r x : list R) (k : nat) (a : nat -> R) : list R :=
  vec n (fun i => cmp x i + Rt (vec n (fun i => rsum k (fun j => a j * cmp (krylov n K r j) i))) i).

(** x' is a minimiser of the residual norm over x + Rt (Krylov space of dimension k). *)
Definition minimiser (n : nat) (L A Rt : list R -> nat -> R) (b x x' : list R) (k : nat) : Prop :=
  let cand := candidate n (chain n L A Rt) Rt (vec n (pres n L A b x)) x k in
  (exists a, x' = cand a) /\ forall a, pnorm n L A b x' <= pnorm n L A b (cand a).
(** The first i+1 recorded residuals do not grow. *)
Definition falling (h : list R) (i : nat) : Prop := forall j, (j < i)%nat -> nth (S j) h 0 <= nth j h 0.
