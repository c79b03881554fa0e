(** * Specification vocabulary for vectors *)
From Verif Require Import Base BaseR Vector_Model.
Open Scope R_scope.

(** Component of a vector. *)
Definition cmp (v : list R) (i : nat) : R := nth i v 0.
(** A vector given by its components. *)
Definition vec (n : nat) (f : nat -> R) : list R := map f (seq 0 n).
(** Inner product of functions on [0, n). *)
Definition inner (n : nat) (u v : nat -> R) : R := rsum n (fun i => u i * v i).
(** Largest of n non-negative numbers. *)
Fixpoint rmax (n : nat) (f : nat -> R) : R :=
  match n with O => 0 | S k => Rmax (rmax k f) (f k) end.
(** The three norms. *)
Inductive plain : norm_type -> Prop := plain1 : plain L1 | plain2 : plain L2 | plaininf : plain LINF.
Definition gnorm (ty : norm_type) (n : nat) (f : nat -> R) : R :=
  match ty with
  | L1 => rsum n (fun i => Rabs (f i))
  | L2 => sqrt (rsum n (fun i => f i * f i))
  | _ => rmax n (fun i => Rabs (f i))
  end.
