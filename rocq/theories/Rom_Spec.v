(** * Specification vocabulary for reduced order models *)
From Verif Require Import Base BaseR Vector_Spec Solver_Spec Gmres_Model Gmres_Spec Dense_Model Dense_Spec.
Open Scope nat_scope.

(** Entry (i, j) of a matrix stored by columns. *)
Definition entry (U : dense) (i j : nat) : R := nth (i + j * dm U) (dv U) 0%R.
(** The vector with coefficients c in the basis of the columns of U. *)
Definition lift (U : dense) (c : list R) : list R := vec (dm U) (fun i => rsum (dn U) (fun j => entry U i j * cmp c j)%R).
(** Component of a vector along column i of U. *)
Definition along (U : dense) (f : nat -> R) (i : nat) : R := rsum (dm U) (fun k => entry U k i * f k)%R.
(** c and k solve the reduced problem M c = k W c, or M c = k c. *)
Definition reduced_pair (M : dense) (W : option dense) (k : R) (c : list R) : Prop :=
  exists y z, dmultiply M c = Ok y /\ (match W with Some W => dmultiply W c | None => Ok c end) = Ok z /\
    length c = dn M /\ forall i, i < dm M -> cmp y i = (k * cmp z i)%R.
(** A vector of one sign. *)
Definition one_sign (v : list R) : Prop := (forall i, i < length v -> (0 <= cmp v i)%R) \/ (forall i, i < length v -> (cmp v i <= 0)%R).
(** The columns of U are of unit length and orthogonal to each other. *)
Definition unit_basis (U : dense) : Prop := forall i j, i < dn U -> j < dn U -> along U (fun e => entry U e j) i = if i =? j then 1%R else 0%R.
