(** * Ext_Spec: what external sources are meant to emit. *)
From Verif Require Import Base BaseR Angle_Model Ext_Model.
Open Scope R_scope.

(** Sum over the directions of a quadrature. *)
Definition over_angles (q : quad) (f : nat -> nat -> R) : R :=
  rsum (q_noct q) (fun o => rsum (q_nao q) (fun a => nth a (q_wt q) 0 * f o a)).
(** The weights are there and add up to the reciprocal of the angular norm. *)
Definition normalised (dim : nat) (q : quad) : Prop :=
  length (q_wt q) = q_nao q /\ over_angles q (fun _ _ => 1) * angular_norm dim = 1.

(** No direction-dependent source below: any source made of constant and isotropic ones. *)
Fixpoint isotropic (s : source) : Prop :=
  match s with
  | Constant _ => True
  | Isotropic _ _ => True
  | Discrete _ _ => False
  | Linear _ parts _ _ => (fix all l := match l with [] => True | p :: l => isotropic p /\ all l end) parts
  | Pulsed p _ _ _ _ => isotropic p
  end.

(** Gaussian with the given peak and full width at half maximum. *)
Definition gaussian (peak fwhm t : R) : R := exp (- (4 * ln 2) * ((t - peak) / fwhm) ^ 2).
