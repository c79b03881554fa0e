(** * Gen_Spec: the fission generations of a fixed source problem, independent of
    how they are iterated. *)
From Verif Require Import Base BaseR Util_Model Boundary_Model Boundary_Spec Material_Model
  Source_Model Source_Spec Sweep_Model Sweep_Spec Iter_Model Iter_Spec Pi_Spec.
Open Scope nat_scope.

(** phi' are the fluxes of the neutrons born in the fissions that the fluxes phi
    cause: they solve the transport equations of all groups whose only source is
    the production of phi, shared out with the fission spectrum. *)
Definition next_generation (w : sweeper) (nc : nat) (t : tstate) (phi phi' : list (list R)) : Prop :=
  exists q, shared_fission nc (ssrc (t_x t)) q /\
  (forall g c, g < ng (mat (ssrc (t_x t))) -> c < nc ->
     nth c (nth g (fsource q) []) 0%R = (production (ssrc (t_x t)) phi c * spectrum (ssrc (t_x t)) g c)%R) /\
  mg_solution w (put_fission t q) phi'.

(** No flux anywhere, no fission source anywhere. *)
Definition no_flux (t : tstate) : Prop := forall g c, phi_of (phis t) g c = 0%R.
Definition no_fission_source (t : tstate) : Prop := forall g c, explicit_fission (t_x t) g c = 0%R.
(** The 2-norm of the difference of two sets of fluxes. *)
Definition flux_change (n nc : nat) (phi phi' : list (list R)) : R :=
  sqrt (rsum n (fun g => rsum nc (fun c => (phi_of phi g c - phi_of phi' g c) * (phi_of phi g c - phi_of phi' g c))))%R.
(** The sum of the fluxes of the generations from a up to but not including a + k. *)
Definition generations (n nc : nat) (Phi : nat -> list (list R)) (a k : nat) : list (list R) :=
  map (fun g => map (fun c => rsum k (fun i => phi_of (Phi (a + i)) g c)) (seq 0 nc)) (seq 0 n).
(** A multigroup solver that leaves the fission source alone. *)
Definition keeps_fission (Inv : tstate -> Prop) (mg : tstate -> res tstate) : Prop :=
  forall t t', Inv t -> mg t = Ok t' -> forall g c, explicit_fission (t_x t') g c = explicit_fission (t_x t) g c.
