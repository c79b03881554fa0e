(** * Mgk_Spec: what the linear system of the multigroup Krylov solvers must mean. *)
From Verif Require Import Base BaseR Angle_Model Boundary_Model Boundary_Spec Material_Model Source_Model Source_Spec Sweep_Model Sweep_Spec
  Iter_Model Iter_Spec Wg_Spec.
Open Scope nat_scope.

(** The groups of the block: those from the cutoff on, in the order the problem
    is solved (from the last group back when it is an adjoint problem). *)
Definition krylov_group (x : src) (cutoff g : nat) : Prop := g < ng (mat x) /\ below x cutoff g = false.
Definition cutoff_in (x : src) (cutoff : nat) : Prop := if adj x then cutoff < ng (mat x) else cutoff <= ng (mat x).
Definition block_size (x : src) (cutoff : nat) : nat := if adj x then S cutoff else ng (mat x) - cutoff.
(** Where the unknowns of a group are. *)
Definition place (x : src) (cutoff g : nat) : nat := if adj x then g else g - cutoff.
Definition part (v : list R) (n i : nat) : list R := map (fun c => at_ v (i * n + c)) (seq 0 n).
(** The fluxes phi0 with those of the block taken from the vector v. *)
Definition spread (x : src) (cutoff : nat) (phi0 : list (list R)) (v : list R) : list (list R) :=
  map (fun g => if below x cutoff g then nth g phi0 [] else part v (cells x) (place x cutoff g)) (seq 0 (length phi0)).
(** phi solves the transport equations of the groups selected, each with the source
    all the fluxes in phi make. *)
Definition mg_flux (w : sweeper) (x : swp) (b : bsn) (sel : nat -> Prop) (phi : list (list R)) : Prop :=
  forall g, sel g -> exists b', given_entering b b' g /\ transported w x g b' phi (nth g phi []).
(** The groups from which group g takes reach down to the cutoff. *)
Definition reaches_cutoff (x : src) (cutoff : nat) : Prop :=
  forall g, krylov_group x cutoff g -> if adj x then cutoff <= lo x g else lo x g <= cutoff.
(** The states a solve of the block started in t goes through: the same problem,
    the same fluxes and the same boundary conditions. *)
Record mg_state (w : sweeper) (m : mtl) (cutoff : nat) (t u : tstate) : Prop := {
  mg_posed : forall g, krylov_group (ssrc (t_x t)) cutoff g -> wellposed w m g u;
  mg_problem : exists f s, t_x u = with_scat (with_fixed (t_x t) f) s;
  mg_setup : same_setup (t_b t) (t_b u)
}.
