(** * Specification vocabulary for EigenArnoldi *)
From Verif Require Import Base BaseR Cpow_Model Source_Model Source_Spec Sweep_Model Sweep_Spec Material_Model Iter_Model Iter_Spec Pi_Spec Arn_Model.
Open Scope R_scope.

(** A guess of L2 norm one, in proportion to the fission in a flat flux. *)
Definition flat_fission (t : tstate) (c : nat) : R :=
  rsum (ng (mat (ssrc (t_x t)))) (fun g => nsf (mat (ssrc (t_x t))) g (mat_of (ssrc (t_x t)) c)).
Definition flat_guess (nc : nat) (t : tstate) (x0 : list R) : Prop :=
  length x0 = nc /\ rsum nc (fun c => at_ x0 c * at_ x0 c) = 1 /\
  exists r, 0 < r /\ forall c, (c < nc)%nat -> at_ x0 c = r * flat_fission t c.

(** From such a guess the eigensolver returns a pair of the operator. *)
Definition finds_pair (nc : nat) (Inv : tstate -> Prop) (mg : tstate -> res tstate) (es : eigen_solver) : Prop :=
  forall t dx x0, Inv t -> length dx = nc -> flat_guess nc t x0 ->
  exists t1 x k t2, es t dx x0 = Ok (t1, x, k) /\ Inv t1 /\ length x = nc /\ k <> 0 /\ (exists c, (c < nc)%nat /\ at_ x c <> 0) /\
    eigen_multiply mg t1 x = Ok (t2, map (fun v => k * v) x).

(** The fluxes of t' solve the transport equations of t0 with their own fission
    neutrons divided by k as only source, and there are some. *)
Definition k_solution (w : sweeper) (m : mtl) (nc : nat) (t0 : tstate) (k : R) (t' : tstate) : Prop :=
  exists s q, same_case w m nc t0 (put_fission s q) /\ shared_fission nc (ssrc (t_x s)) q /\
    (forall g c, (g < ng (mat (ssrc (t_x t0))))%nat -> (c < nc)%nat ->
       nth c (nth g (fsource q) []) 0 = production (ssrc (t_x t0)) (phis t') c / k * spectrum (ssrc (t_x t0)) g c) /\
    mg_solution w (put_fission s q) (phis t') /\ exists c, (c < nc)%nat /\ production (ssrc (t_x t0)) (phis t') c <> 0.
