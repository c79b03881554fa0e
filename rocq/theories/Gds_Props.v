(** * Gds_Props: solves by the generalised Davidson route (C113) *)
From Coq Require Import Lra Lia.
From Verif Require Import Base BaseR Loop Util_Model Mesh_Model Angle_Model Boundary_Model Boundary_Spec Boundary_Proofs Cell_Model Cell_Spec
  Material_Model Material_Spec Material_Proofs Source_Model Source_Spec Source_Proofs Sweep_Model Sweep_Spec Sweep_Proofs
  Iter_Model Iter_Spec Wg_Spec Iter_Proofs Wg_Proofs Mgk_Model Mgk_Spec Mgk_Proofs Gd_Model Gd_Spec Gds_Model Gds_Spec Gds_Proofs Gds_Proofs2 Pi_Spec Pi_Props.
Open Scope nat_scope.

(** If the eigensolver finds a pair of the operators it is given, the eigenvalue and
    the fluxes left in the state solve the k-eigenvalue problem.  Missing: group
    cutoffs other than 0, adjoint problems (refuted), other boundaries than vacuum. *)
Theorem C113_solve_partial : forall w m half t q es, let y := ssrc (t_x t) in let n := cells y in let G := ng (mat y) in
  adj y = false -> (forall g, g < G -> wellposed w m g t) -> vacuum_boundary (t_b t) ->
  length (phis t) = G -> (forall g, g < G -> length (nth g (phis t) []) = n) ->
  fiss (t_x t) = Some q -> fscale q = 1%R -> implicit (t_x t) = false -> dext (t_x t) = [] ->
  mg_state w m 0 t t -> finds_gd_pair w m half t es ->
  exists t' k, gd_solve es (G * n) t = Ok (t', k) /\ k <> 0%R /\ (exists g c, g < G /\ c < n /\ phi_of (phis t') g c <> 0%R) /\
    mg_flux w (eigen_problem (t_x t) k) (t_b t) (fun g => g < G) (phis t') /\ length (phis t') = G.
Proof. exact @gd_solved. Qed.
Print Assumptions C113_solve_partial.

(** Modes of all groups with nonnegative fission are the eigenpairs the other
    eigenvalue solvers converge to (C88, C128). *)
Theorem C113_modes : forall w nc t0 q0 k, homogeneous t0 -> adj (ssrc (t_x t0)) = false -> fiss (t_x t0) = Some q0 -> cells (ssrc (t_x t0)) = nc ->
  forall V, eigenpair w nc t0 k V <->
  (0 < k)%R /\ (forall c, c < nc -> (0 <= V c)%R) /\ (exists c, c < nc /\ (0 < V c)%R) /\
  exists phi, length phi = ng (mat (ssrc (t_x t0))) /\ (forall c, c < nc -> production (ssrc (t_x t0)) phi c = V c) /\
    mg_flux w (eigen_problem (t_x t0) k) (t_b t0) (fun g => g < ng (mat (ssrc (t_x t0)))) phi.
Proof. exact @eigenpair_modes. Qed.
Print Assumptions C113_modes.
Theorem C113_physical_partial : forall w m half t q es t' k, let y := ssrc (t_x t) in let n := cells y in let G := ng (mat y) in
  homogeneous t -> adj y = false -> (forall g, g < G -> wellposed w m g t) ->
  length (phis t) = G -> (forall g, g < G -> length (nth g (phis t) []) = n) ->
  fiss (t_x t) = Some q -> fscale q = 1%R -> dext (t_x t) = [] ->
  mg_state w m 0 t t -> finds_gd_pair w m half t es -> gd_solve es (G * n) t = Ok (t', k) -> (0 < k)%R ->
  (forall c, c < n -> (0 <= production y (phis t') c)%R) -> (exists c, c < n /\ production y (phis t') c <> 0%R) ->
  eigenpair w n t k (production y (phis t')).
Proof. exact @gd_physical. Qed.
Print Assumptions C113_physical_partial.

(** Case: the fuel beside moderator of C88; an eigensolver that finds its mode
    exists, and the solve leaves the eigenpair. *)
Example C113_solve_case : exists es t' k V, finds_gd_pair (pi_w SC_1) pi_raw (fun _ => 1) pi_t es /\
  gd_solve es 4 pi_t = Ok (t', k) /\ eigenpair (pi_w SC_1) 2 pi_t k V /\ forall c, c < 2 -> production pi_s (phis t') c = V c.
Proof.
  destruct C88_case as (k & V & _ & _ & _ & EP & _). pose proof EP as EP0.
  apply (@eigenpair_modes (pi_w SC_1) 2 pi_t _ k pi_homogeneous eq_refl eq_refl eq_refl) in EP.
  destruct EP as (K & V0 & (c1 & Hc1 & V1) & phi & LP & PV & MF). change (length phi = 2) in LP.
  assert (LR : forall g, g < 2 -> length (nth g phi []) = 2).
  { intros g Hg. destruct (MF g Hg) as (b' & _ & _ & _ & L & _). exact L. }
  destruct phi as [|r0 [|r1 [|]]]; try discriminate LP. pose proof (LR 0 ltac:(lia)) as L0. pose proof (LR 1 ltac:(lia)) as L1. cbn in L0, L1.
  destruct r0 as [|a [|b [|]]]; try discriminate L0. destruct r1 as [|c [|d [|]]]; try discriminate L1.
  set (x := [a; b; c; d]).
  assert (NZ : exists i, i < 4 /\ at_ x i <> 0%R).
  { destruct (Req_EM_T a 0) as [Ea|N]; [|exists 0; split; [lia|exact N]]. destruct (Req_EM_T b 0) as [Eb|N]; [|exists 1; split; [lia|exact N]].
    destruct (Req_EM_T c 0) as [Ec|N]; [|exists 2; split; [lia|exact N]]. destruct (Req_EM_T d 0) as [Ed|N]; [|exists 3; split; [lia|exact N]].
    exfalso. specialize (PV c1 Hc1). unfold production in PV. rewrite rsum_zero in PV; [lra|]. intros g Hg. change (g < 2) in Hg. subst a b c d.
    destruct g as [|[|g]]; [| |lia]; (destruct c1 as [|[|c1]]; [| |lia]); unfold phi_of; cbn [nth]; ring. }
  assert (KM : k_mode (pi_w SC_1) pi_t k x) by exact MF.
  exists (fun u _ _ => Ok (u, x, k)).
  assert (MS : mg_state (pi_w SC_1) pi_raw 0 pi_t pi_t) by (apply state_mg; intros g (Hg & _); apply pi_wellposed; exact Hg).
  assert (FP : finds_gd_pair (pi_w SC_1) pi_raw (fun _ => 1) pi_t (fun u _ _ => Ok (u, x, k))).
  { eapply mode_finds_gd; try reflexivity; auto.
    - intros g Hg. apply pi_wellposed. exact Hg.
    - exact (ho_sides pi_homogeneous).
    - intros [|[|g]] Hg; cbn in *; auto; lia.
    - lra. }
  exists (with_x pi_t (with_phis (t_x pi_t) [[a; b]; [c; d]])), k, V. split; [exact FP|]. split; [reflexivity|]. split; [exact EP0|]. exact PV.
Qed.
