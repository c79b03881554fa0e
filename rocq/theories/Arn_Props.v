(** * Arn_Props *)
From Verif Require Import Base BaseR Cpow_Model Util_Model Material_Model Source_Model Source_Spec Sweep_Model Iter_Model Sweep_Spec Iter_Spec Pi_Spec PiLinear_Proofs PiEig_Proofs
  Pi_Props Arn_Model Arn_Spec Arn_Proofs Arn_Proofs2 Arn_Proofs3.
From Coq Require Import Lra Lia.
Open Scope R_scope.

(** C128.  The eigensolver gets a flat guess of norm one; if it finds a pair of the
    fission operator, the eigenvalue and the fluxes given to the state solve the
    k-eigenvalue problem. *)
Theorem C128_flux : forall w m nc t0 mg, same_case w m nc t0 t0 -> mg_solver nc (same_case w m nc t0) mg -> exact w (same_case w m nc t0) mg ->
  (exists c, (c < nc)%nat /\ flat_fission t0 c <> 0) -> forall es dx, finds_pair nc (same_case w m nc t0) mg es -> length dx = nc ->
  exists t' k, arn_solve mg es dx t0 = Ok (t', k) /\ same_case w m nc t0 t' /\ k <> 0 /\ k_solution w m nc t0 k t'.
Proof. exact @arn_flux. Qed.
Print Assumptions C128_flux.

(** Fluxes that produce nonnegatively are those of the physical eigenpair. *)
Theorem C128_pair : forall w m nc t0 l mg, homogeneous t0 -> (0 < ng (mat (ssrc (t_x t0))))%nat -> solve_order (t_x t0) l -> all_damped w t0 ->
  same_case w m nc t0 t0 -> mg_solver nc (same_case w m nc t0) mg -> exact w (same_case w m nc t0) mg ->
  (exists c, (c < nc)%nat /\ flat_fission t0 c <> 0) -> forall es dx t' k, finds_pair nc (same_case w m nc t0) mg es -> length dx = nc ->
  arn_solve mg es dx t0 = Ok (t', k) -> 0 < k -> (forall c, (c < nc)%nat -> 0 <= production (ssrc (t_x t0)) (phis t') c) ->
  eigenpair w nc t0 k (production (ssrc (t_x t0)) (phis t')).
Proof. exact @arn_positive. Qed.
Print Assumptions C128_pair.

(** With the eigensolver made by default the eigenvalue converges to the only one
    of the transport problem, and the fluxes to its fluxes. *)
Theorem C128_power : forall w m nc t0 l mg, homogeneous t0 -> (0 < ng (mat (ssrc (t_x t0))))%nat -> solve_order (t_x t0) l -> all_damped w t0 ->
  same_case w m nc t0 t0 -> mg_solver nc (same_case w m nc t0) mg -> exact w (same_case w m nc t0) mg ->
  eq_spreads (w_eq w) = true -> chain w t0 (ssrc (t_x t0)) ->
  exists x0 k V K q, flat_guess nc t0 x0 /\ 0 <= q < 1 /\ eigenpair w nc t0 k V /\
  (forall k' V', eigenpair w nc t0 k' V' -> k' = k) /\ size (map V (seq 0 nc)) = 1 /\
  (forall s, (ps_maxit s <= length (ps_hist s))%nat -> exists t1 t2 r t', same_case w m nc t0 t1 /\
     spower (eigen_multiply mg) s t1 (repeat 0 nc) x0 = Ok (t2, r) /\
     arn_solve mg (power_es mg s) (repeat 0 nc) t0 = Ok (t', pr_lambda r) /\ same_case w m nc t0 t' /\
     (forall g c, (g < ng (mat (ssrc (t_x t0))))%nat -> (c < nc)%nat -> 0 <= phi_of (phis t') g c) /\
     (forall c, (c < nc)%nat -> 0 <= production (ssrc (t_x t0)) (phis t') c) /\
     ((1 <= pr_it r)%nat -> Rabs (pr_lambda r - k) <= q ^ (pr_it r - 1) * K /\
        forall c, (c < nc)%nat -> Rabs (pr_lambda r * production (ssrc (t_x t0)) (phis t') c - k * (k * V c)) <= q ^ (pr_it r - 1) * K)) /\
  (forall tol, 0 < tol -> exists M, forall s t1 t2 r, ps_tol s = tol -> (M <= ps_maxit s <= length (ps_hist s))%nat -> same_case w m nc t0 t1 ->
     spower (eigen_multiply mg) s t1 (repeat 0 nc) x0 = Ok (t2, r) -> pr_status r = SUCCESS).
Proof. exact @arn_power. Qed.
Print Assumptions C128_power.

(** Enough iterations bring the eigenvalue and the fission of the fluxes as close
    as wanted. *)
Theorem C128_limit : forall w m nc t0 l mg, homogeneous t0 -> (0 < ng (mat (ssrc (t_x t0))))%nat -> solve_order (t_x t0) l -> all_damped w t0 ->
  same_case w m nc t0 t0 -> mg_solver nc (same_case w m nc t0) mg -> exact w (same_case w m nc t0) mg ->
  eq_spreads (w_eq w) = true -> chain w t0 (ssrc (t_x t0)) ->
  exists k V, eigenpair w nc t0 k V /\ (forall k' V', eigenpair w nc t0 k' V' -> k' = k) /\ size (map V (seq 0 nc)) = 1 /\
  forall eps, 0 < eps -> exists N, forall n, (N <= n)%nat -> exists t' lambda,
    arn_solve mg (power_es mg (power_new 0 n)) (repeat 0 nc) t0 = Ok (t', lambda) /\ Rabs (lambda - k) < eps /\
    forall c, (c < nc)%nat -> Rabs (production (ssrc (t_x t0)) (phis t') c - k * V c) < eps.
Proof. exact @arn_limit. Qed.
Print Assumptions C128_limit.

(** The same with Gauss-Seidel over the groups and source iteration inside. *)
Theorem C128_gauss_seidel : forall w m nc t0 tol max p keff, homogeneous t0 -> (0 < ng (mat (ssrc (t_x t0))))%nat ->
  solve_order (t_x t0) (gs_groups (gs_lower p) (gs_upper p)) -> all_damped w t0 -> same_case w m nc t0 t0 ->
  gs_multiply p = false -> gs_norm p <> BadFlag -> group_lists (ng (mat (ssrc (t_x t0)))) p -> (gs_norm p = Linf -> 0 < gs_tol p) ->
  gs_iterate p = false -> (0 < max)%nat -> (forall g, (g < ng (mat (ssrc (t_x t0))))%nat -> takes_nothing (t_x t0) g g) ->
  eq_spreads (w_eq w) = true -> chain w t0 (ssrc (t_x t0)) ->
  exists k V, eigenpair w nc t0 k V /\ (forall k' V', eigenpair w nc t0 k' V' -> k' = k) /\ size (map V (seq 0 nc)) = 1 /\
  forall eps, 0 < eps -> exists N, forall n, (N <= n)%nat -> exists t' lambda,
    arn_solve (gs_solve (si_solve w tol max) p keff) (power_es (gs_solve (si_solve w tol max) p keff) (power_new 0 n)) (repeat 0 nc) t0 = Ok (t', lambda) /\
    Rabs (lambda - k) < eps /\ forall c, (c < nc)%nat -> Rabs (production (ssrc (t_x t0)) (phis t') c - k * V c) < eps.
Proof. exact arn_gs. Qed.
Print Assumptions C128_gauss_seidel.

(** The sign of the eigenvector is not looked at: an eigensolver may find the pair
    and leave fluxes with nothing but negative fission. *)
Lemma flat_case : exists c, (c < 2)%nat /\ flat_fission pi_t c <> 0.
Proof. exists 0%nat. split; [lia|]. unfold flat_fission. cbn. unfold set2. cbn. lra. Qed.
Lemma signed_case sg : sg <> 0 -> exists k V, eigenpair (pi_w SC_1) 2 pi_t k V /\
  finds_pair 2 (same_case (pi_w SC_1) pi_raw 2 pi_t) (pi_mg SC_1) (fun t _ _ => Ok (t, map (fun c => sg * V c) (seq 0 2), k)).
Proof.
  intros SG. destruct (C58_case SC_1) as (B1 & B2 & B3 & a & AA). destruct C88_case as (k & V & _ & _ & _ & EP & _).
  exists k, V. split; auto. apply mode_finds with (a := a); auto.
  apply (@mode_eigenpair (pi_w SC_1) pi_raw 2 pi_t _ (pi_mg SC_1) pi_homogeneous (Nat.lt_0_succ 1) pi_order (pi_damped _) B3 B1 B2 a k V AA). auto.
Qed.
Theorem C128_sign_refuted : exists w m nc t0 l mg es dx t' k, homogeneous t0 /\ solve_order (t_x t0) l /\ all_damped w t0 /\ chain w t0 (ssrc (t_x t0)) /\
  same_case w m nc t0 t0 /\ mg_solver nc (same_case w m nc t0) mg /\ exact w (same_case w m nc t0) mg /\ finds_pair nc (same_case w m nc t0) mg es /\
  arn_solve mg es dx t0 = Ok (t', k) /\ 0 < k /\ (forall c, (c < nc)%nat -> production (ssrc (t_x t0)) (phis t') c <= 0) /\
  exists c, (c < nc)%nat /\ production (ssrc (t_x t0)) (phis t') c < 0.
Proof.
  destruct (C58_case SC_1) as (B1 & B2 & B3 & _). destruct (@signed_case (-1)) as (k & V & (Hk & V0 & (c0 & Hc0 & V1) & _) & FP); [lra|].
  destruct (@arn_flux_full (pi_w SC_1) pi_raw 2 pi_t (pi_mg SC_1) B3 B1 B2 flat_case _ [0; 0] FP eq_refl)
    as (t' & k' & t1 & t2 & x & E & _ & _ & _ & _ & _ & _ & PX & (q & ES)).
  assert (EK : k' = k) by congruence. assert (EX : x = map (fun c => -1 * V c) (seq 0 2)) by congruence. subst k'.
  assert (PV : forall c, (c < 2)%nat -> production (ssrc (t_x pi_t)) (phis t') c = - (k * V c)).
  { intros c Hc. rewrite PX by auto. rewrite EX. unfold at_. rewrite nth_map_seq by auto. ring. }
  exists (pi_w SC_1), pi_raw, 2%nat, pi_t, (gs_groups (gs_lower pi_p) (gs_upper pi_p)), (pi_mg SC_1).
  eexists. exists [0; 0], t', k. split; [apply pi_homogeneous|]. split; [apply pi_order|]. split; [apply pi_damped|]. split; [apply pi_chain|].
  split; auto. split; auto. split; auto. split; [exact FP|]. split; [exact E|]. split; auto. split.
  - intros c Hc. rewrite PV by auto. assert (H := V0 c Hc). nra.
  - exists c0. split; auto. rewrite PV by auto. nra.
Qed.
Print Assumptions C128_sign_refuted.

(** A case: fuel beside moderator, an eigensolver that finds the pair, and the
    default one. *)
Example C128_case : (exists es t' k, finds_pair 2 (same_case (pi_w SC_1) pi_raw 2 pi_t) (pi_mg SC_1) es /\
    arn_solve (pi_mg SC_1) es [0; 0] pi_t = Ok (t', k) /\ k_solution (pi_w SC_1) pi_raw 2 pi_t k t') /\
  exists k V K q, 0 <= q < 1 /\ eigenpair (pi_w SC_1) 2 pi_t k V /\
    exists t' lambda, arn_solve (pi_mg SC_1) (power_es (pi_mg SC_1) (power_new 0 100)) [0; 0] pi_t = Ok (t', lambda) /\ 0 <= K /\
    forall c, (c < 2)%nat -> 0 <= V c.
Proof.
  destruct (C58_case SC_1) as (B1 & B2 & B3 & _). split.
  - destruct (@signed_case 1) as (k & V & _ & FP); [lra|].
    destruct (@arn_flux (pi_w SC_1) pi_raw 2 pi_t (pi_mg SC_1) B3 B1 B2 flat_case _ [0; 0] FP eq_refl) as (t' & k' & E & _ & _ & KS).
    eexists. exists t', k'. split; [exact FP|]. auto.
  - destruct (@arn_power (pi_w SC_1) pi_raw 2 pi_t _ (pi_mg SC_1) pi_homogeneous (Nat.lt_0_succ 1) pi_order (pi_damped _) B3 B1 B2 eq_refl (pi_chain _))
      as (x0 & k & V & K & q & A1 & A2 & A3 & A4 & A5 & A6 & A7).
    exists k, V, (Rabs K), q. split; auto. split; auto.
    destruct (A6 (power_new 0 100)) as (t1 & t2 & r & t' & C1 & C2 & C3 & _); [cbn [power_new ps_maxit ps_hist]; rewrite repeat_length; lia|].
    exists t', (pr_lambda r). split; [exact C3|]. split; [apply Rabs_pos|]. destruct A3 as (_ & H & _). auto.
Qed.
Example C128_gauss_seidel_case : exists k V, eigenpair (pi_w SC_1) 2 pi_t k V /\
  forall eps, 0 < eps -> exists N, forall n, (N <= n)%nat -> exists t' lambda,
    arn_solve (pi_mg SC_1) (power_es (pi_mg SC_1) (power_new 0 n)) [0; 0] pi_t = Ok (t', lambda) /\ Rabs (lambda - k) < eps.
Proof.
  destruct (@C128_gauss_seidel (pi_w SC_1) pi_raw 2 pi_t (1/100) 5 pi_p 1) as (k & V & A & _ & _ & B); try reflexivity; try (cbn; lia).
  - apply pi_homogeneous.
  - apply pi_order.
  - apply pi_damped.
  - apply pi_same.
  - discriminate.
  - apply pi_lists.
  - cbn. lra.
  - intros g Hg. apply pi_no_self. auto.
  - apply pi_chain.
  - exists k, V. split; auto. intros eps He. destruct (B eps He) as (N & HN). exists N. intros n Hn. destruct (HN n Hn) as (t' & la & E1 & E2 & _).
    exists t', la. auto.
Qed.
