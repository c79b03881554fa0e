(** * Gen_Props *)
From Verif Require Import Base BaseR Util_Model Angle_Model Boundary_Model Boundary_Spec Material_Model Source_Model Source_Spec Sweep_Model Sweep_Spec
  Iter_Model Iter_Spec Gs_Proofs Pi_Spec Pi_Proofs PiGs_Proofs Pi_Props Gen_Model Gen_Spec Gen_Proofs Gen_Proofs2 Gen_Proofs3 GenCase_Proofs.
From Coq Require Import ZArith.
Open Scope nat_scope.

(** C105.  Full statement: iterate(0) gives the flux of the fixed source, and
    iterate(i) for i = 1, 2, ... the flux of the neutrons born in the fissions of
    the generation before.  The first half holds. *)
Theorem C105_first_partial mg w m n nc t t1 : 0 < n -> mg t = Ok t1 -> all_wellposed w m n nc t -> all_wellposed w m n nc t1 ->
  exists t', iterate mg 0 t = Ok (t', flux_change n nc (phis t') (phis t)) /\ phis t' = phis t1 /\ ext (t_x t') = [] /\ dext (t_x t') = [] /\
    t_b t' = t_b t1 /\ ssrc (t_x t') = ssrc (t_x t1) /\ fiss (t_x t') = fiss (t_x t1).
Proof.
  intros Hn M A A1. destruct (@first_ok mg w m n nc t t1 Hn M A A1) as (t' & I & P & E1 & E2 & B & S & F & _). exists t'. auto 10.
Qed.
Print Assumptions C105_first_partial.

(** The second half does not: a cell whose first flux causes fissions, and no flux
    in the next generation. *)
Theorem C105_refuted : exists w m nc t, all_wellposed w m (ng (mat (ssrc (t_x t)))) nc t /\ homogeneous (drop_sources t) /\
  exists mg t1 t2 e1 e2, iterate mg 0 t = Ok (t1, e1) /\ iterate mg 1 t1 = Ok (t2, e2) /\
  (0 < production (ssrc (t_x t)) (phis t1) 0)%R /\ phis t1 = [[2%R]] /\ no_flux t2 /\ ~ next_generation w nc t1 (phis t1) (phis t2).
Proof. exact generations_lost. Qed.
Print Assumptions C105_refuted.

(** It is so for every problem between vacua solved with Gauss-Seidel over the
    groups and source iteration: from the second generation on there is no flux. *)
Theorem C105_all_lost w m n nc tol max p keff t : 0 < n -> gs_multiply p = false -> gs_norm p <> BadFlag -> group_lists n p ->
  (gs_norm p = Linf -> (0 < gs_tol p)%R) ->
  all_wellposed w m n nc t -> eigen_ready nc t -> no_fission_source t -> implicit (t_x t) = false ->
  (forall s, s < 2 * q_dim (b_q (t_b t)) -> b_bc (t_b t) s = Vacuum) ->
  (forall s o a g, valid (t_b t) s o a g -> enters (q_dim (b_q (t_b t))) s o -> Forall (Forall (fun v => v = 0%R)) (Boundary_Spec.flux (t_b t) s o a g)) ->
  (forall g, g < n -> eq_positive (w_eq w) = true \/ sig_ok true (group_grid (w_grid w) (ssrc (t_x t)) g)) ->
  exists t1 T e, gs_solve (si_solve w tol max) p keff t = Ok t1 /\ (exists k P, gs_history (si_sol w tol max) p t t1 k P) /\
    T 0 = t /\ phis (T 1) = phis t1 /\
    forall i, iterate (gs_solve (si_solve w tol max) p keff) (Z.of_nat i) (T i) = Ok (T (S i), e i) /\ no_flux (T (S (S i))) /\ e (S (S i)) = 0%R.
Proof. intros H1 H2 H3 H4 H5 H6 H7 H8 H9 H10 H11 H12. exact (gs_all tol max keff H1 H2 H3 H4 H5 H6 H7 H8 H9 H10 H11 H12). Qed.
Print Assumptions C105_all_lost.

(** And for every exact multigroup solver that leaves the fission source alone, with
    any boundary conditions under which the problem is damped. *)
Theorem C105_exact_lost w m nc t0 mg l gen t : homogeneous t0 -> 0 < ng (mat (ssrc (t_x t0))) -> same_case w m nc t0 t0 ->
  mg_solver nc (same_case w m nc t0) mg -> solve_order (t_x t0) l -> all_damped w t0 -> exact w (same_case w m nc t0) mg ->
  keeps_fission (same_case w m nc t0) mg -> gen <> 0%Z -> same_case w m nc t0 t -> no_fission_source t ->
  exists t', iterate mg gen t = Ok (t', flux_change (ng (mat (ssrc (t_x t0)))) nc (phis t') (phis t)) /\ same_case w m nc t0 t' /\ no_flux t' /\ no_fission_source t'.
Proof. intros H1 H2 H3 H4 H5 H6 H7 H8 H9 H10 H11. exact (gen_lost H1 H2 H3 H4 H5 H6 H7 H8 H9 H10 H11). Qed.
Print Assumptions C105_exact_lost.

(** A client who updates the fission source and sets it up for an outer iteration
    before each call gets the generations, and their sums: the flux of all
    generations but the first is that of the fissions of all but the last. *)
Theorem C105_client_partial w m nc t0 mg t : homogeneous t0 -> 0 < ng (mat (ssrc (t_x t0))) -> same_case w m nc t0 t0 ->
  mg_solver nc (same_case w m nc t0) mg -> exact w (same_case w m nc t0) mg -> same_case w m nc t0 t ->
  exists T, T 0 = t /\
    (forall i, exists t1, client_setup (T i) = Ok t1 /\
       iterate mg (Z.of_nat (S i)) t1 = Ok (T (S i), flux_change (ng (mat (ssrc (t_x t0)))) nc (phis (T (S i))) (phis (T i))) /\
       next_generation w nc t0 (phis (T i)) (phis (T (S i)))) /\
    forall k, 0 < k -> next_generation w nc t0 (generations (ng (mat (ssrc (t_x t0)))) nc (fun i => phis (T i)) 0 k)
      (generations (ng (mat (ssrc (t_x t0)))) nc (fun i => phis (T i)) 1 k).
Proof.
  intros H1 H2 H3 H4 H5 H6. destruct (client_series H1 H2 H3 H4 H5 H6) as (T & T0 & TS & SU).
  exists T. split; [exact T0|]. split; [|exact SU].
  assert (K : forall i, same_case w m nc t0 (T i)).
  { induction i as [|i IH]; [rewrite T0; exact H6|].
    destruct (TS i) as (t1 & e & C & I & _). destruct (gen_client H1 H2 H3 H4 H5 (gen := Z.of_nat (S i)) (t := T i) ltac:(lia) IH) as (t1' & t' & C' & I' & S' & _).
    rewrite C in C'. injection C' as <-. rewrite I in I'. injection I' as -> _. exact S'. }
  intros i. destruct (TS i) as (t1 & e & C & I & N). exists t1. split; [exact C|]. split; [|exact N].
  destruct (gen_client H1 H2 H3 H4 H5 (gen := Z.of_nat (S i)) (t := T i) ltac:(lia) (K i)) as (t1' & t' & C' & I' & _).
  rewrite C in C'. injection C' as <-. rewrite I in I'. injection I' as E1 E2. rewrite I, E1, E2. reflexivity.
Qed.
Print Assumptions C105_client_partial.

(** The cell of the refutation meets the conditions of C105_first_partial and
    C105_all_lost; the slab of C58 those of the other two, with the step
    characteristic or any other scheme of pi_w. *)
Example C105_case : all_wellposed gen_w gen_raw 1 1 gen_t /\ eigen_ready 1 gen_t /\ no_fission_source gen_t /\ group_lists 1 gen_p /\
  eq_positive (w_eq gen_w) = true /\ (forall s, b_bc (t_b gen_t) s = Vacuum).
Proof. split; [apply gen_all|]. split; [apply gen_ready|]. split; [apply gen_dark|]. split; [apply gen_lists|]. split; reflexivity. Qed.
Example C105_client_case E : let I := same_case (pi_w E) pi_raw 2 pi_t in
  mg_solver 2 I (pi_mg E) /\ exact (pi_w E) I (pi_mg E) /\ I pi_t /\ keeps_fission I (pi_mg E) /\ homogeneous pi_t /\
  solve_order (t_x pi_t) (gs_groups (gs_lower pi_p) (gs_upper pi_p)) /\ all_damped (pi_w E) pi_t /\ exists t, I t /\ no_fission_source t.
Proof.
  destruct (C58_case E) as (B1 & B2 & B3 & _). split; auto. split; auto. split; auto. split.
  { refine (@gs_keeps (pi_w E) pi_raw 2 pi_t pi_homogeneous _ B3 (1/100)%R 5 pi_p 1%R eq_refl _ pi_lists _); [cbn; lia|discriminate|intros _; cbn; lra]. }
  split; [apply pi_homogeneous|]. split; [apply pi_order|]. split; [apply pi_damped|].
  exists (put_fission pi_t (fis_new pi_s)). split.
  - refine (ms_fission B1 B3 _). repeat split. intros [|[|g]] Hg; try reflexivity. cbn in Hg. lia.
  - intros [|[|[|g]]] [|[|[|c]]]; reflexivity.
Qed.
