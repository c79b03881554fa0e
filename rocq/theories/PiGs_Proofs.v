(** * PiGs_Proofs: power iteration over Gauss-Seidel and source iteration. *)
From Verif Require Import Base BaseR Loop Util_Model Angle_Model Angle_Spec Boundary_Model Boundary_Spec Mesh_Model Mesh_Proofs
  Material_Model Material_Spec Source_Model Source_Spec Source_Proofs Cell_Model Cell_Spec Sweep_Model Sweep_Spec Sweep_Proofs
  SweepAll_Proofs SweepLinear_Proofs Iter_Model Iter_Spec Pi_Spec Iter_Proofs IterConv_Proofs Gs_Proofs Pi_Proofs PiLinear_Proofs.
Set Implicit Arguments. Unset Strict Implicit.
Open Scope nat_scope.

Arguments it_problem {w tol max g t t' n B F}.
Arguments it_sweeps {w tol max g t t' n B F}.

Section Case.
Variables (w : sweeper) (m : mtl) (nc : nat) (t0 : tstate).
Local Notation x0 := (ssrc (t_x t0)).
Local Notation q0 := (b_q (t_b t0)).
Local Notation n := (ng (mat x0)).
Local Notation Inv := (same_case w m nc t0).
Hypotheses (HO : homogeneous t0) (Hn : 0 < n).
Variables (tol : R) (max : nat).

Lemma case_si : group_solver n Inv (si_sol w tol max) (si_solve w tol max).
Proof.
  intros g t I Hg. destruct (@si_solver w m tol max n nc g t (sc_posed I) Hg) as (t' & E & AW & OG & SS).
  exists t'. split; auto. split; [|split; auto]. destruct SS as (k & B & F & IT).
  destruct (it_problem IT) as (f & s & EP). destruct (sc_cells I) as (A1 & A2 & A3 & A4).
  destruct (sc_source I) as (B1 & B2 & B3). constructor; auto; try (rewrite EP; cbn; auto; fail).
  - intros g' Hg'. eapply same_incoming_trans; [apply (sc_enter I Hg')|].
    destruct (si_kept IT) as (SU & KP). split; auto. destruct (sc_enter I Hg) as ((S1 & S2 & S3) & _).
    intros s' o a V En. assert (EB : b_bc (t_b t) s' = Vacuum) by (rewrite S3; apply (ho_sides HO); rewrite <- S1; apply V).
    apply KP; auto; rewrite EB; congruence.
  - destruct (sc_ready I) as (P & EC & q & Eq & E1 & E2 & E3 & E4). split; [|split].
    + apply (proj2 (proj2 AW) 0 Hn).
    + apply AW.
    + rewrite EP. cbn. rewrite Eq. cbn. eexists. split; [reflexivity|]. cbn. repeat split; cbn; auto. rewrite E1. auto.
Qed.

Variables (p : gs) (keff : R).
Hypotheses (I0 : Inv t0) (NM : gs_multiply p = false) (HB : gs_norm p <> BadFlag) (GL : group_lists n p) (HT : gs_norm p = Linf -> (0 < gs_tol p)%R).
Local Notation mg := (gs_solve (si_solve w tol max) p keff).

Lemma case_nc_pos : 0 < nc.
Proof. apply (all_wellposed_flux Hn (sc_posed I0)). Qed.
Lemma case_gs t : Inv t -> exists t' k P, mg t = Ok t' /\ gs_history (si_sol w tol max) p t t' k P /\ Inv t'.
Proof.
  intros I. destruct (@gs_generic n nc Inv (si_sol w tol max) (si_solve w tol max) case_si case_nc_pos
    (fun t H => proj2 (all_wellposed_flux Hn (sc_posed H))) p keff t t) as (t' & k & P & E & HI & IV); auto.
  - unfold started. rewrite NM. auto.
  - apply (sc_posed I).
  - exists t', k, P. split; auto. split; auto. rewrite <- (gh_last _ _ _ _ _ _ HI). apply IV. auto.
Qed.

Lemma case_fission t q : Inv t -> shared_fission nc (ssrc (t_x t)) q -> Inv (put_fission t q).
Proof.
  intros I (E1 & E2 & E3 & E4). destruct I as [C1 C2 C3 (W1 & W2 & W3) (R1 & R2 & R3)]. constructor; auto.
  - split; [|split]; auto. intros g Hg. destruct (W3 g Hg) as [RD EM G Q G' D B O F]. constructor; auto.
    destruct RD as (P1 & P2 & P3 & P4 & P5). split; [exact P1|]. split; [exact P2|]. split; [exact P3|]. split.
    + intros q' Eq'. cbn in Eq'. injection Eq' as <-. split; [auto|]. split; [auto|]. intros g' Hg'. cbn. rewrite E4 by auto. lia.
    + intros _. cbn. discriminate.
  - split; [exact R1|]. split; [exact R2|]. exists q. split; [reflexivity|]. repeat split; auto.
Qed.

Theorem gs_mg_solver : mg_solver nc Inv mg.
Proof.
  constructor.
  - intros t I. apply (sc_ready I).
  - intros t I. destruct (case_gs I) as (t' & k & P & E & _ & I'). eauto.
  - intros t q. apply case_fission.
Qed.

(** Without upscatter and without scattering within the groups one pass finds the solution. *)
Theorem gs_exact : gs_iterate p = false -> 0 < max -> solve_order (t_x t0) (gs_groups (gs_lower p) (gs_upper p)) ->
  (forall g, g < n -> takes_nothing (t_x t0) g g) -> exact w Inv mg.
Proof.
  intros NI Hmax (SO1 & SO2) NS t t' I E. destruct (case_gs I) as (t2 & k & P & E2 & HI & I'). rewrite E in E2. injection E2 as <-.
  destruct (sc_cells I) as (A1 & A2 & A3 & A4). destruct (sc_source I) as (B1 & B2 & B3).
  pose proof HI as [ (T & IO) _ EK (LK & LK0) _ _ ]. specialize (LK0 NI). subst k. rewrite EK in IO.
  set (l := gs_groups (gs_lower p) (gs_upper p)) in *.
  assert (LP : length (phis t) = n) by (apply (all_wellposed_flux Hn (sc_posed I))).
  assert (LP' : length (phis t') = n) by (apply (all_wellposed_flux Hn (sc_posed I'))).
  split; [rewrite A2; auto|]. rewrite A2. intros g Hg.
  assert (IL : In g l) by (apply SO1; auto). destruct (In_nth _ _ 0 IL) as (i & Hi & Ei).
  pose proof (io_solve _ _ _ _ _ IO i Hi) as SO. rewrite Ei in SO. destruct SO as (j & B & F & IT).
  pose proof (order_kept IO (i := i) ltac:(lia)) as KP. pose proof (order_alike IO (i := i) ltac:(lia)) as AL.
  assert (J0 : 0 < j).
  { destruct (it_sweeps IT) as (_ & Hj). destruct (Nat.eq_dec j max) as [->|]; auto. apply (it_early IT). lia. }
  destruct (@si_final w tol max g (T i) (T (S i)) j B F) as (b' & EB & TR); auto.
  { rewrite (proj1 (proj1 KP)). apply (proj2 (proj2 (sc_posed I)) g Hg). }
  pose proof (order_at IO Hi) as OA. rewrite Ei in OA. rewrite OA in TR.
  assert (LT : length (phis (T i)) = n) by (rewrite (order_length IO) by lia; auto).
  exists b'. split; [eapply entering_kept; eauto|].
  eapply transported_alike; [apply alike_sym, AL| |exact TR].
  destruct AL as (C1 & C2 & C3 & C4 & _ & _ & C7 & _).
  assert (TN : forall gp, takes_nothing (t_x t0) g gp -> takes_nothing (t_x (T i)) g gp).
  { intros gp TK c Hc. rewrite C1, A1 in Hc. specialize (TK c Hc). rewrite C7, B3. unfold transfer_xs, fission_xs, mat_of in *.
    rewrite C2, C3, C4, A2, A3, A4. exact TK. }
  intros gp c Hc Hgp. rewrite C2, A2 in Hgp. destruct (Nat.eq_dec gp g) as [->|Ng]; [right; apply TN, NS; auto|].
  assert (Igp : In gp l) by (apply SO1; auto). destruct (In_nth _ _ 0 Igp) as (jj & Hjj & Ejj).
  destruct (Nat.lt_trichotomy jj i) as [Lt|[Eq|Gt]].
  - left. rewrite phi_of_other by (auto; lia). unfold phi_of.
    rewrite (io_mix _ _ _ _ _ IO i gp) by lia. destruct (in_dec Nat.eq_dec gp (firstn i l)) as [|N]; auto.
    exfalso. apply N. rewrite <- Ejj. apply firstn_In; lia.
  - exfalso. apply Ng. subst jj. congruence.
  - right. apply TN. specialize (SO2 i jj ltac:(lia)). rewrite Ei, Ejj in SO2. auto.
Qed.
End Case.
