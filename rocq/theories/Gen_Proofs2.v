(** * Gen_Proofs2: the generations computed by Gauss-Seidel and source iteration *)
From Verif Require Import Base BaseR Loop Util_Model Util_Proofs Angle_Model Angle_Spec Boundary_Model Boundary_Spec Boundary_Proofs Mesh_Model Mesh_Proofs
  Material_Model Material_Spec Source_Model Source_Spec Source_Proofs Cell_Model Cell_Spec Sweep_Model Sweep_Spec Sweep_Proofs
  SweepAll_Proofs SweepLinear_Proofs Vector_Proofs Iter_Model Iter_Spec Pi_Spec Iter_Proofs IterConv_Proofs Gs_Proofs Pi_Proofs PiLinear_Proofs PiGs_Proofs
  Wg_Spec Wg_Proofs Mgk_Proofs Gen_Model Gen_Spec Gen_Proofs.
From Coq Require Import ZArith.
Set Implicit Arguments. Unset Strict Implicit.
Open Scope nat_scope.

(** ** No source, no flux *)
Lemma scheme_kind E : eq_positive E = true \/ eq_averaging E = true.
Proof. destruct E as [[]|[]|]; auto. Qed.
Section Eqn.
Variables (E : eqn) (G : grid) (ds : list dir) (nq : nat).
Hypotheses (HG : grid_ok (eq_dim E) G) (HS : sig_ok (eq_strict E) G) (HD : dirs_ok (eq_dim E) nq ds).
Local Notation n := (cells_of (eq_dim E) G).
Lemma dark_equation s o a ins outs p : eq_positive E = true \/ sig_ok true G -> Forall no_face ins -> equation E G ds s o a ins outs p ->
  (forall c, c < n -> at_ (s o a) c = 0%R) -> forall c, c < n -> p c = 0%R.
Proof.
  intros GS NI EQ HZ c Hc.
  destruct (@equation_lin E G ds nq HG HS HD 0 0 s s s o a ins outs outs p p NI EQ EQ) as (outs' & EQ').
  { intros c' Hc'. rewrite HZ by auto. ring. }
  destruct (eq_positive E) eqn:EP.
  - pose proof (@diff_max E G ds nq HG HS HD s s o a ins outs outs' p _ 0%R EP (Rle_refl 0) EQ EQ') as D.
    assert (B : (Rabs (p c - (0 * p c + 0 * p c)) <= 0)%R).
    { apply D; auto. intros c' Hc'. rewrite Rminus_diag_eq, Rabs_R0 by auto. lra. }
    pose proof (Rabs_pos (p c - (0 * p c + 0 * p c))) as B'. assert (Z : Rabs (p c - (0 * p c + 0 * p c)) = 0%R) by lra.
    destruct (Req_dec (p c - (0 * p c + 0 * p c)) 0) as [Y|Y]; [lra|]. apply Rabs_no_R0 in Y. contradiction.
  - destruct GS as [GS|GS]; [discriminate|]. assert (AV : eq_averaging E = true) by (destruct (scheme_kind E); congruence).
    pose proof (@diff_energy E G ds nq HG HS HD s s o a ins outs outs' p _ AV EQ EQ') as D. cbv beta in D.
    assert (T0 : total (eq_dim E) G (fun c => ((at_ (s o a) c - at_ (s o a) c) * (p c - (0 * p c + 0 * p c)))%R) = 0%R).
    { rewrite (@total_ext G (eq_dim E) _ (fun c => (0 * 0)%R)) by (intros; ring). rewrite total_scal. ring. }
    rewrite T0 in D. destruct (Ne_pt HG GS) as (k & Hk & HP). specialize (HP p c Hc).
    assert (Q0 : Q (eq_dim E) G p p = 0%R).
    { apply Rle_antisym; [|apply Q_nonneg; auto]. eapply Rle_trans; [|exact D]. right. apply total_ext. intros c' Hc'. ring. }
    unfold Ne in HP. rewrite Q0, sqrt_0, Rmult_0_r in HP. pose proof (Rabs_pos (p c)).
    destruct (Req_dec (p c) 0) as [Y|Y]; auto. apply Rabs_no_R0 in Y. lra.
Qed.
End Eqn.

Section Case.
Variables (w : sweeper) (m : mtl) (nc : nat) (t0 : tstate).
Local Notation x0 := (ssrc (t_x t0)).
Local Notation q0 := (b_q (t_b t0)).
Local Notation n := (ng (mat x0)).
Local Notation Inv := (same_case w m nc t0).
Hypotheses (HO : homogeneous t0) (Hn : 0 < n) (I0 : Inv t0).
Hypothesis GS : forall g, g < n -> eq_positive (w_eq w) = true \/ sig_ok true (group_grid (w_grid w) x0 g).
Variables (tol : R) (max : nat).

(** No flux in any group, and nothing that could cause one. *)
Definition dark (t : tstate) : Prop := Inv t /\ no_fission_source t /\ forall g c, phi_of (phis t) g c = 0%R.

Lemma dark_emission t g phi dim angle c : Inv t -> no_fission_source t -> (forall gp, gp < n -> phi_of phi gp c = 0%R) ->
  emission (t_x t) phi dim g angle c = 0%R.
Proof.
  intros I NF Z. destruct (sc_cells I) as (A1 & A2 & A3 & A4). destruct (sc_source I) as (B1 & B2 & B3).
  destruct (ho_source HO g c) as (E1 & E2). specialize (E2 angle). specialize (NF g c). unfold emission. rewrite NF.
  unfold external in *. unfold discrete in *. rewrite B1, B2, B3, E1, E2, (ho_fission HO). unfold scatter_sum, all_groups. rewrite A2.
  assert (S0 : rsum n (fun gp => (if true then phi_of phi gp c * transfer_xs (ssrc (t_x t)) c g gp else 0)%R) = 0%R).
  { apply rsum_zero. intros gp Hgp. rewrite Z by auto. ring. }
  cbn [all_groups]. destruct (fiss (t_x t)); rewrite ?S0; unfold Rdiv; ring.
Qed.
Lemma dark_si : group_solver n dark (si_sol w tol max) (si_solve w tol max).
Proof.
  intros g t (I & NF & DK) Hg. destruct (@case_si w m nc t0 HO Hn tol max g t I Hg) as (t' & E & I' & OG & SS).
  exists t'. split; auto. split; [|split; auto]. pose proof (alike_si SS) as AL. split; auto. split.
  { intros g' c. rewrite (alike_explicit g' c AL). apply NF. }
  destruct SS as (k & B & F & IT). pose proof IT as [ (S1 & ((A1 & A2 & A3) & FX & FT)) (R1 & R2) (O1 & O2) _ _ ST _ _ ].
  destruct (case_posed I Hg) as [RD _ (_ & Hb) (Q & QE) (G1 & G2 & G3 & G4) D _ _ _].
  destruct (case_setup Hn I) as (C1 & C2 & C3). destruct (sc_cells I) as (K1 & K2 & K3 & K4).
  assert (FZ : forall i, i <= k -> forall c, at_ (F i) c = 0%R).
  { induction i as [|i IH]; intros Hi c; [rewrite S1; apply DK|].
    destruct (ST i ltac:(lia)) as [_ (P & EQ & LF & AV) _ _ _ _].
    destruct (Nat.lt_ge_cases c (cells (ssrc (t_x t)))) as [Hc|Hc]; [|apply nth_overflow; lia].
    rewrite AV by auto. destruct (plain_from IT Hi) as ((D1 & D2 & D3) & D4 & _). rewrite D1, A1 in *.
    apply rsum_zero. intros o Ho. apply rsum_zero. intros a Ha.
    assert (PZ : P o a c = 0%R); [|rewrite PZ; ring].
    rewrite <- QE in G1, D, G3.
    refine (@dark_equation (w_eq w) _ _ _ G1 G2 D _ o a _ _ _ _ _ (EQ o a Ho Ha) _ c _).
    - rewrite (case_grid g I). apply GS. auto.
    - unfold ins_of. apply Forall_forall. intros f Hf. apply in_map_iff in Hf. destruct Hf as (y & <- & Hy). apply in_seq in Hy. rewrite D1 in Hy.
      assert (Ho' : o < 2 ^ q_dim (b_q (t_b t))) by (destruct Q as (_ & <- & _); auto).
      assert (V : valid (t_b t) (in_side o y) o a g) by (repeat split; auto; apply in_side_lt; lia).
      assert (En : enters (q_dim (b_q (t_b t))) (in_side o y) o) by (apply in_side_enters; auto; lia).
      assert (EB : b_bc (t_b t) (in_side o y) = Vacuum) by (rewrite C3; apply (ho_sides HO); rewrite <- C1; apply V).
      rewrite D4; [|unfold valid; rewrite A1, A2; exact V|auto|rewrite A3, EB; split; discriminate].
      rewrite FT; [|exact V|right; right; rewrite EB; discriminate].
      destruct (sc_enter I Hg) as (_ & EI). rewrite EI; [|unfold valid in *; rewrite C1, C2 in V; exact V|rewrite <- C1; auto].
      apply (ho_enter HO); [unfold valid in *; rewrite C1, C2 in V; exact V|rewrite <- C1; auto].
    - intros c' Hc'. unfold emissions. change (cells_of (eq_dim (w_eq w)) (group_grid (w_grid w) (ssrc (t_x t)) g)) with (cells_of (eq_dim (w_eq w)) (w_grid w)) in Hc'.
      rewrite <- G3 in Hc'. rewrite at_tab by auto. apply dark_emission; auto. intros gp Hgp. unfold phi_of. rewrite with_group_nth.
      + destruct (gp =? g); [apply IH; lia|apply DK].
      + destruct (case_shape Hn I) as (-> & _). auto.
    - change (cells_of (eq_dim (w_eq w)) (group_grid (w_grid w) (ssrc (t_x t)) g)) with (cells_of (eq_dim (w_eq w)) (w_grid w)). rewrite <- G3. auto. }
  intros g' c. destruct (Nat.eq_dec g' g) as [->|Ne]; [unfold phi_of; rewrite R1; apply FZ; auto|unfold phi_of; rewrite O2 by auto; apply DK].
Qed.

Variables (p : gs) (keff : R).
Hypotheses (NM : gs_multiply p = false) (HB : gs_norm p <> BadFlag) (GL : group_lists n p) (HT : gs_norm p = Linf -> (0 < gs_tol p)%R).
Local Notation mg := (gs_solve (si_solve w tol max) p keff).

Lemma gs_keeps : keeps_fission Inv mg.
Proof.
  intros t t' I E g c. destruct (@case_gs w m nc t0 HO Hn tol max p keff I0 NM HB GL HT t I) as (t2 & k & P & E2 & HI & _).
  rewrite E in E2. injection E2 as <-. pose proof (history_alike HI (le_n k)) as AL. rewrite (gh_last _ _ _ _ _ _ HI) in AL.
  apply alike_explicit. auto.
Qed.
Lemma dark_gs t : dark t -> exists t', mg t = Ok t' /\ dark t'.
Proof.
  intros DT. pose proof DT as (I & _).
  destruct (@gs_generic n nc dark (si_sol w tol max) (si_solve w tol max) dark_si (@case_nc_pos w m nc t0 Hn I0)
    (fun t H => case_shape Hn (proj1 H)) p keff t t) as (t' & k & P & E & HI & IV); auto.
  - unfold started. rewrite NM. auto.
  - apply (sc_posed I).
  - exists t'. split; auto. rewrite <- (gh_last _ _ _ _ _ _ HI). apply IV. auto.
Qed.

(** Whatever the number of iterations and the tolerances, every later generation is zero. *)
Theorem gs_lost gen t : gen <> 0%Z -> Inv t -> no_fission_source t ->
  exists t', iterate mg gen t = Ok (t', flux_change n nc (phis t') (phis t)) /\ Inv t' /\ no_flux t' /\ no_fission_source t'.
Proof.
  intros HG I NF. pose proof (@gs_mg_solver w m nc t0 HO Hn tol max p keff I0 NM HB GL HT) as MS.
  destruct (start_case HO Hn MS I) as (q & q' & b & U1 & U2 & C1 & I2 & I3 & EX & EF).
  set (u := with_b (clear_state (put_fission t q')) b) in *.
  assert (DU : dark u).
  { split; auto. split; [intros g c; rewrite EF; apply NF|]. intros g c. unfold phis. rewrite EX. cbn. apply zeros_phi. }
  destruct (dark_gs DU) as (t' & M1 & D1). destruct (later_ok HO Hn MS HG I) as (u' & t2 & E & _ & I' & _).
  exists t2. assert (t2 = t').
  { unfold iterate in E. destruct (Z.eqb_spec gen 0) as [|Ng]; [contradiction|]. rewrite U1 in E. cbn [bind] in E. rewrite U2 in E. cbn [bind] in E.
    change (t_b (clear_state (put_fission t q'))) with (t_b t) in E. rewrite C1 in E. cbn [bind] in E.
    change (mg (with_b (clear_state (put_fission t q')) b)) with (mg u) in E. rewrite M1 in E. cbn [bind] in E.
    destruct (change _ _ _); try discriminate. cbn [bind] in E. congruence. }
  subst t2. destruct D1 as (D1 & D2 & D3). split; [exact E|]. split; auto.
Qed.
Fixpoint run (t : tstate) (k : nat) : tstate :=
  match k with 0 => t | S k => match iterate mg (Z.of_nat (S k)) (run t k) with Ok (t', _) => t' | _ => t end end.
Lemma run_ok t k : Inv t -> no_fission_source t -> Inv (run t k) /\ no_fission_source (run t k) /\ (0 < k -> no_flux (run t k)).
Proof.
  intros I NF. induction k as [|k (IH1 & IH2 & _)]; [split; auto; split; auto; lia|].
  destruct (@gs_lost (Z.of_nat (S k)) (run t k) ltac:(lia) IH1 IH2) as (t' & E & I' & N' & F'). cbn [run]. rewrite E. auto.
Qed.
Lemma change_zero a b : (forall g c, phi_of a g c = 0%R) -> (forall g c, phi_of b g c = 0%R) -> flux_change n nc a b = 0%R.
Proof.
  intros A B. unfold flux_change. rewrite rsum_zero; [apply sqrt_0|]. intros g Hg. apply rsum_zero. intros c Hc. rewrite A, B. ring.
Qed.
Theorem gs_series t : Inv t -> no_fission_source t -> exists T e, T 0 = t /\ forall i, iterate mg (Z.of_nat (S i)) (T i) = Ok (T (S i), e i) /\
  no_flux (T (S i)) /\ (0 < i -> e i = 0%R).
Proof.
  intros I NF. exists (run t), (fun i => flux_change n nc (phis (run t (S i))) (phis (run t i))). split; auto. intros i.
  destruct (run_ok i I NF) as (R1 & R2 & R3). destruct (run_ok (S i) I NF) as (S1 & S2 & S3).
  destruct (@gs_lost (Z.of_nat (S i)) (run t i) ltac:(lia) R1 R2) as (t' & E & _). cbn [run] in *. rewrite E in *.
  split; auto. split; [apply S3; lia|]. intros Hi. apply change_zero; [apply S3; lia|apply R3; auto].
Qed.
End Case.
