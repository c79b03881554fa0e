(** * Proofs about source iteration *)
From Verif Require Import Base BaseR Loop Util_Model Util_Spec Util_Proofs Angle_Model Angle_Spec Boundary_Model Boundary_Spec
  Boundary_Proofs Mesh_Model Material_Model Source_Model Source_Spec Source_Proofs SourceAll_Proofs Cell_Spec
  Sweep_Model Sweep_Spec SweepAll_Proofs SweepInst_Proofs Iter_Model Iter_Spec.
Set Implicit Arguments. Unset Strict Implicit.
Open Scope nat_scope.

(** ** One sweep *)
Lemma kernel_good E G ds keep src nq : grid_ok (eq_dim E) G -> sig_ok (eq_strict E) G -> dirs_ok (eq_dim E) nq ds ->
  src_ok (eq_dim E) nq G src ->
  good_kernel (kernel_of E G ds keep src) (equation E G ds src) (weight ds) (cells_of (eq_dim E) G) keep
    (g_nx G) (g_ny G) (g_nz G) (eq_dim E) nq.
Proof.
  intros H1 H2 H3 H4. destruct E as [e|e|]; cbn [eq_dim eq_strict kernel_of equation] in *;
    [apply kernel1_good|apply kernel2_good|apply kernel3_good]; auto.
Qed.

Lemma sigmas_ok x g : problem x -> g < ng (mat x) ->
  sigmas x g = Ok (map (fun c => st (mat x) g (mat_of x c)) (seq 0 (cells x))).
Proof.
  intros (L & Hm & _) Hg. unfold sigmas. apply mapM_ok'. intros c Hc. apply in_seq in Hc.
  rewrite (@rd_ok _ (mmap x) c 0) by lia. cbn [bind]. rewrite (proj2 (Nat.ltb_lt _ _) Hg).
  rewrite (proj2 (Nat.ltb_lt _ _)); [reflexivity|]. apply Hm. lia.
Qed.

Lemma equation_ext E G ds src src' o a i u p : src o a = src' o a -> equation E G ds src o a i u p -> equation E G ds src' o a i u p.
Proof. intros H. destruct E; unfold equation, solution1, solution2, solution3; rewrite H; auto. Qed.

(** Setting for the sweeps of one group. *)
Definition sweepable (w : sweeper) (g : nat) (x : src) (b : bsn) : Prop :=
  problem x /\ g < ng (mat x) /\ g < b_ng b /\ sn_quad (b_q b) /\ eq_dim (w_eq w) = q_dim (b_q b) /\
  grid_ok (q_dim (b_q b)) (group_grid (w_grid w) x g) /\ sig_ok (eq_strict (w_eq w)) (group_grid (w_grid w) x g) /\
  cells x = cells_of (q_dim (b_q b)) (w_grid w) /\
  dirs_ok (q_dim (b_q b)) (q_nao (b_q b)) (w_dirs w) /\
  shaped b (g_nx (w_grid w)) (g_ny (w_grid w)) (g_nz (w_grid w)) /\
  (forall s s', s < 2 * q_dim (b_q b) -> opposite s s' -> b_bc b s = Periodic -> b_bc b s' = Periodic) /\
  Permutation (w_ord w) (seq 0 (q_noct (b_q b))).

Lemma sweepable_same w g x b b' : sweepable w g x b -> same_setup b b' ->
  shaped b' (g_nx (w_grid w)) (g_ny (w_grid w)) (g_nz (w_grid w)) -> sweepable w g x b'.
Proof.
  unfold sweepable. intros (H1 & H2 & H3 & H4 & H5 & H6 & H7 & H8 & H9 & H10 & H11 & H12) (S1 & S2 & S3) Sh.
  rewrite S1, S2, S3. do 11 (split; [assumption|]). assumption.
Qed.

Definition table_of (x : swp) (q : quad) (g : nat) (src : nat -> nat -> list R) : Prop :=
  forall o a, src_table x q g o a = src o a.

Lemma do_sweep_ok w upd g t phi src :
  sweepable w g (ssrc (t_x t)) (t_b t) -> length phi = cells (ssrc (t_x t)) ->
  (forall o a, w_keep w = true -> length (t_psi t g o a) = cells (ssrc (t_x t))) ->
  table_of (t_x t) (b_q (t_b t)) g src -> (forall o a, length (src o a) = cells (ssrc (t_x t))) ->
  exists b' phi' psi', do_sweep w upd g t phi =
    Ok ({| t_b := b'; t_x := t_x t; t_psi := put1 (t_psi t) g psi'; t_sweeps := S (t_sweeps t) |}, phi') /\
  swept (equation (w_eq w) (group_grid (w_grid w) (ssrc (t_x t)) g) (w_dirs w) src) (weight (w_dirs w))
    (cells (ssrc (t_x t))) (w_keep w) upd g (w_ord w) (t_b t) (t_psi t g) b' phi' psi' /\
  sweepable w g (ssrc (t_x t)) b' /\ (forall o a, w_keep w = true -> length (psi' o a) = cells (ssrc (t_x t))).
Proof.
  intros SW Lp Lpsi TB LS. pose proof SW as (H1 & H2 & H3 & H4 & H5 & H6 & H7 & H8 & H9 & H10 & H11 & H12).
  unfold do_sweep. rewrite sigmas_ok by auto. cbn [bind].
  change (with_sig (w_grid w) (map (fun c => st (mat (ssrc (t_x t))) g (mat_of (ssrc (t_x t)) c)) (seq 0 (cells (ssrc (t_x t))))))
    with (group_grid (w_grid w) (ssrc (t_x t)) g).
  set (G := group_grid (w_grid w) (ssrc (t_x t)) g) in *. set (q := b_q (t_b t)) in *. set (n := cells (ssrc (t_x t))) in *.
  assert (CE : cells_of (eq_dim (w_eq w)) G = n) by (rewrite H5, H8; reflexivity).
  assert (GK : good_kernel (kernel_of (w_eq w) G (w_dirs w) (w_keep w) (src_table (t_x t) q g))
    (equation (w_eq w) G (w_dirs w) (src_table (t_x t) q g)) (weight (w_dirs w)) n (w_keep w)
    (g_nx G) (g_ny G) (g_nz G) (q_dim q) (q_nao q)).
  { rewrite <- CE, <- H5. apply kernel_good; rewrite ?H5; auto. intros o a _ _. rewrite TB, LS.
    rewrite <- H5. symmetry. exact CE. }
  destruct (@sweep_swept_shape _ _ _ _ (w_keep w) upd g _ _ _ _ _ (w_ord w) (t_b t) phi (t_psi t g) GK) as (b' & phi' & psi' & E & X & Sh & Lq); auto.
  { repeat split; auto; apply H4. }
  { unfold good_ord. destruct H4 as (_ & E & _). fold q in E. rewrite <- E. auto. }
  fold q. rewrite E. cbn [bind]. exists b', phi', psi'. split; [reflexivity|]. split; [|split; auto].
  - eapply swept_mono; [|exact X]. intros o a i u p (Y & _). eapply equation_ext; [|exact Y]. apply TB.
  - eapply sweepable_same; eauto. apply X.
Qed.

(** ** The source of one sweep *)
Lemma with_group_length phi g f : length (with_group phi g f) = length phi.
Proof. unfold with_group. rewrite map_length, seq_length. auto. Qed.
Lemma with_group_nth phi g f gp : gp < length phi -> nth gp (with_group phi g f) [] = if gp =? g then f else nth gp phi [].
Proof. intros H. unfold with_group. rewrite nth_map_seq by auto. auto. Qed.

Lemma ready_phis x f : sweep_ready x -> length f = ng (mat (ssrc x)) ->
  (forall g, g < ng (mat (ssrc x)) -> cells (ssrc x) <= length (nth g f [])) -> sweep_ready (with_phis x f).
Proof.
  intros ((P1 & P2 & P3) & Lf & Ls & HQ & HI) L1 L2. unfold sweep_ready, problem, flux_ok. cbn. repeat split; auto.
  - destruct (fiss x) as [q0|] eqn:EQ; cbn in *; [|discriminate]. inversion H; subst.
    destruct (HQ q0 eq_refl) as (A & _). cbn. rewrite A. reflexivity.
  - destruct (fiss x) as [q0|] eqn:EQ; cbn in *; [|discriminate]. inversion H; subst. cbn. apply (HQ q0 eq_refl).
  - destruct (fiss x) as [q0|] eqn:EQ; cbn in *; [|discriminate]. inversion H; subst. cbn. apply (HQ q0 eq_refl).
  - intros H. destruct (fiss x); cbn; [discriminate|]. intros _. apply HI; auto.
Qed.

Lemma within_phis x f g phi : build_within_group_scatter (with_phis x f) g phi =
  do r <- build_within_group_scatter x g phi; Ok (with_phis r f).
Proof.
  unfold build_within_group_scatter. cbn [with_phis ssrc src_flux cells scat implicit fiss].
  destruct (zero_cells (cells (ssrc x)) (scat x)) as [s| |]; cbn [bind]; auto.
  change (scat_within (src_flux (ssrc x) f) g phi s) with (scat_within (ssrc x) g phi s).
  destruct (scat_within (ssrc x) g phi s) as [s1| |]; cbn [bind]; auto.
  destruct (implicit x); cbn [bind]; [|reflexivity].
  destruct (fiss x) as [q|]; cbn [option_map bind]; auto.
  change (fis_within (fis_flux q f) g phi s1) with (fis_within q g phi s1).
  destruct (fis_within q g phi s1); reflexivity.
Qed.

(** The tables during the iterations on group g of problem x0 with flux phi. *)
Definition sources (x0 : swp) (g : nat) (phi : list R) (x : swp) : Prop :=
  exists f s, x = with_scat (with_fixed x0 f) s /\ cells (ssrc x0) <= length f /\ cells (ssrc x0) <= length s /\
  (forall c, c < cells (ssrc x0) -> nth c f 0%R =
      (external x0 g c + explicit_fission x0 g c +
       scatter_sum (ssrc x0) (flux (ssrc x0)) (fun gp => negb (gp =? g)) g c +
       implicit_fission x0 (fun gp => negb (gp =? g)) g c)%R) /\
  (forall c, c < cells (ssrc x0) -> nth c s 0%R =
      (scatter_sum (ssrc x0) (with_group (flux (ssrc x0)) g phi) (Nat.eqb g) g c +
       match fiss x0 with
       | Some q => if implicit x0 then fscale q * fission_sum (ssrc x0) (with_group (flux (ssrc x0)) g phi) (Nat.eqb g) g c else 0
       | None => 0 end)%R).

Lemma build_within x0 g phi f s : sweep_ready x0 -> g < ng (mat (ssrc x0)) -> length phi = cells (ssrc x0) ->
  cells (ssrc x0) <= length f -> cells (ssrc x0) <= length s ->
  (forall c, c < cells (ssrc x0) -> nth c f 0%R =
      (external x0 g c + explicit_fission x0 g c +
       scatter_sum (ssrc x0) (flux (ssrc x0)) (fun gp => negb (gp =? g)) g c +
       implicit_fission x0 (fun gp => negb (gp =? g)) g c)%R) ->
  exists x, build_within_group_scatter (with_scat (with_fixed x0 f) s) g phi = Ok x /\ sources x0 g phi x.
Proof.
  intros RD Hg Lp Lf Ls HF. set (P := with_group (flux (ssrc x0)) g phi).
  assert (LP : length P = ng (mat (ssrc x0))).
  { unfold P. rewrite with_group_length. apply RD. }
  assert (NP : nth g P [] = phi).
  { unfold P. rewrite with_group_nth; [rewrite Nat.eqb_refl; auto|]. destruct RD as ((_ & _ & (-> & _)) & _). auto. }
  set (x1 := with_scat (with_fixed x0 f) s).
  destruct (@within_scatter_ok (with_phis x1 P) g) as (s' & E & L & V).
  { apply ready_phis; auto.
    - destruct RD as (A & B & C & D & F). repeat split; auto; try apply A; try apply (D _ H); apply Lf || apply Ls.
    - intros gp Hgp. change (ssrc x1) with (ssrc x0) in *. unfold P. rewrite with_group_nth.
      + destruct (gp =? g); [lia|]. apply RD. auto.
      + destruct RD as ((_ & _ & (-> & _)) & _). auto. }
  { exact Hg. }
  cbn [with_phis x1 ssrc flux src_flux] in E. rewrite NP in E. rewrite within_phis in E.
  destruct (build_within_group_scatter x1 g phi) as [x2| |] eqn:E2; cbn [bind] in E; try discriminate.
  exists x2. split; auto.
  assert (X2 : exists s2, x2 = with_scat x1 s2).
  { unfold build_within_group_scatter in E2.
    destruct (zero_cells (cells (ssrc x1)) (scat x1)) as [v| |]; cbn [bind] in E2; try discriminate.
    destruct (scat_within (ssrc x1) g phi v) as [v0| |]; cbn [bind] in E2; try discriminate.
    destruct (if implicit x1 then match fiss x1 with Some q => fis_within q g phi v0 | None => UB end else Ok v0);
      cbn [bind] in E2; try discriminate. inversion E2. eexists. reflexivity. }
  destruct X2 as (s2 & ->). assert (s2 = s') by (inversion E; auto). subst s2.
  exists f, s'. split; [reflexivity|]. split; auto. split; [cbn in L; lia|]. split; auto.
  intros c Hc. rewrite V by exact Hc. unfold implicit_fission. cbn [with_phis x1 with_scat with_fixed fiss implicit ssrc flux src_flux].
  f_equal. destruct (fiss x0) as [q|]; cbn [option_map]; auto.
Qed.

Lemma phi_of_other phi g f gp c : gp <> g -> gp < length phi -> phi_of (with_group phi g f) gp c = phi_of phi gp c.
Proof. intros H L. unfold phi_of. rewrite with_group_nth by auto. destruct (Nat.eqb_spec gp g); congruence. Qed.

Lemma mtod_solid dim : mtod dim = (/ solid_angle dim)%R.
Proof. unfold mtod, solid_angle. destruct (dim =? 1); unfold Rdiv; lra. Qed.

Lemma sources_table x0 g phi x q : sweep_ready x0 -> sources x0 g phi x ->
  table_of x q g (emissions x0 (with_group (flux (ssrc x0)) g phi) q g).
Proof.
  intros RD (f & s & -> & Lf & Ls & VF & VS) o a. unfold src_table.
  destruct (@sweep_source_ok (with_scat (with_fixed x0 f) s) (mtod (q_dim q)) g (Angle_Model.index q o a) (repeat 0%R (cells (ssrc x0))))
    as (r & E & L & V); cbn [with_scat with_fixed ssrc fixed scat] in *; try lia; [rewrite repeat_length; lia|].
  rewrite E. unfold emissions. rewrite repeat_length in L. apply list_ext_nth with (d := 0%R); [rewrite map_length, seq_length; auto|].
  intros c Hc. rewrite L in Hc. rewrite nth_map_seq by auto. rewrite V, VF, VS by auto.
  unfold emission. set (P := with_group (flux (ssrc x0)) g phi).
  assert (LF : length (flux (ssrc x0)) = ng (mat (ssrc x0))) by apply RD.
  assert (A1 : scatter_sum (ssrc x0) (flux (ssrc x0)) (fun gp => negb (gp =? g)) g c =
               scatter_sum (ssrc x0) P (fun gp => negb (gp =? g)) g c).
  { unfold scatter_sum. apply rsum_ext. intros gp Hgp. destruct (Nat.eqb_spec gp g); cbn [negb]; auto.
    unfold P. rewrite phi_of_other; auto. lia. }
  assert (A2 : scatter_sum (ssrc x0) P all_groups g c =
    (scatter_sum (ssrc x0) P (fun gp => negb (gp =? g)) g c + scatter_sum (ssrc x0) P (Nat.eqb g) g c)%R).
  { unfold scatter_sum, all_groups. symmetry. apply (sum_parts _ (fun gp => phi_of P gp c * transfer_xs (ssrc x0) c g gp)%R). }
  assert (B1 : fission_sum (ssrc x0) (flux (ssrc x0)) (fun gp => negb (gp =? g)) g c =
               fission_sum (ssrc x0) P (fun gp => negb (gp =? g)) g c).
  { unfold fission_sum. apply rsum_ext. intros gp Hgp. destruct (Nat.eqb_spec gp g); cbn [negb]; auto.
    unfold P. rewrite phi_of_other; auto. lia. }
  assert (B2 : fission_sum (ssrc x0) P all_groups g c =
    (fission_sum (ssrc x0) P (fun gp => negb (gp =? g)) g c + fission_sum (ssrc x0) P (Nat.eqb g) g c)%R).
  { unfold fission_sum, all_groups. symmetry. apply (sum_parts _ (fun gp => phi_of P gp c * fission_xs (ssrc x0) c g gp)%R). }
  rewrite A1, A2. unfold implicit_fission. rewrite B1. rewrite mtod_solid. unfold discrete. cbn [with_scat with_fixed dext].
  fold P. destruct (fiss x0) as [q0|]; [destruct (implicit x0)|]; unfold Rdiv; rewrite ?B2; ring.
Qed.
Lemma emissions_length x phi q g o a : length (emissions x phi q g o a) = cells (ssrc x).
Proof. unfold emissions. rewrite map_length, seq_length. auto. Qed.

(** ** The convergence test *)
Lemma within_norm f f' tol : length f = length f' -> f <> [] ->
  exists v, norm_residual f f' Linf = Ok v /\ ((v < tol)%R <-> within tol f f').
Proof.
  intros L N. destruct (norm_residual_Linf L N) as (v & E & _ & _ & (I & M)). exists v. split; auto. split.
  - intros H. split; auto. intros c Hc. eapply Rle_lt_trans; [|exact H]. apply M.
    apply in_map_iff. exists (nth c f 0%R, nth c f' 0%R). split; auto. rewrite <- combine_nth by auto.
    apply nth_In. rewrite combine_length. lia.
  - intros (_ & H). apply in_map_iff in I. destruct I as ((a & b) & Ev & Iab).
    apply In_nth with (d := (0%R, 0%R)) in Iab. destruct Iab as (c & Hc & Ec). rewrite combine_length in Hc.
    rewrite combine_nth in Ec by auto. inversion Ec. subst v. cbn [fst snd]. subst a b. apply H. lia.
Qed.

(** ** The boundary condition *)
Lemma set_ok w g t : forall m, wellposed w m g t ->
  exists b, bsn_set (t_b t) g = Ok b /\ fixed_set_to (t_b t) b g /\
    shaped b (g_nx (w_grid w)) (g_ny (w_grid w)) (g_nz (w_grid w)).
Proof.
  intros m [_ _ (_ & Hg) (Q & _) _ _ (Sh & FS & _) _ _].
  destruct (fixed_boundary Q Hg) as (b' & E & SS & F1 & F2). exists b'. split; auto.
  assert (FT : fixed_set_to (t_b t) b' g).
  { split; auto. split; auto. intros s l io o a psi H1 H2 H3 H4 H5. exact (proj2 (F1 s l io o a psi H1 H2 H3 H4 H5)). }
  split; auto. intros s o a g' V.
  assert (V' : valid (t_b t) s o a g').
  { destruct SS as (S1 & S2 & S3). unfold valid in *. rewrite S1, S2 in V. exact V. }
  destruct SS as (S1 & S2 & S3). rewrite S1.
  destruct (Nat.eq_dec g' g) as [->|Ng]; [|rewrite F2 by auto; apply Sh; auto].
  destruct V' as (V1 & V2 & V3 & V4). pose proof Q as (Hd & Hn & Hna & Hi & Ho).
  destruct (inc_table_spec Hd V1) as (i & u & T1 & _ & _ & _ & T5 & T6 & T7 & _).
  destruct (b_bc (t_b t) s) as [| |psi|] eqn:EB.
  1,2,4: rewrite F2; [apply Sh; repeat split; auto|repeat split; auto|right; right; intros p Hp; congruence].
  destruct (in_dec Nat.eq_dec o i) as [Hi'|Hi'].
  - destruct (In_nth_error _ _ Hi') as (io & Hio).
    assert (IO : incident_octant (b_q (t_b t)) s = Ok i) by (unfold incident_octant; rewrite Hi; exact T1).
    rewrite (proj2 (F1 s i io o a psi V1 EB IO Hio V3)). apply FS; auto.
    rewrite <- T7. apply nth_error_Some. congruence.
  - rewrite F2; [apply Sh; repeat split; auto|repeat split; auto|]. right. left.
    destruct (octants_spec Hd V1) as (_ & _ & _ & _ & _ & _ & A6).
    destruct (A6 o) as [X|X]; auto; [rewrite <- Hn; auto|]. exfalso. apply Hi'. apply T5. auto.
Qed.

(** ** The loop *)
Lemma sources_ssrc x0 g phi x : sources x0 g phi x -> ssrc x = ssrc x0.
Proof. intros (f & s & -> & _). reflexivity. Qed.

Lemma solved_of w x0 g src phi0 b psi b' phi' psi' n : n = cells (ssrc x0) ->
  (forall o a, src o a = emissions x0 phi0 (b_q b) g o a) ->
  swept (equation (w_eq w) (group_grid (w_grid w) (ssrc x0) g) (w_dirs w) src) (weight (w_dirs w))
    n (w_keep w) true g (w_ord w) b psi b' phi' psi' -> solved w x0 g phi0 b b' phi'.
Proof.
  intros -> HS [SS A (P & B1 & B2 & B3) C D E]. pose proof SS as (S1 & S2 & S3). constructor; auto.
  exists P. rewrite S1. split; [|split; auto]. intros o a Ho Ha. destruct (B1 o a Ho Ha) as (X & _).
  eapply equation_ext; [|exact X]. apply HS.
Qed.

Lemma si_loop_ok w g tol x0 : sweep_ready x0 -> g < ng (mat (ssrc x0)) -> 0 < cells (ssrc x0) ->
  forall k t phi old, sources x0 g phi (t_x t) -> sweepable w g (ssrc x0) (t_b t) -> length phi = cells (ssrc x0) ->
  length old = cells (ssrc x0) -> (forall o a, w_keep w = true -> length (t_psi t g o a) = cells (ssrc x0)) ->
  exists t' n B F, si_loop w g tol k t phi old = Ok (t', F n) /\ n <= k /\ B 0 = t_b t /\ F 0 = phi /\ t_b t' = B n /\
    t_sweeps t' = t_sweeps t + n /\ (exists ph, sources x0 g ph (t_x t')) /\ length (F n) = cells (ssrc x0) /\
    (forall i, i < n -> solved w x0 g (with_group (flux (ssrc x0)) g (F i)) (B i) (B (S i)) (F (S i))) /\
    (forall i, S i < n -> ~ within tol (F i) (F (S i))) /\ (n < k -> 0 < n /\ within tol (F (n - 1)) (F n)) /\
    sweepable w g (ssrc x0) (t_b t') /\ (forall o a, w_keep w = true -> length (t_psi t' g o a) = cells (ssrc x0)) /\
    (forall g', g' <> g -> t_psi t' g' = t_psi t g').
Proof.
  intros RD Hg Hc. induction k; intros t phi old SO SW Lp Lo LK.
  - exists t, 0, (fun _ => t_b t), (fun _ => phi). cbn [si_loop]. do 6 (split; [auto; lia|]). split; [eauto|]. split; auto.
    split; [intros; lia|]. split; [intros; lia|]. split; [intros; lia|]. auto.
  - cbn [si_loop]. pose proof (sources_ssrc SO) as ES.
    destruct (@do_sweep_ok w true g t old (emissions x0 (with_group (flux (ssrc x0)) g phi) (b_q (t_b t)) g))
      as (b' & phi' & psi' & E & X & SW' & LK'); rewrite ?ES; auto.
    { apply sources_table; auto. }
    { intros. apply emissions_length. }
    rewrite E. cbn [bind]. rewrite ES in *.
    pose proof X as X0. apply solved_of with (phi0 := with_group (flux (ssrc x0)) g phi) in X0; auto.
    assert (Lp' : length phi' = cells (ssrc x0)) by (destruct X0 as [_ (P & _ & H & _) _ _ _ _]; exact H).
    destruct (@within_norm phi phi' tol) as (v & Ev & Wv); [lia|destruct phi; [cbn in Lp; lia|discriminate]|].
    rewrite Ev. cbn [bind].
    set (t1 := {| t_b := b'; t_x := t_x t; t_psi := put1 (t_psi t) g psi'; t_sweeps := S (t_sweeps t) |}) in *.
    destruct (Rlt_dec v tol) as [Hv|Hv].
    + exists t1, 1, (fun i => match i with 0 => t_b t | _ => b' end), (fun i => match i with 0 => phi | _ => phi' end).
      split; auto. split; [lia|]. split; auto. split; auto. split; auto. split; [cbn; lia|]. split; [exists phi; exact SO|].
      split; auto. split; [intros i Hi; replace i with 0 by lia; exact X0|]. split; [intros; lia|]. split; [intros _; split; [lia|apply Wv; auto]|].
      split; [exact SW'|]. split; [intros o a HK; cbn; unfold put1; rewrite Nat.eqb_refl; apply LK'; auto|].
      intros g' Ng. cbn. unfold put1. destruct (Nat.eqb_spec g' g); congruence.
    + destruct SO as (f & s & Ex & Lf & Ls & VF & VS).
      destruct (@build_within x0 g phi' f s) as (x2 & E2 & SO2); auto. change (t_x t1) with (t_x t). rewrite Ex, E2. cbn [bind].
      destruct (IHk (with_x t1 x2) phi' phi) as (t' & n & B & F & E3 & C1 & C2 & C3 & C4 & C5 & C6 & C7 & C8 & C9 & C10 & C11 & C12 & C13); auto.
      { intros o a HK. cbn. unfold put1. rewrite Nat.eqb_refl. apply LK'; auto. }
      exists t', (S n), (fun i => match i with 0 => t_b t | S i => B i end), (fun i => match i with 0 => phi | S i => F i end).
      split; auto. split; [lia|]. split; auto. split; auto. split; auto. split; [rewrite C5; cbn; lia|]. split; auto. split; auto.
      split; [intros [|i] Hi; [rewrite C2, C3; exact X0|apply C8; lia]|].
      split.
      * intros [|i] Hi; [rewrite C3; intros W; apply Hv, Wv; auto|apply C9; lia].
      * split; [|split; [exact C11|split; [exact C12|]]].
        -- intros Hn. destruct C10 as (D1 & D2); [lia|]. split; [lia|]. destruct n; [lia|]. cbn [Nat.sub] in *. rewrite Nat.sub_0_r in D2. auto.
        -- intros g' Ng. rewrite C13 by auto. cbn. unfold put1. destruct (Nat.eqb_spec g' g); congruence.
Qed.

(** ** Source iteration *)
Lemma si_strong w m tol max g t : wellposed w m g t ->
  exists t' n B F, si_solve w tol max g t = Ok t' /\ iterated w tol max g t t' n B F /\
    forall m' g', wellposed w m' g' t -> wellposed w m' g' t'.
Proof.
  intros WP. pose proof WP as [RD (EM & NN) (Hg & Hgb) (Q & QE) (G1 & G2 & G3 & G4) D (Sh & FS & PR) OR (LF & LK)].
  unfold si_solve. destruct (set_ok WP) as (b & Eb & FT & Sb). rewrite Eb. cbn [bind].
  destruct (fixed_with_scatter_ok RD EM NN Hg) as (f & Ef & L1 & V1). rewrite Ef. cbn [bind].
  change (flux (ssrc (with_fixed (t_x t) f))) with (phis t).
  assert (LP : length (phis t) = ng (mat (ssrc (t_x t)))) by apply RD.
  rewrite (@rd_ok _ (phis t) g []) by lia. cbn [bind]. set (phi := nth g (phis t) []) in *.
  assert (LS : cells (ssrc (t_x t)) <= length f) by (rewrite L1; apply RD).
  destruct (@build_within (t_x t) g phi f (scat (t_x t))) as (x & Ex & SO); auto; [apply RD|].
  change (with_scat (with_fixed (t_x t) f) (scat (t_x t))) with (with_fixed (t_x t) f) in Ex. rewrite Ex. cbn [bind].
  assert (SW : sweepable w g (ssrc (t_x t)) b).
  { eapply sweepable_same; [|apply FT|exact Sb]. unfold sweepable. do 11 (split; [assumption || apply RD|]). assumption. }
  destruct (@si_loop_ok w g tol (t_x t) RD Hg G4 max (with_x (with_b t b) x) phi (repeat 0%R (length phi)))
    as (t' & n & B & F & E & C1 & C2 & C3 & C4 & C5 & (ph & C6) & C7 & C8 & C9 & C10 & C11 & C12 & C13); auto.
  { rewrite repeat_length; auto. }
  rewrite E. cbn [bind]. destruct C6 as (f' & s' & EX & Lf' & Ls' & _).
  assert (EP : phis t' = phis t) by (unfold phis; rewrite EX; reflexivity).
  unfold set_phi. rewrite EP. unfold wr. rewrite (proj2 (Nat.ltb_lt _ _)) by lia. cbn [bind].
  exists (with_x t' (with_phis (t_x t') (upd (phis t) g (F n)))), n, B, F. split; auto.
  set (t2 := with_x t' _). assert (EP2 : phis t2 = upd (phis t) g (F n)) by reflexivity.
  assert (IT : iterated w tol max g t t2 n B F).
  { constructor; auto.
    - split; auto. rewrite C2. exact FT.
    - rewrite EP2. split; auto. rewrite nth_upd_eq by lia. auto.
    - rewrite EP2, upd_length. split; auto. intros gp Hgp. rewrite nth_upd_neq by auto. auto.
    - exists f', s'. rewrite EP2. unfold t2. cbn [with_x t_x]. rewrite EX. reflexivity. }
  split; auto.
  assert (SB : same_setup (t_b t) (t_b t')).
  { rewrite C4. clear - FT C2 C8. assert (H : forall i, i <= n -> same_setup (B 0) (B i)).
    { induction i; intros Hi; [repeat split|]. destruct (IHi ltac:(lia)) as (A1 & A2 & A3).
      destruct (so_setup _ _ _ _ _ _ _ (C8 i ltac:(lia))) as (A1' & A2' & A3'). repeat split; congruence. }
    destruct (H n (le_n n)) as (A1 & A2 & A3). destruct FT as ((A1' & A2' & A3') & _). cbn [with_x with_b t_b] in C2. rewrite C2 in *.
    repeat split; congruence. }
  destruct SB as (S1 & S2 & S3). pose proof C11 as (_ & _ & _ & _ & _ & _ & _ & _ & _ & SH & _ & _).
  intros m' g' [RD' EM' HG' HQ' (GG1 & GG2 & GG3 & GG4) HD' (Sh' & FS' & PR') HO' (LF' & LK')].
  assert (X2 : t_x t2 = with_phis (with_scat (with_fixed (t_x t) f') s') (upd (phis t) g (F n))) by (unfold t2; cbn [with_x t_x]; rewrite EX; reflexivity).
  assert (B2 : t_b t2 = t_b t') by reflexivity.
  constructor; rewrite ?B2, ?S1, ?S2; auto.
  - rewrite X2. apply ready_phis.
    + destruct RD as (A1 & A2 & A3 & A4 & A5). split; [exact A1|]. split; [exact Lf'|]. split; [exact Ls'|]. split; auto.
    + rewrite upd_length. exact LP.
    + intros gp Hgp. cbn [with_scat with_fixed ssrc] in *. destruct (Nat.eq_dec g gp) as [<-|Ne].
      * rewrite nth_upd_eq by lia. lia.
      * rewrite nth_upd_neq by auto. apply RD. exact Hgp.
  - rewrite X2. exact EM'.
  - rewrite X2. exact HG'.
  - rewrite X2. split; [exact GG1|]. split; [exact GG2|]. split; [exact GG3|exact GG4].
  - split; [exact SH|]. split.
    + intros s psi io a H1 H2 H3 H4. rewrite S1 in *. apply (FS' s psi io a); auto. rewrite <- S3. auto.
    + rewrite S3. exact PR'.
  - rewrite EP2, X2. cbn [with_phis with_scat with_fixed ssrc src_flux cells]. split.
    + destruct (Nat.eq_dec g g') as [<-|Ne]; [rewrite nth_upd_eq by lia; auto|rewrite nth_upd_neq by auto; auto].
    + intros o a HK. change (t_psi t2) with (t_psi t'). destruct (Nat.eq_dec g' g) as [->|Ne]; [apply C12; auto|].
      rewrite C13 by auto. cbn. apply LK'; auto.
Qed.
Theorem si_ok w m tol max g t : wellposed w m g t ->
  exists t' n B F, si_solve w tol max g t = Ok t' /\ iterated w tol max g t t' n B F.
Proof. intros WP. destruct (@si_strong w m tol max g t WP) as (t' & n & B & F & E & IT & _). eauto 6. Qed.

Lemma si_none w m tol g t : wellposed w m g t -> exists t', si_solve w tol 0 g t = Ok t' /\
  nth g (phis t') [] = nth g (phis t) [] /\ t_sweeps t' = t_sweeps t.
Proof.
  intros WP. destruct (@si_ok w m tol 0 g t WP) as (t' & n & B & F & E & IT). exists t'. split; auto.
  destruct IT as [(S1 & _) (R1 & _) _ _ (N1 & N2) _ _ _]. assert (n = 0) by lia. subst n. rewrite R1, S1, N1. split; auto; lia.
Qed.
