(** * Arn_Proofs2: the default eigensolver *)
From Verif Require Import Base BaseR Loop Vector_Model Vector_Spec Vector_Proofs Cpow_Model Cpow_Spec Cpow_Proofs Cpow_Proofs2 Power_Proofs
  Util_Model Angle_Model Angle_Spec Boundary_Model Boundary_Spec Mesh_Model Mesh_Proofs
  Material_Model Material_Spec Source_Model Source_Spec Source_Proofs Cell_Spec Sweep_Model Sweep_Spec Sweep_Proofs
  Iter_Model Iter_Spec Pi_Spec Iter_Proofs Gs_Proofs Pi_Proofs PiConv_Proofs PiLinear_Proofs PiGs_Proofs PiPos_Proofs PiEig_Proofs Arn_Model Arn_Spec Arn_Proofs.
From Coq Require Import Lra.
Set Implicit Arguments. Unset Strict Implicit.
Open Scope R_scope.

Lemma inv_norm v : Vector_Model.norm Vector_Model.L1 v <> 0 -> 0 <= 1 / Vector_Model.norm Vector_Model.L1 v.
Proof. intros N. destruct (norm_laws v plain1) as (P & _). unfold Rdiv. rewrite Rmult_1_l. apply Rlt_le, Rinv_0_lt_compat. lra. Qed.

(** The power method with a state is the power method. *)
Section Refine.
Variables (Inv : tstate -> Prop) (G : list R -> Prop) (n : nat) (smul : tstate -> list R -> res (tstate * list R)) (f : list R -> list R).
Hypotheses (G_len : forall v, G v -> length v = n) (G_scale : forall v a, 0 <= a -> G v -> G (vscale v a)) (G_f : forall v, G v -> G (f v))
  (MUL : forall t v, Inv t -> G v -> exists t', smul t v = Ok (t', f v) /\ Inv t').

Lemma spiter_refines s fuel : forall i t x x0 temp lambda it hist, Inv t -> G x -> G x0 -> forall r,
  piter (fun v => Ok (f v)) None s fuel i x x0 temp lambda it hist = Ok r ->
  exists t', spiter smul s fuel i t x x0 lambda it hist = Ok (t', r) /\ Inv t' /\ G (pr_x r).
Proof.
  induction fuel as [|fuel IH]; intros i t x x0 temp lambda it hist I GX G0 r E.
  - cbn in E. injection E as <-. exists t. split; [reflexivity|]. auto.
  - cbn [piter spiter] in *. unfold apply_op in E. cbn [bind] in E. cbn [fst snd] in E.
    destruct (MUL I G0) as (t' & M & I'). rewrite M. cbn [bind]. cbv zeta in *.
    destruct (vadd (vscale x0 (- lambda)) (f x0)) as [y| |] eqn:EV; cbn [bind] in *; try discriminate.
    destruct (Req_EM_T _ 0); [discriminate|].
    destruct (vcopy y (vscale (f x0) (1 / Vector_Model.norm Vector_Model.L1 (f x0)))) as [x1| |] eqn:EC; cbn [bind] in *; try discriminate.
    assert (EX1 : x1 = vscale (f x0) (1 / Vector_Model.norm Vector_Model.L1 (f x0))).
    { unfold vadd in EV. rewrite vzip_ok in EV by (rewrite vscale_length, !G_len; auto).
      injection EV as EV. unfold vcopy in EC. assert (LY : length y = n) by (rewrite <- EV; rewrite ?vec_length, ?map_length, ?seq_length, ?vscale_length; rewrite ?G_len; auto).
      assert (LV : length (vscale (f x0) (1 / Vector_Model.norm Vector_Model.L1 (f x0))) = n) by (rewrite vscale_length; auto).
      rewrite vzip_ok in EC by congruence. injection EC as <-. apply list_ext_nth with (d := 0); rewrite ?vec_length; [congruence|].
      intros j Hj. rewrite vec_nth by auto. reflexivity. }
    destruct (wr hist i _) as [h| |]; cbn [bind] in *; try discriminate.
    assert (GV : G (vscale (f x0) (1 / Vector_Model.norm Vector_Model.L1 (f x0)))) by (apply G_scale; [apply inv_norm; auto|auto]).
    destruct (i =? ps_maxit s)%nat; [injection E as <-; exists t'; auto|].
    destruct (Rlt_dec _ _); [injection E as <-; exists t'; auto|].
    eapply IH; [| | |exact E]; auto. rewrite EX1. auto.
Qed.
Lemma spower_refines s t x x0 r : Inv t -> G x -> G x0 -> (0 < n)%nat -> power_solve (fun v => Ok (f v)) None s x x0 = Ok r ->
  exists t', spower smul s t x x0 = Ok (t', r) /\ Inv t' /\ G (pr_x r).
Proof.
  intros I GX G0 N E. unfold power_solve in E. unfold spower. rewrite (G_len G0) in *. destruct (Nat.eqb_spec n 0); [lia|].
  destruct (Req_EM_T _ 0); [discriminate|]. eapply spiter_refines; [| | |exact E]; auto. apply G_scale; [apply inv_norm; auto|auto].
Qed.
End Refine.

Lemma pos_term n f : 0 < rsum n f -> exists c, (c < n)%nat /\ 0 < f c.
Proof.
  induction n as [|n IH]; intros H; [cbn in H; lra|]. change (0 < rsum n f + f n) in H. destruct (Rlt_dec 0 (f n)) as [P|N]; [exists n; auto|].
  destruct IH as (c & Hc & P); [lra|]. exists c. auto.
Qed.

Section Default.
Variables (w : sweeper) (m : mtl) (nc : nat) (t0 : tstate) (l : list nat) (mg : tstate -> res tstate).
Local Notation Inv := (same_case w m nc t0).
Local Notation xs := (ssrc (t_x t0)).
Hypotheses (HO : homogeneous t0) (Hn : (0 < ng (mat xs))%nat) (SO : solve_order (t_x t0) l) (DA : all_damped w t0) (I0 : Inv t0)
  (MS : mg_solver nc Inv mg) (EX : exact w Inv mg) (SPR : eq_spreads (w_eq w) = true) (CH : chain w t0 xs).

(** Nonnegative fission makes nonnegative fluxes. *)
Lemma nonneg_flux t1 q t' x : Inv t1 -> Inv (put_fission t1 q) -> mg (put_fission t1 q) = Ok t' ->
  (forall g c, (g < ng (mat (ssrc (t_x t1))))%nat -> (c < nc)%nat ->
     nth c (nth g (fsource q) []) 0 = at_ x c * spectrum (ssrc (t_x t1)) g c) -> (forall c, (c < nc)%nat -> 0 <= at_ x c) ->
  forall g c, (g < ng (mat xs))%nat -> (c < nc)%nat -> 0 <= phi_of (phis t') g c.
Proof.
  intros I1 IQ E SRC XN g c Hg Hc. pose proof (case_nc I0) as NC.
  apply (streams_nonneg HO Hn SO DA I0 SPR CH (to_streams HO Hn I0 IQ (EX IQ E))); [|auto|rewrite NC; auto].
  intros g' c' Hg' Hc'. rewrite NC in Hc'. unfold explicit_fission. cbn [put_fission with_x t_x with_fiss fiss implicit].
  destruct (implicit (t_x t1)); [lra|]. destruct (sc_cells I1) as (_ & S1 & S2 & S3). rewrite SRC by (rewrite ?S1; auto).
  rewrite (same_spectrum _ _ S1 S2 S3). apply Rmult_le_pos; auto. unfold spectrum. rewrite (ch_forward CH). apply (ch_chi CH).
Qed.
Theorem arn_power : exists x0 k V K q, flat_guess nc t0 x0 /\ 0 <= q < 1 /\ Pi_Spec.eigenpair w nc t0 k V /\
  (forall k' V', Pi_Spec.eigenpair w nc t0 k' V' -> k' = k) /\ size (map V (seq 0 nc)) = 1 /\
  (forall s, (ps_maxit s <= length (ps_hist s))%nat -> exists t1 t2 r t', Inv t1 /\
     spower (eigen_multiply mg) s t1 (repeat 0 nc) x0 = Ok (t2, r) /\
     arn_solve mg (power_es mg s) (repeat 0 nc) t0 = Ok (t', pr_lambda r) /\ Inv t' /\
     (forall g c, (g < ng (mat xs))%nat -> (c < nc)%nat -> 0 <= phi_of (phis t') g c) /\
     (forall c, (c < nc)%nat -> 0 <= production xs (phis t') c) /\
     ((1 <= pr_it r)%nat -> Rabs (pr_lambda r - k) <= q ^ (pr_it r - 1) * K /\
        forall c, (c < nc)%nat -> Rabs (pr_lambda r * production xs (phis t') c - k * (k * V c)) <= q ^ (pr_it r - 1) * K)) /\
  (forall tol, 0 < tol -> exists M, forall s t1 t2 r, ps_tol s = tol -> (M <= ps_maxit s <= length (ps_hist s))%nat -> Inv t1 ->
     spower (eigen_multiply mg) s t1 (repeat 0 nc) x0 = Ok (t2, r) -> pr_status r = SUCCESS).
Proof.
  destruct (ms_ready MS I0) as (_ & EC0 & q & Eq & _).
  assert (ED : dens q = density t0) by (unfold density; rewrite Eq; auto).
  pose proof (fission_acts HO Hn SO DA I0 MS EX ED) as AA.
  pose proof (fission_connected HO Hn SO DA I0 SPR CH MS EX ED) as CN.
  set (a := matrix nc t0 mg q) in *. set (T := a' xs a).
  destruct (eigen_converges HO Hn SO DA I0 MS EX SPR CH) as (k0 & _ & _ & _ & _ & _ & UN & _).
  destruct CN as ((c0 & Hc0 & F0) & CC). assert (CN : connected nc xs a) by (split; eauto).
  assert (FN : forall c, 0 <= flat_fission t0 c) by (intros c; apply rsum_nonneg; intros; apply (ch_nsf CH)).
  assert (FF : exists c, (c < nc)%nat /\ flat_fission t0 c <> 0) by (exists c0; split; auto; unfold fissile in F0; unfold flat_fission; lra).
  destruct (start MS I0 FF) as (q0 & q1 & x0 & A1 & A2 & A3 & A4 & A5 & A6). pose proof A5 as (L0 & _ & (r0 & R0 & X0)).
  destruct (structure CN) as (M & d & HM & Hd & Ha & Hue).
  assert (MX : mixing nc T (fun c => M * ind xs c) (ind xs) d).
  { assert (IN : forall c, 0 <= ind xs c) by (intros c; unfold ind; destruct (fissile_dec xs c); lra).
    split; auto. split; [intros; apply Rmult_le_pos; auto; lra|]. split; auto. }
  set (f := times nc T). set (G := fun v : list R => length v = nc /\ forall c, (c < nc)%nat -> 0 <= nth c v 0 /\ (~ fissile xs c -> nth c v 0 = 0)).
  assert (TI : forall v c, (c < nc)%nat -> nth c (f v) 0 = image nc T v c) by (intros v c Hc; unfold f, times; rewrite nth_map_seq by auto; reflexivity).
  assert (LT : forall v, length (f v) = nc) by (intros; unfold f, times; rewrite map_length, seq_length; auto).
  assert (RZ : realises nc (fun v => Ok (f v)) None T).
  { intros v temp LV LTm. exists (f v), temp. split; [reflexivity|]. split; [apply LT|]. split; [exact LTm|]. intros i Hi. apply TI. exact Hi. }
  assert (TZ : forall c j, (c < nc)%nat -> (j < nc)%nat -> ~ fissile xs c -> T c j = 0).
  { intros c j Hc Hj N. unfold T, a'. destruct (fissile_dec xs j); auto. apply (proj2 (CC c Hc) N j Hj). }
  assert (TP : forall c j, (c < nc)%nat -> (j < nc)%nat -> 0 <= T c j).
  { intros c j Hc Hj. destruct MX as (M1 & M2 & M3 & M4 & _). eapply Rle_trans; [|apply (M4 c j Hc Hj)].
    apply Rmult_le_pos; [lra|]. apply Rmult_le_pos; auto. }
  assert (IP : forall v c, G v -> (c < nc)%nat -> 0 <= image nc T v c).
  { intros v c (_ & GV) Hc. apply rsum_nonneg. intros j Hj. apply Rmult_le_pos; [auto|apply GV; auto]. }
  assert (GF : forall v, G v -> G (f v)).
  { intros v GV. split; auto. intros c Hc. rewrite TI by auto. split; [auto|]. intros N. apply rsum_zero. intros j Hj. rewrite TZ by auto. ring. }
  assert (SA : forall v, G v -> times nc a v = f v).
  { intros v (LV & ZV). apply list_ext_nth with (d := 0); [rewrite LT; unfold times; rewrite map_length, seq_length; auto|].
    unfold times at 1. rewrite map_length, seq_length. intros c Hc. rewrite TI by auto. unfold times. rewrite nth_map_seq by auto.
    unfold image, T. symmetry. apply (@same_app nc xs a (fun j => nth j v 0) c). intros j Hj N. apply (ZV j Hj); auto. }
  assert (GS : forall v b, 0 <= b -> G v -> G (vscale v b)).
  { intros v b B (LV & ZV). split; [rewrite vscale_length; auto|]. intros c Hc. destruct (ZV c Hc) as (Z1 & Z2). rewrite vscale_nth.
    split; [apply Rmult_le_pos; auto|]. intros N. rewrite Z2 by auto. ring. }
  assert (MUL : forall t v, Inv t -> G v -> exists t', eigen_multiply mg t v = Ok (t', f v) /\ Inv t').
  { intros t v I GV. rewrite <- (SA v GV). apply (eigen_multiply_times MS AA I). apply GV. }
  assert (GX : G (repeat 0 nc)) by (split; [apply repeat_length|intros c Hc; rewrite nth_repeat; split; [lra|auto]]).
  assert (G0 : G x0).
  { split; auto. intros c Hc. fold (at_ x0 c). rewrite X0 by auto. specialize (FN c). split; [apply Rmult_le_pos; lra|]. intros N.
    unfold fissile in N. fold (flat_fission t0 c) in N.
    replace (flat_fission t0 c) with 0 by lra. ring. }
  assert (N0 : (0 < nc)%nat) by lia.
  assert (GU : guess (repeat 0 nc) x0 = x0) by (unfold guess; destruct (Nat.eqb_spec (length x0) 0); [lia|auto]).
  destruct (@solve_converges nc (fun v => Ok (f v)) None T _ _ d (repeat 0 nc) x0 RZ MX) as (k & wv & K & r & Hk & Hr & EP & _ & RUN & SUC); rewrite ?GU; auto.
  { intros i Hi. fold (at_ x0 i). rewrite X0 by auto. apply Rmult_le_pos; [lra|auto]. }
  { apply Rlt_le_trans with (ind xs c0 * at_ x0 c0).
    - unfold ind. destruct (fissile_dec xs c0); [|tauto]. rewrite X0 by auto. rewrite Rmult_1_l. apply Rmult_lt_0_compat; auto.
    - apply (@term_le nc (fun j => ind xs j * at_ x0 j)); auto. intros j Hj. apply Rmult_le_pos.
      + unfold ind. destruct (fissile_dec xs j); lra.
      + rewrite X0 by auto. apply Rmult_le_pos; [lra|auto]. }
  destruct EP as (LW & WN & WS & WE).
  assert (GW : G wv).
  { split; auto. intros c Hc. split; auto. intros N. assert (E := WE c Hc). unfold image in E. rewrite rsum_zero in E by (intros j Hj; rewrite TZ by auto; ring). nra. }
  assert (MW : map (fun c => nth c wv 0) (seq 0 nc) = wv).
  { apply list_ext_nth with (d := 0); rewrite map_length, seq_length; auto. intros c Hc. rewrite nth_map_seq by auto. auto. }
  assert (MO : mode nc a k (fun c => nth c wv 0)).
  { split; auto. split; auto. split.
    - destruct (@pos_term nc (fun i => Rabs (nth i wv 0))) as (c & Hc & PC); [unfold size1 in WS; rewrite WS; lra|].
      exists c. split; auto. specialize (WN c Hc). rewrite Rabs_right in PC by lra. auto.
    - intros c Hc. assert (E := SA wv GW). assert (E2 : nth c (times nc a wv) 0 = nth c (f wv) 0) by congruence.
      rewrite TI, WE in E2 by auto. unfold times in E2. rewrite nth_map_seq in E2 by auto. exact E2. }
  assert (EP : Pi_Spec.eigenpair w nc t0 k (fun c => nth c wv 0)) by (apply (mode_eigenpair HO Hn SO DA I0 MS EX k _ AA); auto).
  set (A := rsum nc (fun i => rsum nc (fun j => Rabs (T i j)))).
  assert (A0 : 0 <= A) by (apply rsum_nonneg; intros; apply rsum_nonneg; intros; apply Rabs_pos).
  exists x0, k, (fun c => nth c wv 0), (Rabs K * (1 + A)), r. split; auto. split; auto. split; auto.
  split; [intros k' V' E; rewrite (UN _ _ E), (UN _ _ EP); auto|]. split; [rewrite MW; unfold size; rewrite LW; exact WS|]. split.
  - intros s HS. destruct (RUN s HS) as (res & PS & BD).
    destruct (@spower_refines Inv G nc (eigen_multiply mg) f (fun v H => proj1 H) GS GF MUL s (put_fission t0 q1) (repeat 0 nc) x0 res A6 GX G0 N0 PS)
      as (t2 & SP & I2 & GR).
    destruct (finish MS I2 (proj1 GR)) as (q2 & q3 & t' & q4 & B1 & B2 & B3 & B4 & B5 & B6 & B7 & B8 & B9).
    exists (put_fission t0 q1), t2, res, t'. split; auto. split; auto. split.
    { unfold arn_solve. rewrite A1. cbn [bind]. rewrite A2. cbn [bind]. destruct (Req_EM_T _ 0); [contradiction|].
      rewrite <- A4. unfold power_es at 1. rewrite SP. cbn [bind fst snd]. rewrite B1. cbn [bind]. rewrite B2. cbn [bind]. rewrite B3. reflexivity. }
    split; auto.
    assert (PX : forall c, (c < nc)%nat -> production xs (phis t') c = image nc T (pr_x res) c).
    { intros c Hc. destruct (MUL t2 (pr_x res) I2 GR) as (t3 & M3 & _). rewrite M3 in B8. injection B8 as _ B8.
      rewrite <- TI by auto. rewrite B8, B9, nth_map_seq by auto. destruct (sc_cells B5) as (_ & S1 & S2 & S3).
      symmetry. apply same_production; auto. }
    split; [apply (nonneg_flux I2 B4 B3 B7); intros c Hc; apply GR; auto|].
    split; [intros c Hc; rewrite PX by auto; auto|].
    intros H1. destruct (BD H1) as (D1 & D2).
    assert (PQ : 0 <= r ^ (pr_it res - 1)) by (apply pow_le; lra).
    set (E := r ^ (pr_it res - 1) * Rabs K).
    assert (KE : r ^ (pr_it res - 1) * K <= E) by (apply Rmult_le_compat_l; auto; apply Rle_abs).
    assert (E0 : 0 <= E) by (apply Rmult_le_pos; auto; apply Rabs_pos).
    replace (r ^ (pr_it res - 1) * (Rabs K * (1 + A))) with (E + A * E) by (unfold E; ring).
    split; [apply Rle_trans with E; [lra|nra]|].
    intros c Hc.
    rewrite PX, <- (WE c Hc) by auto. unfold image. rewrite <- !rsum_scal, <- rsum_minus.
    eapply Rle_trans; [apply rsum_abs|]. apply Rle_trans with (rsum nc (fun j => Rabs (T c j)) * E).
    + rewrite Rmult_comm, <- rsum_scal. apply rsum_le. intros j Hj.
      replace (pr_lambda res * (T c j * nth j (pr_x res) 0) - k * (T c j * nth j wv 0)) with (T c j * (pr_lambda res * nth j (pr_x res) 0 - k * nth j wv 0)) by ring.
      rewrite Rabs_mult, Rmult_comm. apply Rmult_le_compat_r; [apply Rabs_pos|]. eapply Rle_trans; [apply D2; auto|exact KE].
    + assert (rsum nc (fun j => Rabs (T c j)) <= A).
      { apply (@term_le nc (fun i => rsum nc (fun j => Rabs (T i j)))); auto. intros i Hi. apply rsum_nonneg. intros. apply Rabs_pos. }
      nra.
  - intros tol HT. destruct (SUC tol HT) as (N & HNN). exists N. intros s t1 t2 res E1 E2 I1 SP.
    destruct (RUN s) as (res' & PS & _); [lia|].
    destruct (@spower_refines Inv G nc (eigen_multiply mg) f (fun v H => proj1 H) GS GF MUL s t1 (repeat 0 nc) x0 res' I1 GX G0 N0 PS) as (t3 & SP' & _).
    rewrite SP in SP'. injection SP' as _ <-. apply (HNN s res E1 E2 PS).
Qed.
End Default.
