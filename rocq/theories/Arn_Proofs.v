(** * Arn_Proofs *)
From Verif Require Import Base BaseR Loop Vector_Model Vector_Spec Vector_Proofs Cpow_Model Power_Proofs Util_Model Angle_Model Angle_Spec Boundary_Model Boundary_Spec Mesh_Model Mesh_Proofs
  Material_Model Material_Spec Source_Model Source_Spec Source_Proofs Cell_Spec Sweep_Model Sweep_Spec Sweep_Proofs
  Iter_Model Iter_Spec Pi_Spec Iter_Proofs Gs_Proofs Pi_Proofs PiConv_Proofs PiLinear_Proofs PiGs_Proofs PiPos_Proofs PiEig_Proofs Arn_Model Arn_Spec.
From Coq Require Import Lra.
Set Implicit Arguments. Unset Strict Implicit.
Open Scope R_scope.

Section Start.
Variables (nc : nat) (Inv : tstate -> Prop) (mg : tstate -> res tstate).
Hypothesis (MS : mg_solver nc Inv mg).

(** What solve() does up to the eigensolver. *)
Lemma start t : Inv t -> (exists c, (c < nc)%nat /\ flat_fission t c <> 0) ->
  exists q0 q x0, pi_fission t = Ok q0 /\ fis_initialize q0 = Ok q /\ Vector_Model.norm Vector_Model.L2 (dens q) <> 0 /\
    x0 = vscale (dens q) (1 / Vector_Model.norm Vector_Model.L2 (dens q)) /\ flat_guess nc t x0 /\ Inv (put_fission t q).
Proof.
  intros I (c0 & Hc0 & F0). destruct (ms_ready MS I) as (P & EC & q & EF & E1 & E2 & E3 & E4).
  assert (IZ := @initialize_ok q). rewrite E1, EC in IZ. specialize (IZ P E2). cbv zeta in IZ.
  set (flat := map (fun c => rsum (ng (mat (ssrc (t_x t)))) (fun g => nsf (mat (ssrc (t_x t))) g (mat_of (ssrc (t_x t)) c))) (seq 0 nc)) in *.
  assert (LF : length flat = nc) by (unfold flat; rewrite map_length, seq_length; auto).
  assert (AF : forall c, (c < nc)%nat -> at_ flat c = flat_fission t c) by (intros c Hc; unfold at_, flat; rewrite nth_map_seq by auto; reflexivity).
  assert (SP : 0 < size flat).
  { apply Rlt_le_trans with (Rabs (at_ flat c0)); [rewrite AF by auto; apply Rabs_pos_lt; auto|].
    unfold size. rewrite LF. apply (@term_le nc (fun c => Rabs (at_ flat c))); auto. intros c' _. apply Rabs_pos. }
  set (d := map (fun v => v / size flat) flat) in *.
  assert (LD : length d = nc) by (unfold d; rewrite map_length; auto).
  assert (AD : forall c, (c < nc)%nat -> nth c d 0 = flat_fission t c / size flat).
  { intros c Hc. unfold d. rewrite nth_map with (d := 0) by (rewrite LF; auto). fold (at_ flat c). rewrite AF by auto. reflexivity. }
  destruct (norm_laws d plain2) as (N0 & NZ & NS & _).
  assert (NN : Vector_Model.norm Vector_Model.L2 d <> 0).
  { intros Z. rewrite NZ in Z. specialize (Z c0). rewrite LD in Z. specialize (Z Hc0). unfold cmp in Z. rewrite AD in Z by auto.
    apply F0. unfold Rdiv in Z. apply Rmult_integral in Z as [|Z]; auto. exfalso. apply (Rinv_neq_0_compat (size flat)); [lra|auto]. }
  assert (NP : 0 < Vector_Model.norm Vector_Model.L2 d) by lra.
  exists q, (with_dens q d), (vscale d (1 / Vector_Model.norm Vector_Model.L2 d)).
  split; [unfold pi_fission; rewrite EF; auto|]. split; [exact IZ|]. cbn [with_dens dens]. split; auto. split; auto. split.
  - split; [rewrite vscale_length; auto|]. split.
    + specialize (NS (1 / Vector_Model.norm Vector_Model.L2 d)). rewrite (norm_plain _ plain2), vscale_length, LD in NS. cbn [gnorm] in NS.
      rewrite Rabs_right in NS by (apply Rle_ge, Rlt_le, Rdiv_lt_0_compat; lra).
      replace (1 / Vector_Model.norm Vector_Model.L2 d * Vector_Model.norm Vector_Model.L2 d) with 1 in NS by (field; auto).
      apply sqrt_inj; [apply (@sq_nonneg nc (fun i => at_ (vscale d (1 / Vector_Model.norm Vector_Model.L2 d)) i))|lra|rewrite sqrt_1; exact NS].
    + exists (/ size flat * (1 / Vector_Model.norm Vector_Model.L2 d)). split.
      * apply Rmult_lt_0_compat; [apply Rinv_0_lt_compat; auto|apply Rdiv_lt_0_compat; lra].
      * intros c Hc. unfold at_. rewrite vscale_nth, AD by auto. unfold Rdiv. ring.
  - apply (ms_fission MS); auto. split; [exact E1|]. split; [exact LD|]. split; auto.
Qed.

(** What it does after. *)
Lemma finish t1 x : Inv t1 -> length x = nc -> exists q1 q t' q3, pi_fission t1 = Ok q1 /\ fis_setup_outer (with_dens q1 x) 1 = Ok q /\
  mg (put_fission t1 q) = Ok t' /\ Inv (put_fission t1 q) /\ Inv t' /\ shared_fission nc (ssrc (t_x t1)) q /\
  (forall g c, (g < ng (mat (ssrc (t_x t1))))%nat -> (c < nc)%nat ->
     nth c (nth g (fsource q) []) 0 = at_ x c * spectrum (ssrc (t_x t1)) g c) /\
  eigen_multiply mg t1 x = Ok (put_fission t' q3, dens q3) /\ dens q3 = map (production (ssrc (t_x t')) (phis t')) (seq 0 nc).
Proof.
  intros I L. destruct (ms_ready MS I) as (P & EC & q & EF & E1 & E2 & E3 & E4).
  assert (IX : Inv (put_fission t1 (with_dens q x))).
  { apply (ms_fission MS); auto. split; [exact E1|]. split; [exact L|]. split; auto. }
  destruct (outer_ok MS 1 IX) as (q0 & q1 & t' & q2 & q3 & A1 & A2 & A3 & A4 & A5 & A6 & A7 & A8).
  cbn in A1. injection A1 as <-. replace (1 / 1) with 1 in A3 by field. rewrite put_twice in A4.
  destruct A8 as [(q' & B1 & B2 & B3 & B4) B5 (q4 & B6 & B7)].
  assert (EQ : q1 = q') by (unfold put_fission, with_x, with_fiss in B1; cbn in B1; congruence). subst q'.
  assert (IQ : Inv (put_fission t1 q1)) by (apply (ms_fission MS); auto).
  destruct (ms_solve MS IQ) as (t'' & M & I'). rewrite A4 in M. injection M as <-.
  exists q, q1, t', q3. split; [unfold pi_fission; rewrite EF; auto|]. split; [exact A3|]. split; [exact A4|]. split; auto. split; auto.
  split; [exact B2|]. split.
  - intros g c Hg Hc. assert (B := B4 g c Hg Hc). cbn [put_fission with_x t_x with_fiss ssrc] in B. rewrite B.
    rewrite put_density. cbn [with_dens dens]. field.
  - unfold eigen_multiply. unfold pi_fission at 1. rewrite EF. cbn [bind]. rewrite A3. cbn [bind]. rewrite A4. cbn [bind].
    rewrite A5. cbn [bind]. rewrite A6. cbn [bind]. split; [reflexivity|exact B7].
Qed.

Lemma arn_run es dx t t1 x k : Inv t -> (exists c, (c < nc)%nat /\ flat_fission t c <> 0) -> length dx = nc ->
  (forall t' x0, Inv t' -> ssrc (t_x t') = ssrc (t_x t) -> flat_guess nc t x0 -> es t' dx x0 = Ok (t1, x, k)) -> Inv t1 -> length x = nc ->
  exists q t' q3, arn_solve mg es dx t = Ok (t', k) /\ mg (put_fission t1 q) = Ok t' /\ Inv (put_fission t1 q) /\ Inv t' /\
  shared_fission nc (ssrc (t_x t1)) q /\
  (forall g c, (g < ng (mat (ssrc (t_x t1))))%nat -> (c < nc)%nat ->
     nth c (nth g (fsource q) []) 0 = at_ x c * spectrum (ssrc (t_x t1)) g c) /\
  eigen_multiply mg t1 x = Ok (put_fission t' q3, map (production (ssrc (t_x t')) (phis t')) (seq 0 nc)).
Proof.
  intros I FF LX ES I1 L. destruct (start I FF) as (q0 & q & x0 & A1 & A2 & A3 & A4 & A5 & A6).
  destruct (finish I1 L) as (q1 & q2 & t' & q3 & B1 & B2 & B3 & B4 & B5 & B6 & B7 & B8 & B9).
  exists q2, t', q3. split.
  - unfold arn_solve. rewrite A1. cbn [bind]. rewrite A2. cbn [bind]. destruct (Req_EM_T _ 0); [contradiction|].
    rewrite <- A4, (ES _ _ A6 eq_refl A5). cbn [bind]. rewrite B1. cbn [bind]. rewrite B2. cbn [bind]. rewrite B3. reflexivity.
  - rewrite <- B9. repeat (split; [assumption|]). assumption.
Qed.
End Start.

Lemma same_production x y phi c : mat x = mat y -> mmap x = mmap y -> adj x = adj y -> production x phi c = production y phi c.
Proof. intros A B C. unfold production, mat_of. rewrite A, B, C. reflexivity. Qed.
Lemma same_spectrum x y g c : mat x = mat y -> mmap x = mmap y -> adj x = adj y -> spectrum x g c = spectrum y g c.
Proof. intros A B C. unfold spectrum, mat_of. rewrite A, B, C. reflexivity. Qed.

Section Flux.
Variables (w : sweeper) (m : mtl) (nc : nat) (t0 : tstate) (mg : tstate -> res tstate).
Local Notation Inv := (same_case w m nc t0).
Hypotheses (I0 : Inv t0) (MS : mg_solver nc Inv mg) (EX : exact w Inv mg) (FF : exists c, (c < nc)%nat /\ flat_fission t0 c <> 0).

Definition guess_of (q : fis) : list R := vscale (dens q) (1 / Vector_Model.norm Vector_Model.L2 (dens q)).
Theorem arn_flux_full es dx : finds_pair nc Inv mg es -> length dx = nc ->
  exists t' k t1 t2 x, arn_solve mg es dx t0 = Ok (t', k) /\ Inv t' /\ k <> 0 /\ k_solution w m nc t0 k t' /\
    Inv t1 /\ length x = nc /\ eigen_multiply mg t1 x = Ok (t2, map (fun v => k * v) x) /\
    (forall c, (c < nc)%nat -> production (ssrc (t_x t0)) (phis t') c = k * at_ x c) /\ (exists q, es (put_fission t0 q) dx (guess_of q) = Ok (t1, x, k)).
Proof.
  intros FP LX. destruct (start MS I0 FF) as (q0 & q & x0 & A1 & A2 & A3 & A4 & A5 & A6).
  assert (A5' : flat_guess nc (put_fission t0 q) x0) by exact A5.
  destruct (FP _ dx x0 A6 LX A5') as (t1 & x & k & t2 & E & I1 & L & K & (c1 & Hc1 & XN) & EM).
  destruct (finish MS I1 L) as (q1 & q2 & t' & q3 & B1 & B2 & B3 & B4 & B5 & B6 & B7 & B8 & B9).
  exists t', k, t1, t2, x. split; [|split; [auto|split; [auto|]]].
  - unfold arn_solve. rewrite A1. cbn [bind]. rewrite A2. cbn [bind]. destruct (Req_EM_T _ 0); [contradiction|].
    rewrite <- A4, E. cbn [bind]. rewrite B1. cbn [bind]. rewrite B2. cbn [bind]. rewrite B3. reflexivity.
  - rewrite EM in B8. injection B8 as _ B8.
    assert (PX : forall c, (c < nc)%nat -> production (ssrc (t_x t0)) (phis t') c = k * at_ x c).
    { intros c Hc. rewrite <- B8 in B9. assert (Q : nth c (map (fun v => k * v) x) 0 = nth c (map (production (ssrc (t_x t')) (phis t')) (seq 0 nc)) 0) by congruence.
      rewrite nth_map with (d := 0) in Q by (rewrite L; auto). rewrite nth_map_seq in Q by auto.
      destruct (sc_cells B5) as (_ & S1 & S2 & S3). rewrite <- (same_production _ _ S1 S2 S3). symmetry. exact Q. }
    destruct (sc_cells I1) as (_ & S1 & S2 & S3). split.
    { exists t1, q2. split; auto. split; auto. split; [|split].
    + intros g c Hg Hc. rewrite B7 by (rewrite ?S1; auto). rewrite PX by auto. rewrite (same_spectrum _ _ S1 S2 S3). field. auto.
    + apply EX; auto.
    + exists c1. split; auto. rewrite PX by auto. apply Rmult_integral_contrapositive. auto. }
    repeat (split; [assumption|]). exists q. unfold guess_of. rewrite <- A4. exact E.
Qed.
Theorem arn_flux es dx : finds_pair nc Inv mg es -> length dx = nc ->
  exists t' k, arn_solve mg es dx t0 = Ok (t', k) /\ Inv t' /\ k <> 0 /\ k_solution w m nc t0 k t'.
Proof. intros FP LX. destruct (arn_flux_full FP LX) as (t' & k & _ & _ & _ & A & B & C & D & _). exists t', k. auto. Qed.
End Flux.

Section Positive.
Variables (w : sweeper) (m : mtl) (nc : nat) (t0 : tstate) (l : list nat) (mg : tstate -> res tstate).
Local Notation Inv := (same_case w m nc t0).
Hypotheses (HO : homogeneous t0) (Hn : (0 < ng (mat (ssrc (t_x t0))))%nat) (SO : solve_order (t_x t0) l) (DA : all_damped w t0) (I0 : Inv t0)
  (MS : mg_solver nc Inv mg) (EX : exact w Inv mg) (FF : exists c, (c < nc)%nat /\ flat_fission t0 c <> 0).
Theorem arn_positive es dx t' k : finds_pair nc Inv mg es -> length dx = nc -> arn_solve mg es dx t0 = Ok (t', k) -> 0 < k ->
  (forall c, (c < nc)%nat -> 0 <= production (ssrc (t_x t0)) (phis t') c) ->
  eigenpair w nc t0 k (production (ssrc (t_x t0)) (phis t')).
Proof.
  intros FP LX E Hk NN. destruct (arn_flux_full I0 MS EX FF FP LX) as (t'' & k' & t1 & t2 & x & E' & I' & _ & KS & I1 & L & EM & PX & _).
  rewrite E in E'. injection E' as <- <-. destruct KS as (_ & _ & _ & _ & _ & _ & c1 & Hc1 & P1).
  destruct (fission_linear HO Hn SO DA I0 MS EX) as (a & AA).
  destruct (eigen_multiply_times MS AA I1 L) as (t3 & EM' & _). rewrite EM in EM'. injection EM' as _ EM'.
  apply (mode_eigenpair HO Hn SO DA I0 MS EX k _ AA). split; auto. split; auto. split; [exists c1; split; auto; specialize (NN c1 Hc1); lra|].
  intros c Hc. rewrite PX by auto.
  assert (Q : nth c (map (fun v => k * v) x) 0 = nth c (times nc a x) 0) by congruence.
  rewrite nth_map with (d := 0) in Q by (rewrite L; auto). unfold times in Q. rewrite nth_map_seq in Q by auto.
  transitivity (rsum nc (fun j => k * (a c j * at_ x j))); [apply rsum_ext; intros j Hj; rewrite PX by auto; ring|].
  rewrite rsum_scal. rewrite <- Q. reflexivity.
Qed.
End Positive.

(** An eigensolver that returns a mode, with either sign. *)
Lemma mode_finds nc Inv mg a k V sg : mg_solver nc Inv mg -> acts_as nc Inv mg a -> mode nc a k V -> sg <> 0 ->
  finds_pair nc Inv mg (fun t _ _ => Ok (t, map (fun c => sg * V c) (seq 0 nc), k)).
Proof.
  intros MS AA (Hk & _ & (c0 & Hc0 & V0) & MO) SG t dx x0 I _ _.
  set (x := map (fun c => sg * V c) (seq 0 nc)). assert (L : length x = nc) by (unfold x; rewrite map_length, seq_length; auto).
  assert (AX : forall c, (c < nc)%nat -> at_ x c = sg * V c) by (intros c Hc; unfold at_, x; rewrite nth_map_seq by auto; auto).
  destruct (eigen_multiply_times MS AA I L) as (t2 & EM & _). exists t, x, k, t2. split; auto. split; auto. split; auto. split; [lra|]. split.
  - exists c0. split; auto. rewrite AX by auto. apply Rmult_integral_contrapositive. split; [auto|lra].
  - rewrite EM. do 2 f_equal. apply list_ext_nth with (d := 0); [unfold times; rewrite !map_length, seq_length; auto|].
    unfold times at 1. rewrite map_length, seq_length. intros c Hc. unfold times. rewrite nth_map_seq by auto.
    rewrite nth_map with (d := 0) by (rewrite L; auto). fold (at_ x c). rewrite AX by auto.
    transitivity (rsum nc (fun j => sg * (a c j * V j))); [apply rsum_ext; intros j Hj; rewrite AX by auto; ring|].
    rewrite rsum_scal, MO by auto. ring.
Qed.
