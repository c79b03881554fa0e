From Verif Require Import Base BaseR Util_Model Mesh_Model Mesh_Spec Mesh_Proofs Material_Model Material_Spec Matrix_Model Matrix_Spec Matrix_Proofs.
From Verif Require Import Diffusion_Model Diffusion_Spec Diffusion_Proofs Dsolve_Model Dsolve_Spec Dsolve_Proofs Dsolve_Proofs2 Dsolve_Proofs3 Dpos_Spec Dpos_Proofs.
From Coq Require Import Lra Classical.
Set Implicit Arguments. Unset Strict Implicit.
Open Scope nat_scope.

Section S.
  Variables (P : dprob) (k : R).
  Hypothesis PK : prob_ok P.
  Hypothesis AB : absorbing P k.
  Let m := q_mesh P.
  Let n := ncells m.
  Let x := q_mat P.
  Let G := ng x.
  Let be := albedo (dim m) (q_bc P) (q_zero P).
  Let D (g c : nat) := dc x g (mt m c).
  Definition xfer (g gp c : nat) : R :=
    (into (q_adj P) x g gp (mt m c) + (if q_mult P then / k * birth (q_adj P) x g gp (mt m c) else 0))%R.
  Let L := lhs m G D be (fun g c => st x g (mt m c)) xfer.
  Definition feed (i : dinput) (g c : nat) : R :=
    (vsource P i c g + rsum (dim m) (fun a => rsum 2 (fun dir => if on_edge m c (2 * a + dir) then bterm P i g c (2 * a + dir) else 0)))%R.

  Lemma MGp : mesh_good m. Proof. apply (P_good PK). Qed.
  Lemma DPp g c : g < G -> c < n -> (0 < D g c)%R. Proof. apply (D_pos PK). Qed.
  Lemma BEp s : (-1 <= be s <= 1)%R. Proof. apply albedo_range. Qed.
  Lemma mt_lt c : c < n -> mt m c < nm x. Proof. destruct PK as (_ & _ & MT & _). apply MT. Qed.
  Lemma ss_nonneg g gp c : g < G -> gp < G -> c < n -> (0 <= ss x g gp (mt m c))%R.
  Proof. intros Hg Hgp Hc. destruct PK as (_ & _ & MT & _ & SS & _). apply SS; auto using mt_lt. Qed.
  Lemma birth_nonneg g gp c : q_mult P = true -> g < G -> gp < G -> c < n -> (0 < / k /\ 0 <= birth (q_adj P) x g gp (mt m c))%R.
  Proof.
    intros Q Hg Hgp Hc. destruct AB as (_ & M). destruct (M Q) as (K & CN). destruct (CN g c Hg Hc), (CN gp c Hgp Hc).
    split; [apply Rinv_0_lt_compat; auto|]. unfold birth. destruct (q_adj P); apply Rmult_le_pos; auto.
  Qed.
  Lemma TPp g gp c : g < G -> gp < G -> c < n -> (0 <= xfer g gp c)%R.
  Proof.
    intros Hg Hgp Hc. unfold xfer. apply Rplus_le_le_0_compat.
    - unfold into. destruct (q_adj P); apply ss_nonneg; auto.
    - destruct (q_mult P) eqn:Q; [|lra]. destruct (birth_nonneg Q Hg Hgp Hc). apply Rmult_le_pos; lra.
  Qed.
  Lemma G_pos : 0 < G. Proof. destruct PK as (_ & H & _). cbn in H. fold x G in H. lia. Qed.

  Lemma pos y : (forall g c, g < G -> c < n -> (0 <= L y g c)%R) -> forall g c, g < G -> c < n -> (0 <= y g c)%R.
  Proof.
    destruct AB as (DOM & _). destruct (q_adj P) eqn:A.
    - apply positive_rows; auto using MGp, DPp, BEp, TPp, G_pos.
      intros g c Hg Hc. refine (Rle_lt_trans _ _ _ (Req_le _ _ _) (DOM g c Hg Hc)). unfold xfer, into, birth. rewrite A. fold x m G.
      rewrite rsum_plus. f_equal. destruct (q_mult P).
      + rewrite <- !rsum_scal. apply rsum_ext. intros; ring.
      + apply rsum_zero; auto.
    - apply positive_columns; auto using MGp, DPp, BEp, TPp.
      intros g c Hg Hc. refine (Rle_lt_trans _ _ _ (Req_le _ _ _) (DOM g c Hg Hc)). unfold xfer, into, birth. rewrite A. fold x m G.
      rewrite rsum_plus. f_equal. destruct (q_mult P).
      + rewrite <- !rsum_scal. apply rsum_ext. intros; ring.
      + apply rsum_zero; auto.
  Qed.

  Lemma L_reactions y g c : g < G -> c < n -> L y g c = (leakage m (cur m (D g) be (y g)) c + reactions (full_loss P k) y g c)%R.
  Proof.
    intros Hg Hc. unfold L, lhs, reactions. rewrite (full_active PK), full_first. cbn [full_loss d_loss l_sf l_mat l_mesh l_adj l_fis l_keff Nat.eqb Nat.add].
    fold m x G. f_equal. unfold Rminus. f_equal. f_equal. unfold xfer.
    rewrite (@rsum_ext G _ (fun gp => into (q_adj P) x g gp (mt m c) * y gp c + (if q_mult P then / k * birth (q_adj P) x g gp (mt m c) else 0) * y gp c)%R)
      by (intros; ring).
    rewrite rsum_plus. f_equal. destruct (q_mult P).
    - rewrite <- rsum_scal. apply rsum_ext. intros; ring.
    - apply rsum_zero. intros; ring.
  Qed.

  Lemma returned_solves i phi : returned P i k phi -> forall g c, g < G -> c < n -> L phi g c = feed i g c.
  Proof.
    intros (srt & lin & calls & s & r & HS & HL & KO & CO & CK & HR & ES & HP) g c Hg Hc.
    destruct (keffs_app KO) as [K1 K2]. assert (GS := runs_good PK HS HL K1 CO HR).
    destruct (solve_shape PK HS HL GS K2 CK) as (A & Q & B & LQ & NQ & X).
    destruct (lin A Q (s_x s)) as [v| |] eqn:EL; [|congruence|congruence].
    destruct X as (r' & ES' & GR & EX & NP & VO). assert (r' = r) by congruence. subst r'.
    destruct (full_builds PK HS k) as (C & B' & H). assert (C = A) by congruence. subst C.
    destruct (HL _ _ _ _ EL) as [LX MX]. destruct GS as (_ & LS & _). rewrite LS in LX.
    destruct (H v LX) as (y & M & LY & Y). assert (y = Q) by congruence. subst y.
    unfold feed. fold m n x G in NQ. rewrite <- NQ by auto. fold m n x G in Y. rewrite Y by auto.
    unfold L. rewrite (@lhs_ext m G D be (fun g c => st x g (mt m c)) xfer phi (part n v) g c); auto.
    - apply L_reactions; auto.
    - intros g' c' Hg' Hc'. rewrite HP by auto. apply NP; auto.
  Qed.

  Lemma outer_on s c : s < 2 * dim m -> c < n -> on_edge m c s = true -> outer m s c.
  Proof.
    intros Hs Hc E. assert (DL := dim_le PK). fold m in DL. set (a := s / 2).
    assert (SA : s = 2 * a \/ s = 2 * a + 1) by (assert (Q := Nat.div_mod_eq s 2); assert (U := Nat.mod_upper_bound s 2); fold a in Q; lia).
    assert (A3 : a < 3) by lia. clearbody a. exists a. destruct SA as [SA|SA]; subst s; [left|right]; split; auto.
    - apply edge_low; auto.
    - apply edge_high; auto.
  Qed.

  Lemma bterm_mono i i' g c s : g < G -> c < n -> s < 2 * dim m -> on_edge m c s = true ->
    (at_face m (i_in i) s g c <= at_face m (i_in i') s g c -> bterm P i g c s <= bterm P i' g c s)%R.
  Proof.
    intros Hg Hc Hs HE H. unfold bterm. fold m x. assert (DD := DPp Hg Hc). assert (W := wid_pos MGp (s / 2) Hc). unfold D in DD.
    unfold Rdiv. apply Rmult_le_compat_r.
    - left. apply Rinv_0_lt_compat. apply Rmult_lt_0_compat; lra.
    - apply Rmult_le_compat_l; [lra|auto].
  Qed.
  Lemma feed_mono i i' : weaker P i i' -> forall g c, g < G -> c < n -> (feed i g c <= feed i' g c)%R.
  Proof.
    intros W g c Hg Hc. destruct (W g Hg) as (V & F). unfold feed. apply Rplus_le_compat; [apply V; auto|].
    apply rsum_le. intros a Ha. apply rsum_le. intros dir Hd. destruct (on_edge m c (2 * a + dir)) eqn:E; [|lra].
    apply bterm_mono; auto; [lia|]. apply F; [fold m; lia|]. apply outer_on; auto. lia.
  Qed.
  Definition no_input : dinput := {| i_ext := []; i_fis := None; i_in := btab_new m G; i_out := btab_new m G |}.
  Lemma face_zero s g c : at_face m (btab_new m G) s g c = 0%R.
  Proof. unfold at_face. destruct (dim m) as [|[|[|d]]], (s / 2) as [|[|a]]; reflexivity. Qed.
  Lemma weaker_no i : nonnegative P i -> weaker P no_input i.
  Proof.
    intros N g Hg. destruct (N g Hg) as (A & B). split.
    - intros c Hc. unfold vsource at 1, no_input. cbn. specialize (A c Hc). lra.
    - intros s c Hs HO. cbn [no_input i_in]. rewrite face_zero. apply B; auto.
  Qed.
  Lemma bterm_no g c s : bterm P no_input g c s = 0%R.
  Proof. unfold bterm. cbn [no_input i_in]. rewrite face_zero. unfold Rdiv. ring. Qed.
  Lemma feed_no g c : feed no_input g c = 0%R.
  Proof.
    unfold feed, vsource, no_input. cbn [i_ext i_fis map sumR fold_right]. rewrite rsum_zero; [lra|]. intros a Ha. apply rsum_zero. intros dir Hd.
    destruct (on_edge m c (2 * a + dir)); auto. apply bterm_no.
  Qed.
  Lemma feed_nonneg i : nonnegative P i -> forall g c, g < G -> c < n -> (0 <= feed i g c)%R.
  Proof. intros N g c Hg Hc. rewrite <- (feed_no g c). apply feed_mono; auto using weaker_no. Qed.

  Lemma returned_mono i i' phi phi' : weaker P i i' -> returned P i k phi -> returned P i' k phi' ->
    forall g c, g < G -> c < n -> (phi g c <= phi' g c)%R.
  Proof.
    intros W R R'. assert (S1 := returned_solves R). assert (S2 := returned_solves R').
    apply (lhs_mono pos). intros g c Hg Hc. fold L. rewrite S1, S2 by auto. apply feed_mono; auto.
  Qed.
  Lemma returned_unique i i' phi phi' : weaker P i i' -> weaker P i' i -> returned P i k phi -> returned P i' k phi' ->
    forall g c, g < G -> c < n -> phi g c = phi' g c.
  Proof. intros A B R1 R2 g c Hg Hc. apply Rle_antisym; [apply (returned_mono A R1 R2)|apply (returned_mono B R2 R1)]; auto. Qed.

  Lemma feed_pos i g c : nonnegative P i -> g < G -> c < n ->
    (0 < feed i g c)%R <-> (0 < vsource P i c g)%R \/ exists s, s < 2 * dim m /\ outer m s c /\ (0 < at_face m (i_in i) s g c)%R.
  Proof.
    intros N Hg Hc. destruct (N g Hg) as (A & B). specialize (A c Hc).
    assert (TN : forall a dir, a < dim m -> dir < 2 -> (0 <= if on_edge m c (2 * a + dir) then bterm P i g c (2 * a + dir) else 0)%R).
    { intros a dir Ha Hd. destruct (on_edge m c (2 * a + dir)) eqn:E; [|lra]. rewrite <- (bterm_no g c (2 * a + dir)). apply bterm_mono; auto; [lia|].
      cbn [no_input i_in]. rewrite face_zero. apply B; [fold m; lia|]. apply outer_on; auto; lia. }
    assert (TN2 : forall a, a < dim m -> (0 <= rsum 2 (fun dir => if on_edge m c (2 * a + dir) then bterm P i g c (2 * a + dir) else 0))%R)
      by (intros a Ha; apply rsum_nonneg; intros; apply TN; auto).
    unfold feed. split.
    - intros F. destruct (Rlt_dec 0 (vsource P i c g)) as [|NV]; [auto|right]. apply NNPP. intros NE.
      assert (Z : rsum (dim m) (fun a => rsum 2 (fun dir => if on_edge m c (2 * a + dir) then bterm P i g c (2 * a + dir) else 0))%R = 0%R).
      { apply rsum_zero. intros a Ha. apply rsum_zero. intros dir Hd. destruct (on_edge m c (2 * a + dir)) eqn:E; [|auto].
        assert (OU : outer m (2 * a + dir) c) by (apply outer_on; auto; lia).
        assert (B0 := B (2 * a + dir) c ltac:(fold m; lia) OU). fold m in B0. unfold bterm. fold m.
        destruct B0 as [B0|B0]; [exfalso; apply NE; exists (2 * a + dir); split; [lia|auto]|]. rewrite <- B0. unfold Rdiv. ring. }
      rewrite Z in F. lra.
    - assert (SN : (0 <= rsum (dim m) (fun a => rsum 2 (fun dir => if on_edge m c (2 * a + dir) then bterm P i g c (2 * a + dir) else 0)))%R)
        by (apply rsum_nonneg; auto).
      intros [V|(s & Hs & HO & J)]; [lra|]. set (a := s / 2). set (dir := s mod 2).
      assert (SA : s = 2 * a + dir) by (unfold a, dir; apply Nat.div_mod_eq).
      assert (HD : dir < 2) by (apply Nat.mod_upper_bound; lia).
      destruct (outer_edge HO) as [_ E]. fold m in E.
      assert (BP : (0 < bterm P i g c s)%R).
      { unfold bterm. fold m x. assert (DD := DPp Hg Hc). assert (W := wid_pos MGp (s / 2) Hc). unfold D in DD.
        apply Rdiv_lt_0_compat; [|apply Rmult_lt_0_compat; lra]. apply Rmult_lt_0_compat; [lra|auto]. }
      assert (U1 := @rsum_above 2 (fun dir => if on_edge m c (2 * a + dir) then bterm P i g c (2 * a + dir) else 0)%R dir HD).
      cbn beta in U1. rewrite <- SA, E in U1.
      assert (Ha : a < dim m) by lia. assert (U2 := @rsum_above (dim m) _ a Ha TN2). cbn beta in U2.
      assert (bterm P i g c s <= rsum 2 (fun dir => if on_edge m c (2 * a + dir) then bterm P i g c (2 * a + dir) else 0))%R
        by (apply U1; intros; apply TN; auto). lra.
  Qed.
  Lemma xfer_pos g gp c : g < G -> gp < G -> c < n -> (0 < xfer g gp c)%R <-> transfers P g gp c.
  Proof.
    intros Hg Hgp Hc. unfold xfer, transfers. fold m x.
    assert (I : (0 <= into (q_adj P) x g gp (mt m c))%R) by (unfold into; destruct (q_adj P); apply ss_nonneg; auto).
    change (if q_adj P then ss x gp g (mt m c) else ss x g gp (mt m c)) with (into (q_adj P) x g gp (mt m c)).
    change (if q_adj P then (chi x gp (mt m c) * nsf x g (mt m c))%R else (chi x g (mt m c) * nsf x gp (mt m c))%R) with (birth (q_adj P) x g gp (mt m c)).
    destruct (q_mult P) eqn:Q.
    - destruct (birth_nonneg Q Hg Hgp Hc) as (K & BN). split.
      + intros H. destruct I as [I|I]; [auto|right]. split; auto. destruct BN as [BN|BN]; [auto|]. rewrite <- I, <- BN in H. lra.
      + intros [H|(_ & H)].
        * assert (0 <= / k * birth (q_adj P) x g gp (mt m c))%R by (apply Rmult_le_pos; lra). lra.
        * assert (0 < / k * birth (q_adj P) x g gp (mt m c))%R by (apply Rmult_lt_0_compat; lra). lra.
    - split; [left; lra|]. intros [H|(H & _)]; [lra|discriminate].
  Qed.
  Lemma fed_reached i phi : nonnegative P i -> returned P i k phi -> forall g, fed m G D be (fun g c => st x g (mt m c)) xfer phi g <-> reached P i g.
  Proof.
    intros N R g. assert (S1 := returned_solves R). split.
    - induction 1 as [g c Hg Hc Y|g gp c Hg Hgp Hc TG F IH].
      + fold L in Y. rewrite S1 in Y by auto. apply feed_pos in Y; auto. destruct Y as [Y|(s & Hs & HO & J)].
        * eapply reached_source; eauto.
        * eapply reached_current; eauto.
      + eapply reached_transfer; eauto. apply xfer_pos; auto.
    - induction 1 as [g c Hg Hc V|g c s Hg Hs HO J|g gp c Hg Hgp Hc TG F IH].
      + apply (@fed_source m G D be (fun g c => st x g (mt m c)) xfer phi g c); auto. fold L. rewrite S1 by auto. apply feed_pos; auto.
      + destruct (outer_edge HO) as [Hc _]. fold m n in Hc.
        apply (@fed_source m G D be (fun g c => st x g (mt m c)) xfer phi g c); auto. fold L. rewrite S1 by auto. apply feed_pos; auto. right. exists s. auto.
      + eapply fed_transfer; eauto. apply xfer_pos; auto.
  Qed.
  Lemma returned_reached i phi : nonnegative P i -> returned P i k phi -> forall g, g < G ->
    (reached P i g -> forall c, c < n -> (0 < phi g c)%R) /\ (~ reached P i g -> forall c, c < n -> phi g c = 0%R).
  Proof.
    intros N R g Hg. assert (S1 := returned_solves R).
    assert (YP : forall g c, g < G -> c < n -> (0 <= lhs m G D be (fun g c => st x g (mt m c)) xfer phi g c)%R)
      by (intros; fold L; rewrite S1 by auto; apply feed_nonneg; auto).
    split; intros H c Hc.
    - apply (fed_pos MGp DPp BEp TPp pos YP); auto. apply fed_reached with (i := i); auto.
    - apply (unfed_zero TPp pos YP); auto. intros F. apply H. apply (fed_reached N R). auto.
  Qed.

  Lemma returned_exists i srt : is_sort srt -> keffs_ok P [k] -> call_ok P i -> exists phi, returned P i k phi.
  Proof.
    intros HS KO CK. destruct (lhs_onto pos (feed i)) as (y & Y).
    set (v := map (fun j => y (j / n) (j mod n)) (seq 0 (d_size P))).
    assert (PV : forall g c, g < G -> c < n -> part n v g c = y g c).
    { intros g c Hg Hc. unfold part, v. assert (LT : c + g * n < d_size P) by (unfold d_size; fold m n x G; nia).
      rewrite nth_map_seq by auto. rewrite Nat.div_add, Nat.div_small, Nat.mod_add, Nat.mod_small by lia. auto. }
    destruct (@oracle_solves P v srt i k PK HS KO CK) as (s & r & EN & ES & NP & _).
    - unfold v. rewrite map_length, seq_length. auto.
    - intros g c Hg Hc. fold m n x G be in Hg, Hc |- *. change (fun c => dc x g (mt m c)) with (D g).
      rewrite <- L_reactions by auto. change (L (part n v) g c = feed i g c). rewrite <- Y by auto. unfold L. apply lhs_ext; auto.
    - exists (fun g c => nth c (nth g (r_phi r) []) 0%R). exists srt, (oracle v), [], s, r.
      split; [auto|]. split; [apply oracle_exact|]. split; [exact KO|]. split; [intros ? ? []|]. split; [auto|].
      split; [unfold d_runs; rewrite EN; auto|]. split; [auto|]. auto.
  Qed.
End S.
