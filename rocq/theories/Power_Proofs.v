(** * Power_Proofs: power iteration with a matrix whose rows are all alike up to a factor *)
From Verif Require Import Base BaseR Loop Banach_Proofs.
Set Implicit Arguments. Unset Strict Implicit.
Open Scope R_scope.

Lemma blowup x y c C : 0 <= x -> 0 <= y -> 0 < c -> (forall j, c * x ^ j <= C * y ^ j) -> x <= y.
Proof.
  intros Hx Hy Hc H. destruct (Rle_lt_dec x y) as [|L]; auto. exfalso.
  assert (X0 : 0 < x) by lra. assert (Q : 0 <= y / x < 1).
  { split; [apply Rmult_le_pos; auto; apply Rlt_le, Rinv_0_lt_compat; auto|]. apply Rmult_lt_reg_r with x; auto. unfold Rdiv.
    rewrite Rmult_assoc, Rinv_l by lra. lra. }
  destruct (pow_small Q C Hc) as (m & Hm). specialize (Hm m (Nat.le_refl _)). specialize (H m).
  assert (P : 0 < x ^ m) by (apply pow_lt; auto).
  assert (E : (y / x) ^ m * x ^ m = y ^ m).
  { rewrite <- Rpow_mult_distr. f_equal. field. lra. }
  apply Rmult_lt_compat_r with (r := x ^ m) in Hm; auto. replace ((y / x) ^ m * C * x ^ m) with (C * y ^ m) in Hm by (rewrite <- E; ring). lra.
Qed.

Lemma abs_between x y : Rabs x <= y -> - y <= x <= y.
Proof. unfold Rabs. destruct (Rcase_abs x); lra. Qed.

Section Power.
Variables (n : nat) (a : nat -> nat -> R) (e u : nat -> R) (d : R).
Definition app (f : nat -> R) (c : nat) : R := rsum n (fun j => a c j * f j).
Definition wsum (f : nat -> R) : R := rsum n (fun j => u j * f j).
Hypotheses (Hd : 0 < d <= 1) (He : forall c, (c < n)%nat -> 0 <= e c) (Hu : forall j, (j < n)%nat -> 0 <= u j)
  (Ha : forall c j, (c < n)%nat -> (j < n)%nat -> d * (e c * u j) <= a c j <= e c * u j) (Hue : 0 < wsum e).

Definition nonneg (f : nat -> R) : Prop := forall c, (c < n)%nat -> 0 <= f c.
Lemma app_ext f f' : (forall c, (c < n)%nat -> f c = f' c) -> forall c, app f c = app f' c.
Proof. intros H c. apply rsum_ext. intros j Hj. rewrite H; auto. Qed.
Lemma app_lin al be f f' c : app (fun c => al * f c + be * f' c) c = al * app f c + be * app f' c.
Proof. unfold app. rewrite <- !rsum_scal, <- rsum_plus. apply rsum_ext. intros; ring. Qed.
Lemma app_scal al f c : app (fun c => al * f c) c = al * app f c.
Proof. unfold app. rewrite <- rsum_scal. apply rsum_ext. intros; ring. Qed.
Lemma wsum_lin al be f f' : wsum (fun c => al * f c + be * f' c) = al * wsum f + be * wsum f'.
Proof. unfold wsum. rewrite <- !rsum_scal, <- rsum_plus. apply rsum_ext. intros; ring. Qed.
Lemma wsum_scal al f : wsum (fun c => al * f c) = al * wsum f.
Proof. unfold wsum. rewrite <- rsum_scal. apply rsum_ext. intros; ring. Qed.
Lemma wsum_nonneg f : nonneg f -> 0 <= wsum f.
Proof. intros H. apply rsum_nonneg. intros j Hj. apply Rmult_le_pos; auto. Qed.
Lemma a_nonneg c j : (c < n)%nat -> (j < n)%nat -> 0 <= a c j.
Proof. intros Hc Hj. destruct (Ha Hc Hj) as (A & _). pose proof (Rmult_le_pos _ _ (He Hc) (Hu Hj)). nra. Qed.
Lemma app_nonneg f : nonneg f -> nonneg (app f).
Proof. intros H c Hc. apply rsum_nonneg. intros j Hj. apply Rmult_le_pos; auto. apply a_nonneg; auto. Qed.
Lemma app_mono f f' : (forall c, (c < n)%nat -> f c <= f' c) -> forall c, (c < n)%nat -> app f c <= app f' c.
Proof. intros H c Hc. apply rsum_le. intros j Hj. apply Rmult_le_compat_l; auto. apply a_nonneg; auto. Qed.
(** Every image is close to a multiple of e. *)
Lemma app_bounds f c : nonneg f -> (c < n)%nat -> d * wsum f * e c <= app f c <= wsum f * e c.
Proof.
  intros H Hc. unfold wsum, app. rewrite Rmult_assoc, <- rsum_scal_r, <- rsum_scal.
  split; apply rsum_le; intros j Hj; destruct (Ha Hc Hj) as (A & B); specialize (H j Hj).
  - apply Rle_trans with (d * (e c * u j) * f j); [right; ring|]. apply Rmult_le_compat_r; auto.
  - apply Rle_trans with (e c * u j * f j); [apply Rmult_le_compat_r; auto|right; ring].
Qed.
Lemma app_pos f : nonneg f -> 0 < wsum f -> 0 < wsum (app f).
Proof.
  intros H P. apply Rlt_le_trans with (d * wsum f * wsum e); [repeat apply Rmult_lt_0_compat; auto; lra|].
  unfold wsum at 2 3. rewrite <- rsum_scal. apply rsum_le. intros j Hj. destruct (@app_bounds f j H Hj) as (A & _).
  apply Rle_trans with (u j * (d * wsum f * e j)); [right; ring|]. apply Rmult_le_compat_l; auto.
Qed.

(** ** Brackets *)
Definition bracket (f : nat -> R) (m M : R) : Prop := forall c, (c < n)%nat -> m * f c <= app f c <= M * f c.
Definition rho (f : nat -> R) : R := wsum (app f) / wsum f.
Lemma bracket_order f m M : nonneg f -> 0 < wsum f -> bracket f m M -> m <= rho f <= M.
Proof.
  intros H P B. unfold rho. split.
  - apply Rmult_le_reg_r with (wsum f); auto. unfold Rdiv. rewrite Rmult_assoc, Rinv_l, Rmult_1_r by lra.
    unfold wsum. rewrite <- rsum_scal. apply rsum_le. intros j Hj. destruct (B j Hj) as (A & _).
    apply Rle_trans with (u j * (m * f j)); [right; ring|]. apply Rmult_le_compat_l; auto.
  - apply Rmult_le_reg_r with (wsum f); auto. unfold Rdiv. rewrite Rmult_assoc, Rinv_l, Rmult_1_r by lra.
    unfold wsum. rewrite <- rsum_scal. apply rsum_le. intros j Hj. destruct (B j Hj) as (_ & A).
    apply Rle_trans with (u j * (M * f j)); [|right; ring]. apply Rmult_le_compat_l; auto.
Qed.
Lemma bracket_scal f m M k : bracket f m M -> 0 <= k -> bracket (fun c => k * f c) m M.
Proof. intros B Hk c Hc. rewrite app_scal. destruct (B c Hc). split; nra. Qed.
Lemma bracket_ext f f' m M : (forall c, (c < n)%nat -> f c = f' c) -> bracket f m M -> bracket f' m M.
Proof. intros E B c Hc. rewrite <- (app_ext E), <- E by auto. auto. Qed.
(** The image has a bracket, and one that is narrower by the factor 1 - d. *)
Lemma bracket_app f m M : nonneg f -> 0 < wsum f -> bracket f m M ->
  bracket (app f) (m + d * (rho f - m)) (M - d * (M - rho f)).
Proof.
  intros H P B c Hc. destruct (@app_bounds f c H Hc) as (_ & U).
  assert (EU : app f c / wsum f <= e c).
  { apply Rmult_le_reg_r with (wsum f); auto. unfold Rdiv. rewrite Rmult_assoc, Rinv_l, Rmult_1_r by lra. lra. }
  split.
  - set (v := fun c => 1 * app f c + (- m) * f c). assert (V : nonneg v) by (intros j Hj; unfold v; destruct (B j Hj); lra).
    destruct (@app_bounds v c V Hc) as (L & _). unfold v at 2 in L. rewrite app_lin in L.
    assert (WV : wsum v = (rho f - m) * wsum f) by (unfold v; rewrite wsum_lin; unfold rho; field; lra).
    rewrite WV in L.
    assert (R0 : 0 <= (rho f - m) * wsum f) by (rewrite <- WV; apply wsum_nonneg; auto).
    assert (d * ((rho f - m) * wsum f) * (app f c / wsum f) <= d * ((rho f - m) * wsum f) * e c).
    { apply Rmult_le_compat_l; auto. apply Rmult_le_pos; lra. }
    replace (d * ((rho f - m) * wsum f) * (app f c / wsum f)) with (d * (rho f - m) * app f c) in H0 by (field; lra). lra.
  - set (v := fun c => M * f c + (- 1) * app f c). assert (V : nonneg v) by (intros j Hj; unfold v; destruct (B j Hj); lra).
    destruct (@app_bounds v c V Hc) as (L & _). unfold v at 2 in L. rewrite app_lin in L.
    assert (WV : wsum v = (M - rho f) * wsum f) by (unfold v; rewrite wsum_lin; unfold rho; field; lra).
    rewrite WV in L.
    assert (R0 : 0 <= (M - rho f) * wsum f) by (rewrite <- WV; apply wsum_nonneg; auto).
    assert (d * ((M - rho f) * wsum f) * (app f c / wsum f) <= d * ((M - rho f) * wsum f) * e c).
    { apply Rmult_le_compat_l; auto. apply Rmult_le_pos; lra. }
    replace (d * ((M - rho f) * wsum f) * (app f c / wsum f)) with (d * (M - rho f) * app f c) in H0 by (field; lra). lra.
Qed.
Lemma bracket_first f : nonneg f -> 0 < wsum f -> exists m M, 0 < m /\ bracket (app f) m M.
Proof.
  intros H P. pose proof (app_nonneg H) as H1. pose proof (app_pos H P) as P1.
  exists (d * rho f), (rho f / d). unfold rho.
  split; [apply Rmult_lt_0_compat; [lra|]; apply Rdiv_lt_0_compat; auto|].
  intros c Hc. destruct (@app_bounds f c H Hc) as (L & U). destruct (@app_bounds (app f) c H1 Hc) as (L1 & U1). split.
  - eapply Rle_trans; [|exact L1].
    apply Rle_trans with (d * (wsum (app f) / wsum f) * (wsum f * e c)); [|right; field; lra].
    apply Rmult_le_compat_l; auto. apply Rmult_le_pos; [lra|]. apply Rlt_le, Rdiv_lt_0_compat; auto.
  - eapply Rle_trans; [exact U1|].
    apply Rle_trans with (wsum (app f) / wsum f / d * (d * wsum f * e c)); [right; field; lra|].
    apply Rmult_le_compat_l; auto. apply Rlt_le, Rdiv_lt_0_compat; [apply Rdiv_lt_0_compat; auto|lra].
Qed.

(** ** The iteration *)
Section Iteration.
Variables (F : nat -> nat -> R) (k : nat -> R).
Local Notation tot f := (rsum n f).
Hypotheses (F0 : nonneg (F 0%nat)) (P0 : 0 < wsum (F 0%nat)) (K0 : 0 < k 0%nat)
  (FS : forall i c, (c < n)%nat -> F (S i) c = / k i * app (F i) c)
  (KS : forall i, k (S i) = tot (app (F i)) / tot (F i)).

Lemma tot_nonneg f : nonneg f -> 0 <= tot f.
Proof. intros H. apply rsum_nonneg. auto. Qed.
Lemma term_le f c : nonneg f -> (c < n)%nat -> f c <= tot f.
Proof.
  intros H Hc. rewrite <- (@rsum_delta n c (f c) Hc). apply rsum_le. intros j Hj. destruct (Nat.eqb_spec j c) as [->|]; [lra|apply H; auto].
Qed.
Lemma tot_pos f : nonneg f -> 0 < wsum f -> 0 < tot f.
Proof.
  intros H P. destruct (Rle_lt_or_eq_dec _ _ (tot_nonneg H)) as [|E]; auto. exfalso.
  assert (Z : forall c, (c < n)%nat -> f c = 0) by (intros c Hc; pose proof (term_le H Hc); specialize (H c Hc); lra).
  assert (wsum f = 0); [|lra]. apply rsum_zero. intros j Hj. rewrite Z by auto. ring.
Qed.
Lemma run i : nonneg (F i) /\ 0 < wsum (F i) /\ 0 < k i.
Proof.
  induction i as [|i (A & B & C)]; [auto|].
  assert (IK : 0 < / k i) by (apply Rinv_0_lt_compat; auto).
  assert (WE : wsum (F (S i)) = / k i * wsum (app (F i))).
  { rewrite <- wsum_scal. unfold wsum. apply rsum_ext. intros c Hc. rewrite FS by auto. auto. }
  split; [|split].
  - intros c Hc. rewrite FS by auto. apply Rmult_le_pos; [lra|]. apply app_nonneg; auto.
  - rewrite WE. apply Rmult_lt_0_compat; auto. apply app_pos; auto.
  - rewrite KS. apply Rdiv_lt_0_compat; apply tot_pos; auto; [apply app_nonneg; auto|apply app_pos; auto].
Qed.
Lemma next_bracket i m M : bracket (app (F i)) m M -> bracket (F (S i)) m M.
Proof.
  intros B. destruct (run i) as (_ & _ & C). assert (0 <= / k i) by (apply Rlt_le, Rinv_0_lt_compat; auto).
  eapply bracket_ext; [|apply (bracket_scal B H)]. intros c Hc. cbv beta. rewrite FS; auto.
Qed.
Lemma k_in i m M : bracket (F i) m M -> m <= k (S i) <= M.
Proof.
  intros B. destruct (run i) as (A & P & _). pose proof (tot_pos A P) as T. rewrite KS.
  split; apply Rmult_le_reg_r with (tot (F i)); auto; unfold Rdiv; rewrite Rmult_assoc, Rinv_l, Rmult_1_r by lra;
    rewrite <- rsum_scal; apply rsum_le; intros j Hj; apply B; auto.
Qed.
(** Nested brackets from the first iteration on. *)
Lemma brackets : exists m M : nat -> R, 0 < m 0%nat /\ (forall i, bracket (F (S i)) (m i) (M i)) /\
  (forall i, m i <= m (S i) /\ m (S i) <= M (S i) /\ M (S i) <= M i) /\ (forall i, M i - m i = (1 - d) ^ i * (M 0%nat - m 0%nat)).
Proof.
  destruct (@bracket_first (F 0%nat) F0 P0) as (m0 & M0 & Hm & B0). apply next_bracket in B0.
  set (bk := fix bk i := match i with O => (m0, M0) | S i => let (m, M) := bk i in (m + d * (rho (F (S i)) - m), M - d * (M - rho (F (S i)))) end).
  assert (BS : forall i, bk (S i) = (fst (bk i) + d * (rho (F (S i)) - fst (bk i)), snd (bk i) - d * (snd (bk i) - rho (F (S i))))).
  { intros i. cbn [bk]. destruct (bk i). reflexivity. }
  exists (fun i => fst (bk i)), (fun i => snd (bk i)).
  assert (BB : forall i, bracket (F (S i)) (fst (bk i)) (snd (bk i))).
  { induction i; [exact B0|]. rewrite BS. cbn [fst snd]. apply next_bracket. apply bracket_app; auto; apply run. }
  split; [exact Hm|]. split; [exact BB|]. split.
  - intros i. destruct (run (S i)) as (A & P & _). destruct (bracket_order A P (BB i)) as (O1 & O2).
    rewrite BS. cbn [fst snd]. split; [nra|]. split; [|nra].
    assert (0 <= (1 - d) * (snd (bk i) - fst (bk i))) by (apply Rmult_le_pos; lra). lra.
  - induction i; [cbn; ring|]. rewrite BS. cbn [fst snd pow]. transitivity ((1 - d) * (snd (bk i) - fst (bk i))); [ring|]. rewrite IHi. ring.
Qed.

Lemma nested (m M : nat -> R) : (forall i, m i <= m (S i) /\ m (S i) <= M (S i) /\ M (S i) <= M i) -> m 0%nat <= M 0%nat ->
  forall i j, (i <= j)%nat -> m i <= m j /\ m j <= M j /\ M j <= M i.
Proof.
  intros H H0 i j Hij. induction Hij as [|j Hij (A & B & C)].
  - split; [lra|]. split; [|lra]. destruct i; auto. apply H.
  - destruct (H j) as (D1 & D2 & D3). lra.
Qed.

(** Any eigenpair lies in every bracket. *)
Definition eigen (l : R) (V : nat -> R) : Prop := nonneg V /\ 0 < wsum V /\ forall c, (c < n)%nat -> app V c = l * V c.
Lemma eigen_pos l V : eigen l V -> 0 < l.
Proof.
  intros (A & B & C). pose proof (app_pos A B) as P.
  assert (E : wsum (app V) = l * wsum V).
  { rewrite <- wsum_scal. unfold wsum. apply rsum_ext. intros c Hc. rewrite C; auto. }
  rewrite E in P. destruct (Rle_lt_dec l 0); auto. exfalso. nra.
Qed.
Fixpoint pw (j : nat) (f : nat -> R) : nat -> R := match j with O => f | S j => app (pw j f) end.
Lemma pw_mono f f' : nonneg f -> (forall c, (c < n)%nat -> f c <= f' c) -> forall j c, (c < n)%nat -> pw j f c <= pw j f' c.
Proof. intros N H. induction j; intros c Hc; cbn [pw]; auto. apply app_mono; auto. Qed.
Lemma pw_scal al f j c : pw j (fun c => al * f c) c = al * pw j f c.
Proof.
  revert c. induction j; intros c; cbn [pw]; auto. rewrite <- app_scal. apply app_ext. auto.
Qed.
Lemma pw_eigen l V : (forall c, (c < n)%nat -> app V c = l * V c) -> forall j c, (c < n)%nat -> pw j V c = l ^ j * V c.
Proof.
  intros H. induction j; intros c Hc; cbn [pw pow]; [ring|]. rewrite (@app_ext (pw j V) (fun c => l ^ j * V c)) by auto.
  rewrite app_scal, H by auto. ring.
Qed.
Lemma pw_nonneg f j : nonneg f -> nonneg (pw j f).
Proof. intros H. induction j; cbn [pw]; auto. apply app_nonneg; auto. Qed.
Lemma pw_bracket f m M : nonneg f -> 0 <= m -> 0 <= M -> bracket f m M -> forall j c, (c < n)%nat -> m ^ j * f c <= pw j f c <= M ^ j * f c.
Proof.
  intros N Hm HM B. induction j; intros c Hc; cbn [pw pow]; [lra|]. split.
  - apply Rle_trans with (app (fun c => m ^ j * f c) c).
    + rewrite app_scal. destruct (B c Hc). assert (0 <= m ^ j) by (apply pow_le; auto). nra.
    + apply app_mono; auto. intros c' Hc'. apply IHj; auto.
  - apply Rle_trans with (app (fun c => M ^ j * f c) c).
    + apply app_mono; auto. intros c' Hc'. apply IHj; auto.
    + rewrite app_scal. destruct (B c Hc). assert (0 <= M ^ j) by (apply pow_le; auto). nra.
Qed.
Lemma sandwich f V l : nonneg f -> 0 < wsum f -> eigen l V ->
  exists c0 C0, 0 < c0 /\ 0 < C0 /\ forall c, (c < n)%nat -> c0 * V c <= app f c <= C0 * V c.
Proof.
  intros N P EV. pose proof EV as (NV & PV & EE). pose proof (eigen_pos EV) as L.
  exists (d * wsum f * l / wsum V), (wsum f * l / (d * wsum V)).
  split; [apply Rdiv_lt_0_compat; auto; repeat apply Rmult_lt_0_compat; lra|].
  split; [apply Rdiv_lt_0_compat; [apply Rmult_lt_0_compat; auto|apply Rmult_lt_0_compat; lra]|].
  intros c Hc. destruct (@app_bounds f c N Hc) as (B1 & B2). destruct (@app_bounds V c NV Hc) as (C1 & C2). rewrite EE in C1, C2 by auto.
  split.
  - eapply Rle_trans; [|exact B1]. apply Rle_trans with (d * wsum f / wsum V * (l * V c)); [right; field; lra|].
    apply Rle_trans with (d * wsum f / wsum V * (wsum V * e c)); [|right; field; lra].
    apply Rmult_le_compat_l; auto. apply Rlt_le, Rdiv_lt_0_compat; auto. apply Rmult_lt_0_compat; lra.
  - eapply Rle_trans; [exact B2|]. apply Rle_trans with (wsum f / (d * wsum V) * (d * wsum V * e c)); [right; field; lra|].
    apply Rle_trans with (wsum f / (d * wsum V) * (l * V c)); [|right; field; lra].
    apply Rmult_le_compat_l; auto. apply Rlt_le, Rdiv_lt_0_compat; auto. apply Rmult_lt_0_compat; lra.
Qed.
Lemma pos_entry f : nonneg f -> 0 < wsum f -> exists c, (c < n)%nat /\ 0 < f c.
Proof.
  intros N P. destruct (Classical_Prop.classic (exists c, (c < n)%nat /\ 0 < f c)) as [|H]; auto. exfalso.
  assert (wsum f = 0); [|lra]. apply rsum_zero. intros j Hj. replace (f j) with 0; [ring|].
  specialize (N j Hj). destruct (Rle_lt_or_eq_dec _ _ N); auto. exfalso. apply H. eauto.
Qed.
Lemma eigen_in f m M l V : nonneg f -> 0 < wsum f -> 0 <= m -> 0 <= M -> bracket (app f) m M -> eigen l V -> m <= l <= M.
Proof.
  intros N P Hm HM B EV. pose proof EV as (NV & PV & EE). pose proof (eigen_pos EV) as L.
  destruct (sandwich N P EV) as (c0 & C0 & Hc0 & HC0 & SW). destruct (pos_entry NV PV) as (c & Hc & VC).
  pose proof (app_nonneg N) as N1.
  assert (LO : forall j, c0 * l ^ j * V c <= pw j (app f) c).
  { intros j. rewrite Rmult_assoc, <- (pw_eigen EE) by auto. rewrite <- pw_scal. apply pw_mono; auto.
    - intros c' Hc'. apply Rmult_le_pos; [lra|auto].
    - intros c' Hc'. apply SW; auto. }
  assert (HIJ : forall j, pw j (app f) c <= C0 * l ^ j * V c).
  { intros j. rewrite Rmult_assoc, <- (pw_eigen EE) by auto. rewrite <- pw_scal. apply pw_mono; auto. intros c' Hc'. apply SW; auto. }
  destruct (SW c Hc) as (S1 & S2).
  split.
  - apply (@blowup m l c0 C0); auto; [lra|]. intros j. destruct (@pw_bracket (app f) m M N1 Hm HM B j c Hc) as (X & _). specialize (HIJ j).
    assert (m ^ j * (c0 * V c) <= m ^ j * app f c) by (apply Rmult_le_compat_l; auto; apply pow_le; auto).
    apply Rmult_le_reg_r with (V c); auto. lra.
  - apply (@blowup l M c0 C0); auto; [lra|]. intros j. destruct (@pw_bracket (app f) m M N1 Hm HM B j c Hc) as (_ & X). specialize (LO j).
    assert (M ^ j * app f c <= M ^ j * (C0 * V c)) by (apply Rmult_le_compat_l; auto; apply pow_le; auto).
    apply Rmult_le_reg_r with (V c); auto. lra.
Qed.

(** ** Convergence *)
Lemma tot_scal al f : tot (fun c => al * f c) = al * tot f.
Proof. apply rsum_scal. Qed.
Lemma tot_k i : tot (F i) = k i * (tot (F 0%nat) / k 0%nat).
Proof.
  induction i; [field; lra|]. destruct (run i) as (A & B & C). pose proof (tot_pos A B) as T.
  assert (E : tot (F (S i)) = / k i * tot (app (F i))).
  { rewrite <- tot_scal. apply rsum_ext. intros c Hc. apply FS; auto. }
  rewrite E, KS. rewrite IHi in T |- *.
  assert (T0 : 0 < tot (F 0%nat)) by (apply tot_pos; auto). field. repeat split; lra.
Qed.

Theorem power_converges : exists l V K q, 0 <= q < 1 /\ eigen l V /\ (forall l' V', eigen l' V' -> l' = l) /\
  (forall i, Rabs (k (S (S i)) - l) <= q ^ i * K) /\ (forall i c, (c < n)%nat -> Rabs (F (S (S i)) c - V c) <= q ^ i * K) /\
  (forall i, rsum n (fun c => Rabs (F (S (S (S i))) c - F (S (S i)) c)) <= q ^ i * K).
Proof.
  destruct brackets as (m & M & Hm & BB & NE & WD).
  assert (MM : m 0%nat <= M 0%nat).
  { destruct (run 1) as (A & P & _). destruct (bracket_order A P (BB 0%nat)). lra. }
  pose proof (nested NE MM) as ND.
  set (q := 1 - d). assert (Hq : 0 <= q < 1) by (unfold q; lra). set (W := M 0%nat - m 0%nat). assert (W0 : 0 <= W) by (unfold W; lra).
  assert (KI : forall i, m i <= k (S (S i)) <= M i) by (intros i; apply k_in; auto).
  assert (KB : forall i, m 0%nat <= k (S (S i)) <= M 0%nat) by (intros i; specialize (KI i); destruct (ND 0%nat i ltac:(lia)) as (A & B & C); lra).
  (* the eigenvalues *)
  assert (KC : forall i, Rabs (k (S (S (S i))) - k (S (S i))) <= q ^ i * W).
  { intros i. pose proof (KI i) as (A1 & A2). pose proof (KI (S i)) as (B1 & B2). destruct (NE i) as (C1 & C2 & C3).
    specialize (WD i). fold q W in WD. apply Rabs_le. lra. }
  destruct (@geom_limit q W (fun i => k (S (S i))) Hq KC) as (l & Hl).
  assert (LB : m 0%nat <= l <= M 0%nat).
  { split.
    - destruct (Rle_lt_dec (m 0%nat) l) as [|L]; auto. exfalso.
      destruct (pow_small Hq (W / (1 - q)) (y := m 0%nat - l)) as (j & Hj); [lra|]. specialize (Hj j (Nat.le_refl _)). specialize (Hl j). specialize (KB j).
      apply abs_between in Hl. unfold Rdiv in *. lra.
    - destruct (Rle_lt_dec l (M 0%nat)) as [|L]; auto. exfalso.
      destruct (pow_small Hq (W / (1 - q)) (y := l - M 0%nat)) as (j & Hj); [lra|]. specialize (Hj j (Nat.le_refl _)). specialize (Hl j). specialize (KB j).
      apply abs_between in Hl. unfold Rdiv in *. lra. }
  (* the densities *)
  set (T0 := tot (F 0%nat) / k 0%nat). assert (HT0 : 0 < T0) by (apply Rdiv_lt_0_compat; auto; apply tot_pos; auto).
  assert (FB : forall i c, (c < n)%nat -> 0 <= F (S (S i)) c <= M 0%nat * T0).
  { intros i c Hc. destruct (run (S (S i))) as (A & _ & _). split; [apply A; auto|]. eapply Rle_trans; [apply (term_le A Hc)|]. rewrite tot_k.
    fold T0. specialize (KB i). apply Rmult_le_compat_r; lra. }
  assert (RES : forall i c, (c < n)%nat -> Rabs (app (F (S (S i))) c - k (S (S i)) * F (S (S i)) c) <= q ^ i * W * F (S (S i)) c).
  { intros i c Hc. destruct (BB (S i) c Hc) as (B1 & B2). specialize (KI i). destruct (NE i) as (C1 & C2 & C3). specialize (WD i). fold q W in WD.
    rewrite <- WD. destruct (FB i c Hc) as (Fp & _). apply Rabs_le. split; nra. }
  set (D := W / m 0%nat * (M 0%nat * T0)). assert (D0 : 0 <= D).
  { unfold D. apply Rmult_le_pos; [apply Rmult_le_pos; auto; apply Rlt_le, Rinv_0_lt_compat; auto|]. apply Rmult_le_pos; lra. }
  assert (FC : forall i c, (c < n)%nat -> Rabs (F (S (S (S i))) c - F (S (S i)) c) <= q ^ i * (W / m 0%nat) * F (S (S i)) c).
  { intros i c Hc. rewrite (FS (S (S i)) Hc). specialize (KB i).
    replace (/ k (S (S i)) * app (F (S (S i))) c - F (S (S i)) c) with (/ k (S (S i)) * (app (F (S (S i))) c - k (S (S i)) * F (S (S i)) c)) by (field; lra).
    rewrite Rabs_mult, (Rabs_pos_eq (/ k (S (S i)))) by (apply Rlt_le, Rinv_0_lt_compat; lra).
    specialize (RES i c Hc). destruct (FB i c Hc) as (Fp & _). assert (Qp : 0 <= q ^ i) by (apply pow_le; lra).
    apply Rle_trans with (/ m 0%nat * (q ^ i * W * F (S (S i)) c)); [|right; unfold Rdiv; ring].
    apply Rmult_le_compat; auto; [apply Rlt_le, Rinv_0_lt_compat; lra|apply Rabs_pos|].
    apply Rinv_le_contravar; lra. }
  assert (FC' : forall c i, (c < n)%nat -> Rabs (F (S (S (S i))) c - F (S (S i)) c) <= q ^ i * D).
  { intros c i Hc. eapply Rle_trans; [apply FC; auto|]. unfold D. rewrite (Rmult_assoc (q ^ i)). apply Rmult_le_compat_l; [apply pow_le; lra|].
    apply Rmult_le_compat_l; [apply Rmult_le_pos; auto; apply Rlt_le, Rinv_0_lt_compat; auto|apply FB; auto]. }
  assert (LIM : exists V, forall c, (c < n)%nat -> forall i, Rabs (F (S (S i)) c - V c) <= q ^ i * (D / (1 - q))).
  { exists (fun c => match lt_dec c n with left H => proj1_sig (@geom_limit q D (fun i => F (S (S i)) c) Hq (fun i => FC' c i H)) | right _ => 0 end).
    intros c Hc i. destruct (lt_dec c n) as [H|]; [|lia]. destruct (geom_limit _ _) as (v & Hv). cbn [proj1_sig]. specialize (Hv i). unfold Rdiv in *. lra. }
  destruct LIM as (V & HV).
  assert (ZERO : forall x C, (forall i, Rabs x <= q ^ i * C) -> x = 0).
  { intros x C H. destruct (Req_dec x 0) as [|N]; auto. exfalso. pose proof (Rabs_pos_lt x N) as P.
    destruct (pow_small Hq C P) as (j & Hj). specialize (Hj j (Nat.le_refl _)). specialize (H j). lra. }
  assert (VN : nonneg V).
  { intros c Hc. destruct (Rle_lt_dec 0 (V c)) as [|L]; auto. exfalso.
    destruct (pow_small Hq (D / (1 - q)) (y := - V c)) as (j & Hj); [lra|]. specialize (Hj j (Nat.le_refl _)). specialize (HV c Hc j).
    destruct (FB j c Hc). apply abs_between in HV. lra. }
  assert (VE : forall c, (c < n)%nat -> app V c = l * V c).
  { intros c Hc. apply Rminus_diag_uniq.
    set (C1 := rsum n (fun j => a c j) * (D / (1 - q))).
    apply ZERO with (C := C1 + W * (M 0%nat * T0) + W / (1 - q) * (M 0%nat * T0) + l * (D / (1 - q))).
    intros i. assert (Qp : 0 <= q ^ i) by (apply pow_le; lra).
    replace (app V c - l * V c) with ((app V c - app (F (S (S i))) c) + (app (F (S (S i))) c - k (S (S i)) * F (S (S i)) c) +
      (k (S (S i)) - l) * F (S (S i)) c + l * (F (S (S i)) c - V c)) by ring.
    assert (T1 : Rabs (app V c - app (F (S (S i))) c) <= q ^ i * C1).
    { unfold app, C1. rewrite <- rsum_minus. eapply Rle_trans.
      - assert (TR : forall nn f, Rabs (rsum nn f) <= rsum nn (fun j => Rabs (f j))).
        { intros nn f. induction nn; cbn [rsum]; [rewrite Rabs_R0; lra|]. eapply Rle_trans; [apply Rabs_triang|lra]. }
        apply TR.
      - replace (q ^ i * (rsum n (fun j => a c j) * (D / (1 - q)))) with (rsum n (fun j => a c j) * (q ^ i * (D / (1 - q)))) by ring.
        rewrite <- rsum_scal_r. apply rsum_le. intros j Hj. rewrite <- Rmult_minus_distr_l, Rabs_mult, (Rabs_pos_eq (a c j)) by (apply a_nonneg; auto).
        apply Rmult_le_compat_l; [apply a_nonneg; auto|]. rewrite Rabs_minus_sym. apply HV; auto. }
    assert (T2 : Rabs (app (F (S (S i))) c - k (S (S i)) * F (S (S i)) c) <= q ^ i * (W * (M 0%nat * T0))).
    { eapply Rle_trans; [apply RES; auto|]. rewrite Rmult_assoc. apply Rmult_le_compat_l; auto. apply Rmult_le_compat_l; auto. apply FB; auto. }
    assert (T3 : Rabs ((k (S (S i)) - l) * F (S (S i)) c) <= q ^ i * (W / (1 - q) * (M 0%nat * T0))).
    { rewrite Rabs_mult. replace (q ^ i * (W / (1 - q) * (M 0%nat * T0))) with (q ^ i * W / (1 - q) * (M 0%nat * T0)) by (unfold Rdiv; ring).
      apply Rmult_le_compat; try apply Rabs_pos; [apply Hl|]. destruct (FB i c Hc). rewrite Rabs_pos_eq; auto. }
    assert (T4 : Rabs (l * (F (S (S i)) c - V c)) <= q ^ i * (l * (D / (1 - q)))).
    { rewrite Rabs_mult, (Rabs_pos_eq l) by lra. replace (q ^ i * (l * (D / (1 - q)))) with (l * (q ^ i * (D / (1 - q)))) by ring.
      apply Rmult_le_compat_l; [lra|]. apply HV; auto. }
    eapply Rle_trans; [apply Rabs_triang|]. eapply Rle_trans; [apply Rplus_le_compat_r, Rabs_triang|].
    eapply Rle_trans; [apply Rplus_le_compat_r, Rplus_le_compat_r, Rabs_triang|]. lra. }
  assert (VP : 0 < wsum V).
  {     pose proof (tot_pos (fun c => He (c := c)) Hue) as TE.
    set (b := d * (m 0%nat * T0 / tot e)). assert (Hb : 0 < b).
    { unfold b. apply Rmult_lt_0_compat; [lra|]. apply Rdiv_lt_0_compat; auto. apply Rmult_lt_0_compat; auto. }
    assert (FL : forall i c, (c < n)%nat -> b * e c <= F (S (S i)) c).
    { intros i c Hc. destruct (run (S i)) as (A & P & C). assert (IK : 0 < / k (S i)) by (apply Rinv_0_lt_compat; auto).
      assert (TT : m 0%nat * T0 <= / k (S i) * wsum (F (S i)) * tot e).
      { apply Rle_trans with (tot (F (S (S i)))).
        - rewrite tot_k. fold T0. apply Rmult_le_compat_r; [lra|apply KB].
        - rewrite <- rsum_scal. apply rsum_le. intros j Hj. rewrite FS by auto. rewrite Rmult_assoc. apply Rmult_le_compat_l; [lra|].
          apply app_bounds; auto. }
      assert (T2 : m 0%nat * T0 / tot e <= / k (S i) * wsum (F (S i))).
      { apply Rmult_le_reg_r with (tot e); auto. unfold Rdiv. rewrite Rmult_assoc, Rinv_l, Rmult_1_r by lra. auto. }
      rewrite FS by auto. destruct (@app_bounds (F (S i)) c A Hc) as (L & _).
      apply Rle_trans with (/ k (S i) * (d * wsum (F (S i)) * e c)); [|apply Rmult_le_compat_l; lra].
      unfold b. apply Rle_trans with (d * (/ k (S i) * wsum (F (S i))) * e c); [|right; ring].
      apply Rmult_le_compat_r; [apply He; auto|]. apply Rmult_le_compat_l; lra. }
    assert (VL : forall c, (c < n)%nat -> b * e c <= V c).
    { intros c Hc. destruct (Rle_lt_dec (b * e c) (V c)) as [|L]; auto. exfalso.
      destruct (pow_small Hq (D / (1 - q)) (y := b * e c - V c)) as (j & Hj); [lra|]. specialize (Hj j (Nat.le_refl _)). specialize (HV c Hc j).
      specialize (FL j c Hc). apply abs_between in HV. lra. }
    apply Rlt_le_trans with (b * wsum e); [apply Rmult_lt_0_compat; auto|]. rewrite <- wsum_scal. unfold wsum. apply rsum_le.
    intros j Hj. apply Rmult_le_compat_l; auto. }
  assert (EV : eigen l V) by (split; [exact VN|split; auto]).
  set (K := W / (1 - q) + D / (1 - q) + W / m 0%nat * (M 0%nat * T0)).
  assert (Q1 : 0 < 1 - q) by lra. assert (IQ : 0 < / (1 - q)) by (apply Rinv_0_lt_compat; auto).
  assert (K1 : 0 <= W / (1 - q)) by (apply Rmult_le_pos; lra). assert (K2 : 0 <= D / (1 - q)) by (apply Rmult_le_pos; lra).
  fold D in K.
  exists l, V, K, q. split; [exact Hq|]. split; [exact EV|]. split; [|split; [|split]].
  - intros l' V' EV'. apply Rminus_diag_uniq. apply ZERO with (C := W). intros i.
    assert (I1 : forall l V, eigen l V -> m i <= l <= M i).
    { intros l1 V1 E1. destruct (run i) as (A & P & C). destruct (ND 0%nat i (Nat.le_0_l i)) as (N1 & N2 & N3).
      apply (@eigen_in (F i) (m i) (M i) l1 V1); auto; try lra.
      apply bracket_ext with (f := fun c => k i * F (S i) c).
      - intros c Hc. rewrite FS by auto. field. lra.
      - apply bracket_scal; auto. lra. }
    pose proof (I1 _ _ EV). pose proof (I1 _ _ EV'). specialize (WD i). fold q W in WD. apply Rabs_le. lra.
  - intros i. eapply Rle_trans; [apply Hl|]. unfold K. assert (0 <= q ^ i) by (apply pow_le; lra).
    unfold Rdiv at 1. rewrite Rmult_assoc. apply Rmult_le_compat_l; auto. unfold Rdiv in *. lra.
  - intros i c Hc. eapply Rle_trans; [apply HV; auto|]. apply Rmult_le_compat_l; [apply pow_le; lra|]. unfold K. lra.
  - intros i. apply Rle_trans with (q ^ i * (W / m 0%nat) * tot (F (S (S i)))).
    + rewrite <- rsum_scal. apply rsum_le. intros c Hc. apply FC; auto.
    + rewrite Rmult_assoc. apply Rmult_le_compat_l; [apply pow_le; lra|]. apply Rle_trans with D; [|unfold K; lra].
      unfold D. apply Rmult_le_compat_l; [apply Rmult_le_pos; auto; apply Rlt_le, Rinv_0_lt_compat; auto|].
      rewrite tot_k. fold T0. apply Rmult_le_compat_r; [lra|apply KB].
Qed.
End Iteration.
End Power.
