(** * Banach_Proofs: a contraction of fluxes has one fixed point, and iterating it converges. *)
From Verif Require Import Base BaseR Loop Sweep_Spec.
Set Implicit Arguments. Unset Strict Implicit.
Open Scope R_scope.

Lemma pow_small r : 0 <= r < 1 -> forall K y, 0 < y -> exists m, forall i, (m <= i)%nat -> r ^ i * K < y.
Proof.
  intros Hr K y Hy. destruct (@pow_lt_1_zero r) with (y := y / (Rabs K + 1)) as (m & Hm).
  { rewrite Rabs_pos_eq; lra. }
  { apply Rdiv_lt_0_compat; auto. pose proof (Rabs_pos K). lra. }
  exists m. intros i Hi. specialize (Hm i Hi). assert (0 <= r ^ i) by (apply pow_le; lra).
  rewrite Rabs_pos_eq in Hm by auto. pose proof (Rabs_pos K). pose proof (Rle_abs K).
  assert (r ^ i * (Rabs K + 1) < y).
  { apply Rmult_lt_compat_r with (r := Rabs K + 1) in Hm; [|lra]. replace (y / (Rabs K + 1) * (Rabs K + 1)) with y in Hm by (field; lra). auto. }
  nra.
Qed.

Lemma geom_tail r K (u : nat -> R) : 0 <= r < 1 -> (forall i, Rabs (u (S i) - u i) <= r ^ i * K) ->
  forall m i, Rabs (u (i + m)%nat - u i) <= r ^ i * K / (1 - r).
Proof.
  intros Hr H.
  assert (K0 : 0 <= K) by (specialize (H 0%nat); pose proof (Rabs_pos (u 1%nat - u 0%nat)); simpl in H; lra).
  assert (G : forall m i, Rabs (u (i + m)%nat - u i) <= r ^ i * K * (1 - r ^ m) / (1 - r)).
  { induction m; intros i.
    - rewrite Nat.add_0_r, Rminus_diag_eq, Rabs_R0 by auto. simpl. right. field. lra.
    - replace (i + S m)%nat with (S i + m)%nat by lia.
      replace (u (S i + m)%nat - u i) with ((u (S i + m)%nat - u (S i)) + (u (S i) - u i)) by ring.
      eapply Rle_trans; [apply Rabs_triang|]. specialize (IHm (S i)). specialize (H i).
      apply Rle_trans with (r ^ S i * K * (1 - r ^ m) / (1 - r) + r ^ i * K); [lra|]. right. simpl. field. lra. }
  intros m i. eapply Rle_trans; [apply G|]. unfold Rdiv. apply Rmult_le_compat_r.
  - apply Rlt_le, Rinv_0_lt_compat. lra.
  - assert (0 <= r ^ i) by (apply pow_le; lra). assert (0 <= r ^ m) by (apply pow_le; lra).
    pose proof (Rmult_le_pos _ _ H0 K0). nra.
Qed.

Lemma geom_limit r K (u : nat -> R) : 0 <= r < 1 -> (forall i, Rabs (u (S i) - u i) <= r ^ i * K) ->
  { l | forall i, Rabs (u i - l) <= r ^ i * K / (1 - r) }.
Proof.
  intros Hr H. pose proof (geom_tail Hr H) as GT. destruct (R_complete u) as (l & Hl).
  - intros eps He. destruct (pow_small Hr (K / (1 - r)) (y := eps / 2)) as (m & Hm); [lra|].
    exists m. intros p q Hp Hq. unfold R_dist.
    replace (u p - u q) with ((u p - u m) + (u m - u q)) by ring.
    eapply Rle_lt_trans; [apply Rabs_triang|]. specialize (Hm m (Nat.le_refl _)). unfold ge in *.
    pose proof (GT (p - m)%nat m) as A. pose proof (GT (q - m)%nat m) as B.
    replace (m + (p - m))%nat with p in A by lia. replace (m + (q - m))%nat with q in B by lia.
    rewrite <- (Rabs_Ropp (u m - u q)). replace (- (u m - u q)) with (u q - u m) by ring. unfold Rdiv in *. lra.
  - exists l. intros i. destruct (Rle_lt_dec (Rabs (u i - l)) (r ^ i * K / (1 - r))) as [|C]; auto. exfalso.
    destruct (Hl (Rabs (u i - l) - r ^ i * K / (1 - r))) as (m & Hm); [lra|].
    specialize (Hm (i + m)%nat ltac:(lia)). unfold R_dist in Hm. pose proof (GT m i) as A.
    assert (Rabs (u i - l) <= Rabs (u (i + m)%nat - u i) + Rabs (u (i + m)%nat - l)).
    { replace (u i - l) with (- (u (i + m)%nat - u i) + (u (i + m)%nat - l)) by ring.
      eapply Rle_trans; [apply Rabs_triang|]. rewrite Rabs_Ropp. lra. }
    lra.
Qed.

Section Banach.
Variables (n : nat) (N : (nat -> R) -> R) (kp km r : R) (T : list R -> list R).
Definition dif (f f' : list R) (c : nat) : R := at_ f c - at_ f' c.
Hypothesis Nge : forall e, 0 <= N e.
Hypothesis Ntri : forall e e1 e2, (forall c, (c < n)%nat -> e c = e1 c + e2 c) -> N e <= N e1 + N e2.
Hypothesis Nopp : forall e e', (forall c, (c < n)%nat -> e c = - e' c) -> N e = N e'.
Hypothesis Npt : forall e c, (c < n)%nat -> Rabs (e c) <= kp * N e.
Hypothesis Nup : forall e m, 0 <= m -> (forall c, (c < n)%nat -> Rabs (e c) <= m) -> N e <= km * m.
Hypothesis Hkp : 0 <= kp.
Hypothesis Hkm : 0 <= km.
Hypothesis Hr : 0 <= r < 1.
Hypothesis Tlen : forall f, length f = n -> length (T f) = n.
Hypothesis Tcon : forall f f', length f = n -> length f' = n -> N (dif (T f) (T f')) <= r * N (dif f f').

Lemma N_same f f' : (forall c, (c < n)%nat -> at_ f c = at_ f' c) -> N (dif f f') = 0.
Proof.
  intros H. apply Rle_antisym; auto. eapply Rle_trans; [apply (@Nup _ 0); [lra|]|lra].
  intros c Hc. unfold dif. rewrite H, Rminus_diag_eq, Rabs_R0 by auto. lra.
Qed.
Lemma N_zero f f' : length f = n -> length f' = n -> N (dif f f') <= 0 -> f = f'.
Proof.
  intros L L' H. apply list_ext_nth with (d := 0); [lia|]. intros c Hc. rewrite L in Hc.
  pose proof (Npt (dif f f') Hc) as A. pose proof (Nge (dif f f')). assert (E0 : N (dif f f') = 0) by lra. rewrite E0, Rmult_0_r in A.
  pose proof (Rabs_pos (dif f f' c)). assert (Z : Rabs (dif f f' c) = 0) by lra. unfold dif, at_ in Z.
  destruct (Req_dec (nth c f 0 - nth c f' 0) 0) as [|C]; [lra|]. apply Rabs_no_R0 in C. congruence.
Qed.
Lemma N_sym f f' : N (dif f f') = N (dif f' f).
Proof. apply Nopp. intros. unfold dif. ring. Qed.
Lemma N_via f f1 f' : N (dif f f') <= N (dif f f1) + N (dif f1 f').
Proof. apply Ntri. intros. unfold dif. ring. Qed.

Fixpoint iter (k : nat) (f : list R) : list R := match k with O => f | S k => T (iter k f) end.
Lemma iter_len k f : length f = n -> length (iter k f) = n.
Proof. intros L. induction k; cbn [iter]; auto. Qed.
Lemma iter_step f i : length f = n -> N (dif (iter (S i) f) (iter i f)) <= r ^ i * N (dif (T f) f).
Proof.
  intros L. induction i.
  - cbn [iter pow]. lra.
  - change (iter (S (S i)) f) with (T (iter (S i) f)). change (iter (S i) f) with (T (iter i f)) at 2.
    eapply Rle_trans; [apply Tcon; apply iter_len; auto|]. cbn [pow]. pose proof (proj1 Hr). nra.
Qed.

Lemma unique_fixed f f' : length f = n -> length f' = n -> T f = f -> T f' = f' -> f = f'.
Proof.
  intros L L' E E'. apply N_zero; auto. pose proof (@Tcon f f' L L') as C. rewrite E, E' in C. pose proof (Nge (dif f f')). nra.
Qed.

Lemma fixed_exists : exists f, length f = n /\ T f = f.
Proof.
  set (f0 := repeat 0 n). assert (L0 : length f0 = n) by apply repeat_length.
  set (D := N (dif (T f0) f0)).
  assert (ST : forall c i, (c < n)%nat -> Rabs (at_ (iter (S i) f0) c - at_ (iter i f0) c) <= r ^ i * (kp * D)).
  { intros c i Hc. pose proof (Npt (dif (iter (S i) f0) (iter i f0)) Hc) as A. unfold dif at 1 in A.
    eapply Rle_trans; [exact A|]. pose proof (iter_step i L0) as B. fold D in B.
    replace (r ^ i * (kp * D)) with (kp * (r ^ i * D)) by ring. apply Rmult_le_compat_l; auto. }
  set (lim := fun c => match lt_dec c n with
     | left H => proj1_sig (@geom_limit r (kp * D) (fun i => at_ (iter i f0) c) Hr (fun i => ST c i H)) | right _ => 0 end).
  set (f := map lim (seq 0 n)).
  assert (L : length f = n) by (unfold f; rewrite map_length, seq_length; auto).
  assert (HL : forall c i, (c < n)%nat -> Rabs (dif (iter i f0) f c) <= r ^ i * (kp * D) / (1 - r)).
  { intros c i Hc. unfold dif, f, at_ at 2. rewrite nth_map_seq by auto. unfold lim. destruct (lt_dec c n) as [H|]; [|lia].
    destruct (geom_limit _ _) as (l & Hl). cbn. apply Hl. }
  exists f. split; auto. apply N_zero; auto.
  assert (D0 : 0 <= kp * D) by (apply Rmult_le_pos; auto; apply Nge).
  set (C := km * (kp * D) / (1 - r)).
  assert (NI : forall i, N (dif (iter i f0) f) <= r ^ i * C).
  { intros i. eapply Rle_trans; [apply (@Nup _ (r ^ i * (kp * D) / (1 - r)))|].
    - apply Rmult_le_pos; [apply Rmult_le_pos; auto; apply pow_le; lra|]. apply Rlt_le, Rinv_0_lt_compat. lra.
    - intros c Hc. apply HL. auto.
    - right. unfold C. field. lra. }
  destruct (Rle_lt_dec (N (dif (T f) f)) 0) as [|P]; auto. exfalso.
  destruct (pow_small Hr (2 * C) P) as (m & Hm). specialize (Hm m (Nat.le_refl _)).
  pose proof (@N_via (T f) (iter (S m) f0) f) as A. pose proof (NI (S m)) as B1. pose proof (NI m) as B2.
  pose proof (@Tcon f (iter m f0) L (iter_len m L0)) as B3. change (T (iter m f0)) with (iter (S m) f0) in B3.
  rewrite (N_sym f) in B3. cbn [pow] in B1.
  assert (0 <= C) by (specialize (NI 0%nat); pose proof (Nge (dif (iter 0 f0) f)); cbn [pow] in NI; lra).
  assert (0 <= r ^ m) by (apply pow_le; lra). assert (0 <= r ^ m * C) by (apply Rmult_le_pos; auto).
  assert (r * N (dif (iter m f0) f) <= r * (r ^ m * C)) by (apply Rmult_le_compat_l; lra).
  assert (r * (r ^ m * C) <= r ^ m * C) by nra.
  nra.
Qed.

Lemma iter_error f fs i : length f = n -> length fs = n -> T fs = fs -> N (dif (iter i f) fs) <= r ^ i * N (dif f fs).
Proof.
  intros L Ls E. induction i; cbn [iter pow]; [lra|].
  pose proof (@Tcon (iter i f) fs (iter_len i L) Ls) as C. rewrite E in C. pose proof (proj1 Hr). nra.
Qed.
Lemma posteriori f fs : length f = n -> length fs = n -> T fs = fs -> N (dif (T f) fs) <= r / (1 - r) * N (dif (T f) f).
Proof.
  intros L Ls E. pose proof (@Tcon f fs L Ls) as C. rewrite E in C. pose proof (N_via f (T f) fs) as A. rewrite (N_sym f (T f)) in A.
  set (x := N (dif (T f) fs)) in *. set (d := N (dif (T f) f)) in *.
  assert (r * N (dif f fs) <= r * (d + x)) by (apply Rmult_le_compat_l; lra). assert (x * (1 - r) <= r * d) by nra. apply Rmult_le_reg_r with (1 - r); [lra|]. replace (r / (1 - r) * d * (1 - r)) with (r * d) by (field; lra). auto.
Qed.
Lemma iter_settles f tol : length f = n -> 0 < tol ->
  exists m, forall i c, (m <= i)%nat -> (c < n)%nat -> Rabs (dif (iter i f) (iter (S i) f) c) < tol.
Proof.
  intros L Ht. destruct (pow_small Hr (kp * N (dif (T f) f)) Ht) as (m & Hm). exists m. intros i c Hi Hc.
  eapply Rle_lt_trans; [apply Npt; auto|]. rewrite N_sym. eapply Rle_lt_trans; [apply Rmult_le_compat_l; auto; apply iter_step; auto|].
  specialize (Hm i Hi). lra.
Qed.
End Banach.
