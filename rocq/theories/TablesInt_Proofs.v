(** * TablesInt_Proofs: the half-range and quarter-circle values are integrals. *)
From Coq Require Import Reals Lra Lia.
From Coquelicot Require Import Coquelicot.
From Verif Require Import Base BaseR Tables_Spec.
Local Open Scope R_scope.
Lemma quarter_step k : is_RInt (fun t => (INR k + 2) * cos t ^ S (S k) - (INR k + 1) * cos t ^ k) 0 (PI / 2) 0.
Proof.
  replace 0 with (minus (cos (PI / 2) ^ S k * sin (PI / 2)) (cos 0 ^ S k * sin 0)) at 2.
  2:{ rewrite cos_PI2, sin_0. unfold minus, plus, opp; cbn. ring. }
  apply (is_RInt_derive (fun t => cos t ^ S k * sin t)).
  - intros x _. auto_derive; auto. replace (Init.Nat.pred (S k)) with k by reflexivity.
    change (match k with 0%nat => 1 | S _ => INR k + 1 end) with (INR (S k)). rewrite S_INR.
    replace (-1) with (- (1)) by ring. pose proof (sin2_cos2 x) as P. unfold Rsqr in P. cbn [pow].
    replace (1 * - sin x) with (- sin x) by ring.
    transitivity (cos x * cos x ^ k * cos x - (INR k + 1) * cos x ^ k * (sin x * sin x)); [|replace (sin x * sin x) with (1 - cos x * cos x) by lra; ring]. ring.
  - intros x _. apply (@ex_derive_continuous R_AbsRing R_NormedModule). auto_derive. auto.
Qed.
Lemma cos_pow_int k : ex_RInt (fun t => cos t ^ k) 0 (PI / 2).
Proof. apply (@ex_RInt_continuous R_CompleteNormedModule). intros x _. apply (@ex_derive_continuous R_AbsRing R_NormedModule). auto_derive. auto. Qed.
Lemma quarter_integral k : quarter k = RInt (fun t => cos t ^ k) 0 (PI / 2).
Proof.
  assert (H : quarter k = RInt (fun t => cos t ^ k) 0 (PI / 2) /\ quarter (S k) = RInt (fun t => cos t ^ S k) 0 (PI / 2)); [|apply H].
  induction k as [|k [I1 I2]].
  - split.
    + cbn [quarter pow]. rewrite RInt_const. unfold scal; cbn. unfold mult; cbn. ring.
    + cbn [quarter]. symmetry. apply is_RInt_unique. replace 1 with (minus (sin (PI / 2)) (sin 0)).
      2:{ rewrite sin_PI2, sin_0. unfold minus, plus, opp; cbn. ring. }
      apply (is_RInt_derive sin).
      * intros x _. auto_derive; auto. cbn [pow]. ring.
      * intros x _. apply (@ex_derive_continuous R_AbsRing R_NormedModule). auto_derive. auto.
  - split; auto. pose proof (is_RInt_unique _ _ _ _ (quarter_step k)) as H.
    assert (E : is_RInt (fun t => (INR k + 2) * cos t ^ S (S k) - (INR k + 1) * cos t ^ k) 0 (PI / 2)
      ((INR k + 2) * RInt (fun t => cos t ^ S (S k)) 0 (PI / 2) - (INR k + 1) * RInt (fun t => cos t ^ k) 0 (PI / 2))).
    { exact (is_RInt_minus _ _ _ _ _ _ (is_RInt_scal _ _ _ (INR k + 2) _ (RInt_correct (V := R_CompleteNormedModule) _ _ _ (cos_pow_int (S (S k)))))
        (is_RInt_scal _ _ _ (INR k + 1) _ (RInt_correct (V := R_CompleteNormedModule) _ _ _ (cos_pow_int k)))). }
    pose proof (is_RInt_unique (V := R_CompleteNormedModule) _ _ _ _ E) as E2. rewrite E2 in H. clear E E2.
    change (quarter (S (S k))) with ((INR k + 1) / (INR k + 2) * quarter k). rewrite I1.
    pose proof (pos_INR k). apply Rmult_eq_reg_l with (INR k + 2); [|lra].
    replace ((INR k + 2) * ((INR k + 1) / (INR k + 2) * RInt (fun t => cos t ^ k) 0 (PI / 2))) with ((INR k + 1) * RInt (fun t => cos t ^ k) 0 (PI / 2)) by (field; lra).
    lra.
Qed.
Lemma half_quarter k : half_range k = quarter (S k).
Proof.
  assert (H : half_range k = quarter (S k) /\ half_range (S k) = quarter (S (S k))); [|apply H].
  induction k as [|k [I1 I2]].
  - split; [reflexivity|]. cbn [half_range quarter INR]. field.
  - split; auto. change (half_range (S (S k))) with ((INR k + 2) / (INR k + 3) * half_range k).
    change (quarter (S (S (S k)))) with ((INR (S k) + 1) / (INR (S k) + 2) * quarter (S k)). rewrite I1, S_INR. f_equal. f_equal; lra.
Qed.
Lemma sine_step k : is_RInt (fun t => (INR k + 2) * sin t ^ S (S k) - (INR k + 1) * sin t ^ k) 0 (PI / 2) 0.
Proof.
  replace 0 with (minus (- (sin (PI / 2) ^ S k * cos (PI / 2))) (- (sin 0 ^ S k * cos 0))) at 2.
  2:{ rewrite cos_PI2, sin_0. cbn [pow]. unfold minus, plus, opp; cbn. ring. }
  apply (is_RInt_derive (fun t => - (sin t ^ S k * cos t))).
  - intros x _. auto_derive; auto. replace (Init.Nat.pred (S k)) with k by reflexivity.
    change (match k with 0%nat => 1 | S _ => INR k + 1 end) with (INR (S k)). rewrite S_INR.
    pose proof (sin2_cos2 x) as P. unfold Rsqr in P. cbn [pow].
    transitivity (sin x * sin x ^ k * sin x - (INR k + 1) * sin x ^ k * (cos x * cos x)); [|replace (cos x * cos x) with (1 - sin x * sin x) by lra; ring]. ring.
  - intros x _. apply (@ex_derive_continuous R_AbsRing R_NormedModule). auto_derive. auto.
Qed.
Lemma sin_pow_int k : ex_RInt (fun t => sin t ^ k) 0 (PI / 2).
Proof. apply (@ex_RInt_continuous R_CompleteNormedModule). intros x _. apply (@ex_derive_continuous R_AbsRing R_NormedModule). auto_derive. auto. Qed.
Lemma sine_integral k : quarter k = RInt (fun t => sin t ^ k) 0 (PI / 2).
Proof.
  assert (H : quarter k = RInt (fun t => sin t ^ k) 0 (PI / 2) /\ quarter (S k) = RInt (fun t => sin t ^ S k) 0 (PI / 2)); [|apply H].
  induction k as [|k [I1 I2]].
  - split.
    + cbn [quarter pow]. rewrite RInt_const. unfold scal; cbn. unfold mult; cbn. ring.
    + cbn [quarter]. symmetry. apply is_RInt_unique. replace 1 with (minus (- cos (PI / 2)) (- cos 0)).
      2:{ rewrite cos_PI2, cos_0. unfold minus, plus, opp; cbn. ring. }
      apply (is_RInt_derive (fun t => - cos t)).
      * intros x _. auto_derive; auto. cbn [pow]. ring.
      * intros x _. apply (@ex_derive_continuous R_AbsRing R_NormedModule). auto_derive. auto.
  - split; auto. pose proof (is_RInt_unique _ _ _ _ (sine_step k)) as H.
    assert (E : is_RInt (fun t => (INR k + 2) * sin t ^ S (S k) - (INR k + 1) * sin t ^ k) 0 (PI / 2)
      ((INR k + 2) * RInt (fun t => sin t ^ S (S k)) 0 (PI / 2) - (INR k + 1) * RInt (fun t => sin t ^ k) 0 (PI / 2))).
    { exact (is_RInt_minus _ _ _ _ _ _ (is_RInt_scal _ _ _ (INR k + 2) _ (RInt_correct (V := R_CompleteNormedModule) _ _ _ (sin_pow_int (S (S k)))))
        (is_RInt_scal _ _ _ (INR k + 1) _ (RInt_correct (V := R_CompleteNormedModule) _ _ _ (sin_pow_int k)))). }
    pose proof (is_RInt_unique (V := R_CompleteNormedModule) _ _ _ _ E) as E2. rewrite E2 in H. clear E E2.
    change (quarter (S (S k))) with ((INR k + 1) / (INR k + 2) * quarter k). rewrite I1.
    pose proof (pos_INR k). apply Rmult_eq_reg_l with (INR k + 2); [|lra].
    replace ((INR k + 2) * ((INR k + 1) / (INR k + 2) * RInt (fun t => sin t ^ k) 0 (PI / 2))) with ((INR k + 1) * RInt (fun t => sin t ^ k) 0 (PI / 2)) by (field; lra).
    lra.
Qed.
(** Over the polar angle, whose cosine has element sin t dt. *)
Lemma half_integral k : half_range k = RInt (fun t => sin t ^ k * sin t) 0 (PI / 2).
Proof.
  rewrite half_quarter, sine_integral. apply RInt_ext. intros x _. exact (Rmult_comm _ _).
Qed.
