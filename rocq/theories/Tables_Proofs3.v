(** * Tables_Proofs3: the polar and azimuthal tables. *)
From Coq Require Import Qabs Qpower Machin.
From Verif Require Import Base BaseR Util_Model Angle_Model Angle_Spec Angle_Proofs Tables_Model Tables_Spec Harm_Model Harm_Spec Harm_Proofs Tables_Proofs Tables_Proofs2.
Set Implicit Arguments. Unset Strict Implicit.
Local Open Scope R_scope.

(** ** Digits of pi *)
Definition ratan_q (b : positive) (n : nat) : Q := ((1 # b) ^ Z.of_nat (2 * n + 1) * (1 # Pos.of_nat (2 * n + 1)))%Q.
Definition machin_q (n : nat) : Q := ((if Nat.even n then 1 else -1) * (2 * ratan_q 3 n + ratan_q 7 n))%Q.
Fixpoint machin_sum (n : nat) : Q := match n with O => machin_q 0 | S k => Qred (machin_sum k + Qred (machin_q (S k))) end.
Lemma Q2R_pow_pos q p : Q2R (Qpower_positive q p) = Q2R q ^ Pos.to_nat p.
Proof.
  induction p as [|p IH] using Pos.peano_ind; [rewrite Pos2Nat.inj_1; cbn [pow]; rewrite Rmult_1_r; reflexivity|].
  rewrite Pos2Nat.inj_succ. cbn [pow]. rewrite <- IH, <- Q2R_mult. apply Qeq_eqR.
  rewrite <- Pos.add_1_l, Qpower_plus_positive. reflexivity.
Qed.
Lemma Q2R_pow q n : Q2R (q ^ Z.of_nat n) = Q2R q ^ n.
Proof.
  destruct n as [|n]; [cbn; unfold Q2R; cbn; lra|]. cbn [Z.of_nat Qpower]. rewrite Q2R_pow_pos. f_equal. lia.
Qed.
Lemma ratan_q_ok b n : Q2R (ratan_q b n) = Ratan_seq (/ IZR (Zpos b)) n.
Proof.
  unfold ratan_q, Ratan_seq. rewrite Q2R_mult, Q2R_pow. unfold Rdiv. f_equal.
  - f_equal. unfold Q2R. cbn [Qnum Qden]. ring.
  - unfold Q2R. cbn [Qnum Qden]. rewrite Rmult_1_l. f_equal. rewrite INR_IZR_INZ. f_equal. lia.
Qed.
Lemma sign_even n : (-1) ^ n = if Nat.even n then 1 else -1.
Proof. induction n as [|n IH]; auto. rewrite Nat.even_succ, <- Nat.negb_even. cbn [pow]. rewrite IH. destruct (Nat.even n); cbn [negb]; lra. Qed.
Lemma machin_q_ok n : Q2R (machin_q n) = tg_alt PI_2_3_7_tg n.
Proof.
  unfold machin_q, tg_alt, PI_2_3_7_tg. rewrite Q2R_mult, Q2R_plus, Q2R_mult, !ratan_q_ok, sign_even.
  destruct (Nat.even n); unfold Q2R; cbn; lra.
Qed.
Lemma machin_sum_ok n : Q2R (machin_sum n) = sum_f_R0 (tg_alt PI_2_3_7_tg) n.
Proof.
  induction n as [|n IH]; cbn [machin_sum sum_f_R0]; [apply machin_q_ok|].
  rewrite (Qeq_eqR _ _ (Qred_correct _)), Q2R_plus, (Qeq_eqR _ _ (Qred_correct _)), IH, machin_q_ok. reflexivity.
Qed.
Definition pi_q : Q := (3141592653589793238462643 # 1000000000000000000000000)%Q.
Lemma pi_digits : Rabs (PI - Q2R pi_q) <= / IZR (10 ^ 18).
Proof.
  pose proof (PI_2_3_7_ineq 10) as [A B]. rewrite <- machin_sum_ok in A, B. cbn [Nat.mul Nat.add] in A, B.
  assert (A' : Qle_bool (pi_q * (1 # 4) - (1 # 10000000000000000000)) (machin_sum 21) = true) by (vm_compute; reflexivity).
  assert (B' : Qle_bool (machin_sum 20) (pi_q * (1 # 4) + (1 # 10000000000000000000)) = true) by (vm_compute; reflexivity).
  apply Qle_bool_iff, Qle_Rle in A', B'. rewrite Q2R_minus, Q2R_mult in A'. rewrite Q2R_plus, Q2R_mult in B'.
  assert (E4 : Q2R (1 # 4) = / 4) by (unfold Q2R; cbn; lra).
  assert (E19 : Q2R (1 # 10000000000000000000) = / 10000000000000000000) by (unfold Q2R; cbn [Qnum Qden]; lra).
  rewrite E4, E19 in *. apply Rabs_le. change (10 ^ 18)%Z with 1000000000000000000%Z.  lra.
Qed.

(** ** Moments of one list of abscissae *)
Definition pm (x w : list R) (n : nat) : R := dotR w (map (fun v => v ^ n) x).
Lemma pair_ind (P : nat -> Prop) : P 0%nat -> P 1%nat -> (forall k, P k -> P (S (S k))) -> forall k, P k.
Proof. intros H0 H1 HS k. assert (P k /\ P (S k)) as [H _]; auto. induction k as [|k [I1 I2]]; auto. Qed.
(** Values on the half range and on the quarter circle, in fixed point. *)
Fixpoint half_z (k : nat) : Z :=
  match k with 0%nat => zB | 1%nat => fx (pi_q * (1 # 4)) | S (S k) => (Z.of_nat (k + 2) * half_z k / Z.of_nat (k + 3))%Z end.
Fixpoint quarter_z (k : nat) : Z :=
  match k with 0%nat => fx (pi_q * (1 # 2)) | 1%nat => zB | S (S k) => (Z.of_nat (k + 1) * quarter_z k / Z.of_nat (k + 2))%Z end.
Lemma recur_near a b r z e : (0 < b)%nat -> (a <= b)%nat -> Rabs (IZR zB * r - IZR z) <= e ->
  Rabs (IZR zB * (INR a / INR b * r) - IZR (Z.of_nat a * z / Z.of_nat b)) <= e + 1.
Proof.
  intros Hb Hab H. pose proof (@div_near (Z.of_nat a * z) (Z.of_nat b) ltac:(lia)) as D. rewrite mult_IZR, <- !INR_IZR_INZ in D.
  apply le_INR in Hab. apply lt_INR in Hb. cbn [INR] in Hb. pose proof (pos_INR a) as Pa.
  replace (IZR zB * (INR a / INR b * r) - IZR (Z.of_nat a * z / Z.of_nat b)) with
    (INR a / INR b * (IZR zB * r - IZR z) + (INR a * IZR z / INR b - IZR (Z.of_nat a * z / Z.of_nat b))) by (field; lra).
  eapply Rle_trans; [apply Rabs_triang|]. apply Rplus_le_compat; auto. rewrite Rabs_mult.
  assert (0 <= INR a / INR b <= 1). { split; [apply Rmult_le_pos; [auto|apply Rlt_le, Rinv_0_lt_compat; auto]|]. apply Rmult_le_reg_r with (INR b); [lra|]. field_simplify; lra. }
  rewrite (Rabs_pos_eq (_ / _)) by lra. pose proof (Rabs_pos (IZR zB * r - IZR z)). nra.
Qed.
Lemma pi_near c : 0 <= Q2R c <= 1 -> Rabs (IZR zB * (PI * Q2R c) - IZR (fx (pi_q * c))) <= IZR zB / IZR (10 ^ 18) + 1.
Proof.
  intros Hc. destruct (@fx_near (pi_q * c) _ (Rle_refl _)) as [_ F]. rewrite Q2R_mult in F. pose proof pi_digits as P. pose proof zB_big as D.
  replace (IZR zB * (PI * Q2R c) - IZR (fx (pi_q * c))) with (IZR zB * ((PI - Q2R pi_q) * Q2R c) + (IZR zB * (Q2R pi_q * Q2R c) - IZR (fx (pi_q * c)))) by ring.
  eapply Rle_trans; [apply Rabs_triang|]. apply Rplus_le_compat; auto. rewrite !Rabs_mult, (Rabs_pos_eq (IZR zB)), (Rabs_pos_eq (Q2R c)) by lra.
  unfold Rdiv. apply Rmult_le_compat_l; [lra|]. pose proof (Rabs_pos (PI - Q2R pi_q)). nra.
Qed.
Lemma half_close k : Rabs (IZR zB * half_range k - IZR (half_z k)) <= IZR zB / IZR (10 ^ 18) + 1 + INR k.
Proof.
  pose proof zB_big as D. assert (E : 0 <= IZR zB / IZR (10 ^ 18)) by (apply Rmult_le_pos; [lra|]; apply Rlt_le, Rinv_0_lt_compat, IZR_lt; reflexivity).
  induction k as [| |k IH] using pair_ind.
  - cbn [half_range half_z INR]. rewrite Rmult_1_r, Rminus_diag_eq, Rabs_R0 by auto. lra.
  - cbn [half_range half_z]. pose proof (@pi_near (1 # 4)) as P. replace (Q2R (1 # 4)) with (/ 4) in P by (unfold Q2R; cbn [Qnum Qden]; lra).
    cbn [INR]. eapply Rle_trans; [apply P; lra|]. lra.
  - cbn [half_range half_z]. pose proof (@recur_near (k + 2) (k + 3) _ _ _ ltac:(lia) ltac:(lia) IH) as Q. rewrite !plus_INR in Q. cbn [INR] in Q.
    replace (1 + 1 + 1) with 3 in Q by ring. replace (1 + 1) with 2 in Q by ring. eapply Rle_trans; [exact Q|]. rewrite !S_INR. lra.
Qed.
Lemma quarter_close k : Rabs (IZR zB * quarter k - IZR (quarter_z k)) <= IZR zB / IZR (10 ^ 18) + 1 + INR k.
Proof.
  pose proof zB_big as D. assert (E : 0 <= IZR zB / IZR (10 ^ 18)) by (apply Rmult_le_pos; [lra|]; apply Rlt_le, Rinv_0_lt_compat, IZR_lt; reflexivity).
  induction k as [| |k IH] using pair_ind.
  - cbn [quarter quarter_z]. pose proof (@pi_near (1 # 2)) as P. replace (Q2R (1 # 2)) with (/ 2) in P by (unfold Q2R; cbn [Qnum Qden]; lra).
    cbn [INR]. eapply Rle_trans; [apply P; lra|]. lra.
  - cbn [quarter quarter_z INR]. rewrite Rmult_1_r, Rminus_diag_eq, Rabs_R0 by auto. lra.
  - cbn [quarter quarter_z]. pose proof (@recur_near (k + 1) (k + 2) _ _ _ ltac:(lia) ltac:(lia) IH) as Q. rewrite !plus_INR in Q. cbn [INR] in Q.
    replace (1 + 1) with 2 in Q by ring. eapply Rle_trans; [exact Q|]. rewrite !S_INR. lra.
Qed.
(** A table: abscissae strictly increasing within (0, 1), positive weights below 2. *)
Definition row_ok (n : nat) (X W : list Q) : bool :=
  ((length X =? n)%nat && (length W =? n)%nat && (n <=? 30)%nat &&
   forallb (fun q => (0 <? Qnum q)%Z && (Qnum q <? Zpos (Qden q))%Z) X && forallb (fun q => (0 <? Qnum q)%Z && (Qnum q <=? 2 * Zpos (Qden q))%Z) W &&
   forallb (fun t => let a := fst t in let b := snd t in (Qnum a * Zpos (Qden b) <? Qnum b * Zpos (Qden a))%Z) (combine X (tl X)))%bool.
Definition inc_row (n : nat) (x w : list R) : Prop :=
  length x = n /\ length w = n /\ (forall i, (i < n)%nat -> 0 < nth i x 0 < 1) /\ (forall i, (i < n)%nat -> 0 < nth i w 0) /\
  (forall i, (S i < n)%nat -> nth i x 0 < nth (S i) x 0).
Lemma Q2R_bounds q c : (0 <? Qnum q)%Z = true -> (Qnum q <=? c * Zpos (Qden q))%Z = true -> 0 < Q2R q <= IZR c.
Proof.
  intros A B. apply Z.ltb_lt, IZR_lt in A. apply Z.leb_le, IZR_le in B. rewrite mult_IZR in B. unfold Q2R.
  assert (P : 0 < IZR (Zpos (Qden q))) by (apply IZR_lt; lia). assert (Pi : 0 < / IZR (Zpos (Qden q))) by (apply Rinv_0_lt_compat; auto).
  split; [nra|]. apply Rmult_le_reg_r with (IZR (Zpos (Qden q))); auto. rewrite Rmult_assoc, Rinv_l by lra. lra.
Qed.
Lemma row_split n X W : row_ok n X W = true -> (n <= 30)%nat /\ inc_row n (map Q2R X) (map Q2R W) /\ (forall q, In q X -> 0 < Q2R q < 1) /\ (forall q, In q W -> 0 < Q2R q <= 2).
Proof.
  unfold row_ok. intros H. apply andb_true_iff in H as [H H6]. apply andb_true_iff in H as [H H5].
  apply andb_true_iff in H as [H H4]. apply andb_true_iff in H as [H H3]. apply andb_true_iff in H as [H1 H2].
  apply Nat.eqb_eq in H1, H2. apply Nat.leb_le in H3. rewrite forallb_forall in H4, H5, H6. split; auto.
  assert (BX : forall q, In q X -> 0 < Q2R q < 1).
  { intros q Hq. apply H4 in Hq. apply andb_true_iff in Hq as [A B]. apply Z.ltb_lt, IZR_lt in A. apply Z.ltb_lt, IZR_lt in B. unfold Q2R.
    assert (P : 0 < IZR (Zpos (Qden q))) by (apply IZR_lt; lia). assert (Pi : 0 < / IZR (Zpos (Qden q))) by (apply Rinv_0_lt_compat; auto).
    split; [nra|]. apply Rmult_lt_reg_r with (IZR (Zpos (Qden q))); auto. rewrite Rmult_assoc, Rinv_l by lra. lra. }
  assert (BW : forall q, In q W -> 0 < Q2R q <= 2).
  { intros q Hq. apply H5 in Hq. apply andb_true_iff in Hq as [A B]. apply (Q2R_bounds A B). }
  split; [|split; auto]. split; [rewrite map_length; auto|]. split; [rewrite map_length; auto|]. split; [|split].
  - intros i Hi. rewrite (nth_map0 _ 0%Q) by lia. apply BX, nth_In. lia.
  - intros i Hi. rewrite (nth_map0 _ 0%Q) by lia. apply BW, nth_In. lia.
  - intros i Hi. rewrite !(nth_map0 _ 0%Q) by lia. apply Qlt_Rlt. unfold Qlt.
    assert (I : In (nth i X 0%Q, nth (S i) X 0%Q) (combine X (tl X))).
    { destruct X as [|x X]; [cbn in *; lia|]. cbn [tl length] in *. replace (nth (S i) (x :: X) 0%Q) with (nth i X 0%Q) by reflexivity.
      assert (Hl : (i < length X)%nat) by lia. clear - Hl. revert x i Hl. induction X as [|y X IH]; intros x [|i] Hl; cbn in *; try lia; [left; auto|].
      right. apply IH. lia. }
    apply H6 in I. cbn [fst snd] in I. cbv zeta in I. apply Z.ltb_lt in I. exact I.
Qed.
Definition mom_ok (K t S : Z) : bool := (Z.abs (S - zB * t) * (10 * K) <=? 9 * (zB * zB))%Z.
Lemma mom_close n X W k K t tg : row_ok n X W = true -> (k <= 30)%nat -> (0 < K <= 10 ^ 14)%Z ->
  mom_ok K t (dotz (map fx W) (fpows (map fx X) k)) = true -> Rabs (IZR zB * tg - IZR t) <= IZR zB / IZR (10 ^ 17) ->
  Rabs (pm (map Q2R X) (map Q2R W) k - tg) <= / IZR K.
Proof.
  intros R Hk [HK1 HK2] M T. destruct (row_split R) as (Hn & (L1 & L2 & _) & BX & BW). pose proof zB_big as D. unfold pm.
  assert (NX : Forall2 (near 1 90) (map (fun v => v ^ k) (map Q2R X)) (fpows (map fx X) k)).
  { unfold fpows. rewrite !map_map. apply Forall2_map2. intros q Hq. apply BX in Hq. assert (Rabs (Q2R q) <= 1) as U by (rewrite Rabs_pos_eq; lra).
    assert (Ik : INR k <= 30) by (apply le_INR in Hk; eapply Rle_trans; [exact Hk|]; cbn [INR]; lra).
    destruct (@fpow_near _ _ 1 k (fx_near U) ltac:(lra) ltac:(lra) ltac:(lra)) as [A B]. split; auto. lra. }
  assert (NW : Forall2 (near 2 1) (map Q2R W) (map fx W)).
  { apply Forall2_map2. intros q Hq. apply BW in Hq. apply fx_near. rewrite Rabs_pos_eq; lra. }
  pose proof (dot_near NW NX ltac:(lra) ltac:(lra) ltac:(lra) ltac:(lra) ltac:(lra)) as P. rewrite L2 in P.
  assert (In' : INR n <= 30) by (apply le_INR in Hn; eapply Rle_trans; [exact Hn|]; cbn [INR]; lra).
  set (S := dotz _ _) in *. set (u := dotR _ _) in *. unfold mom_ok in M. apply Z.leb_le, IZR_le in M.
  rewrite !mult_IZR, abs_IZR, minus_IZR, mult_IZR in M.
  assert (Big : 10 ^ 4 * IZR (10 ^ 17) <= IZR zB). { change (10 ^ 4) with (IZR 10000 ) || replace (10 ^ 4) with (IZR 10000) by lra. rewrite <- mult_IZR. apply IZR_le. vm_compute. discriminate. }
  assert (T17 : 0 < IZR (10 ^ 17)) by (apply IZR_lt; reflexivity). apply IZR_lt in HK1. apply IZR_le in HK2.
  assert (E17 : 1000 * IZR K <= IZR (10 ^ 17)). { change (10 ^ 14)%Z with 100000000000000%Z in HK2. change (10 ^ 17)%Z with 100000000000000000%Z. lra. }
  clear HK2. generalize dependent (IZR (10 ^ 17)). intros t17 T Big T17 E17. set (d := IZR zB) in *.
  assert (P' : Rabs (d * d * u - IZR S) <= d * 5460). { eapply Rle_trans; [exact P|]. apply Rmult_le_compat_l; [lra|]. pose proof (pos_INR n). nra. }
  replace (u - tg) with (((d * d * u - IZR S) + (IZR S - d * IZR t) - d * (d * tg - IZR t)) * / (d * d)) by (field; lra).
  rewrite Rabs_mult, (Rabs_pos_eq (/ _)) by (apply Rlt_le, Rinv_0_lt_compat; nra).
  apply Rmult_le_reg_r with (d * d); [nra|]. rewrite Rmult_assoc, Rinv_l, Rmult_1_r by nra.
  assert (TT : Rabs (d * (d * tg - IZR t)) <= d * d * / t17). { rewrite Rabs_mult, (Rabs_pos_eq d) by lra. rewrite Rmult_assoc. apply Rmult_le_compat_l; [lra|]. exact T. }
  assert (MM : Rabs (IZR S - d * IZR t) <= d * d * (9 / 10 * / IZR K)).
  { apply Rmult_le_reg_r with (10 * IZR K); [lra|]. eapply Rle_trans; [exact M|]. field_simplify; lra. }
  assert (PP : d * 5460 <= d * d * (1 / 100 * / IZR K)).
  { rewrite Rmult_assoc. apply Rmult_le_compat_l; [lra|]. apply Rmult_le_reg_r with (100 * IZR K); [lra|]. field_simplify; lra. }
  assert (T2 : d * d * / t17 <= d * d * (1 / 100 * / IZR K)).
  { apply Rmult_le_compat_l; [nra|]. apply Rmult_le_reg_r with (t17 * (100 * IZR K)); [apply Rmult_lt_0_compat; lra|]. field_simplify; [|lra|lra]. nra. }
  assert (DK : 0 < d * d * / IZR K) by (apply Rmult_lt_0_compat; [nra|apply Rinv_0_lt_compat; auto]).
  eapply Rle_trans; [apply Rabs_triang|]. rewrite Rabs_Ropp. eapply Rle_trans; [apply Rplus_le_compat_r, Rabs_triang|].
  apply Rle_trans with (d * d * (1 / 100 * / IZR K) + d * d * (9 / 10 * / IZR K) + d * d * (1 / 100 * / IZR K)); [lra|].
  set (v := d * d * / IZR K) in *. replace (d * d * (1 / 100 * / IZR K)) with (1 / 100 * v) by (unfold v; ring).
  replace (d * d * (9 / 10 * / IZR K)) with (9 / 10 * v) by (unfold v; ring). replace (/ IZR K * (d * d)) with v by (unfold v; ring). lra.
Qed.
(** All moments of a row against a list of fixed-point values. *)
Definition mom_row (ts : list Z) (X W : list Q) : bool :=
  let w := map fx W in let P := table (map fx X) (length ts - 1) in
  forallb (fun t => mom_ok (10 ^ 14) (fst t) (dotz w (snd t))) (combine ts P).
Lemma mom_row_ok n ts X W k tg : row_ok n X W = true -> mom_row ts X W = true -> (k < length ts)%nat -> (length ts <= 31)%nat ->
  Rabs (IZR zB * tg - IZR (nth k ts 0%Z)) <= IZR zB / IZR (10 ^ 17) ->
  Rabs (pm (map Q2R X) (map Q2R W) k - tg) <= / IZR (10 ^ 14).
Proof.
  intros R M Hk Hl T. unfold mom_row in M. cbv zeta in M. rewrite forallb_forall in M.
  assert (LT : length (table (map fx X) (length ts - 1)) = length ts) by (unfold table; cbv zeta; rewrite map_length, seq_length; lia).
  specialize (M (nth k ts 0%Z, nth k (table (map fx X) (length ts - 1)) [])). rewrite table_nth in M by lia. cbn [fst snd] in M.
  assert (K30 : (k <= 30)%nat) by lia. apply (@mom_close n X W k (10 ^ 14) (nth k ts 0%Z) tg R K30); auto; [split; [reflexivity|apply Z.le_refl]|]. apply M.
  rewrite <- (@table_nth (map fx X) (length ts - 1) k) by lia. rewrite <- combine_nth by lia. apply nth_In. rewrite combine_length. lia.
Qed.
Lemma scale_near s r z k : (s = 1 \/ s = 2)%Z -> (k <= 30)%nat -> Rabs (IZR zB * r - IZR z) <= IZR zB / IZR (10 ^ 18) + 1 + INR k ->
  Rabs (IZR zB * (IZR s * r) - IZR (s * z)) <= IZR zB / IZR (10 ^ 17).
Proof.
  intros Hs Hk H. assert (Ik : INR k <= 30) by (apply le_INR in Hk; eapply Rle_trans; [exact Hk|]; cbn [INR]; lra).
  assert (S12 : 0 <= IZR s <= 2) by (destruct Hs as [->| ->]; lra). rewrite mult_IZR.
  replace (IZR zB * (IZR s * r) - IZR s * IZR z) with (IZR s * (IZR zB * r - IZR z)) by ring. rewrite Rabs_mult, (Rabs_pos_eq (IZR s)) by lra.
  assert (Big : 31 * 10 ^ 18 <= IZR zB). { replace (31 * 10 ^ 18) with (IZR 31000000000000000000) by lra. apply IZR_le. vm_compute. discriminate. }
  pose proof (Rabs_pos (IZR zB * r - IZR z)). set (d := IZR zB) in *. change (10 ^ 18)%Z with 1000000000000000000%Z in H. change (10 ^ 17)%Z with 100000000000000000%Z.
  apply Rle_trans with (2 * (d / 1000000000000000000 + 1 + INR k)); [apply Rmult_le_compat; lra|]. unfold Rdiv. nra.
Qed.

(** ** The four rules *)
(** Both halves from the positive one. *)
Lemma two_halves n hi wh : inc_row n hi wh -> polar_rule (2 * n) (map Ropp (rev hi) ++ hi) (rev wh ++ wh).
Proof.
  intros (L1 & L2 & X & W & I). unfold polar_rule. rewrite !app_length, map_length, !rev_length, L1, L2.
  split; [lia|]. split; [lia|].
  assert (Lo : forall i, (i < n)%nat -> nth i (map Ropp (rev hi) ++ hi) 0 = - nth (n - 1 - i) hi 0).
  { intros i Hi. rewrite app_nth1 by (rewrite map_length, rev_length; lia). rewrite (nth_map0 _ 0) by (rewrite rev_length; lia).
    rewrite rev_nth by lia. rewrite L1. do 2 f_equal. lia. }
  assert (Hi : forall i, (n <= i)%nat -> nth i (map Ropp (rev hi) ++ hi) 0 = nth (i - n) hi 0).
  { intros i Hi. rewrite app_nth2 by (rewrite map_length, rev_length; lia). rewrite map_length, rev_length, L1. reflexivity. }
  assert (Wo : forall i, (i < n)%nat -> nth i (rev wh ++ wh) 0 = nth (n - 1 - i) wh 0).
  { intros i Hi'. rewrite app_nth1 by (rewrite rev_length; lia). rewrite rev_nth by lia. rewrite L2. f_equal. lia. }
  assert (Wi : forall i, (n <= i)%nat -> nth i (rev wh ++ wh) 0 = nth (i - n) wh 0).
  { intros i Hi'. rewrite app_nth2 by (rewrite rev_length; lia). rewrite rev_length, L2. reflexivity. }
  split.
  - intros i Hin. destruct (lt_dec i n) as [Hl|Hl].
    + rewrite (Lo i Hl), (Wo i Hl), Hi, Wi by lia. replace (2 * n - 1 - i - n)%nat with (n - 1 - i)%nat by lia.
      pose proof (X (n - 1 - i)%nat ltac:(lia)). pose proof (W (n - 1 - i)%nat ltac:(lia)). repeat split; lra.
    + rewrite (Hi i), (Wi i), Lo, Wo by lia. replace (n - 1 - (2 * n - 1 - i))%nat with (i - n)%nat by lia.
      pose proof (X (i - n)%nat ltac:(lia)). pose proof (W (i - n)%nat ltac:(lia)). repeat split; lra.
  - intros i Hin. destruct (lt_dec (S i) n) as [Hl|Hl]; [|destruct (lt_dec i n) as [Hm|Hm]].
    + rewrite (Lo i), (Lo (S i)) by lia. apply Ropp_lt_contravar. pose proof (I (n - 1 - S i)%nat ltac:(lia)) as H.
      replace (S (n - 1 - S i)) with (n - 1 - i)%nat in H by lia. exact H.
    + rewrite (Lo i), (Hi (S i)) by lia. pose proof (X (n - 1 - i)%nat ltac:(lia)). pose proof (X (S i - n)%nat ltac:(lia)). lra.
    + rewrite (Hi i), (Hi (S i)) by lia. replace (S i - n)%nat with (S (i - n)) by lia. apply I. lia.
Qed.
Lemma pm0 x w : length x = length w -> pm x w 0 = sumR w.
Proof.
  unfold pm, dotR, sumR. revert x. induction w as [|a w IH]; intros [|b x] H; cbn in *; try discriminate; auto. rewrite IH by lia. ring.
Qed.
Lemma half_div m : (2 * m / 2 = m)%nat. Proof. rewrite Nat.mul_comm, Nat.div_mul; lia. Qed.
Lemma half_mod m : ((2 * m) mod 2 = 0)%nat. Proof. rewrite Nat.mul_comm, Nat.mod_mul; lia. Qed.
(** Tabuchi-Yamamoto *)
Definition ty_rows (m : nat) : list Q * list Q := (firstn m (nth (m - 1) ty_x []), firstn m (nth (m - 1) ty_w [])).
Lemma ty_checked m : (1 <= m <= 5)%nat -> row_ok m (fst (ty_rows m)) (snd (ty_rows m)) = true /\
  mom_ok (10 ^ 7) zB (dotz (map fx (snd (ty_rows m))) (fpows (map fx (fst (ty_rows m))) 0)) = true.
Proof. intros H. do 6 (destruct m as [|m]; [try lia; vm_compute; repeat split; reflexivity|]). lia. Qed.
Lemma ty_built m : (1 <= m <= 5)%nat -> let hi := map Q2R (fst (ty_rows m)) in let wh := map Q2R (snd (ty_rows m)) in
  ty_rule (2 * m) = Ok (map Ropp (rev hi) ++ hi, rev wh ++ wh).
Proof.
  intros H. do 6 (destruct m as [|m]; [try lia; reflexivity|]). lia.
Qed.
Lemma tabuchi m : ((1 <= m <= 5)%nat -> exists hi wh, ty_rule (2 * m) = Ok (map Ropp (rev hi) ++ hi, rev wh ++ wh) /\ length hi = m /\
     polar_rule (2 * m) (map Ropp (rev hi) ++ hi) (rev wh ++ wh) /\ Rabs (sumR wh - 1) <= / 10 ^ 7) /\
  ((6 <= m)%nat -> ty_rule (2 * m) = Err) /\ ty_rule (2 * m + 1) = Err.
Proof.
  split; [|split].
  - intros Hm. destruct (ty_checked Hm) as [R Z]. destruct (row_split R) as (_ & I & _).
    exists (map Q2R (fst (ty_rows m))), (map Q2R (snd (ty_rows m))). split; [apply ty_built; auto|].
    split; [apply I|]. split; [apply two_halves; auto|].
    rewrite <- (@pm0 (map Q2R (fst (ty_rows m)))) by (destruct I as (A & B & _); congruence).
    eapply Rle_trans; [apply (@mom_close m _ _ 0 (10 ^ 7) zB 1 R ltac:(lia)); [split; [reflexivity|discriminate]|exact Z|]|].
    { rewrite Rmult_1_r, Rminus_diag_eq, Rabs_R0 by auto. pose proof zB_big. apply Rmult_le_pos; [lra|]. apply Rlt_le, Rinv_0_lt_compat, IZR_lt. reflexivity. }
    change (10 ^ 7)%Z with 10000000%Z. lra.
  - intros Hm. unfold ty_rule. rewrite half_mod, half_div. cbn [Nat.eqb negb]. rewrite (proj2 (Nat.ltb_ge m 6)) by lia. reflexivity.
  - unfold ty_rule. replace ((2 * m + 1) mod 2)%nat with 1%nat; [reflexivity|]. rewrite Nat.add_comm, Nat.mul_comm, Nat.mod_add; [reflexivity|lia].
Qed.
(** Triangle Gauss *)
Lemma tg_checked m : (1 <= m <= 6)%nat -> row_ok m (rev (tg_x m)) (rev (tg_w m)) = true /\
  mom_ok (10 ^ 14) zB (dotz (map fx (rev (tg_w m))) (fpows (map fx (rev (tg_x m))) 0)) = true.
Proof. intros H. do 7 (destruct m as [|m]; [try lia; vm_compute; repeat split; reflexivity|]). lia. Qed.
Lemma tri_gauss m : ((1 <= m <= 6)%nat -> exists hi wh, tg_rule (2 * m) = Ok (map Ropp (rev hi) ++ hi, rev wh ++ wh) /\ length hi = m /\
     polar_rule (2 * m) (map Ropp (rev hi) ++ hi) (rev wh ++ wh) /\ Rabs (sumR wh - 1) <= / 10 ^ 14) /\
  (m = 0%nat \/ (7 <= m)%nat -> tg_rule (2 * m) = Err).
Proof.
  unfold tg_rule. rewrite half_mod, half_div. cbn [Nat.eqb negb]. split.
  - intros Hm. destruct (tg_checked Hm) as [R Z]. destruct (row_split R) as (_ & I & _).
    exists (map Q2R (rev (tg_x m))), (map Q2R (rev (tg_w m))). rewrite (proj2 (Nat.ltb_lt 0 m)), (proj2 (Nat.ltb_lt m 7)) by lia.
    split; [cbn [andb]; unfold mirrored; rewrite !map_rev, !rev_involutive; reflexivity|].
    split; [apply I|]. split; [apply two_halves; auto|].
    rewrite <- (@pm0 (map Q2R (rev (tg_x m)))) by (destruct I as (A & B & _); congruence).
    eapply Rle_trans; [apply (@mom_close m _ _ 0 (10 ^ 14) zB 1 R ltac:(lia)); [split; [reflexivity|discriminate]|exact Z|]|].
    { rewrite Rmult_1_r, Rminus_diag_eq, Rabs_R0 by auto. pose proof zB_big. apply Rmult_le_pos; [lra|]. apply Rlt_le, Rinv_0_lt_compat, IZR_lt. reflexivity. }
    change (10 ^ 14)%Z with 100000000000000%Z. lra.
  - intros [->|Hm]; [reflexivity|]. rewrite (proj2 (Nat.ltb_ge m 7)) by lia. rewrite andb_false_r. reflexivity.
Qed.
(** Double range *)
Definition half_zs : list Z := map (fun k => 2 * half_z k)%Z (seq 0 30).
Definition quarter_zs : list Z := map quarter_z (seq 0 30).
Definition dr_check (ts : list Z) (m : nat) : bool := (row_ok m (dr_a m) (dr_b m) && mom_row (firstn (2 * m) ts) (dr_a m) (dr_b m))%bool.
Definition qr_check (ts : list Z) (m : nat) : bool := (row_ok m (qr_a m) (qr_b m) && mom_row (firstn m ts) (qr_a m) (qr_b m))%bool.
Lemma dr_checked : (let ts := half_zs in forallb (dr_check ts) (seq 1 15)) = true.
Proof. vm_cast_no_check (eq_refl true). Qed.
Lemma qr_checked : (let ts := quarter_zs in forallb (fun m => qr_check ts (2 * m)) (seq 1 15)) = true.
Proof. vm_cast_no_check (eq_refl true). Qed.
