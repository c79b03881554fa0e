(** * Tables_Proofs4: the polar and azimuthal tables, continued. *)
From Coq Require Import Qabs Qpower Machin.
From Verif Require Import Base BaseR Util_Model Angle_Model Angle_Spec Angle_Proofs Tables_Model Tables_Spec Harm_Model Harm_Spec Harm_Proofs Tables_Proofs Tables_Proofs2 Tables_Proofs3.
Set Implicit Arguments. Unset Strict Implicit.
Local Open Scope R_scope.
Lemma dotR_comm_pow x w k : power_sum x w k = pm x w k.
Proof.
  unfold power_sum, pm, dotR. f_equal. revert x. induction w as [|a w IH]; intros [|b x]; cbn [combine map]; auto. cbn [fst snd]. rewrite IH. auto.
Qed.
Lemma power_sum_rev x w k : length x = length w -> power_sum (rev x) (rev w) k = power_sum x w k.
Proof.
  intros H. unfold power_sum. assert (E : combine (rev w) (rev x) = rev (combine w x)).
  { clear k. revert w H. induction x as [|b x IH]; intros [|a w] H; try discriminate; auto. cbn [rev combine].
    cbn in H. rewrite combine_app2 by (rewrite !rev_length; lia). rewrite IH by lia. reflexivity. }
  rewrite E, map_rev. induction (map _ (combine w x)) as [|v l IH]; auto. cbn [rev]. rewrite sumR_app, IH. unfold sumR. cbn [fold_right]. ring.
Qed.
Lemma power_sum_scale c x w k : power_sum x (map (Rmult c) w) k = c * power_sum x w k.
Proof.
  unfold power_sum, sumR. revert x. induction w as [|a w IH]; intros [|b x]; cbn [map combine fold_right fst snd]; try ring. rewrite IH. ring.
Qed.
Lemma half_zs_ok m : (1 <= m <= 15)%nat -> length (firstn (2 * m) half_zs) = (2 * m)%nat /\
  forall k, (k < 2 * m)%nat -> nth k (firstn (2 * m) half_zs) 0%Z = (2 * half_z k)%Z.
Proof.
  intros Hm. assert (L : length half_zs = 30%nat) by (unfold half_zs; rewrite map_length, seq_length; auto). split; [rewrite firstn_length; lia|].
  intros k Hk. assert (E : nth k (firstn (2 * m) half_zs) 0%Z = nth k half_zs 0%Z).
  { rewrite <- (firstn_skipn (2 * m) half_zs) at 2. rewrite app_nth1; auto. rewrite firstn_length. lia. }
  rewrite E. unfold half_zs. apply nth_map_seq. lia.
Qed.
Lemma quarter_zs_ok m : (m <= 30)%nat -> length (firstn m quarter_zs) = m /\
  forall k, (k < m)%nat -> nth k (firstn m quarter_zs) 0%Z = quarter_z k.
Proof.
  intros Hm. assert (L : length quarter_zs = 30%nat) by (unfold quarter_zs; rewrite map_length, seq_length; auto). split; [rewrite firstn_length; lia|].
  intros k Hk. assert (E : nth k (firstn m quarter_zs) 0%Z = nth k quarter_zs 0%Z).
  { rewrite <- (firstn_skipn m quarter_zs) at 2. rewrite app_nth1; auto. rewrite firstn_length. lia. }
  rewrite E. unfold quarter_zs. apply nth_map_seq. lia.
Qed.
Lemma inc_rev n x w (f g : R -> R) : inc_row n x w -> (forall a, 0 < a < 1 -> 0 < f a < 1) -> (forall a b, 0 < a < 1 -> 0 < b < 1 -> a < b -> f b < f a) ->
  (forall a, 0 < a -> 0 < g a) -> inc_row n (rev (map f x)) (rev (map g w)).
Proof.
  intros (L1 & L2 & X & W & I) F D G. unfold inc_row. rewrite !rev_length, !map_length. split; auto. split; auto.
  split; [|split]; intros i Hi; rewrite ?rev_nth by (rewrite map_length; lia); rewrite map_length.
  - rewrite (nth_map0 _ 0) by lia. apply F, X. lia.
  - rewrite (nth_map0 _ 0) by lia. apply G, W. lia.
  - rewrite !(nth_map0 _ 0) by lia. rewrite L1. apply D; try (apply X; lia).
    pose proof (I (n - S (S i))%nat ltac:(lia)) as H. replace (S (n - S (S i)))%nat with (n - S i)%nat in H by lia. exact H.
Qed.
Lemma dr_row m : (1 <= m <= 15)%nat -> dr_check half_zs m = true.
Proof.
  intros Hm. pose proof dr_checked as C. cbv zeta in C. rewrite forallb_forall in C. apply C. apply in_seq. lia.
Qed.
Lemma qr_row m : (1 <= m <= 15)%nat -> qr_check quarter_zs (2 * m) = true.
Proof.
  intros Hm. pose proof qr_checked as C. cbv zeta in C. rewrite forallb_forall in C. specialize (C m). apply C. apply in_seq. lia.
Qed.
Lemma inv14 : / IZR (10 ^ 14) = / 10 ^ 14.
Proof. f_equal. change (10 ^ 14)%Z with 100000000000000%Z. lra. Qed.
Lemma double_range m : ((1 <= m <= 15)%nat -> exists hi wh, dr_rule (2 * m) = Ok (map Ropp (rev hi) ++ hi, rev wh ++ wh) /\ length hi = m /\
     polar_rule (2 * m) (map Ropp (rev hi) ++ hi) (rev wh ++ wh) /\
     forall k, (k < 2 * m)%nat -> Rabs (power_sum (map (fun x => sqrt (1 - x * x)) hi) wh k - half_range k) <= / 10 ^ 14) /\
  ((16 <= m)%nat -> dr_rule (2 * m) = Err).
Proof.
  unfold dr_rule. rewrite half_mod, half_div. split.
  - intros Hm. rewrite (proj2 (Nat.ltb_lt m 16)) by lia. cbn [negb]. destruct (Nat.eqb_spec m 0) as [|_]; [lia|]. cbn [repeat app].
    pose proof (dr_row Hm) as C. apply andb_true_iff in C as [R M]. destruct (row_split R) as (_ & I & BX & BW).
    set (x := map (fun v => sqrt (1 - Q2R v * Q2R v)) (dr_a m)). set (w := map (fun v => 1 / 2 * Q2R v) (dr_b m)).
    assert (Ex : x = map (fun a => sqrt (1 - a * a)) (map Q2R (dr_a m))) by (unfold x; rewrite map_map; auto).
    assert (Ew : w = map (Rmult (1 / 2)) (map Q2R (dr_b m))) by (unfold w; rewrite map_map; auto).
    exists (rev x), (rev w). split; [rewrite !rev_involutive; reflexivity|].
    assert (J : inc_row m (rev x) (rev w)).
    { rewrite Ex, Ew. apply inc_rev; auto.
      - intros a Ha. split; [apply sqrt_lt_R0; nra|]. rewrite <- sqrt_1 at 2. apply sqrt_lt_1_alt. nra.
      - intros a b Ha Hb Hab. apply sqrt_lt_1_alt. nra.
      - intros; lra. }
    split; [apply J|]. split; [apply two_halves; auto|]. intros k Hk.
    rewrite map_rev, power_sum_rev. 2:{ rewrite map_length. destruct J as (J1 & J2 & _). rewrite rev_length in J1, J2. congruence. }
    rewrite Ew, power_sum_scale.
    assert (Es : map (fun u => sqrt (1 - u * u)) x = map Q2R (dr_a m)).
    { rewrite Ex, !map_map. apply map_ext_in. intros q Hq. apply BX in Hq. rewrite sqrt_sqrt by nra.
      replace (1 - (1 - Q2R q * Q2R q)) with (Q2R q * Q2R q) by ring. apply sqrt_square. lra. }
    rewrite Es, dotR_comm_pow. destruct (half_zs_ok Hm) as [Lz Nz].
    pose proof (@mom_row_ok m _ _ _ k (2 * half_range k) R M ltac:(lia) ltac:(lia)) as B. rewrite Nz in B by auto.
    assert (K30 : (k <= 30)%nat) by lia.
    specialize (B (@scale_near 2 _ _ k (or_intror eq_refl) K30 (half_close k))). rewrite inv14 in B.
    set (u := pm _ _ _) in *. replace (1 / 2 * u - half_range k) with (1 / 2 * (u - 2 * half_range k)) by field.
    rewrite Rabs_mult, (Rabs_pos_eq (1 / 2)) by lra. pose proof (Rabs_pos (u - 2 * half_range k)). lra.
  - intros Hm. rewrite (proj2 (Nat.ltb_ge m 16)) by lia. reflexivity.
Qed.
Definition qr_sym (m : nat) : bool :=
  let A := qr_a m in let B := qr_b m in
  forallb (fun t => let u := fst t in let v := snd t in
    Qeq_bool (fst v) (snd v) && (Z.abs (Qnum (fst u) * Qnum (fst u) * (Zpos (Qden (snd u)) * Zpos (Qden (snd u))) + Qnum (snd u) * Qnum (snd u) * (Zpos (Qden (fst u)) * Zpos (Qden (fst u)))
      - (Zpos (Qden (fst u)) * Zpos (Qden (fst u))) * (Zpos (Qden (snd u)) * Zpos (Qden (snd u)))) * 10 ^ 15 <=?
      (Zpos (Qden (fst u)) * Zpos (Qden (fst u))) * (Zpos (Qden (snd u)) * Zpos (Qden (snd u))))%Z)%bool
    (combine (combine A (rev A)) (combine B (rev B))).
Lemma qr_sym_checked m : (1 <= m <= 15)%nat -> qr_sym (2 * m) = true.
Proof. intros H. do 16 (destruct m as [|m]; [try lia; vm_compute; reflexivity|]). lia. Qed.
Lemma sq_sum a b : (Z.abs (Qnum a * Qnum a * (Zpos (Qden b) * Zpos (Qden b)) + Qnum b * Qnum b * (Zpos (Qden a) * Zpos (Qden a))
      - (Zpos (Qden a) * Zpos (Qden a)) * (Zpos (Qden b) * Zpos (Qden b))) * 10 ^ 15 <=?
      (Zpos (Qden a) * Zpos (Qden a)) * (Zpos (Qden b) * Zpos (Qden b)))%Z = true ->
  Rabs (Q2R a * Q2R a + Q2R b * Q2R b - 1) <= / 10 ^ 15.
Proof.
  intros H. apply Z.leb_le, IZR_le in H. unfold Q2R. set (da := Zpos (Qden a)) in *. set (db := Zpos (Qden b)) in *.
  assert (A : 0 < IZR da) by (apply IZR_lt; reflexivity). assert (B : 0 < IZR db) by (apply IZR_lt; reflexivity).
  rewrite !mult_IZR, abs_IZR, minus_IZR, plus_IZR, !mult_IZR in H.
  replace (IZR (Qnum a) * / IZR da * (IZR (Qnum a) * / IZR da) + IZR (Qnum b) * / IZR db * (IZR (Qnum b) * / IZR db) - 1) with
    ((IZR (Qnum a) * IZR (Qnum a) * (IZR db * IZR db) + IZR (Qnum b) * IZR (Qnum b) * (IZR da * IZR da) - IZR da * IZR da * (IZR db * IZR db)) * / ((IZR da * IZR da) * (IZR db * IZR db))) by (field; lra).
  assert (P : 0 < IZR da * IZR da * (IZR db * IZR db)) by (apply Rmult_lt_0_compat; nra).
  rewrite Rabs_mult, (Rabs_pos_eq (/ _)) by (apply Rlt_le, Rinv_0_lt_compat; auto).
  apply Rmult_le_reg_r with (IZR da * IZR da * (IZR db * IZR db)); auto. rewrite Rmult_assoc, Rinv_l by lra. rewrite Rmult_1_r.
  change (10 ^ 15)%Z with 1000000000000000%Z in H. replace (10 ^ 15) with 1000000000000000 by lra.
  apply Rmult_le_reg_r with 1000000000000000; [lra|]. eapply Rle_trans; [exact H|]. field_simplify. lra.
Qed.
Lemma acos_dec a b : 0 < a < 1 -> 0 < b < 1 -> a < b -> acos b < acos a.
Proof.
  intros Ha Hb H. destruct (Rlt_le_dec (acos b) (acos a)) as [|C]; auto. exfalso.
  pose proof (acos_bound a) as A1. pose proof (acos_bound b) as B1.
  destruct (Rle_lt_or_eq_dec _ _ C) as [D|D].
  - pose proof (cos_decreasing_1 (acos a) (acos b)) as E. rewrite !cos_acos in E by lra. specialize (E ltac:(lra) ltac:(lra) ltac:(lra) ltac:(lra) D). lra.
  - apply (f_equal cos) in D. rewrite !cos_acos in D by lra. lra.
Qed.
Lemma acos_quarter a : 0 < a < 1 -> 0 < acos a < PI / 2.
Proof.
  intros Ha. pose proof (acos_bound a) as A. pose proof PI_RGT_0. split.
  - destruct (Rle_lt_or_eq_dec _ _ (proj1 A)) as [|E]; auto. exfalso. apply (f_equal cos) in E. rewrite cos_0, cos_acos in E by lra. lra.
  - destruct (Rlt_le_dec (acos a) (PI / 2)) as [|C]; auto. exfalso. pose proof (cos_le_0 (acos a) C) as E. rewrite cos_acos in E by lra. specialize (E ltac:(lra)). lra.
Qed.
Lemma nth_rev0 A (d : A) l i : (i < length l)%nat -> nth i (rev l) d = nth (length l - 1 - i) l d.
Proof. intros H. rewrite rev_nth by auto. f_equal. lia. Qed.
Lemma quadruple_range m : ((1 <= m <= 15)%nat -> exists phi w, qr_rule (2 * m) = Ok (phi, w) /\ azimuth_rule (2 * m) phi w (/ 10 ^ 15) /\
     forall k, (k < 2 * m)%nat -> Rabs (power_sum (map cos phi) w k - quarter k) <= / 10 ^ 14) /\
  ((16 <= m)%nat -> qr_rule (2 * m) = Err) /\ qr_rule (2 * m + 1) = Err.
Proof.
  split; [|split].
  - intros Hm. unfold qr_rule. rewrite half_mod. rewrite (proj2 (Nat.leb_le (2 * m) 30)) by lia. cbn [negb].
    rewrite (proj2 (Nat.eqb_neq (2 * m) 0)) by lia. cbn [Nat.eqb].
    pose proof (qr_row Hm) as C. apply andb_true_iff in C as [R M]. pose proof (qr_sym_checked Hm) as Sy. destruct (row_split R) as (N30 & I & BX & BW).
    set (n := (2 * m)%nat) in *. exists (rev (map (fun v => acos (Q2R v)) (qr_a n))), (rev (map Q2R (qr_b n))). split; auto.
    destruct I as (L1 & L2 & X & W & I). rewrite !map_length in L1, L2.
    assert (Ns : forall i, (i < n)%nat -> nth i (map Q2R (qr_b n)) 0 = nth (n - 1 - i) (map Q2R (qr_b n)) 0 /\
      Rabs (nth i (map Q2R (qr_a n)) 0 * nth i (map Q2R (qr_a n)) 0 + nth (n - 1 - i) (map Q2R (qr_a n)) 0 * nth (n - 1 - i) (map Q2R (qr_a n)) 0 - 1) <= / 10 ^ 15).
    { intros i Hi. unfold qr_sym in Sy. cbv zeta in Sy. rewrite forallb_forall in Sy.
      set (l := combine (combine (qr_a n) (rev (qr_a n))) (combine (qr_b n) (rev (qr_b n)))) in *.
      assert (Ll : (i < length l)%nat) by (unfold l; rewrite !combine_length, !rev_length; lia).
      pose proof (Sy _ (nth_In l ((0, 0), (0, 0))%Q Ll)) as T. clear Sy. unfold l in T.
      rewrite !combine_nth in T by (rewrite ?combine_length, ?rev_length; lia). rewrite !nth_rev0 in T by lia. rewrite L1, L2 in T. cbn [fst snd] in T.
      rewrite !(nth_map0 _ 0%Q) by lia. apply andb_true_iff in T as [S1 S2].
      split; [apply Qeq_eqR, Qeq_bool_eq; auto|]. apply sq_sum. auto. }
    assert (Ph : forall i, (i < n)%nat -> nth i (rev (map (fun v => acos (Q2R v)) (qr_a n))) 0 = acos (nth (n - 1 - i) (map Q2R (qr_a n)) 0)).
    { intros i Hi. rewrite nth_rev0 by (rewrite map_length; lia). rewrite map_length, L1, !(nth_map0 _ 0%Q) by lia. reflexivity. }
    assert (Pw : forall i, (i < n)%nat -> nth i (rev (map Q2R (qr_b n))) 0 = nth (n - 1 - i) (map Q2R (qr_b n)) 0).
    { intros i Hi. rewrite nth_rev0 by (rewrite map_length; lia). rewrite map_length, L2. reflexivity. }
    split.
    + split; [rewrite rev_length, map_length; auto|]. split; [rewrite rev_length, map_length; auto|]. split.
      * intros i Hi. rewrite !Ph, !Pw by lia. destruct (Ns i Hi) as [S1 S2]. replace (n - 1 - (n - 1 - i))%nat with i by lia.
        split; [apply acos_quarter, X; lia|]. split; [apply W; lia|]. split; [auto|].
        pose proof (X i Hi) as X1. pose proof (X (n - 1 - i)%nat ltac:(lia)) as X2.
        rewrite !cos_acos by lra. rewrite Rplus_comm. rewrite <- !Rsqr_pow2. exact S2.
      * intros i Hi. rewrite !Ph by lia. apply acos_dec; try (apply X; lia).
        pose proof (I (n - 1 - S i)%nat ltac:(lia)) as H. replace (S (n - 1 - S i)) with (n - 1 - i)%nat in H by lia. exact H.
    + intros k Hk. rewrite map_rev, map_map, power_sum_rev by (rewrite !map_length; lia).
      assert (Es : map (fun v => cos (acos (Q2R v))) (qr_a n) = map Q2R (qr_a n)).
      { apply map_ext_in. intros q Hq. apply BX in Hq. apply cos_acos. lra. }
      rewrite Es, dotR_comm_pow. destruct (quarter_zs_ok N30) as [Lz Nz].
      pose proof (@mom_row_ok n _ _ _ k (1 * quarter k) R M ltac:(lia) ltac:(lia)) as B. rewrite Nz in B by auto.
      assert (K30 : (k <= 30)%nat) by lia.
      pose proof (@scale_near 1 _ _ k (or_introl eq_refl) K30 (quarter_close k)) as Q. rewrite Z.mul_1_l in Q. specialize (B Q).
      rewrite inv14, Rmult_1_l in B. exact B.
  - intros Hm. unfold qr_rule. rewrite (proj2 (Nat.leb_gt (2 * m) 30)) by lia. reflexivity.
  - unfold qr_rule. destruct (2 * m + 1 <=? 30)%nat; [|reflexivity]. cbn [negb]. rewrite (proj2 (Nat.eqb_neq (2 * m + 1) 0)) by lia.
    replace ((2 * m + 1) mod 2)%nat with 1%nat; [reflexivity|]. rewrite Nat.add_comm, Nat.mul_comm, Nat.mod_add; [reflexivity|lia].
Qed.
