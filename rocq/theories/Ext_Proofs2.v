(** * Ext_Proofs2: the pulse and the time-dependent sources *)
From Coquelicot Require Import Coquelicot.
From Verif Require Import Base BaseR Loop Angle_Model Kinetics_Model Kinetics_Spec Kinetics_Proofs Ext_Model Ext_Spec Ext_Proofs.
Set Implicit Arguments. Unset Strict Implicit.
Open Scope R_scope.

Lemma derive_exp n t : is_derive_n exp n t (exp t).
Proof.
  revert t. induction n as [|n IH]; intros t; [reflexivity|]. cbn.
  apply (is_derive_ext exp); [intros u; symmetry; apply is_derive_n_unique, IH|apply is_derive_exp].
Qed.
(** Partial sums of the series, with the remainder. *)
Lemma exp_taylor n x : 0 < x -> exists z, 0 < z < x /\ exp x = sum_f_R0 (fun m => x ^ m / INR (fact m)) n + x ^ S n / INR (fact (S n)) * exp z.
Proof.
  intros Hx. destruct (@Taylor_Lagrange exp n 0 x Hx) as (z & Hz & E).
  { intros t _ k _. exists (exp t) || idtac. apply ex_derive_n_ext_loc with exp. { exists (mkposreal 1 Rlt_0_1). auto. } destruct k; [exact I|]. exists (exp t). exact (derive_exp (S k) t). }
  exists z. split; auto. rewrite E, (is_derive_n_unique _ _ _ _ (derive_exp (S n) z)), Rminus_0_r. f_equal.
  apply sum_eq. intros i _. rewrite (is_derive_n_unique _ _ _ _ (derive_exp i 0)), exp_0. ring.
Qed.

(** Factorials as binary numbers. *)
Fixpoint zfact (n : nat) : Z := match n with O => 1%Z | S m => (Z.of_nat n * zfact m)%Z end.
Lemma zfact_ok n : INR (fact n) = IZR (zfact n).
Proof.
  induction n as [|n IH]; [reflexivity|]. change (fact (S n)) with (S n * fact n)%nat. rewrite mult_INR, IH, INR_IZR_INZ. cbn [zfact]. rewrite mult_IZR. reflexivity.
Qed.
Lemma sum_S f n : sum_f_R0 f (S n) = sum_f_R0 f n + f (S n).
Proof. reflexivity. Qed.
Definition width : R := 2354820045030949 / 10 ^ 15.
Definition xw : R := width ^ 2 / 8.
Definition dz : Z := 10000000000000000000.
Definition den : R := IZR dz.
(** One step of Horner's rule in numbers with 19 decimals. *)
Lemma horner x k XL XH L U A B y : (0 <? k)%Z = true -> IZR XL <= x * den <= IZR XH ->
  (0 <=? XL)%Z = true -> (0 <=? L)%Z = true -> (A * (k * dz) <=? k * dz * dz + XL * L)%Z = true -> (k * dz * dz + XH * U <=? B * (k * dz))%Z = true ->
  IZR L <= y * den <= IZR U -> IZR A <= (1 + x / IZR k * y) * den <= IZR B.
Proof.
  intros Hk HX H1 H2 HA HB HY. apply Z.ltb_lt in Hk. apply Z.leb_le in H1, H2, HA, HB. apply IZR_lt in Hk. apply IZR_le in H1, H2, HA, HB.
  rewrite ?plus_IZR, ?mult_IZR in HA, HB. fold den in HA, HB. assert (PD : 0 < den) by (unfold den, dz; lra).
  assert (PK : 0 < IZR k * den) by nra.
  assert (E : (1 + x / IZR k * y) * den * (IZR k * den) = IZR k * den * den + (x * den) * (y * den)) by (field; lra).
  assert (M1 : IZR XL * IZR L <= (x * den) * (y * den)) by (apply Rmult_le_compat; lra).
  assert (M2 : (x * den) * (y * den) <= IZR XH * IZR U) by (apply Rmult_le_compat; lra).
  split; apply Rmult_le_reg_r with (IZR k * den); auto; rewrite E; lra.
Qed.
Lemma exp_xw : Rabs (exp xw - 2) <= / 10 ^ 15.
Proof.
  assert (PX : 0 < xw < 7 / 10) by (unfold xw, width; lra).
  destruct (exp_taylor 16 (proj1 PX)) as (z & Hz & E). 
  assert (EZ : 0 < exp z <= 3). { split; [apply exp_pos|]. apply Rle_trans with (exp 1); [left; apply exp_increasing; lra|]. apply exp_le_3. }
  rewrite E. set (r := xw ^ 17 / INR (fact 17)). 
  assert (R1 : 0 <= r <= / 10 ^ 17).
  { unfold r. rewrite zfact_ok. replace (zfact 17) with 355687428096000%Z by reflexivity. split; [apply Rmult_le_pos; [apply pow_le; lra|lra]|].
    apply Rle_trans with ((7 / 10) ^ 17 / 355687428096000); [|lra]. apply Rmult_le_compat_r; [lra|]. apply pow_incr. lra. }
  replace (sum_f_R0 (fun m => xw ^ m / INR (fact m)) 16) with
    (1 + xw / 1 * (1 + xw / 2 * (1 + xw / 3 * (1 + xw / 4 * (1 + xw / 5 * (1 + xw / 6 * (1 + xw / 7 * (1 + xw / 8 * (1 + xw / 9 * (1 + xw / 10 * (1 + xw / 11 * (1 + xw / 12 * (1 + xw / 13 * (1 + xw / 14 * (1 + xw / 15 * (1 + xw / 16 * 1)))))))))))))))).
  2:{ rewrite (sum_eq _ (fun m => xw ^ m / IZR (zfact m))) by (intros; rewrite zfact_ok; reflexivity).
      rewrite !sum_S. cbn [sum_f_R0].
      repeat match goal with |- context [zfact ?k] => let v := eval vm_compute in (zfact k) in change (zfact k) with v end.
      field. }
  assert (BX : 6931471805599450845 <= xw * den <= 6931471805599450846) by (unfold xw, width, den, dz; split; lra).
  assert (H0 : 10000000000000000000 <= 1 * den <= 10000000000000000000) by (unfold den, dz; split; lra).
  apply (@horner xw 16 6931471805599450845 6931471805599450846 _ _ 10433216987849965677 10433216987849965678 _ eq_refl BX) in H0; [|reflexivity ..].
  apply (@horner xw 15 6931471805599450845 6931471805599450846 _ _ 10482116995953221769 10482116995953221770 _ eq_refl BX) in H0; [|reflexivity ..].
  apply (@horner xw 14 6931471805599450845 6931471805599450846 _ _ 10518974988717461212 10518974988717461213 _ eq_refl BX) in H0; [|reflexivity ..].
  apply (@horner xw 13 6931471805599450845 6931471805599450846 _ _ 10560861373523852953 10560861373523852954 _ eq_refl BX) in H0; [|reflexivity ..].
  apply (@horner xw 12 6931471805599450845 6931471805599450846 _ _ 10610019273778540645 10610019273778540647 _ eq_refl BX) in H0; [|reflexivity ..].
  apply (@horner xw 11 6931471805599450845 6931471805599450846 _ _ 10668573176846024684 10668573176846024685 _ eq_refl BX) in H0; [|reflexivity ..].
  apply (@horner xw 10 6931471805599450845 6931471805599450846 _ _ 10739489141812827841 10739489141812827842 _ eq_refl BX) in H0; [|reflexivity ..].
  apply (@horner xw 9 6931471805599450845 6931471805599450846 _ _ 10827116291033522873 10827116291033522874 _ eq_refl BX) in H0; [|reflexivity ..].
  apply (@horner xw 8 6931471805599450845 6931471805599450846 _ _ 10938098141340567026 10938098141340567027 _ eq_refl BX) in H0; [|reflexivity ..].
  apply (@horner xw 7 6931471805599450845 6931471805599450846 _ _ 11083101698194027105 11083101698194027107 _ eq_refl BX) in H0; [|reflexivity ..].
  apply (@horner xw 6 6931471805599450845 6931471805599450846 _ _ 11280370115660388216 11280370115660388217 _ eq_refl BX) in H0; [|reflexivity ..].
  apply (@horner xw 5 6931471805599450845 6931471805599450846 _ _ 11563791348268531945 11563791348268531946 _ eq_refl BX) in H0; [|reflexivity ..].
  apply (@horner xw 4 6931471805599450845 6931471805599450846 _ _ 12003852342408954731 12003852342408954732 _ eq_refl BX) in H0; [|reflexivity ..].
  apply (@horner xw 3 6931471805599450845 6931471805599450846 _ _ 12773478802332886497 12773478802332886499 _ eq_refl BX) in H0; [|reflexivity ..].
  apply (@horner xw 2 6931471805599450845 6931471805599450846 _ _ 14426950408889632181 14426950408889632184 _ eq_refl BX) in H0; [|reflexivity ..].
  apply (@horner xw 1 6931471805599450845 6931471805599450846 _ _ 19999999999999995443 19999999999999995447 _ eq_refl BX) in H0; [|reflexivity ..].
  match type of H0 with _ <= ?t * den <= _ => set (S := t) in * end.
  assert (HS : - / 10 ^ 15 + / 10 ^ 16 <= S - 2 <= / 10 ^ 15 - / 10 ^ 16) by (unfold den, dz in H0; split; lra).
  clearbody S r. assert (M : 0 <= r * exp z <= / 10 ^ 17 * 3) by (split; [apply Rmult_le_pos; lra|apply Rmult_le_compat; lra]).
  apply Rabs_le. split; lra.
Qed.

Lemma exp_ge x : 1 + x <= exp x.
Proof. destruct (Req_dec x 0) as [->|N]; [rewrite exp_0; lra|]. left. apply exp_ineq1. auto. Qed.
Lemma ln2_xw : Rabs (xw - ln 2) <= / 10 ^ 15.
Proof.
  pose proof exp_xw as E. apply Rabs_le_between in E. set (y := xw - ln 2). assert (EY : exp y = exp xw / 2).
  { unfold y, Rminus. rewrite exp_plus, exp_Ropp, exp_ln by lra. reflexivity. }
  pose proof (exp_ge y) as G1. pose proof (exp_ge (- y)) as G2. rewrite exp_Ropp, EY in G2. rewrite EY in G1.
  assert (I : / (exp xw / 2) <= 1 + / 10 ^ 15).
  { apply Rmult_le_reg_r with (exp xw / 2); [lra|]. rewrite Rinv_l by lra. nra. }
  apply Rabs_le. split; lra.
Qed.
Lemma xw_range : 69 / 100 <= xw <= 70 / 100.
Proof. unfold xw, width. split; lra. Qed.

(** exp(-a s) and exp(-b s) differ by at most |a - b| / min(a, b). *)
Lemma decay_close a b s : 0 < a <= b -> 0 <= s -> 0 <= exp (- a * s) - exp (- b * s) <= (b - a) / a.
Proof.
  intros Ha Hs. replace (- b * s) with (- a * s + - ((b - a) * s)) by ring. rewrite exp_plus.
  pose proof (exp_ge (- ((b - a) * s))) as G. pose proof (exp_pos (- a * s)) as P. set (e := exp (- a * s)) in *. set (f := exp (- ((b - a) * s))) in *.
  assert (F1 : f <= 1). { unfold f. rewrite <- exp_0. destruct (Req_dec ((b - a) * s) 0) as [->|N]; [rewrite Ropp_0; lra|]. left. apply exp_increasing. nra. }
  assert (EA : e * (a * s) <= 1).
  { pose proof (exp_ge (a * s)) as GA. assert (EE : e * exp (a * s) = 1) by (unfold e; rewrite <- exp_plus; replace (- a * s + a * s) with 0 by ring; apply exp_0). nra. }
  split; [nra|]. apply Rle_trans with (e * ((b - a) * s)); [nra|].
  apply Rmult_le_reg_r with a; [lra|]. replace ((b - a) / a * a) with (b - a) by (field; lra). replace (e * ((b - a) * s) * a) with ((b - a) * (e * (a * s))) by ring. nra.
Qed.

(** ** The pulse is the Gaussian of the given width *)
Theorem pulse_gaussian peak fwhm t : fwhm <> 0 -> Rabs (pulse peak fwhm t - gaussian peak fwhm t) <= / 10 ^ 14.
Proof.
  intros Hf. unfold pulse, gaussian. set (s := ((t - peak) / fwhm) ^ 2). assert (Hs : 0 <= s) by apply pow2_ge_0.
  replace (- (t - peak) ^ 2 / (2 * (fwhm / (2354820045030949 / 10 ^ 15)) ^ 2)) with (- (4 * xw) * s).
  2:{ unfold s, xw, width. field. auto. }
  pose proof ln2_xw as L. apply Rabs_le_between in L. pose proof xw_range as X.
  assert (B : forall a b, 2 <= a <= b -> b - a <= 4 / 10 ^ 15 -> (b - a) / a <= / 10 ^ 14).
  { intros a b Ha Hb. apply Rmult_le_reg_r with a; [lra|]. replace ((b - a) / a * a) with (b - a) by (field; lra). nra. }
  destruct (Rle_dec xw (ln 2)) as [Hx|Hx].
  - pose proof (@decay_close (4 * xw) (4 * ln 2) s ltac:(lra) Hs) as D. pose proof (B (4 * xw) (4 * ln 2) ltac:(lra) ltac:(lra)). apply Rabs_le. split; lra.
  - pose proof (@decay_close (4 * ln 2) (4 * xw) s ltac:(lra) Hs) as D. pose proof (B (4 * ln 2) (4 * xw) ltac:(lra) ltac:(lra)). apply Rabs_le. split; lra.
Qed.
Lemma pulse_peak peak fwhm : pulse peak fwhm peak = 1.
Proof. unfold pulse. replace (- (peak - peak) ^ 2 / _) with 0; [apply exp_0|]. unfold Rdiv. replace (peak - peak) with 0 by ring. ring. Qed.
Lemma pulse_range peak fwhm t : fwhm <> 0 -> 0 < pulse peak fwhm t <= 1.
Proof.
  intros Hf. unfold pulse. split; [apply exp_pos|]. rewrite <- exp_0.
  replace (- (t - peak) ^ 2 / (2 * (fwhm / (2354820045030949 / 10 ^ 15)) ^ 2)) with (- (4 * xw) * ((t - peak) / fwhm) ^ 2) by (unfold xw, width; field; auto).
  pose proof xw_range. destruct (Req_dec (((t - peak) / fwhm) ^ 2) 0) as [->|N]; [rewrite Rmult_0_r; lra|]. left. apply exp_increasing. pose proof (pow2_ge_0 ((t - peak) / fwhm)). nra.
Qed.
