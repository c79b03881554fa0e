From Verif Require Import Base BaseR Util_Model Util_Proofs Mesh_Model Mesh_Spec Csg_Model Csg_Spec Csg_Proofs Pin_Model Pin_Spec Angle_Model Angle_Proofs Tracker_Model Tracker_Spec Tracker_Proofs Tracker_Proofs2 Tracker_Proofs3 Tracker_Proofs4 Tracker_Proofs6 Tracker_Proofs7 Tracker_Proofs8.
Set Implicit Arguments. Unset Strict Implicit.
Open Scope R_scope.

(** ** Number of points *)
Lemma ceil_ge x : x <= IZR (ceil x).
Proof. unfold ceil. rewrite opp_IZR. destruct (base_Int_part (- x)). lra. Qed.
Lemma ceil_is x z : IZR z - 1 < x <= IZR z -> ceil x = z.
Proof.
  intros H. unfold ceil. destruct (base_Int_part (- x)) as [A B]. set (i := Int_part (- x)) in *.
  assert (i < - z + 1)%Z by (apply lt_IZR; rewrite plus_IZR, opp_IZR; lra). assert (- z < i + 1)%Z by (apply lt_IZR; rewrite plus_IZR, opp_IZR; lra). lia.
Qed.
Lemma number_ge k len width c : len / (width / c) <= INR (number_points k len width c).
Proof.
  unfold number_points. assert (C := ceil_ge (len / (width / c))). set (z := ceil (len / (width / c))) in *. rewrite INR_IZR_INZ, Z2Nat.id by lia.
  apply Rle_trans with (IZR z); auto. apply IZR_le. lia.
Qed.
Lemma number_is k len width c z : (0 < k)%nat -> IZR z - 1 < len / (width / c) <= IZR z -> (Z.of_nat k <= z)%Z -> number_points k len width c = Z.to_nat z.
Proof. intros K H L. unfold number_points. rewrite (ceil_is H). f_equal. lia. Qed.

(** ** Widths *)
Theorem widths_iff base X Y width minn np azi h m a c s ts o : face_rule base -> 0 < X -> 0 < Y -> (0 < minn)%nat -> (0 < np)%nat -> good_azimuths azi ->
  generate base width minn np azi X Y ([], []) = Ok (h, m) -> nth_error azi a = Some (c, s) -> map_find m (o, (a * np)%nat) = Some ts ->
  (sumR (map t_weight ts) = X * s + Y * c <-> X = Y \/ c = s).
Proof.
  intros FR PX PY MN NP GA E Ha Hf. destruct (@tracks_run base FR X Y width minn np PX PY MN NP azi GA) as (h0 & m0 & E0 & _ & K). rewrite E in E0. injection E0 as <- <-.
  destruct (K a c s Ha) as (ts0 & ts1 & _ & _ & _ & _ & _ & _ & _ & G). destruct (G o ts Hf) as (_ & W & _). rewrite W. split.
  - intros H. assert (Z : (X - Y) * (c - s) = 0) by lra. apply Rmult_integral in Z. destruct Z; [left|right]; lra.
  - intros [-> | ->]; ring.
Qed.
Lemma good_one c s : 1 / 1000 < c -> 1 / 1000 < s -> c * c + s * s = 1 -> good_azimuths [(c, s)].
Proof.
  intros Hc Hs E c' s' [H|[]]. injection H as <- <-. assert (eps13 / 2 < 1 / 1000); [|lra].
  unfold eps13. enough (/ 10 ^ 13 <= / 10 ^ 3) as K by (simpl in *; lra). apply Rinv_le_contravar; [apply pow_lt; lra|]. apply Rle_pow; [lra|lia].
Qed.
Theorem widths_wrong : exists X Y c s width h m ts, 0 < X /\ 0 < Y /\ good_azimuths [(c, s)] /\
  generate uniform_base width 1 1 [(c, s)] X Y ([], []) = Ok (h, m) /\ map_find m (0%nat, 0%nat) = Some ts /\ sumR (map t_weight ts) <> X * s + Y * c.
Proof.
  assert (GA : good_azimuths [(3 / 5, 4 / 5)]) by (apply good_one; lra).
  destruct (@tracks_run uniform_base uniform_face 2 1 (1 / 10) 1 1 ltac:(lra) ltac:(lra) ltac:(lia) ltac:(lia) _ GA) as (h & m & E & _ & K).
  destruct (K 0%nat (3 / 5) (4 / 5) eq_refl) as (ts0 & ts1 & F & _). exists 2, 1, (3 / 5), (4 / 5), (1 / 10), h, m, ts0.
  split; [lra|]. split; [lra|]. split; [exact GA|]. split; [exact E|]. split; [exact F|]. intros H.
  apply (@widths_iff uniform_base 2 1 (1 / 10) 1 1 _ h m 0%nat (3 / 5) (4 / 5) ts0 0%nat uniform_face ltac:(lra) ltac:(lra) ltac:(lia) ltac:(lia) GA E eq_refl F) in H. lra.
Qed.

(** ** Spacing *)
(** Neighbours on a face: the distance along the face is at most width / sin (west) and
    width / cos (south). *)
Theorem spacing X Y width minn np azi h m a c s ts : 0 < X -> 0 < Y -> 0 < width -> (0 < minn)%nat -> (0 < np)%nat -> good_azimuths azi ->
  generate uniform_base width minn np azi X Y ([], []) = Ok (h, m) -> nth_error azi a = Some (c, s) -> map_find m (0%nat, (a * np)%nat) = Some ts ->
  exists ws ss, ts = ws ++ ss /\ ws <> [] /\ ss <> [] /\
    (forall t, In t ws -> px (enter t) = 0) /\ (forall t, In t ss -> py (enter t) = 0) /\
    (forall i t u, nth_error ws i = Some t -> nth_error ws (S i) = Some u -> 0 < offset c s u - offset c s t <= width * (c / s)) /\
    (forall i t u, nth_error ss i = Some t -> nth_error ss (S i) = Some u -> 0 < offset c s t - offset c s u <= width * (s / c)).
Proof.
  intros PX PY PW MN NP GA E Ha Hf. destruct (@tracks_run uniform_base uniform_face X Y width minn np PX PY MN NP azi GA) as (h0 & m0 & E0 & _ & K). rewrite E in E0. injection E0 as <- <-.
  destruct (K a c s Ha) as (ts0 & ts1 & F & _ & _ & _ & EN & _). rewrite Hf in F. injection F as <-. pose proof eps13_pos as EP. destruct (GA _ _ (nth_error_In _ _ Ha)) as (Hc & Hs & _).
  set (nv := number_points minn Y width s) in *. set (nh := number_points minn X width c) in *. assert (NV : (0 < nv)%nat) by (apply number_pos; auto). assert (NH : (0 < nh)%nat) by (apply number_pos; auto).
  assert (LB : forall n L, (0 < n)%nat -> length (uniform_base n L) = n) by (intros n L Hn; unfold uniform_base; rewrite combine_length, uniform_fst_length, (proj1 (@uniform_sum 0 L n Hn)) by auto; lia).
  assert (PN : forall n, (0 < n)%nat -> 0 < INR n) by (intros n Hn; apply lt_0_INR; lia).
  assert (NB : forall n L i d, (i < n)%nat -> fst (nth i (uniform_base n L) d) = L * (INR i + 1 / 2) / INR n).
  { intros n L i d Hi. rewrite <- (@uniform_nth n L i Hi). erewrite nth_indep with (d' := fst d) by (rewrite map_length, LB; lia). rewrite map_nth. reflexivity. }
  exists (firstn nv ts), (skipn nv ts).
  assert (E1 : map enter (firstn nv ts) = map (fun yw => P3 0 (fst yw) 0) (uniform_base nv Y)) by (rewrite <- firstn_map, EN, firstn_app, firstn_all2 by (rewrite map_length, LB; auto); rewrite map_length, LB, Nat.sub_diag by auto; cbn [firstn]; apply app_nil_r).
  assert (E2 : map enter (skipn nv ts) = map (fun xw => P3 (fst xw) 0 0) (uniform_base nh X)) by (rewrite <- skipn_map, EN, skipn_app, skipn_all2 by (rewrite map_length, LB; auto); rewrite map_length, LB, Nat.sub_diag by auto; reflexivity).
  assert (N1 : forall i t, nth_error (firstn nv ts) i = Some t -> (i < nv)%nat /\ enter t = P3 0 (Y * (INR i + 1 / 2) / INR nv) 0).
  { intros i t H. apply (map_nth_error enter) in H. rewrite E1 in H. assert (I : (i < length (map (fun yw : R * R => P3 0 (fst yw) 0) (uniform_base nv Y)))%nat) by (apply nth_error_Some; congruence). rewrite map_length, LB in I by auto. split; auto.
    apply (nth_error_nth _ _ (P3 0 (fst (0, 0)) 0)) in H. rewrite (map_nth (fun yw : R * R => P3 0 (fst yw) 0)), NB in H by auto. auto. }
  assert (N2 : forall i t, nth_error (skipn nv ts) i = Some t -> (i < nh)%nat /\ enter t = P3 (X * (INR i + 1 / 2) / INR nh) 0 0).
  { intros i t H. apply (map_nth_error enter) in H. rewrite E2 in H. assert (I : (i < length (map (fun xw : R * R => P3 (fst xw) 0 0) (uniform_base nh X)))%nat) by (apply nth_error_Some; congruence). rewrite map_length, LB in I by auto. split; auto.
    apply (nth_error_nth _ _ (P3 (fst (0, 0)) 0 0)) in H. rewrite (map_nth (fun xw : R * R => P3 (fst xw) 0 0)), NB in H by auto. auto. }
  split; [symmetry; apply firstn_skipn|]. split; [intros Z; rewrite Z in E1; apply (f_equal (@length point)) in E1; rewrite !map_length, LB in E1 by auto; cbn in E1; lia|].
  split; [intros Z; rewrite Z in E2; apply (f_equal (@length point)) in E2; rewrite !map_length, LB in E2 by auto; cbn in E2; lia|].
  split; [intros t Ht; apply In_nth_error in Ht; destruct Ht as (i & Hi); destruct (N1 i t Hi) as [_ ->]; reflexivity|].
  split; [intros t Ht; apply In_nth_error in Ht; destruct Ht as (i & Hi); destruct (N2 i t Hi) as [_ ->]; reflexivity|].
  assert (GAP : forall n L k i, (0 < n)%nat -> 0 < L -> 0 < k -> L / (width / k) <= INR n -> 0 < L * (INR (S i) + 1 / 2) / INR n - L * (INR i + 1 / 2) / INR n <= width / k).
  { intros n L k i Hn HL Hk HN. assert (P := PN n Hn). replace (L * (INR (S i) + 1 / 2) / INR n - L * (INR i + 1 / 2) / INR n) with (L / INR n) by (rewrite S_INR; field; lra).
    split; [apply Rdiv_lt_0_compat; auto|]. apply Rmult_le_reg_r with (INR n); auto. replace (L / INR n * INR n) with L by (field; lra). assert (PK : 0 < width / k) by (apply Rdiv_lt_0_compat; auto).
    replace L with (L / (width / k) * (width / k)) at 1 by (field; lra). rewrite (Rmult_comm (width / k)). apply Rmult_le_compat_r; lra. }
  split.
  - intros i t u Ht Hu. destruct (N1 _ _ Ht) as [_ A]. destruct (N1 _ _ Hu) as [_ B]. unfold offset. rewrite A, B. cbn [px py]. destruct (GAP nv Y s i NV PY ltac:(lra) (number_ge minn Y width s)) as [G1 G2].
    set (y1 := Y * (INR (S i) + 1 / 2) / INR nv) in *. set (y0 := Y * (INR i + 1 / 2) / INR nv) in *. replace (c * y1 - s * 0 - (c * y0 - s * 0)) with (c * (y1 - y0)) by ring. split; [apply Rmult_lt_0_compat; lra|].
    replace (width * (c / s)) with (c * (width / s)) by (field; lra). apply Rmult_le_compat_l; lra.
  - intros i t u Ht Hu. destruct (N2 _ _ Ht) as [_ A]. destruct (N2 _ _ Hu) as [_ B]. unfold offset. rewrite A, B. cbn [px py]. destruct (GAP nh X c i NH PX ltac:(lra) (number_ge minn X width c)) as [G1 G2].
    set (y1 := X * (INR (S i) + 1 / 2) / INR nh) in *. set (y0 := X * (INR i + 1 / 2) / INR nh) in *. replace (c * 0 - s * y0 - (c * 0 - s * y1)) with (s * (y1 - y0)) by ring. split; [apply Rmult_lt_0_compat; lra|].
    replace (width * (s / c)) with (s * (width / c)) by (field; lra). apply Rmult_le_compat_l; lra.
Qed.
(** Two neighbours further apart than the maximum, with no track in between. *)
Theorem spacing_wrong : exists c s width h m ts t u, 0 < width /\ good_azimuths [(c, s)] /\
  generate uniform_base width 1 1 [(c, s)] 1 1 ([], []) = Ok (h, m) /\ map_find m (0%nat, 0%nat) = Some ts /\ In t ts /\ In u ts /\
  (forall v, In v ts -> offset c s v <= offset c s t \/ offset c s u <= offset c s v) /\ offset c s t + width < offset c s u.
Proof.
  assert (GA : good_azimuths [(4 / 5, 3 / 5)]) by (apply good_one; lra).
  destruct (@tracks_run uniform_base uniform_face 1 1 (1 / 10) 1 1 ltac:(lra) ltac:(lra) ltac:(lia) ltac:(lia) _ GA) as (h & m & E & _ & K).
  destruct (K 0%nat (4 / 5) (3 / 5) eq_refl) as (ts & ts1 & F & _ & _ & _ & EN & _). clear K.
  rewrite (@number_is 1 1 (1 / 10) (3 / 5) 6) in EN by (try lia; replace (1 / (1 / 10 / (3 / 5))) with 6 by field; lra).
  rewrite (@number_is 1 1 (1 / 10) (4 / 5) 8) in EN by (try lia; replace (1 / (1 / 10 / (4 / 5))) with 8 by field; lra).
  assert (BP : forall n L d, In d (uniform_base n L) -> exists i, (i < n)%nat /\ fst d = L * (INR i + 1 / 2) / INR n).
  { intros n L d Hd. destruct n as [|n]; [unfold uniform_base in Hd; cbn in Hd; destruct Hd|]. apply (in_map fst) in Hd. apply (In_nth _ _ 0) in Hd. destruct Hd as (i & Hi & Hd). assert (Hi' : (i < Datatypes.S n)%nat).
    { rewrite map_length in Hi. unfold uniform_base in Hi. rewrite combine_length, uniform_fst_length in Hi by lia. lia. } exists i. split; auto. rewrite <- Hd. apply uniform_nth. auto. }
  assert (LB : length (uniform_base (Z.to_nat 6) 1) = 6%nat) by (unfold uniform_base; rewrite combine_length, uniform_fst_length, (proj1 (@uniform_sum 0 1 (Z.to_nat 6) ltac:(lia))) by lia; reflexivity).
  assert (W : forall k, (k < 6)%nat -> exists t, In t ts /\ enter t = P3 0 (1 * (INR k + 1 / 2) / INR (Z.to_nat 6)) 0).
  { intros k Hk. assert (I : In (P3 0 (1 * (INR k + 1 / 2) / INR (Z.to_nat 6)) 0) (map enter ts)).
    { rewrite EN. apply in_app_iff. left. rewrite <- (@uniform_nth (Z.to_nat 6) 1 k Hk). change (0 : R) with (fst (0, 0)) at 2. rewrite map_nth. apply (in_map (fun yw => P3 0 (fst yw) 0)). apply nth_In. rewrite LB. auto. }
    apply in_map_iff in I. destruct I as (t & A & B). exists t. auto. }
  assert (I6 : INR (Z.to_nat 6) = 6) by (rewrite INR_IZR_INZ; reflexivity). rewrite I6 in W.
  destruct (W 0%nat ltac:(lia)) as (t & T1 & T2). destruct (W 1%nat ltac:(lia)) as (u & U1 & U2). cbn [INR] in T2, U2.
  exists (4 / 5), (3 / 5), (1 / 10), h, m, ts, t, u. split; [lra|]. split; [exact GA|]. split; [exact E|]. split; [exact F|]. split; [exact T1|]. split; [exact U1|].
  unfold offset. rewrite T2, U2. cbn [px py]. split; [|lra]. intros v Hv. apply (in_map enter) in Hv. rewrite EN in Hv. apply in_app_iff in Hv. rewrite !in_map_iff in Hv. destruct Hv as [(d & A & B)|(d & A & B)]; rewrite <- A; cbn [px py].
  - destruct (BP _ _ _ B) as (i & Hi & ->). rewrite I6. destruct i as [|i]; [left; cbn [INR]; lra|right]. rewrite S_INR. assert (0 <= INR i) by apply pos_INR. lra.
  - left. destruct (BP _ _ _ B) as (i & Hi & ->). assert (0 <= INR i) by apply pos_INR. replace (INR (Z.to_nat 8)) with 8 by (rewrite INR_IZR_INZ; reflexivity). lra.
Qed.

(** ** A tracker that is used again *)
Lemma first_keeps base X Y width minn np o k ts : o <> 0%nat -> forall azi a h m h' m', first_quadrant base X Y width minn np a azi h m = Ok (h', m') ->
  map_find m (o, k) = Some ts -> map_find m' (o, k) = Some ts.
Proof.
  intros Ho. induction azi as [|[c s] azi IH]; intros a h m h' m' E F; cbn [first_quadrant] in E; [injection E as <- <-; auto|].
  destruct (quadrant base X Y width minn c s h) as [[h1 t1]| |]; cbn [bind] in E; try discriminate. eapply IH; [exact E|]. cbn [fst snd]. rewrite map_find_set. unfold key_eqb. cbn [fst snd]. destruct (Nat.eqb 0 o) eqn:E0; [apply Nat.eqb_eq in E0; lia|]. auto.
Qed.
Theorem keeps_old base X Y width minn np azi st h m o k ts : o <> 0%nat -> generate base width minn np azi X Y st = Ok (h, m) ->
  map_find (snd st) (o, k) = Some ts -> map_find m (o, k) = Some ts.
Proof.
  intros Ho E F. unfold generate in E. destruct (first_quadrant base X Y width minn np 0 azi (fst st) (snd st)) as [[h1 m1]| |] eqn:E1; cbn [bind] in E; try discriminate.
  unfold mirror_all in E. cbn [fst snd] in E. match type of E with context [fold_left ?f ?l ?z] => destruct (fold_left f l z) as [h2 l2] end. injection E as <- <-.
  unfold reverse_all. apply map_insert_keeps. apply map_insert_keeps. eapply first_keeps; eauto.
Qed.
Theorem used_again : exists c s width st1 h m ts t, 0 < width /\ good_azimuths [(c, s)] /\
  generate uniform_base width 1 1 [(c, s)] 1 1 ([], []) = Ok st1 /\ generate uniform_base width 1 1 [(c, s)] 2 1 st1 = Ok (h, m) /\
  map_find m (1%nat, 0%nat) = Some ts /\ In t ts /\ ~ crosses 2 1 (sgn_x 1 * c) (sgn_y 1 * s) t.
Proof.
  assert (GA : good_azimuths [(4 / 5, 3 / 5)]) by (apply good_one; lra).
  destruct (@tracks_run uniform_base uniform_face 1 1 (1 / 10) 1 1 ltac:(lra) ltac:(lra) ltac:(lia) ltac:(lia) _ GA) as (h1 & m1 & E & _ & K).
  destruct (K 0%nat (4 / 5) (3 / 5) eq_refl) as (ts0 & ts & _ & F & _ & _ & EN & EM & _). clear K.
  assert (G2 : exists h m, generate uniform_base (1 / 10) 1 1 [(4 / 5, 3 / 5)] 2 1 (h1, m1) = Ok (h, m)).
  { unfold generate. cbn [first_quadrant fst snd]. destruct (GA (4 / 5) (3 / 5) ltac:(left; auto)) as (Hc & Hs & _).
    destruct (@quadrant_ok uniform_base uniform_face 2 1 (1 / 10) 1 ltac:(lra) ltac:(lra) ltac:(lia) (4 / 5) (3 / 5) h1 Hc Hs) as (q & Q & _). rewrite Q. cbn [bind fst snd].
    destruct (mirror_all 2 _ _) as [h m]. eexists _, _. reflexivity. }
  destruct G2 as (h & m & G). 
  assert (NP : (0 < number_points 1 1 (1 / 10) (3 / 5))%nat) by (apply number_pos; lia). destruct (uniform_face NP Rlt_0_1) as (LB & _ & IN). set (l := uniform_base (number_points 1 1 (1 / 10) (3 / 5)) 1) in *.
  destruct l as [|[y w] l]; [cbn in LB; lia|]. specialize (IN y w ltac:(left; auto)). cbn [map app fst snd] in EN. destruct ts0 as [|t0 ts0]; [discriminate|]. cbn [map] in EN. injection EN as E0 _. cbn [map] in EM. destruct ts as [|t ts]; [discriminate|]. cbn [map] in EM. injection EM as E1 _.
  exists (4 / 5), (3 / 5), (1 / 10), (h1, m1), h, m, (t :: ts), t. split; [lra|]. split; [exact GA|]. split; [exact E|]. split; [exact G|]. split; [exact (@keeps_old uniform_base 2 1 (1 / 10) 1%nat 1%nat [(4 / 5, 3 / 5)] (h1, m1) h m 1%nat 0%nat (t :: ts) ltac:(lia) G F)|]. split; [left; auto|].
  intros (_ & _ & C & _). rewrite E1, E0 in C. cbn [px py sgn_x sgn_y] in C. lra.
Qed.
