(** * Proofs on colours (no model content) *)
From Coq Require Import ZArith Lra Lia.
From Verif Require Import Base BaseR Loop Util_Model Util_Spec Util_Proofs Mesh_Model Mesh_Spec Csg_Model Picture_Model Picture_Spec
  Picture_Proofs Picture_Proofs2.
Open Scope R_scope.
Set Implicit Arguments. Unset Strict Implicit.

Lemma byte_ok x : -1 < x < 256 -> byte x = Ok (trunc x) /\ (0 <= trunc x <= 255)%Z.
Proof.
  intros H. assert (T : (0 <= trunc x <= 255)%Z).
  { unfold trunc. destruct (Rle_dec 0 x) as [P|P].
    - destruct (base_Int_part x) as [A B]. split.
      + assert (-1 < Int_part x)%Z by (apply lt_IZR; lra). lia.
      + assert (Int_part x < 256)%Z by (apply lt_IZR; lra). lia.
    - destruct (base_Int_part (- x)) as [A B].
      assert (Int_part (- x) < 1)%Z by (apply lt_IZR; lra). assert (-1 < Int_part (- x))%Z by (apply lt_IZR; lra). lia. }
  split; auto. unfold byte. rewrite (proj2 (Z.leb_le 0 _)), (proj2 (Z.leb_le _ 255)) by lia. reflexivity.
Qed.

Lemma Int_part_mono a b : a <= b -> (Int_part a <= Int_part b)%Z.
Proof.
  intros H. destruct (base_Int_part a) as [A _]. destruct (base_Int_part b) as [_ B].
  assert (Int_part a < Int_part b + 1)%Z; [|lia]. apply lt_IZR. rewrite plus_IZR. lra.
Qed.
Lemma trunc_mono a b : 0 <= a -> a <= b -> (trunc a <= trunc b)%Z.
Proof. intros P H. unfold trunc. destruct (Rle_dec 0 a); [|lra]. destruct (Rle_dec 0 b); [|lra]. apply Int_part_mono; auto. Qed.
Lemma trunc_IZR z : (0 <= z)%Z -> trunc (IZR z) = z.
Proof.
  intros H. unfold trunc. destruct (Rle_dec 0 (IZR z)) as [P|P]; [|exfalso; apply P, IZR_le; auto].
  destruct (base_Int_part (IZR z)) as [A B]. apply le_IZR in A.
  assert (z < Int_part (IZR z) + 1)%Z by (apply lt_IZR; rewrite plus_IZR; lra). lia.
Qed.

Lemma rgb_of_ok r g b : -1 < r < 256 -> -1 < g < 256 -> -1 < b < 256 ->
  rgb_of r g b = Ok (trunc r, trunc g, trunc b) /\ is_rgb (trunc r, trunc g, trunc b).
Proof.
  intros A B C. unfold rgb_of. destruct (byte_ok A) as [-> A']. destruct (byte_ok B) as [-> B'].
  destruct (byte_ok C) as [-> C']. cbn [bind]. split; auto. unfold is_rgb; cbn [fst snd]; lia.
Qed.

Definition default_c (v : R) : rgb := (trunc (255 * (2 * v - v * v)), trunc (255 * (4 * v - 4 * v * v)), trunc (255 * (1 - v * v))).
Lemma default_ok v : 0 <= v <= 1 -> default_rgb v = Ok (default_c v) /\ is_rgb (default_c v).
Proof.
  intros H. assert (A : 0 <= v * v <= v) by nra. assert (B : 0 <= (2 * v - 1) * (2 * v - 1)) by apply Rle_0_sqr.
  unfold default_rgb, default_c. assert (C : 0 <= (1 - v) * (1 - v)) by apply Rle_0_sqr. apply rgb_of_ok; split; lra.
Qed.

Lemma amplitude a b t M : a * a + b * b <= M * M -> 0 <= M -> - M <= a * cos t + b * sin t <= M.
Proof.
  intros H P. pose proof (sin2_cos2 t) as E. unfold Rsqr in E. set (c := cos t) in *. set (s := sin t) in *.
  assert (Q : (a * c + b * s) * (a * c + b * s) <= M * M).
  { assert (0 <= (a * s - b * c) * (a * s - b * c)) by (apply Rle_0_sqr).
    replace ((a * c + b * s) * (a * c + b * s)) with ((a * a + b * b) * (s * s + c * c) - (a * s - b * c) * (a * s - b * c)) by ring.
    rewrite E. lra. }
  split; nra.
Qed.

Lemma green_low t : 0 <= t <= 3.914 -> 0 <= 0.3989 - 0.1124 * cos t + 0.4392 * sin t.
Proof.
  intros H. pose proof PI2_3_2 as P3. pose proof PI_4 as P4. destruct (COS_bound t) as [C1 C2].
  destruct (Rle_dec t PI) as [L|L].
  - assert (0 <= sin t) by (apply sin_ge_0; lra). lra.
  - set (x := t - PI). assert (X : 0 < x <= 0.914) by (unfold x; lra).
    replace t with (x + PI) by (unfold x; ring). rewrite neg_cos, neg_sin.
    assert (S : sin x < x) by (apply sin_lt_x; lra).
    assert (C : 1 - x * x / 2 <= cos x).
    { replace (cos x) with (cos (2 * (x / 2))) by (f_equal; field). rewrite cos_2a_sin.
      assert (A : 0 <= sin (x / 2) <= x / 2) by (split; [apply sin_ge_0; lra|left; apply sin_lt_x; lra]).
      assert (sin (x / 2) * sin (x / 2) <= (x / 2) * (x / 2)) by (apply Rmult_le_compat; lra). lra. }
    assert (x * x <= 0.914 * 0.914) by (apply Rmult_le_compat; lra). lra.
Qed.

Definition coolwarm_c (v : R) : rgb :=
  (trunc (255 * (0.5764 - 0.3312 * cos (3.788 * v) + 0.2042 * sin (3.788 * v))),
   trunc (255 * (0.3989 - 0.1124 * cos (3.914 * v) + 0.4392 * sin (3.914 * v))),
   trunc (255 * (0.5932 + 0.1619 * cos (4.024 * v) + 0.3747 * sin (4.024 * v)))).
Lemma coolwarm_ok v : 0 <= v <= 1 -> coolwarm_rgb v = Ok (coolwarm_c v) /\ is_rgb (coolwarm_c v).
Proof.
  intros H. apply rgb_of_ok.
  - pose proof (@amplitude (- 0.3312) 0.2042 (3.788 * v) 0.39 ltac:(lra) ltac:(lra)). lra.
  - pose proof (@amplitude (- 0.1124) 0.4392 (3.914 * v) 0.46 ltac:(lra) ltac:(lra)).
    pose proof (@green_low (3.914 * v) ltac:(lra)). lra.
  - pose proof (@amplitude 0.1619 0.3747 (4.024 * v) 0.4085 ltac:(lra) ltac:(lra)). lra.
Qed.

(** ** The maps that interpolate *)
Definition good_rgb (c : rgb) : Prop := is_rgb c.
Lemma positions_length cs : forall d c, List.length (positions d c cs) = S (List.length cs).
Proof. induction cs as [|a cs IH]; intros d c; cbn; auto. Qed.
Lemma node_length cs : List.length (node_positions cs) = List.length cs.
Proof. destruct cs as [|c cs]; auto. unfold node_positions, vec_scale. rewrite map_length, positions_length. reflexivity. Qed.

Lemma first_node_spec d v : forall j, let k := first_node j d v in
  (j <= k <= j + List.length d)%nat /\ (forall i, (i < k - j)%nat -> nth i d 0 < v) /\
  ((k < j + List.length d)%nat -> v <= nth (k - j) d 0).
Proof.
  induction d as [|x d IH]; intros j; cbn [first_node List.length].
  - cbn zeta. repeat split; lia.
  - destruct (Rle_dec v x) as [L|L]; cbn zeta.
    + split; [lia|]. split; [intros i Hi; lia|]. intros _. replace (j - j)%nat with 0%nat by lia. auto.
    + destruct (IH (S j)) as (A & B & C). set (k := first_node (S j) d v) in *. split; [lia|]. split.
      * intros [|i] Hi; cbn [nth]; [lra|]. apply B. lia.
      * intros K. replace (k - j)%nat with (S (k - S j)) by lia. cbn [nth]. apply C. lia.
Qed.

Lemma mix_range a b del w : (0 <= a <= 255)%Z -> (0 <= b <= 255)%Z -> 0 < w -> 0 < del <= w -> -1 < mix a b del w < 256.
Proof.
  intros A B W D. unfold mix. rewrite minus_IZR.
  assert (0 <= IZR a <= 255) by (split; apply IZR_le; lia). assert (0 <= IZR b <= 255) by (split; apply IZR_le; lia).
  set (t := del / w). assert (T : 0 <= t <= 1).
  { unfold t. split; [apply Rmult_le_pos; [lra|left; apply Rinv_0_lt_compat; auto]|].
    apply Rmult_le_reg_r with w; auto. unfold Rdiv. rewrite Rmult_assoc, Rinv_l by lra. lra. }
  replace (IZR a + (IZR b - IZR a) * del / w) with ((1 - t) * IZR a + t * IZR b) by (unfold t; field; lra).
  assert (0 <= (1 - t) * IZR a) by (apply Rmult_le_pos; lra). assert (0 <= t * IZR b) by (apply Rmult_le_pos; lra).
  assert ((1 - t) * IZR a <= (1 - t) * 255) by (apply Rmult_le_compat_l; lra). assert (t * IZR b <= t * 255) by (apply Rmult_le_compat_l; lra). lra.
Qed.

Lemma interp_ok (cs : list rgb) v : cs <> [] -> (forall c, In c cs -> is_rgb c) -> exists c, interp_rgb cs v = Ok c /\ is_rgb c.
Proof.
  intros N H. unfold interp_rgb.
  destruct (first_node_spec (node_positions cs) v 0) as (A & B & C). cbn zeta in *.
  set (j := first_node 0 (node_positions cs) v) in *. rewrite node_length in *.
  assert (L : (0 < List.length cs)%nat) by (destruct cs; [tauto|cbn; lia]).
  assert (RD : forall k, (k < List.length cs)%nat -> exists c, rd cs k = Ok c /\ is_rgb c).
  { intros k Hk. rewrite (@rd_ok _ cs k (0, 0, 0)%Z) by auto. eexists. split; [reflexivity|]. apply H. apply nth_In. auto. }
  destruct (Nat.eqb_spec j 0) as [J|J]; [apply RD; auto|].
  destruct (Nat.eqb_spec j (List.length cs)) as [J2|J2]; [apply RD; lia|].
  destruct (RD (j - 1)%nat ltac:(lia)) as (((r0, g0), b0) & -> & R0).
  destruct (RD j ltac:(lia)) as (((r1, g1), b1) & -> & R1). cbn [bind].
  rewrite !(@rd_ok _ (node_positions cs) _ 0) by (rewrite node_length; lia). cbn [bind].
  specialize (B (j - 1)%nat ltac:(lia)). specialize (C ltac:(lia)). rewrite Nat.sub_0_r in C.
  set (d0 := nth (j - 1) (node_positions cs) 0) in *. set (d1 := nth j (node_positions cs) 0) in *.
  unfold rdiv. destruct (Req_EM_T (d1 - d0) 0); [lra|]. cbn [bind].
  destruct R0 as (? & ? & ?). destruct R1 as (? & ? & ?).
  eexists. apply rgb_of_ok; apply mix_range; auto; lra.
Qed.

Lemma hex_ok h : is_rgb (hex_to_rgb h).
Proof.
  unfold hex_to_rgb. pose proof (Z.mod_pos_bound (h / 65536) 256 ltac:(lia)).
  pose proof (Z.mod_pos_bound (h / 256) 256 ltac:(lia)). pose proof (Z.mod_pos_bound h 256 ltac:(lia)).
  unfold is_rgb; cbn [fst snd]; lia.
Qed.

Lemma mapM_all A B (f : A -> res B) (Q : A -> B -> Prop) l :
  (forall a, In a l -> exists b, f a = Ok b /\ Q a b) -> exists r, mapM f l = Ok r /\ Forall2 Q l r.
Proof.
  induction l as [|a l IH]; intros H; cbn [mapM]; [exists []; auto|].
  destruct (H a (or_introl eq_refl)) as (b & -> & Qb). destruct IH as (r & E & F); [intros x X; apply H; right; auto|].
  cbn [bind]. rewrite E. cbn [bind]. eexists. split; [reflexivity|]. constructor; auto.
Qed.

Lemma interp_map_ok c values : (c <> Default /\ c <> CoolWarm) -> forall hi lo,
  exists r, color hi lo c values = Ok r /\ List.length r = List.length values /\ Forall is_rgb r.
Proof.
  intros [N1 N2] hi lo.
  assert (Q : forall sc : list R, exists r, mapM (interp_rgb (map hex_to_rgb (nodes c))) sc = Ok r /\ List.length r = List.length sc /\ Forall is_rgb r).
  { intros sc. destruct (@mapM_all _ _ (interp_rgb (map hex_to_rgb (nodes c))) (fun _ b => is_rgb b) sc) as (r & E & F).
    - intros a _. apply interp_ok.
      + destruct c; discriminate.
      + intros x X. apply in_map_iff in X. destruct X as (h & <- & _). apply hex_ok.
    - exists r. split; auto. split; [clear E; induction F; cbn; auto|].
      clear E. induction F; constructor; auto. }
  unfold color. destruct c; try congruence;
    match goal with |- exists r, mapM _ ?s = _ /\ _ => destruct (Q s) as (r & E & L & F); exists r; split; [exact E|]; split; [rewrite L|exact F] end;
    destruct (Rlt_dec 0 _); unfold vec_scale, vec_plus_a; rewrite ?map_length; reflexivity.
Qed.

(** ** The default and the diverging map *)
Lemma vec_max_gen l : forall lo,
  (vec_max lo l = lo \/ In (vec_max lo l) l) /\ lo <= vec_max lo l /\ (forall a, In a l -> a <= vec_max lo l).
Proof.
  unfold vec_max. induction l as [|a r IH]; intros lo; simpl; [repeat split; auto; [lra|tauto]|].
  destruct (IH (if Rlt_dec lo a then a else lo)) as (H1 & H2 & H3).
  set (m := fold_left _ _ _) in *. destruct (Rlt_dec lo a).
  - repeat split; [destruct H1; auto|lra|]. intros b [<-|Hb]; auto.
  - repeat split; [destruct H1; auto|lra|]. intros b [<-|Hb]; auto. lra.
Qed.

Definition scaled hi lo values x : R := (x - vec_min hi values) / (vec_max lo values - vec_min hi values).

Lemma function_ok hi lo f (fc : R -> rgb) values :
  (forall v, 0 <= v <= 1 -> f v = Ok (fc v)) ->
  (forall x, In x values -> 0 <= x) -> (exists a b, In a values /\ In b values /\ a < b) ->
  vec_min hi values < vec_max lo values /\ (forall x, In x values -> 0 <= scaled hi lo values x <= 1) /\
  colors_function hi lo f values = Ok (map (fun x => fc (scaled hi lo values x)) values).
Proof.
  intros HF P (a & b & Ia & Ib & Hab). destruct (vec_min_gen values hi) as (_ & _ & Mn). destruct (vec_max_gen values lo) as (_ & _ & Mx).
  pose proof (Mn a Ia). pose proof (Mx b Ib). assert (W : vec_min hi values < vec_max lo values) by lra.
  split; auto.
  assert (S : forall x, In x values -> 0 <= scaled hi lo values x <= 1).
  { intros x X. unfold scaled. pose proof (Mn x X). pose proof (Mx x X). set (w := vec_max lo values - vec_min hi values).
    assert (0 < w) by (unfold w; lra). split; [apply Rmult_le_pos; [lra|left; apply Rinv_0_lt_compat; auto]|].
    apply Rmult_le_reg_r with w; auto. unfold Rdiv. rewrite Rmult_assoc, Rinv_l by lra. unfold w. lra. }
  split; auto. unfold colors_function. apply mapM_ok. intros x X. destruct (Rle_dec 0 x) as [_|N]; [|exfalso; apply N, P; auto].
  unfold rdiv. destruct (Req_EM_T (vec_max lo values - vec_min hi values) 0); [lra|]. cbn [bind]. apply HF. apply S. auto.
Qed.

Lemma default_spec hi lo values :
  (forall x, In x values -> 0 <= x) -> (exists a b, In a values /\ In b values /\ a < b) ->
  exists fc, color hi lo Default values = Ok (map fc values) /\
    (forall x, In x values -> is_rgb (fc x)) /\
    (forall x y, In x values -> In y values -> x <= y -> (red (fc x) <= red (fc y))%Z /\ (blue (fc y) <= blue (fc x))%Z) /\
    (forall x, is_min_of x values -> x <= hi -> fc x = (0, 0, 255)%Z) /\
    (forall x, is_max_of x values -> lo <= x -> fc x = (255, 0, 0)%Z).
Proof.
  intros P D. destruct (@function_ok hi lo default_rgb default_c values (fun v H => proj1 (default_ok H)) P D) as (W & S & E).
  exists (fun x => default_c (scaled hi lo values x)). split; [exact E|]. split; [intros x X; apply default_ok; auto|].
  assert (M : forall x y, x <= y -> scaled hi lo values x <= scaled hi lo values y).
  { intros x y H. unfold scaled. apply Rmult_le_compat_r; [left; apply Rinv_0_lt_compat; lra|lra]. }
  split; [|split].
  - intros x y X Y H. pose proof (S x X). pose proof (S y Y). pose proof (M x y H).
    set (u := scaled hi lo values x) in *. set (v := scaled hi lo values y) in *. cbn [red blue default_c fst snd].
    assert (0 <= u * u <= u) by nra. assert (0 <= v * v <= v) by nra. assert (u * u <= v * v) by nra.
    assert (0 <= (v - u) * (2 - u - v)) by (apply Rmult_le_pos; lra).
    split; apply trunc_mono; lra.
  - intros x [I Hx] Hh. destruct (vec_min_gen values hi) as (A & B & C).
    assert (Em : vec_min hi values = x). { pose proof (C x I). destruct A as [A|A]; [lra|]. pose proof (Hx _ A). lra. }
    unfold scaled, default_c. rewrite Em. replace ((x - x) / (vec_max lo values - x)) with 0 by (unfold Rdiv; ring).
    replace (255 * (2 * 0 - 0 * 0)) with 0 by ring. replace (255 * (4 * 0 - 4 * 0 * 0)) with 0 by ring. replace (255 * (1 - 0 * 0)) with 255 by ring.
    rewrite !trunc_IZR by lia. reflexivity.
  - intros x [I Hx] Hl. destruct (vec_max_gen values lo) as (A & B & C).
    assert (Em : vec_max lo values = x). { pose proof (C x I). destruct A as [A|A]; [lra|]. pose proof (Hx _ A). lra. }
    unfold scaled, default_c. rewrite Em. rewrite Em in W. replace ((x - vec_min hi values) / (x - vec_min hi values)) with 1 by (field; lra).
    replace (255 * (2 * 1 - 1 * 1)) with 255 by ring. replace (255 * (4 * 1 - 4 * 1 * 1)) with 0 by ring. replace (255 * (1 - 1 * 1)) with 0 by ring.
    rewrite !trunc_IZR by lia. reflexivity.
Qed.

Lemma coolwarm_spec hi lo values :
  (forall x, In x values -> 0 <= x) -> (exists a b, In a values /\ In b values /\ a < b) ->
  exists fc, color hi lo CoolWarm values = Ok (map fc values) /\ (forall x, In x values -> is_rgb (fc x)).
Proof.
  intros P D. destruct (@function_ok hi lo coolwarm_rgb coolwarm_c values (fun v H => proj1 (coolwarm_ok H)) P D) as (W & S & E).
  eexists. split; [exact E|]. intros x X. apply coolwarm_ok. auto.
Qed.

(** One value only. *)
Lemma constant_ub hi lo c n x : (c = Default \/ c = CoolWarm) -> (0 < n)%nat -> lo <= x <= hi -> 0 < lo ->
  color hi lo c (repeat x n) = UB.
Proof.
  intros HC N X L. assert (A : forall y, In y (repeat x n) -> y = x) by (intros y; apply repeat_spec).
  assert (I : In x (repeat x n)) by (destruct n; [lia|left; auto]).
  destruct (vec_min_gen (repeat x n) hi) as (A1 & A2 & A3). destruct (vec_max_gen (repeat x n) lo) as (B1 & B2 & B3).
  assert (M : vec_max lo (repeat x n) - vec_min hi (repeat x n) = 0).
  { pose proof (A3 x I). pose proof (B3 x I).
    assert (vec_min hi (repeat x n) = x) by (destruct A1 as [A1|A1]; [lra|auto]).
    assert (vec_max lo (repeat x n) = x) by (destruct B1 as [B1|B1]; [lra|auto]). lra. }
  assert (G : forall f, colors_function hi lo f (repeat x n) = UB).
  { intros f. unfold colors_function, rdiv. rewrite M. destruct n; [lia|]. cbn [repeat mapM].
    destruct (Rle_dec 0 x); [|lra]. destruct (Req_EM_T 0 0); [reflexivity|lra]. }
  destruct HC as [-> | ->]; apply G.
Qed.
