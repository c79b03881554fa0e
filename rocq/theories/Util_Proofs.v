From Coq Require Import String.
From Verif Require Import Base BaseR Util_Model Util_Spec.
Set Implicit Arguments. Unset Strict Implicit.
Open Scope R_scope.

Lemma nthmap A B (f : A -> B) l i d d' : (i < List.length l)%nat -> nth i (map f l) d = f (nth i l d').
Proof.
  intros H. rewrite nth_indep with (d' := f d') by (rewrite map_length; auto). apply map_nth.
Qed.

(** ** C33 *)

Lemma fold_sum_gen A (f : A -> R) l : forall s, fold_left (fun v a => v + f a) l s = s + sumR (map f l).
Proof.
  induction l as [|a r IH]; intros s; cbn [fold_left map]; [unfold sumR; simpl; ring|].
  rewrite IH, sumR_cons. ring.
Qed.

Lemma sumR_nonneg A (f : A -> R) l : (forall a, In a l -> 0 <= f a) -> 0 <= sumR (map f l).
Proof.
  induction l as [|a r IH]; intros H; cbn [map]; [unfold sumR; simpl; lra|].
  rewrite sumR_cons. assert (0 <= f a) by (apply H; simpl; auto).
  assert (0 <= sumR (map f r)) by (apply IH; intros; apply H; simpl; auto). lra.
Qed.

Lemma sumR_zero_iff A (f : A -> R) l : (forall a, In a l -> 0 <= f a) ->
  (sumR (map f l) = 0 <-> forall a, In a l -> f a = 0).
Proof.
  intros H. split.
  - induction l as [|a r IH]; intros E b Hb; [destruct Hb|].
    cbn [map] in E. rewrite sumR_cons in E.
    assert (0 <= f a) by (apply H; simpl; auto).
    assert (0 <= sumR (map f r)) by (apply sumR_nonneg; intros; apply H; simpl; auto).
    destruct Hb as [->|Hb]; [lra|]. apply IH; auto; [intros; apply H; simpl; auto|lra].
  - intros E. apply sumR_map_zero. auto.
Qed.

Lemma sqrt_zero_iff s : 0 <= s -> (sqrt s = 0 <-> s = 0).
Proof.
  intros H. split; intros E.
  - apply sqrt_eq_0; auto.
  - subst. apply sqrt_0.
Qed.

Lemma norm_residual_L1 x y : List.length x = List.length y ->
  exists v, norm_residual x y L1 = Ok v /\ 0 <= v /\ (v = 0 <-> x = y) /\
    v = rsum (List.length x) (fun i => Rabs (nth i x 0 - nth i y 0)).
Proof.
  intros HL. unfold norm_residual. eexists. split; [reflexivity|].
  rewrite fold_sum_gen with (f := fun p : R * R => Rabs (fst p - snd p)).
  rewrite Rplus_0_l.
  assert (P : forall a : R * R, In a (combine x y) -> 0 <= Rabs (fst a - snd a)) by (intros; apply Rabs_pos).
  split; [apply sumR_nonneg; auto|]. split.
  - rewrite sumR_zero_iff by auto.
    revert y HL P. induction x as [|a r IH]; intros [|b s] HL P; simpl in *; try discriminate; [tauto|].
    split.
    + intros H. f_equal.
      * specialize (H (a, b) (or_introl eq_refl)). simpl in H.
        destruct (Req_dec (a - b) 0) as [E|E]; [lra|]. apply Rabs_no_R0 in E. tauto.
      * apply IH; auto.
    + intros E. inversion E; subst. intros p [<-|Hp]; simpl.
      * rewrite Rminus_diag_eq by auto. apply Rabs_R0.
      * apply IH with (y := s); auto.
  - rewrite sumR_nth, map_length, combine_length, <- HL, Nat.min_id.
    apply rsum_ext. intros i Hi.
    rewrite nthmap with (d' := (0, 0)) by (rewrite combine_length, <- HL, Nat.min_id; auto).
    rewrite combine_nth by auto. reflexivity.
Qed.

Lemma norm_residual_L2 x y : List.length x = List.length y ->
  exists v, norm_residual x y L2 = Ok v /\ 0 <= v /\ (v = 0 <-> x = y) /\
    v * v = rsum (List.length x) (fun i => (nth i x 0 - nth i y 0) * (nth i x 0 - nth i y 0)).
Proof.
  intros HL. unfold norm_residual. eexists. split; [reflexivity|].
  rewrite fold_sum_gen with (f := fun p : R * R => (fst p - snd p) ^ 2).
  rewrite Rplus_0_l.
  assert (P : forall a : R * R, In a (combine x y) -> 0 <= (fst a - snd a) ^ 2)
    by (intros; apply pow2_ge_0).
  assert (N := sumR_nonneg P).
  split; [apply sqrt_pos|]. split.
  - rewrite sqrt_zero_iff by auto. rewrite sumR_zero_iff by auto. clear N.
    revert y HL P. induction x as [|a r IH]; intros [|b s] HL P; simpl in *; try discriminate; [tauto|].
    split.
    + intros H. f_equal.
      * specialize (H (a, b) (or_introl eq_refl)). simpl in H. nra.
      * apply IH; auto.
    + intros E. inversion E; subst. intros p [<-|Hp]; simpl; [ring|].
      apply IH with (y := s); auto.
  - rewrite sqrt_sqrt by auto.
    rewrite sumR_nth, map_length, combine_length, <- HL, Nat.min_id.
    apply rsum_ext. intros i Hi.
    rewrite nthmap with (d' := (0, 0)) by (rewrite combine_length, <- HL, Nat.min_id; auto).
    rewrite combine_nth by auto. simpl. ring.
Qed.

Lemma fold_rmax A (f : A -> R) l : forall v,
  let m := fold_left (fun v q => rmax (f q) v) l v in
  (m = v \/ In m (map f l)) /\ v <= m /\ (forall q, In q l -> f q <= m).
Proof.
  induction l as [|a r IH]; intros v m; simpl in *.
  - repeat split; auto; [subst m; lra|tauto].
  - destruct (IH (rmax (f a) v)) as (H1 & H2 & H3). subst m.
    unfold rmax in *. destruct (Rlt_dec (f a) v) as [L|L].
    + repeat split.
      * destruct H1; auto.
      * auto.
      * intros q [<-|Hq]; auto. lra.
    + repeat split.
      * destruct H1 as [H1|H1]; auto. 
      * lra.
      * intros q [<-|Hq]; auto.
Qed.

Lemma norm_residual_Linf x y : List.length x = List.length y -> x <> [] ->
  exists v, norm_residual x y Linf = Ok v /\ 0 <= v /\ (v = 0 <-> x = y) /\
    is_max_of v (map (fun p => Rabs (fst p - snd p)) (combine x y)).
Proof.
  intros HL HN. unfold norm_residual. destruct x as [|a r]; [tauto|].
  destruct y as [|b s]; [discriminate|]. simpl combine. cbv beta iota.
  destruct (@fold_rmax (R * R) (fun p => Rabs (fst p - snd p)) (combine r s) (Rabs (a - b))) as (H1 & H2 & H3).
  simpl fst. simpl snd.
  eexists. split; [reflexivity|]. set (m := fold_left _ _ _) in *.
  assert (Hm : is_max_of m (map (fun p => Rabs (fst p - snd p)) ((a, b) :: combine r s))).
  { split.
    - simpl. destruct H1 as [->|H1]; auto.
    - intros z Hz. simpl in Hz. destruct Hz as [<-|Hz]; auto.
      apply in_map_iff in Hz. destruct Hz as (q & <- & Hq). auto. }
  assert (P := Rabs_pos (a - b)).
  split; [lra|]. split; [|exact Hm].
  split.
  - intros E. rewrite E in *. destruct Hm as [_ Hm].
    assert (G : forall p, In p ((a,b) :: combine r s) -> fst p = snd p).
    { intros p Hp. apply in_map with (f := fun p => Rabs (fst p - snd p)) in Hp. apply Hm in Hp.
      assert (P' := Rabs_pos (fst p - snd p)).
      destruct (Req_dec (fst p - snd p) 0) as [E0|E0]; [lra|]. apply Rabs_no_R0 in E0. lra. }
    assert (a = b) by (apply (G (a, b)); simpl; auto). subst b. f_equal.
    assert (G' : forall p, In p (combine r s) -> fst p = snd p) by (intros; apply G; simpl; auto).
    simpl in HL. assert (HL' : List.length r = List.length s) by lia. clear -HL' G'.
    revert s HL' G'. induction r as [|c t IH]; intros [|d u] HL G; simpl in *; try discriminate; auto.
    f_equal; [apply (G (c, d)); auto|]. apply IH; auto.
  - intros E. inversion E; subst s b. destruct Hm as [Hm _].
    apply in_map_iff in Hm. destruct Hm as (p & <- & Hp).
    assert (G : forall p, In p (combine (a :: r) (a :: r)) -> fst p = snd p).
    { clear. generalize (a :: r). induction l as [|c t IH]; simpl; [tauto|].
      intros p [<-|Hp]; auto. }
    rewrite (G p) by (simpl; auto). rewrite Rminus_diag_eq by auto. apply Rabs_R0.
Qed.

Lemma norm_L1_L2 x :
  (exists v, norm x L1 = Ok v /\ 0 <= v /\ (v = 0 <-> forall a, In a x -> a = 0)) /\
  (exists v, norm x L2 = Ok v /\ 0 <= v /\ (v = 0 <-> forall a, In a x -> a = 0)).
Proof.
  split; simpl; eexists; (split; [reflexivity|]).
  - rewrite fold_sum_gen with (f := Rabs). rewrite Rplus_0_l.
    assert (P : forall a, In a x -> 0 <= Rabs a) by (intros; apply Rabs_pos).
    split; [apply sumR_nonneg; auto|]. rewrite sumR_zero_iff by auto.
    split; intros H a Ha; specialize (H a Ha).
    + destruct (Req_dec a 0) as [E|E]; auto. apply Rabs_no_R0 in E. tauto.
    + rewrite H. apply Rabs_R0.
  - rewrite fold_sum_gen with (f := fun a => a * a). rewrite Rplus_0_l.
    assert (P : forall a, In a x -> 0 <= a * a) by (intros; nra).
    split; [apply sqrt_pos|]. rewrite sqrt_zero_iff by (apply sumR_nonneg; auto).
    rewrite sumR_zero_iff by auto. split; intros H a Ha; specialize (H a Ha); nra.
Qed.

Lemma norm_Linf_nonneg_head a r : 0 <= a ->
  exists v, norm (a :: r) Linf = Ok v /\ is_max_of v (map Rabs (a :: r)).
Proof.
  intros Ha. simpl. eexists. split; [reflexivity|].
  destruct (@fold_rmax R Rabs r a) as (H1 & H2 & H3). set (m := fold_left _ _ _) in *.
  rewrite (Rabs_right a) by lra. split.
  - simpl. destruct H1 as [->|H1]; auto.
  - intros z [<-|Hz]; auto. apply in_map_iff in Hz. destruct Hz as (q & <- & Hq). auto.
Qed.

Lemma norm_Linf_wrong :
  exists x v, norm x Linf = Ok v /\ ~ is_max_of v (map Rabs x) /\ In (-3) x /\ v = 1.
Proof.
  exists [-3; 1]. eexists. split; [reflexivity|]. simpl.
  unfold rmax. rewrite (Rabs_right 1) by lra. destruct (Rlt_dec 1 (-3)); [lra|].
  split; [|auto]. intros [_ H]. specialize (H (Rabs (-3)) (or_introl eq_refl)).
  rewrite Rabs_left in H by lra. lra.
Qed.

Lemma norm_relative_Linf_wrong :
  exists x y v, Forall (fun a => a <> 0) y /\ List.length x = List.length y /\
    norm_relative_residual x y Linf = Ok v /\
    ~ is_max_of v (map (fun p => Rabs ((fst p - snd p) / snd p)) (combine x y)).
Proof.
  exists [20], [10]. eexists. split; [repeat constructor; lra|]. split; [reflexivity|].
  split; [reflexivity|]. simpl. intros [[H|[]] _].
  replace ((20 - 10) / 10) with 1 in H by lra. replace (20 - 10) with 10 in H by lra.
  rewrite !Rabs_right in H by lra. lra.
Qed.

Lemma norm_relative_L1 x y : List.length x = List.length y -> Forall (fun a => a <> 0) y ->
  exists v, norm_relative_residual x y L1 = Ok v /\ 0 <= v /\ (v = 0 <-> x = y).
Proof.
  intros HL HY. unfold norm_relative_residual. eexists. split; [reflexivity|].
  rewrite fold_sum_gen with (f := fun p : R * R => Rabs ((fst p - snd p) / snd p)).
  rewrite Rplus_0_l.
  assert (P : forall a : R * R, In a (combine x y) -> 0 <= Rabs ((fst a - snd a) / snd a))
    by (intros; apply Rabs_pos).
  split; [apply sumR_nonneg; auto|].
  rewrite sumR_zero_iff by auto. clear P.
  revert y HL HY. induction x as [|a r IH]; intros [|b s] HL HY; simpl in *; try discriminate; [tauto|].
  inversion HY; subst. split.
  - intros H. f_equal.
    + specialize (H (a, b) (or_introl eq_refl)). simpl in H.
      destruct (Req_dec ((a - b) / b) 0) as [E|E]; [|apply Rabs_no_R0 in E; tauto].
      apply Rmult_integral in E. destruct E as [E|E]; [lra|]. apply Rinv_neq_0_compat in H1. tauto.
    + apply IH; auto.
  - intros E. inversion E; subst. intros p [<-|Hp]; simpl.
    + replace ((b - b) / b) with 0 by (field; auto). apply Rabs_R0.
    + apply (proj2 (IH s ltac:(lia) H2) eq_refl); auto.
Qed.

(** ** C62 vec_min / vec_max *)

Lemma vec_max_gen l : forall lo,
  (vec_max lo l = lo \/ In (vec_max lo l) l) /\ lo <= vec_max lo l /\
  (forall a, In a l -> a <= vec_max lo l).
Proof.
  unfold vec_max. induction l as [|a r IH]; intros lo; simpl; [repeat split; auto; [lra|tauto]|].
  destruct (IH (if Rlt_dec lo a then a else lo)) as (H1 & H2 & H3).
  set (m := fold_left _ _ _) in *. destruct (Rlt_dec lo a).
  - repeat split; [destruct H1; auto|lra|]. intros b [<-|Hb]; auto.
  - repeat split; [destruct H1; auto|lra|]. intros b [<-|Hb]; auto. lra.
Qed.

Lemma vec_max_ok lo l : l <> [] -> (exists a, In a l /\ lo <= a) -> is_max_of (vec_max lo l) l.
Proof.
  intros HN (a & Ha & La). destruct (vec_max_gen l lo) as (H1 & H2 & H3).
  split; auto. destruct H1 as [H1|H1]; auto.
  assert (a <= vec_max lo l) by auto. replace (vec_max lo l) with a by lra. auto.
Qed.

Lemma vec_min_gen l : forall hi,
  (vec_min hi l = hi \/ In (vec_min hi l) l) /\ vec_min hi l <= hi /\
  (forall a, In a l -> vec_min hi l <= a).
Proof.
  unfold vec_min. induction l as [|a r IH]; intros hi; simpl; [repeat split; auto; [lra|tauto]|].
  destruct (IH (if Rlt_dec a hi then a else hi)) as (H1 & H2 & H3).
  set (m := fold_left _ _ _) in *. destruct (Rlt_dec a hi).
  - repeat split; [destruct H1; auto|lra|]. intros b [<-|Hb]; auto.
  - repeat split; [destruct H1; auto|lra|]. intros b [<-|Hb]; auto. lra.
Qed.

Lemma vec_min_ok hi l : l <> [] -> (forall a, In a l -> a <= hi) -> is_min_of (vec_min hi l) l.
Proof.
  intros HN HA. destruct (vec_min_gen l hi) as (H1 & H2 & H3).
  split; auto. destruct H1 as [H1|H1]; auto. destruct l as [|a r]; [tauto|].
  assert (vec_min hi (a :: r) <= a) by (apply H3; simpl; auto).
  assert (a <= hi) by (apply HA; simpl; auto).
  replace (vec_min hi (a :: r)) with a by lra. simpl. auto.
Qed.

(** For double the starting value is a positive number. *)
Lemma vec_max_wrong lo : 0 < lo -> exists l, l <> [] /\ ~ is_max_of (vec_max lo l) l.
Proof.
  intros H. exists [-1]. split; [discriminate|]. intros [HI _].
  unfold vec_max in HI. simpl in HI. destruct (Rlt_dec lo (-1)); lra.
Qed.

(** ** C32 *)

Lemma count_from_spec n : forall i del, List.length (count_from n i del) = n /\
  forall k d, (k < n)%nat -> nth k (count_from n i del) d = (i + Z.of_nat k * del)%Z.
Proof.
  induction n as [|n IH]; intros i del; simpl; [split; [auto|intros; lia]|].
  destruct (IH (i + del)%Z del) as [L H]. split; [lia|].
  intros [|k] d Hk; [simpl; lia|]. rewrite H by lia. lia.
Qed.

Lemma range_spec a b incl :
  let r := range a b incl in
  (forall x, In x r <-> ((Z.min a b <= x <= Z.max a b)%Z /\ (x = b -> incl = true))) /\
  NoDup r /\
  (a < b -> StronglySorted Z.lt r)%Z /\ (b <= a -> StronglySorted Z.gt r)%Z.
Proof.
  intros r. unfold range in r. set (n := (Z.to_nat (Z.abs (a - b)) + (if incl then 1 else 0))%nat) in r.
  assert (CI : forall n i del x, In x (count_from n i del) <->
     exists k, (k < n)%nat /\ x = (i + Z.of_nat k * del)%Z).
  { clear. induction n as [|n IH]; intros i del x; simpl.
    - split; [tauto|intros (k & Hk & _); lia].
    - rewrite IH. split.
      + intros [->|(k & Hk & ->)]; [exists 0%nat; lia|exists (S k); lia].
      + intros ([|k] & Hk & ->); [left; lia|right; exists k; lia]. }
  assert (SL : forall n i, StronglySorted Z.lt (count_from n i 1)).
  { clear -CI. induction n as [|n IH]; intros i; simpl; [constructor|]. constructor; auto.
    apply Forall_forall. intros x Hx. apply CI in Hx. destruct Hx as (k & Hk & ->). lia. }
  assert (SG : forall n i, StronglySorted Z.gt (count_from n i (-1))).
  { clear -CI. induction n as [|n IH]; intros i; simpl; [constructor|]. constructor; auto.
    apply Forall_forall. intros x Hx. apply CI in Hx. destruct Hx as (k & Hk & ->). lia. }
  split; [|split; [|split]].
  - intros x. subst r. rewrite CI. destruct (Z.ltb_spec a b).
    + split.
      * intros (k & Hk & ->). subst n. destruct incl; split; try lia; auto.
      * intros [H1 H2]. exists (Z.to_nat (x - a)). subst n.
        destruct incl; [lia|]. assert (x <> b) by (intros E; specialize (H2 E); discriminate). lia.
    + split.
      * intros (k & Hk & ->). subst n. destruct incl; split; try lia; auto.
      * intros [H1 H2]. exists (Z.to_nat (a - x)). subst n.
        destruct incl; [lia|]. assert (x <> b) by (intros E; specialize (H2 E); discriminate). lia.
  - subst r.
    assert (ND : forall (R : Z -> Z -> Prop) l, (forall x, ~ R x x) -> StronglySorted R l -> NoDup l).
    { clear. intros R l HR. induction 1 as [|x t Hs IH Hf]; constructor; auto.
      intros HI. rewrite Forall_forall in Hf. apply (HR x). auto. }
    destruct (a <? b)%Z.
    + apply (ND Z.lt); auto. intros; lia.
    + apply (ND Z.gt); auto. intros; lia.
  - intros H. subst r. rewrite (proj2 (Z.ltb_lt a b) H). auto.
  - intros H. subst r. rewrite (proj2 (Z.ltb_ge a b) H). auto.
Qed.

Lemma progression_spec n : forall a dx, List.length (progression n a dx) = n /\
  forall k, (k < n)%nat -> nth k (progression n a dx) 0 = a + INR k * dx.
Proof.
  induction n as [|n IH]; intros a dx; [split; [auto|intros; lia]|].
  destruct (IH (a + dx) dx) as [L H]. split; [simpl; lia|].
  intros [|k] Hk; [simpl; ring|]. change (nth k (progression n (a + dx) dx) 0 = a + INR (S k) * dx).
  rewrite H by lia. rewrite S_INR. ring.
Qed.

Lemma linspace_spec a b n : (2 <= n)%nat ->
  List.length (linspace a b n) = n /\
  nth 0 (linspace a b n) 0 = a /\ nth (n - 1) (linspace a b n) 0 = b /\
  forall k, (S k < n)%nat ->
    nth (S k) (linspace a b n) 0 - nth k (linspace a b n) 0 = (b - a) / INR (n - 1).
Proof.
  intros Hn. unfold linspace. rewrite (proj2 (Nat.leb_gt n 1)) by lia.
  destruct (progression_spec n a ((b - a) / INR (n - 1))) as [L H].
  assert (Hp : INR (n - 1) <> 0) by (apply not_0_INR; lia).
  split; [auto|]. split; [rewrite H by lia; simpl; ring|].
  split; [rewrite H by lia; field; auto|].
  intros k Hk. rewrite !H by lia. rewrite S_INR. ring.
Qed.

Lemma linspace_center_spec a b n : (1 <= n)%nat ->
  List.length (linspace_center a b n) = n /\
  forall k, (k < n)%nat ->
    nth k (linspace_center a b n) 0 =
    ((a + INR k * ((b - a) / INR n)) + (a + INR (k + 1) * ((b - a) / INR n))) / 2.
Proof.
  intros Hn. unfold linspace_center.
  destruct (progression_spec n (a + 0.5 * (if (n <=? 1)%nat then b - a else (b - a) / INR n))
              (if (n <=? 1)%nat then b - a else (b - a) / INR n)) as [L H].
  split; [auto|]. intros k Hk. rewrite H by auto. rewrite plus_INR. change (INR 1) with 1.
  replace 0.5 with (/ 2) by lra.
  destruct (Nat.leb_spec n 1) as [E|E].
  - assert (n = 1%nat) by lia. subst. change (INR 1) with 1. field.
  - assert (INR n <> 0) by (apply not_0_INR; lia). field. auto.
Qed.

(** ** C34 *)

Lemma uniq_in l x : In x (uniq l) <-> In x l.
Proof.
  induction l as [|a r IH]; [reflexivity|]. destruct r as [|b s]; [reflexivity|].
  change (uniq (a :: b :: s)) with (if (a =? b)%Z then uniq (b :: s) else a :: uniq (b :: s)).
  destruct (Z.eqb_spec a b) as [->|N].
  - rewrite IH. simpl. tauto.
  - simpl In at 1. rewrite IH. simpl. tauto.
Qed.

Lemma uniq_sorted l : StronglySorted Z.le l -> StronglySorted Z.lt (uniq l).
Proof.
  induction l as [|a r IH]; intros H; [constructor|]. inversion H as [|? ? Hs Hf]; subst.
  destruct r as [|b s]; [repeat constructor|].
  change (uniq (a :: b :: s)) with (if (a =? b)%Z then uniq (b :: s) else a :: uniq (b :: s)).
  destruct (Z.eqb_spec a b) as [->|N]; auto.
  constructor; auto. apply Forall_forall. intros x Hx. rewrite uniq_in in Hx.
  inversion Hf as [|? ? Hab _]; subst. inversion Hs as [|? ? _ Hb]; subst.
  destruct Hx as [<-|Hx]; [lia|]. rewrite Forall_forall in Hb. specialize (Hb _ Hx). lia.
Qed.

Lemma vec_unique_spec srt v : is_sortZ srt ->
  StronglySorted Z.lt (vec_unique srt v) /\ forall x, In x (vec_unique srt v) <-> In x v.
Proof.
  intros Hs. destruct (Hs v) as [P S]. unfold vec_unique. split; [apply uniq_sorted; auto|].
  intros x. rewrite uniq_in. split; apply Permutation_in; auto. apply Permutation_sym. auto.
Qed.

Fixpoint insZ (t : Z) (l : list Z) : list Z :=
  match l with [] => [t] | u :: r => if (u <? t)%Z then u :: insZ t r else t :: u :: r end.
Lemma sortZ_exists : is_sortZ (fold_right insZ []).
Proof.
  assert (P : forall t l, Permutation (t :: l) (insZ t l)).
  { induction l as [|u r IH]; simpl; auto. destruct (u <? t)%Z; auto.
    eapply Permutation_trans; [apply perm_swap|]. auto. }
  intros l. split.
  - induction l as [|t r IH]; simpl; auto. eapply Permutation_trans; [apply perm_skip; exact IH|]. apply P.
  - induction l as [|t r IH]; simpl; [constructor|].
    generalize (fold_right insZ [] r) IH. intros s Hs. clear -Hs P.
    induction Hs as [|u s Hs IH Hf]; simpl; [repeat constructor|].
    destruct (Z.ltb_spec u t).
    + constructor; auto. apply Forall_forall. intros x Hx.
      apply (Permutation_in x (Permutation_sym (P t s))) in Hx. destruct Hx as [<-|Hx]; [lia|].
      rewrite Forall_forall in Hf. auto.
    + constructor; [constructor; auto|]. constructor; auto.
      apply Forall_forall. intros x Hx. rewrite Forall_forall in Hf. specialize (Hf x Hx). lia.
Qed.

(** ** C63 soft_equiv *)

Lemma soft_equiv_iff v r p : tiny14 <= Rabs r ->
  (soft_equiv v r p = true <-> Rabs (v - r) < p * Rabs r).
Proof.
  intros H. unfold soft_equiv. destruct (Rlt_dec (Rabs (v - r)) (p * Rabs r)); [tauto|].
  destruct (Rlt_dec (Rabs r) tiny14); [lra|]. split; [discriminate|tauto].
Qed.

Lemma soft_equiv_refl v p : 0 < p -> soft_equiv v v p = true.
Proof.
  intros Hp. unfold soft_equiv. rewrite Rminus_diag_eq by auto. rewrite Rabs_R0.
  destruct (Rlt_dec 0 (p * Rabs v)) as [H|H]; auto.
  assert (v = 0).
  { destruct (Req_dec v 0); auto. exfalso. apply H. apply Rmult_lt_0_compat; auto. apply Rabs_pos_lt. auto. }
  subst. rewrite Rabs_R0. destruct (Rlt_dec 0 tiny14) as [L|L].
  - destruct (Rlt_dec 0 p); auto.
  - exfalso. apply L. unfold tiny14. apply Rinv_0_lt_compat. apply pow_lt. lra.
Qed.

Lemma soft_equiv_field_iff v r p :
  soft_equiv_field v r p = true <->
  (List.length v = List.length r /\
   forall i, (i < List.length v)%nat -> soft_equiv (nth i v 0) (nth i r 0) p = true).
Proof.
  unfold soft_equiv_field. destruct (Nat.eqb_spec (List.length v) (List.length r)) as [E|E]; simpl.
  2:{ split; [discriminate|tauto]. }
  revert r E. induction v as [|a v IH]; intros [|b r] E; simpl in *; try discriminate.
  - split; auto. intros _. split; auto. intros; lia.
  - destruct (soft_equiv a b p) eqn:SE.
    + rewrite IH by lia. split.
      * intros [_ H]. split; auto. intros [|i] Hi; auto. apply H. lia.
      * intros [_ H]. split; [lia|]. intros i Hi. apply (H (S i)). lia.
    + split; [discriminate|]. intros [_ H]. specialize (H 0%nat ltac:(lia)). simpl in H. congruence.
Qed.

(** ** C29 *)

Lemma mfind_assign V k v k' (m : smap V) :
  mfind k' (massign k v m) = if String.eqb k' k then Some v else mfind k' m.
Proof.
  induction m as [|[q w] r IH]; simpl; auto.
  destruct (String.eqb_spec k q) as [->|N]; simpl.
  - destruct (String.eqb_spec k' q); auto.
  - destruct (String.eqb_spec k' q) as [->|N']; auto.
    destruct (String.eqb_spec q k) as [->|_]; [tauto|auto].
Qed.

Lemma getv_put S (d : db S) k v t k' :
  getv (put d k v) t k' =
  if (String.eqb k' k && tag_eqb t (tag_of v))%bool then Ok v else getv d t k'.
Proof.
  destruct v, t; simpl; rewrite ?andb_false_r, ?andb_true_r; auto;
    rewrite mfind_assign; destruct (String.eqb k' k); reflexivity.
Qed.

Lemma put_hist_app S (d : db S) h1 h2 : put_hist (h1 ++ h2) d = put_hist h2 (put_hist h1 d).
Proof. unfold put_hist. apply fold_left_app. Qed.

Lemma db_get_gen S h : forall (d : db S) t k,
  getv (put_hist h d) t k = match last_put h t k with Some v => Ok v | None => getv d t k end.
Proof.
  induction h as [|[k' v] r IH]; intros d t k; [reflexivity|].
  change (put_hist ((k', v) :: r) d) with (put_hist r (put d k' v)).
  rewrite IH. simpl. destruct (last_put r t k); auto.
  rewrite getv_put. destruct (String.eqb k k' && tag_eqb t (tag_of v))%bool; auto.
Qed.

Lemma db_get S h t k :
  getv (put_hist h (empty_db S)) t k = match last_put h t k with Some v => Ok v | None => UB end.
Proof. rewrite db_get_gen. destruct t; reflexivity. Qed.

Lemma present_mfind V k (m : smap V) : present k m = match mfind k m with Some _ => true | None => false end.
Proof. destruct m; reflexivity. Qed.

Lemma check_getv S (d : db S) k : check d k = true <-> exists t v, getv d t k = Ok v.
Proof.
  unfold check. rewrite !present_mfind. split.
  - intros H.
    destruct (mfind k (m_int d)) eqn:E1; [exists TInt; simpl; rewrite E1; simpl; eauto|].
    destruct (mfind k (m_dbl d)) eqn:E2; [exists TDbl; simpl; rewrite E2; simpl; eauto|].
    destruct (mfind k (m_vec_int d)) eqn:E3; [exists TVecInt; simpl; rewrite E3; simpl; eauto|].
    destruct (mfind k (m_vec_dbl d)) eqn:E4; [exists TVecDbl; simpl; rewrite E4; simpl; eauto|].
    destruct (mfind k (m_str d)) eqn:E5; [exists TStr; simpl; rewrite E5; simpl; eauto|].
    destruct (mfind k (m_db d)) eqn:E6; [exists TDb; simpl; rewrite E6; simpl; eauto|discriminate].
  - intros (t & v & H).
    destruct t; simpl in H;
      match type of H with found _ ?o = _ => destruct o eqn:E; [|discriminate] end;
      destruct (mfind k (m_int d)), (mfind k (m_dbl d)), (mfind k (m_vec_int d)),
        (mfind k (m_vec_dbl d)), (mfind k (m_str d)), (mfind k (m_db d)); try discriminate; reflexivity.
Qed.

Lemma db_check S h k :
  check (put_hist h (empty_db S)) k = true <-> exists t v, last_put h t k = Some v.
Proof.
  rewrite check_getv. split; intros (t & v & H); exists t.
  - rewrite db_get in H. destruct (last_put h t k); [eauto|discriminate].
  - exists v. rewrite db_get, H. auto.
Qed.

(** size = number of distinct keys *)
Lemma massign_in V k v (m : smap V) q :
  In q (map fst (massign k v m)) <-> (q = k \/ In q (map fst m)).
Proof.
  induction m as [|[q' w] r IH]; simpl; [intuition congruence|].
  destruct (String.eqb_spec k q') as [->|N]; simpl; [intuition|]. rewrite IH. tauto.
Qed.

Lemma massign_keys V k v (m : smap V) : NoDup (map fst m) -> NoDup (map fst (massign k v m)).
Proof.
  induction m as [|[q w] r IH]; simpl; intros H.
  - repeat constructor; simpl; tauto.
  - inversion H as [|? ? Hn Hd]; subst.
    destruct (String.eqb_spec k q) as [->|N]; simpl; auto.
    constructor; auto. rewrite massign_in. intros [E|E]; [congruence|tauto].
Qed.

Definition dbkeys S (d : db S) (t : tag) : list string :=
  match t with
  | TInt => map fst (m_int d) | TDbl => map fst (m_dbl d) | TStr => map fst (m_str d)
  | TVecInt => map fst (m_vec_int d) | TVecDbl => map fst (m_vec_dbl d) | TDb => map fst (m_db d)
  end.

Lemma dbkeys_put S (d : db S) k v : (forall t, NoDup (dbkeys d t)) ->
  (forall t, NoDup (dbkeys (put d k v) t)) /\
  (forall t q, In q (dbkeys (put d k v) t) <->
     ((q = k /\ t = tag_of v) \/ In q (dbkeys d t))).
Proof.
  intros H.
  assert (H1 := H TInt). assert (H2 := H TDbl). assert (H3 := H TStr).
  assert (H4 := H TVecInt). assert (H5 := H TVecDbl). assert (H6 := H TDb). simpl in *.
  destruct v; split; intros t; destruct t; simpl; try (apply massign_keys; auto); auto;
    intros q'; rewrite ?massign_in; split; intros X; intuition congruence.
Qed.

Lemma tag_eqb_eq a b : tag_eqb a b = true <-> a = b.
Proof. destruct a, b; simpl; split; congruence. Qed.

Lemma db_size S (h : list (string * value S)) t :
  exists ks, NoDup ks /\ dbsize (put_hist h (empty_db S)) t = List.length ks /\
    forall k, In k ks <-> exists v, In (k, v) h /\ tag_of v = t.
Proof.
  assert (G : forall d, (forall t, NoDup (dbkeys d t)) ->
    (forall t, NoDup (dbkeys (put_hist h d) t)) /\
    forall t k, In k (dbkeys (put_hist h d) t) <->
      ((exists v, In (k, v) h /\ tag_of v = t) \/ In k (dbkeys d t))).
  { induction h as [|[k' v] r IH]; intros d Hd; simpl.
    - split; auto. intros t' k. split; auto. intros [(v & [] & _)|X]; auto.
    - destruct (@dbkeys_put S d k' v Hd) as [N I]. destruct (IH _ N) as [N' I'].
      split; auto. intros t' k. change (put_hist ((k', v) :: r) d) with (put_hist r (put d k' v)).
      rewrite I', I. split.
      + intros [(w & Hw & Ht)|[[-> ->]|X]]; auto; left; eauto.
      + intros [(w & [Hw|Hw] & Ht)|X]; auto.
        * inversion Hw; subst. auto.
        * left. eauto. }
  destruct (G (empty_db S)) as [N I].
  { intros t'. destruct t'; constructor. }
  exists (dbkeys (put_hist h (empty_db S)) t). split; auto. split.
  - destruct t; simpl; rewrite map_length; auto.
  - intros k. rewrite I. destruct t; simpl; intuition.
Qed.

Lemma check_does_not_license_get S : exists (h : list (string * value S)) k,
  check (put_hist h (empty_db S)) k = true /\ getv (put_hist h (empty_db S)) TDbl k = UB.
Proof. exists [("tol"%string, VInt 1)], "tol"%string. split; reflexivity. Qed.

(** ** C30 *)

Lemma mfind_app V k (m1 m2 : smap V) :
  mfind k (m1 ++ m2) = match mfind k m1 with Some v => Some v | None => mfind k m2 end.
Proof.
  induction m1 as [|[q w] r IH]; simpl; auto. destruct (String.eqb k q); auto.
Qed.

Lemma reg_hist_find C h : forall (m : smap C) k,
  mfind k (snd (reg_hist m h)) = match mfind k m with Some c => Some c | None => first_reg h k end.
Proof.
  induction h as [|[q c] r IH]; intros m k; simpl.
  - destruct (mfind k m); auto.
  - unfold register, minsert. destruct (mfind q m) as [c'|] eqn:F.
    + specialize (IH m k). destruct (reg_hist m r) as [bs m2]. simpl in *. rewrite IH.
      destruct (mfind k m) eqn:F'; auto. destruct (String.eqb_spec k q); [congruence|auto].
    + specialize (IH (m ++ [(q, c)]) k). destruct (reg_hist (m ++ [(q, c)]) r) as [bs m2]. simpl in *.
      rewrite IH, mfind_app. simpl. destruct (mfind k m) eqn:F'; auto.
      destruct (String.eqb k q); auto.
Qed.

Lemma reg_hist_flags C h : forall (m : smap C) i k c, nth_error h i = Some (k, c) ->
  nth_error (fst (reg_hist m h)) i =
  Some (match mfind k m with Some _ => false | None =>
          match first_reg (firstn i h) k with Some _ => false | None => true end end).
Proof.
  induction h as [|[q c0] r IH]; intros m i k c H; [destruct i; discriminate|].
  simpl. unfold register, minsert. destruct i as [|i]; simpl in H.
  - inversion H; subst. destruct (mfind k m) as [c'|] eqn:F.
    + destruct (reg_hist m r). reflexivity.
    + destruct (reg_hist (m ++ [(k, c)]) r). reflexivity.
  - destruct (mfind q m) as [c'|] eqn:F.
    + specialize (IH m i k c H). destruct (reg_hist m r) as [bs m2]. simpl in *. rewrite IH.
      f_equal. destruct (mfind k m) eqn:F'; auto. destruct (String.eqb_spec k q); [congruence|auto].
    + specialize (IH (m ++ [(q, c0)]) i k c H). destruct (reg_hist (m ++ [(q, c0)]) r) as [bs m2].
      simpl in *. rewrite IH, mfind_app. simpl. f_equal. destruct (mfind k m); auto.
      destruct (String.eqb k q); auto.
Qed.

Lemma factory_first_wins C (h : list (string * C)) :
  let '(flags, m) := reg_hist [] h in
  (forall k, get_create m k = match first_reg h k with Some c => Ok c | None => Err end) /\
  (forall k, is_registered m k = true <-> exists c, In (k, c) h) /\
  (forall i k c, nth_error h i = Some (k, c) ->
     nth_error flags i = Some (match first_reg (firstn i h) k with Some _ => false | None => true end)).
Proof.
  destruct (reg_hist [] h) as [flags m] eqn:E.
  assert (F : forall k, mfind k m = first_reg h k).
  { intros k. assert (X := reg_hist_find h [] k). rewrite E in X. simpl in X. auto. }
  split; [|split].
  - intros k. unfold get_create. rewrite F. auto.
  - intros k. unfold is_registered. rewrite F. clear. induction h as [|[q c] r IH]; simpl.
    + split; [discriminate|intros (c & [])].
    + destruct (String.eqb_spec k q) as [->|N].
      * split; eauto.
      * rewrite IH. split; intros (c' & H); exists c'; auto. destruct H as [H|H]; auto. congruence.
  - intros i k c H. assert (X := @reg_hist_flags C h [] i k c H). rewrite E in X. simpl in X. auto.
Qed.

(** ** C31 *)

Lemma wrap64_mod z m : (0 <= m <= 63)%Z -> ((wrap64 z) mod 2 ^ m = z mod 2 ^ m)%Z.
Proof.
  intros Hm. unfold wrap64.
  assert (P : (0 < 2 ^ m)%Z) by (apply Z.pow_pos_nonneg; lia).
  assert (D : (2 ^ 64 = 2 ^ (64 - m) * 2 ^ m)%Z) by (rewrite <- Z.pow_add_r by lia; f_equal; lia).
  assert (E := Z.mod_eq (z + 2 ^ 63) (2 ^ 64) ltac:(lia)). rewrite E. clear E.
  set (q := ((z + 2 ^ 63) / 2 ^ 64)%Z).
  replace (z + 2 ^ 63 - 2 ^ 64 * q - 2 ^ 63)%Z with (z + (- (2 ^ (64 - m) * q)) * 2 ^ m)%Z.
  - apply Z.mod_add. lia.
  - rewrite D. ring.
Qed.

Lemma land_mask z m : (0 <= m)%Z -> Z.land z (mask m) = (z mod 2 ^ m)%Z.
Proof.
  intros Hm. unfold mask. rewrite <- Z.land_ones by auto. f_equal. rewrite Z.ones_equiv. lia.
Qed.

Lemma next_wrapping_exact S m : (0 < m <= 53)%Z ->
  rS (next_wrapping {| rS := S; rg := 19073486328125; rc := 0; rm := m |}) = (19073486328125 * S mod 2 ^ m)%Z.
Proof.
  intros Hm. unfold next_wrapping. cbn [rS rg rc rm].
  rewrite !land_mask by lia. rewrite (@wrap64_mod (_ + 0)) by lia. rewrite Z.add_0_r.
  rewrite (@wrap64_mod (19073486328125 * S)) by lia.
  assert (0 < 2 ^ m)%Z by (apply Z.pow_pos_nonneg; lia).
  rewrite Z.mod_mod by lia. auto.
Qed.

Lemma stream_exact S g c m n : (0 < m <= 53)%Z ->
  let r := stream n (random_new S g c m) in
  rg r = 19073486328125%Z /\ rc r = 0%Z /\ rm r = m /\
  (rS r mod 2 ^ m = 19073486328125 ^ Z.of_nat n * S mod 2 ^ m)%Z /\
  (n <> 0%nat -> 0 <= rS r < 2 ^ m)%Z.
Proof.
  intros Hm. assert (P : (0 < 2 ^ m)%Z) by (apply Z.pow_pos_nonneg; lia).
  induction n as [|n IH].
  - cbn [stream]. repeat split; auto; try lia. simpl rS.
    f_equal. change (19073486328125 ^ Z.of_nat 0)%Z with 1%Z. lia.
  - cbn [stream]. cbv zeta in *. destruct IH as (Eg & Ec & Em & ES & _).
    set (r0 := stream n (random_new S g c m)) in *.
    assert (EX : rS (next_wrapping r0) = (19073486328125 * rS r0 mod 2 ^ m)%Z).
    { rewrite <- (@next_wrapping_exact (rS r0) m Hm). f_equal. f_equal.
      destruct r0; simpl in *; subst; auto. }
    split; [auto|]. split; [auto|]. split; [auto|]. rewrite EX. split.
    + rewrite Z.mod_mod by lia. rewrite Nat2Z.inj_succ, Z.pow_succ_r by lia.
      rewrite Z.mul_mod by lia. rewrite ES. rewrite <- Z.mul_mod by lia. f_equal. ring.
    + intros _. apply Z.mod_pos_bound. auto.
Qed.

Lemma random_in_unit S g c m n : (0 < m <= 53)%Z -> (0 < n)%nat ->
  let r := stream n (random_new S g c m) in
  0 <= out r < 1 /\ rS r = (19073486328125 ^ Z.of_nat n * S mod 2 ^ m)%Z.
Proof.
  intros Hm Hn r. destruct (@stream_exact S g c m n Hm) as (_ & _ & Em & ES & EB).
  fold r in Em, ES, EB. specialize (EB ltac:(lia)).
  assert (P : (0 < 2 ^ m)%Z) by (apply Z.pow_pos_nonneg; lia).
  split.
  - unfold out. rewrite Em. assert (0 < IZR (2 ^ m)) by (apply IZR_lt; auto).
    assert (0 <= IZR (rS r)) by (apply IZR_le; lia).
    assert (IZR (rS r) < IZR (2 ^ m)) by (apply IZR_lt; lia).
    split.
    + apply Rmult_le_pos; auto. left. apply Rinv_0_lt_compat. auto.
    + apply Rmult_lt_reg_r with (IZR (2 ^ m)); auto. rewrite Rmult_assoc, Rinv_l by lra. lra.
  - rewrite <- ES. rewrite Z.mod_small; auto.
Qed.

(** The default generator overflows [long] on the second call. *)
Lemma random_overflow :
  exists r1, next_iso (random_new 123 19073486328125 0 48) = Ok r1 /\ next_iso r1 = UB.
Proof.
  exists {| rS := 94239004674127; rg := 19073486328125; rc := 0; rm := 48 |}.
  split; vm_compute; reflexivity.
Qed.
