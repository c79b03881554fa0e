(** * Proofs about the orthogonal bases: transforms and normalisation *)
From Verif Require Import Base BaseR Loop Vector_Model Vector_Spec Vector_Proofs Orthog_Model Orthog_Spec.
From Coq Require Import Lra.
Set Implicit Arguments. Unset Strict Implicit.
Open Scope R_scope.

Lemma rd_nth (A : Type) (l : list A) i d : (i < length l)%nat -> rd l i = Ok (nth i l d).
Proof. intros H. unfold rd. rewrite (nth_error_nth' l d H). reflexivity. Qed.
Lemma wr_upd (A : Type) (l : list A) i x : (i < length l)%nat -> wr l i x = Ok (upd l i x).
Proof. intros H. unfold wr. rewrite (proj2 (Nat.ltb_lt _ _) H). reflexivity. Qed.

Lemma vec_iff v n f : length v = n -> (forall i, (i < n)%nat -> nth i v 0 = f i) -> v = vec n f.
Proof.
  intros L H. rewrite (vec_self v). rewrite L. apply vec_ext. intros i Hi. apply H; auto.
Qed.

Lemma rsum_loop n (f : nat -> R) (rdf : nat -> res R) s :
  (forall i, (i < n)%nat -> rdf i = Ok (f i)) ->
  for_ 0 n s (fun i t => do a <- rdf i; Ok (t + a)) = Ok (s + rsum n f).
Proof.
  induction n as [|n IH]; intros H.
  - cbn. f_equal. lra.
  - rewrite for_S by lia. rewrite IH by (intros; apply H; lia). cbn [bind].
    rewrite H by lia. cbn [bind rsum]. f_equal. lra.
Qed.

Lemma for_ext_ S lo hi (s : S) f g : (forall i s, (lo <= i < hi)%nat -> f i s = g i s) ->
  for_ lo hi s f = for_ lo hi s g.
Proof.
  intros H. unfold for_.
  assert (G : forall l s, (forall i, In i l -> (lo <= i < hi)%nat) ->
    foldM (fun s i => f i s) l s = foldM (fun s i => g i s) l s).
  { induction l as [|a l IH]; intros s0 Hl; cbn; auto. rewrite H by (apply Hl; left; auto).
    destruct (g a s0); cbn; auto. apply IH. intros; apply Hl; right; auto. }
  apply G. intros i Hi. apply in_seq in Hi. lia.
Qed.

Section MD.
  Variable m : nat.
  Variable cols : list (list R).
  Hypothesis L : forall c, In c cols -> length c = m.
  Let K := length cols.

  Lemma col_len l : (l < K)%nat -> length (nth l cols []) = m.
  Proof. intros H. apply L. apply nth_In. exact H. Qed.

  Lemma mult_t_ok v o : length v = m -> length o = K ->
    md_multiply_transpose m cols v o = Ok (vec K (fun l => rsum m (fun i => nth i v 0 * col cols l i))).
  Proof.
    intros Lv Lo. unfold md_multiply_transpose. fold K.
    destruct (@for_inv (list R) (fun j o => length o = K /\
      forall l, (l < j)%nat -> nth l o 0 = rsum m (fun i => nth i v 0 * col cols l i)) 0 K (vscale o 0)
      (fun j o => do c <- rd cols j;
        do temp <- for_ 0 m 0 (fun i t => do a <- rd v i; do b <- rd c i; Ok (t + a * b)); wr o j temp))
      as (o' & E & Lo' & H'); [lia| | |].
    - split; [rewrite vscale_length; auto|intros; lia].
    - intros j s Hj (Ls & Hs). rewrite (@rd_nth _ cols j []) by (fold K; lia). cbn [bind].
      rewrite (@for_ext_ R 0 m 0 _ (fun i t => do a <- Ok (nth i v 0 * col cols j i); Ok (t + a))).
      2:{ intros i s0 Hi. rewrite (@rd_nth _ v i 0) by lia.
          rewrite (@rd_nth _ (nth j cols []) i 0) by (rewrite col_len; lia). reflexivity. }
      rewrite (@rsum_loop m (fun i => nth i v 0 * col cols j i)) by auto. cbn [bind].
      rewrite wr_upd by lia. eexists. split; [reflexivity|]. split; [rewrite upd_length; auto|].
      intros l Hl. destruct (Nat.eq_dec l j) as [->|Ne].
      + rewrite nth_upd_eq by lia. lra.
      + rewrite nth_upd_neq by auto. apply Hs. lia.
    - rewrite E. f_equal. apply vec_iff; auto.
  Qed.

  Lemma mult_ok v o : length v = K -> length o = m ->
    md_multiply m cols v o = Ok (vec m (fun i => rsum K (fun l => nth l v 0 * col cols l i))).
  Proof.
    intros Lv Lo. unfold md_multiply. fold K.
    destruct (@for_inv (list R) (fun j o => length o = m /\
      forall i, (i < m)%nat -> nth i o 0 = rsum j (fun l => nth l v 0 * col cols l i)) 0 K (vscale o 0)
      (fun j o => do temp <- rd v j; do c <- rd cols j;
         for_ 0 m o (fun i o => do a <- rd o i; do b <- rd c i; wr o i (a + temp * b))))
      as (o' & E & Lo' & H'); [lia| | |].
    - split; [rewrite vscale_length; auto|]. intros i Hi. rewrite vscale_nth. cbn [rsum]. lra.
    - intros j s Hj (Ls & Hs). rewrite (@rd_nth _ v j 0) by lia. cbn [bind].
      rewrite (@rd_nth _ cols j []) by (fold K; lia). cbn [bind].
      destruct (@for_inv (list R) (fun i0 o => length o = m /\
        forall i, (i < m)%nat -> nth i o 0 = nth i s 0 + if (i <? i0)%nat then nth j v 0 * col cols j i else 0) 0 m s
        (fun i o => do a <- rd o i; do b <- rd (nth j cols []) i; wr o i (a + nth j v 0 * b)))
        as (o' & E & Lo' & H'); [lia| | |].
      + split; auto. intros i Hi. change (i <? 0)%nat with false. cbv iota. lra.
      + intros i t Hi (Lt & Ht). rewrite (@rd_nth _ t i 0) by lia. cbn [bind].
        rewrite (@rd_nth _ (nth j cols []) i 0) by (rewrite col_len; lia). cbn [bind].
        rewrite wr_upd by lia. eexists. split; [reflexivity|]. split; [rewrite upd_length; auto|].
        intros k Hk. destruct (Nat.eq_dec k i) as [->|Ne].
        * rewrite nth_upd_eq by lia. rewrite Ht by lia.
          rewrite (proj2 (Nat.ltb_ge i i)) by lia. rewrite (proj2 (Nat.ltb_lt i (S i))) by lia.
          unfold col. lra.
        * rewrite nth_upd_neq by auto. rewrite Ht by lia.
          destruct (Nat.ltb_spec k i), (Nat.ltb_spec k (S i)); try lia; auto.
      + rewrite E. eexists. split; [reflexivity|]. split; auto.
        intros i Hi. rewrite H' by auto. rewrite (proj2 (Nat.ltb_lt i m)) by auto.
        rewrite Hs by auto. cbn [rsum]. lra.
    - rewrite E. f_equal. apply vec_iff; auto.
  Qed.
End MD.

(** ** transform and inverse as sums *)
Lemma times_opt_ok u w : (forall l, w = Some l -> length l = length u) ->
  times_opt u w = Ok (vec (length u) (fun i => nth i u 0 * wgt w i)).
Proof.
  intros H. destruct w as [w|]; unfold times_opt, wgt.
  - unfold vmul. rewrite vzip_ok by (symmetry; apply H; auto). reflexivity.
  - f_equal. apply vec_iff; auto. intros. lra.
Qed.

Lemma transform_ok b f c0 : shaped b -> length f = ob_size b -> length c0 = S (ob_order b) ->
  transform b f c0 = Ok (vec (S (ob_order b)) (fun l => bdot b (at_ f) (col (ob_basis b) l))).
Proof.
  intros (Lc & La & Lw) Lf Lo. unfold transform.
  rewrite times_opt_ok by (intros l E; rewrite Lf; apply Lw; auto). cbn [bind].
  rewrite mult_t_ok; auto; [|rewrite vec_length; auto|congruence].
  rewrite Lc. f_equal. apply vec_ext. intros l Hl. unfold bdot, wdot. apply rsum_ext. intros i Hi.
  rewrite vec_nth by lia. unfold at_. ring.
Qed.

Lemma inverse_ok b a c f0 : shaped b -> ob_a b = Some a -> length a = S (ob_order b) ->
  length c = S (ob_order b) -> length f0 = ob_size b ->
  inverse b c f0 = Ok (vec (ob_size b) (combo (S (ob_order b)) (fun l => at_ c l * at_ a l) (col (ob_basis b)))).
Proof.
  intros (Lc & La & Lw) Ea Laa Lcc Lo. unfold inverse. rewrite Ea. unfold vmul. rewrite vzip_ok by congruence.
  cbn [bind]. rewrite mult_ok; auto; [|rewrite vec_length; congruence].
  f_equal. apply vec_ext. intros i Hi. unfold combo. rewrite Lc. apply rsum_ext. intros l Hl.
  rewrite vec_nth by lia. reflexivity.
Qed.

(** ** Bilinearity *)
Lemma wdot_ext n W f f' g g' : (forall i, (i < n)%nat -> f i = f' i) -> (forall i, (i < n)%nat -> g i = g' i) ->
  wdot n W f g = wdot n W f' g'.
Proof. intros H H'. apply rsum_ext. intros. rewrite H, H' by auto. reflexivity. Qed.
Lemma wdot_comm n W f g : wdot n W f g = wdot n W g f.
Proof. apply rsum_ext. intros. ring. Qed.
Lemma wdot_minus n W f f' g : wdot n W (fun i => f i - f' i) g = wdot n W f g - wdot n W f' g.
Proof. unfold wdot. rewrite <- rsum_minus. apply rsum_ext. intros. ring. Qed.
Lemma wdot_plus n W f f' g : wdot n W (fun i => f i + f' i) g = wdot n W f g + wdot n W f' g.
Proof. unfold wdot. rewrite <- rsum_plus. apply rsum_ext. intros. ring. Qed.
Lemma wdot_scal n W c f g : wdot n W (fun i => c * f i) g = c * wdot n W f g.
Proof. unfold wdot. rewrite <- rsum_scal. apply rsum_ext. intros. ring. Qed.
Lemma wdot_combo n W K c P g : wdot n W (combo K c P) g = rsum K (fun l => c l * wdot n W (P l) g).
Proof.
  unfold wdot, combo.
  transitivity (rsum n (fun i => rsum K (fun l => c l * (W i * P l i * g i)))).
  - apply rsum_ext. intros i Hi. rewrite (Rmult_comm (W i)), Rmult_assoc.
    rewrite <- rsum_scal_r. apply rsum_ext. intros. ring.
  - rewrite rsum_swap. apply rsum_ext. intros l Hl. apply rsum_scal.
Qed.
Lemma wdot_combo_orth n W K c P k : orthogonal n K W P -> (k < K)%nat ->
  wdot n W (combo K c P) (P k) = c k * wdot n W (P k) (P k).
Proof.
  intros (O & _) Hk. rewrite wdot_combo.
  rewrite (@rsum_ext K _ (fun l => if (l =? k)%nat then c k * wdot n W (P k) (P k) else 0)).
  - apply rsum_delta; auto.
  - intros l Hl. destruct (Nat.eqb_spec l k) as [->|Ne]; auto. rewrite O by auto. ring.
Qed.
Lemma wdot_nonneg n W f : (forall i, (i < n)%nat -> 0 <= W i) -> 0 <= wdot n W f f.
Proof.
  intros H. apply rsum_nonneg. intros i Hi. rewrite Rmult_assoc. apply Rmult_le_pos; auto.
  apply Rle_0_sqr.
Qed.

(** ** A normalised orthogonal basis *)
Definition normed (b : obasis) : Prop :=
  shaped b /\ orthogonal (ob_size b) (S (ob_order b)) (wgt (ob_w b)) (col (ob_basis b)) /\
  exists a, ob_a b = Some a /\ length a = S (ob_order b) /\
    forall l, (l <= ob_order b)%nat -> at_ a l * bdot b (col (ob_basis b) l) (col (ob_basis b) l) = 1.

Lemma normed_round_trip b : normed b -> round_trip b.
Proof.
  intros (Sh & O & a & Ea & La & Ha) c f0 c0 Lc Lc0 Lf0.
  rewrite (inverse_ok Sh Ea La Lc Lf0). eexists. split; [reflexivity|].
  rewrite transform_ok by (auto; rewrite vec_length; auto).
  f_equal. symmetry. apply vec_iff; auto. intros l Hl.
  unfold bdot. rewrite (@wdot_ext _ _ _ (combo (S (ob_order b)) (fun l => at_ c l * at_ a l) (col (ob_basis b))) _ (col (ob_basis b) l));
    auto; [|intros; unfold at_; rewrite vec_nth; auto].
  rewrite wdot_combo_orth by auto. rewrite Rmult_assoc. fold (bdot b). rewrite Ha by lia. unfold at_. lra.
Qed.

Lemma normed_projects b : normed b -> projects b.
Proof.
  intros (Sh & O & a & Ea & La & Ha) f f0 c0 Lf Lc0 Lf0.
  set (n := ob_size b) in *. set (K := S (ob_order b)) in *. set (P := col (ob_basis b)) in *. set (W := wgt (ob_w b)) in *.
  pose proof (transform_ok Sh Lf Lc0) as Ec.
  set (c := vec (S (ob_order b)) (fun l => bdot b (at_ f) (col (ob_basis b) l))).
  assert (Lc : length c = K) by (unfold c; apply vec_length).
  pose proof (inverse_ok Sh Ea La Lc Lf0) as Eg.
  set (q := fun l => at_ c l * at_ a l).
  set (g := vec (ob_size b) (combo (S (ob_order b)) q (col (ob_basis b)))).
  assert (Lg : length g = n) by (unfold g; apply vec_length).
  assert (Hg : forall i, (i < n)%nat -> at_ g i = combo K q P i).
  { intros i Hi. unfold g, at_. rewrite vec_nth by auto. reflexivity. }
  assert (Orth : forall l, (l < K)%nat -> wdot n W (fun i => at_ f i - at_ g i) (P l) = 0).
  { intros l Hl. rewrite wdot_minus.
    rewrite (@wdot_ext n W (at_ g) (combo K q P) (P l) (P l)) by auto.
    rewrite wdot_combo_orth by auto. unfold q. unfold c at 1, at_ at 2. rewrite vec_nth by auto.
    rewrite Rmult_assoc. unfold n, W, P. fold (bdot b). rewrite Ha by (unfold K in *; lia). lra. }
  exists c, g. split; [exact Ec|]. split; [exact Eg|]. split; [auto|]. split.
  { exists q. apply Hg. }
  split.
  { intros l Hl. apply Orth. unfold K. lia. }
  split.
  - intros Wp h (d & Hh). unfold bdot. fold n W.
    set (r := fun i => at_ f i - at_ g i).
    set (s := fun i => at_ g i - h i).
    assert (E : wdot n W (fun i => at_ f i - h i) (fun i => at_ f i - h i)
              = wdot n W r r + 2 * wdot n W s r + wdot n W s s).
    { unfold r, s, wdot. rewrite <- rsum_scal. rewrite <- !rsum_plus. apply rsum_ext. intros. ring. }
    assert (Z : wdot n W s r = 0).
    { rewrite (@wdot_ext n W s (combo K (fun l => q l - d l) P) r r); auto.
      - rewrite wdot_combo. apply (rsum_zero (n := K)). intros l Hl. rewrite wdot_comm. unfold r. rewrite Orth by auto. ring.
      - intros i Hi. unfold s. rewrite Hg, Hh by auto. fold K P. unfold combo. rewrite <- rsum_minus.
        apply rsum_ext. intros. ring. }
    pose proof (@wdot_nonneg n W s Wp). rewrite E, Z. lra.
  - intros (d & Hd). fold n K P in Hd.
    rewrite (vec_self f), (vec_self g), Lf, Lg. apply vec_ext. intros i Hi.
    change (cmp g i) with (at_ g i). change (cmp f i) with (at_ f i).
    rewrite Hg, Hd by auto. apply rsum_ext. intros l Hl.
    f_equal. unfold q. unfold c, at_ at 1. rewrite vec_nth by auto.
    unfold bdot. fold n W P. rewrite (@wdot_ext n W (at_ f) (combo K d P) (P l) (P l)) by auto.
    rewrite wdot_combo_orth by auto.
    specialize (Ha l ltac:(unfold K in *; lia)). unfold bdot in Ha. fold n W P in Ha.
    transitivity (d l * (at_ a l * wdot n W (P l) (P l))); [unfold at_; ring|rewrite Ha; ring].
Qed.

(** ** n + 1 vectors in dimension n are dependent *)
Definition skip (j0 j : nat) : nat := if (j <? j0)%nat then j else S j.
Lemma rsum_skip m j0 (f : nat -> R) : (j0 <= m)%nat -> rsum (S m) f = f j0 + rsum m (fun j => f (skip j0 j)).
Proof.
  revert j0. induction m as [|m IH]; intros j0 H.
  - assert (j0 = 0)%nat by lia. subst. cbn. lra.
  - destruct (Nat.eq_dec j0 (S m)) as [->|Ne].
    + assert (E : rsum (S m) (fun j => f (skip (S m) j)) = rsum (S m) f).
      { apply rsum_ext. intros i Hi. unfold skip. rewrite (proj2 (Nat.ltb_lt i (S m))) by lia. auto. }
      change (rsum (S (S m)) f) with (rsum (S m) f + f (S m)). rewrite E. lra.
    + change (rsum (S (S m)) f) with (rsum (S m) f + f (S m)).
      rewrite (IH j0) by lia. cbn [rsum]. unfold skip at 3. rewrite (proj2 (Nat.ltb_ge m j0)) by lia. lra.
Qed.

Lemma pivot m (f : nat -> R) : (exists j, (j < m)%nat /\ f j <> 0) \/ (forall j, (j < m)%nat -> f j = 0).
Proof.
  induction m as [|m [(j & Hj & N)|Z]].
  - right. intros; lia.
  - left. exists j. split; auto.
  - destruct (Req_EM_T (f m) 0) as [E|N].
    + right. intros j Hj. destruct (Nat.eq_dec j m) as [->|Ne]; auto. apply Z. lia.
    + left. exists m. auto.
Qed.

Lemma skip_lt j0 j m : (j0 <= m)%nat -> (j < m)%nat -> (skip j0 j < S m)%nat /\ skip j0 j <> j0.
Proof. intros H H'. unfold skip. destruct (Nat.ltb_spec j j0); lia. Qed.

Lemma dependent n m (A : nat -> nat -> R) : (n < m)%nat ->
  exists c, (exists j, (j < m)%nat /\ c j <> 0) /\
    forall i, (i < n)%nat -> rsum m (fun j => c j * A j i) = 0.
Proof.
  revert m A. induction n as [|n IH]; intros m A H.
  - exists (fun _ => 1). split; [exists 0%nat; split; [lia|lra]|intros; lia].
  - destruct m as [|m]; [lia|].
    destruct (pivot (S m) (fun j => A j n)) as [(j0 & Hj & Nz)|Z].
    + destruct (IH m (fun j i => A (skip j0 j) i - A j0 i * (A (skip j0 j) n / A j0 n))) as (c & (j & Hjm & Hc) & E); [lia|].
      set (s := - rsum m (fun j => c j * A (skip j0 j) n) / A j0 n).
      exists (fun k => if (k =? j0)%nat then s else c (if (k <? j0)%nat then k else Nat.pred k)).
      assert (U : forall k, (k < m)%nat -> (if (skip j0 k =? j0)%nat then s else c (if (skip j0 k <? j0)%nat then skip j0 k else Nat.pred (skip j0 k))) = c k).
      { intros k Hk. destruct (@skip_lt j0 k m) as (_ & Ne); [lia|auto|].
        rewrite (proj2 (Nat.eqb_neq _ _) Ne). f_equal. unfold skip in *.
        destruct (Nat.ltb_spec k j0); [rewrite (proj2 (Nat.ltb_lt _ _)) by lia; auto|].
        rewrite (proj2 (Nat.ltb_ge _ _)) by lia. reflexivity. }
      split.
      * exists (skip j0 j). split; [apply skip_lt; lia|]. rewrite U; auto.
      * intros i Hi. rewrite (@rsum_skip m j0) by lia. cbv beta.
        rewrite Nat.eqb_refl.
        rewrite (@rsum_ext m _ (fun k => c k * A (skip j0 k) i)) by (intros k Hk; rewrite U; auto).
        destruct (Nat.eq_dec i n) as [->|Ne].
        -- unfold s. field. auto.
        -- specialize (E i ltac:(lia)).
           rewrite (@rsum_ext m _ (fun k => c k * A (skip j0 k) i - (A j0 i / A j0 n) * (c k * A (skip j0 k) n))) in E
             by (intros; field; auto).
           rewrite rsum_minus, rsum_scal in E. unfold s. 
           transitivity (rsum m (fun k => c k * A (skip j0 k) i) - A j0 i / A j0 n * rsum m (fun k => c k * A (skip j0 k) n)); [field; auto|exact E].
    + destruct (IH (S m) A) as (c & Hc & E); [lia|]. exists c. split; auto.
      intros i Hi. destruct (Nat.eq_dec i n) as [->|Ne]; [|apply E; lia].
      apply (rsum_zero (n := S m)). intros j Hj. rewrite Z by auto. ring.
Qed.

(** In dimension n, n orthogonal vectors leave no room for another. *)
Lemma no_room n W P r : orthogonal n n W P -> (forall l, (l < n)%nat -> wdot n W r (P l) = 0) ->
  forall i, (i < n)%nat -> r i = 0.
Proof.
  intros O Z i Hi.
  set (A := fun j i => if (j <? n)%nat then P j i else r i).
  destruct (@dependent n (S n) A) as (c & (j & Hj & Nz) & E); [lia|].
  assert (S : forall i, (i < n)%nat -> combo n c P i + c n * r i = 0).
  { intros k Hk. specialize (E k Hk). cbn [rsum] in E. unfold A at 2 in E.
    rewrite (proj2 (Nat.ltb_ge n n)) in E by lia. rewrite <- E. f_equal.
    apply rsum_ext. intros l Hl. unfold A. rewrite (proj2 (Nat.ltb_lt l n)) by auto. reflexivity. }
  assert (C : forall l, (l < n)%nat -> c l = 0).
  { intros l Hl.
    assert (G : wdot n W (fun i => combo n c P i + c n * r i) (P l) = 0).
    { apply (rsum_zero (n := n)). intros k Hk. rewrite S by auto. ring. }
    rewrite wdot_plus, wdot_scal, Z in G by auto. rewrite wdot_combo_orth in G by auto.
    destruct O as (_ & Pos). specialize (Pos l Hl).
    assert (c l * wdot n W (P l) (P l) = 0) as G' by lra.
    apply Rmult_integral in G'. destruct G'; lra. }
  assert (j = n)%nat. { destruct (Nat.eq_dec j n); auto. exfalso. apply Nz. apply C. lia. }
  subst j. specialize (S i Hi). unfold combo in S.
  rewrite (rsum_zero (n := n)) in S by (intros l Hl; rewrite C by auto; ring).
  assert (c n * r i = 0) as G by lra. apply Rmult_integral in G. destruct G; [contradiction|auto].
Qed.

Lemma normed_complete b : normed b -> ob_size b = S (ob_order b) -> complete b.
Proof.
  intros N E f f0 c0 Lf Lc0 Lf0.
  destruct (normed_projects N Lf Lc0 Lf0) as (c & g & Ec & Eg & Lg & _ & Orth & _).
  exists c. split; auto. rewrite Eg. f_equal.
  rewrite (vec_self f), (vec_self g), Lf, Lg. apply vec_ext. intros i Hi.
  destruct N as (_ & O & _). unfold bdot in Orth. rewrite E in O, Orth, Hi.
  assert (at_ f i - at_ g i = 0); [|unfold at_, cmp in *; lra].
  apply (no_room (r := fun i => at_ f i - at_ g i) O); auto. intros l Hl. apply Orth. lia.
Qed.

(** ** compute_a *)
Lemma col_val_ok w c n : length c = n -> (forall l, w = Some l -> length l = n) ->
  col_val w c = Ok (1 / wdot n (wgt w) (at_ c) (at_ c)).
Proof.
  intros Lc Lw. unfold col_val. rewrite times_opt_ok by (intros; rewrite Lc; auto). cbn [bind].
  rewrite vdot_ok by apply vec_length. cbn [bind]. rewrite vec_length, Lc. f_equal. f_equal.
  unfold inner, wdot. apply rsum_ext. intros i Hi. unfold cmp. rewrite vec_nth by auto. unfold at_. ring.
Qed.

(** What compute_a does to the columns and coefficients. *)
Lemma compute_a_ok b : shaped b ->
  exists b' a, compute_a b = Ok b' /\ shaped b' /\ ob_order b' = ob_order b /\ ob_size b' = ob_size b /\
    ob_w b' = ob_w b /\ ob_orthonormal b' = ob_orthonormal b /\ ob_a b' = Some a /\ length a = S (ob_order b) /\
    (forall l i, (l <= ob_order b)%nat ->
      col (ob_basis b') l i = if ob_orthonormal b then col (ob_basis b) l i * sqrt (1 / bdot b (col (ob_basis b) l) (col (ob_basis b) l))
                              else col (ob_basis b) l i) /\
    (forall l, (l <= ob_order b)%nat ->
      at_ a l = if ob_orthonormal b then 1 else 1 / bdot b (col (ob_basis b) l) (col (ob_basis b) l)).
Proof.
  intros (Lc & La & Lw). unfold compute_a.
  set (n := ob_size b). set (K := S (ob_order b)). set (P0 := ob_basis b).
  set (v := fun l => 1 / bdot b (col P0 l) (col P0 l)).
  destruct (@for_inv (list (list R) * list R) (fun j s =>
     length (fst s) = K /\ (forall c, In c (fst s) -> length c = n) /\ length (snd s) = K /\
     forall l, (l < K)%nat ->
       (forall i, col (fst s) l i = if ((l <? j)%nat && ob_orthonormal b)%bool then col P0 l i * sqrt (v l) else col P0 l i) /\
       at_ (snd s) l = if ((l <? j)%nat && negb (ob_orthonormal b))%bool then v l else 1) 0 K (P0, repeat 1 K)
    (fun i s => let '(cols, a) := s in
      do c <- rd cols i; do val <- col_val (ob_w b) c;
      if ob_orthonormal b
      then do cols' <- wr cols i (vscale c (sqrt val)); Ok (cols', a)
      else do a' <- wr a i val; Ok (cols, a'))) as ((cols & a) & E & Lc' & La' & Laa & H).
  - lia.
  - cbn [fst snd]. split; auto. split; auto. split; [apply repeat_length|].
    intros l Hl. split; auto. unfold at_. cbn [Nat.ltb]. change (l <? 0)%nat with false. cbn [andb].
    apply nth_repeat_lt || (rewrite nth_repeat; auto).
    all: auto.
  - intros j (cols & a) Hj (I1 & I2 & I3 & I4). cbn [fst snd] in *.
    rewrite (@rd_nth _ cols j []) by lia. cbn [bind].
    assert (Lj : length (nth j cols []) = n) by (apply I2, nth_In; lia).
    rewrite (@col_val_ok (ob_w b) (nth j cols []) n) by auto. cbn [bind].
    assert (Ej : forall i, at_ (nth j cols []) i = col P0 j i).
    { intros i. destruct (I4 j ltac:(lia)) as (I & _). specialize (I i). unfold col at 1 in I. unfold at_. rewrite I.
      rewrite (proj2 (Nat.ltb_ge j j)) by lia. reflexivity. }
    assert (Ev : 1 / wdot n (wgt (ob_w b)) (at_ (nth j cols [])) (at_ (nth j cols [])) = v j).
    { unfold v, bdot. fold n. f_equal. apply wdot_ext; auto. }
    rewrite Ev.
    destruct (ob_orthonormal b) eqn:Eo.
    + rewrite wr_upd by lia. cbn [bind]. eexists. split; [reflexivity|]. cbn [fst snd].
      split; [rewrite upd_length; auto|]. split.
      { intros c Hc. apply (In_nth _ _ []) in Hc. destruct Hc as (k & Hk & <-). rewrite upd_length in Hk.
        destruct (Nat.eq_dec j k) as [->|Ne]; [rewrite nth_upd_eq by lia; rewrite vscale_length; auto|].
        rewrite nth_upd_neq by auto. apply I2, nth_In; auto. }
      split; auto. intros l Hl. destruct (I4 l Hl) as (I5 & I6). split.
      * intros i. unfold col at 1. destruct (Nat.eq_dec j l) as [->|Ne].
        -- rewrite nth_upd_eq by lia. rewrite vscale_nth. rewrite (proj2 (Nat.ltb_lt l (S l))) by lia. cbn [andb].
           change (nth i (nth l cols []) 0) with (at_ (nth l cols []) i). rewrite Ej. reflexivity.
        -- rewrite nth_upd_neq by auto. change (nth i (nth l cols []) 0) with (col cols l i). rewrite I5.
           destruct (Nat.ltb_spec l j), (Nat.ltb_spec l (S j)); try lia; reflexivity.
      * rewrite I6. cbn [negb]. rewrite !andb_false_r. reflexivity.
    + rewrite wr_upd by lia. cbn [bind]. eexists. split; [reflexivity|]. cbn [fst snd].
      split; auto. split; auto. split; [rewrite upd_length; auto|].
      intros l Hl. destruct (I4 l Hl) as (I5 & I6). split.
      * intros i. rewrite I5, !andb_false_r. reflexivity.
      * unfold at_. destruct (Nat.eq_dec j l) as [->|Ne].
        -- rewrite nth_upd_eq by lia. rewrite (proj2 (Nat.ltb_lt l (S l))) by lia. reflexivity.
        -- rewrite nth_upd_neq by auto. change (nth l a 0) with (at_ a l). rewrite I6.
           destruct (Nat.ltb_spec l j), (Nat.ltb_spec l (S j)); try lia; reflexivity.
  - cbn [fst snd] in *. rewrite E. cbn [bind fst snd].
    eexists. exists a. split; [reflexivity|]. cbn [ob_basis ob_order ob_size ob_w ob_orthonormal ob_a].
    split; [split; [exact Lc'|split; [exact La'|exact Lw]]|].
    do 5 (split; [reflexivity|]). split; [exact Laa|]. split.
    + intros l i Hl. destruct (H l ltac:(unfold K; lia)) as (I & _). rewrite I.
      rewrite (proj2 (Nat.ltb_lt l K)) by (unfold K; lia). reflexivity.
    + intros l Hl. destruct (H l ltac:(unfold K; lia)) as (_ & I). rewrite I.
      rewrite (proj2 (Nat.ltb_lt l K)) by (unfold K; lia). destruct (ob_orthonormal b); reflexivity.
Qed.

Lemma wdot_scal2 n W a b f g : wdot n W (fun i => f i * a) (fun i => g i * b) = a * b * wdot n W f g.
Proof. unfold wdot. rewrite <- rsum_scal. apply rsum_ext. intros. ring. Qed.

(** compute_a normalises any orthogonal set of columns. *)
Lemma compute_a_normed b : shaped b ->
  orthogonal (ob_size b) (S (ob_order b)) (wgt (ob_w b)) (col (ob_basis b)) ->
  exists b', compute_a b = Ok b' /\ normed b' /\
    ob_order b' = ob_order b /\ ob_size b' = ob_size b /\ ob_w b' = ob_w b /\
    (ob_orthonormal b = true ->
       orthonormal (ob_size b) (S (ob_order b)) (wgt (ob_w b)) (col (ob_basis b')) /\
       forall l i, (l <= ob_order b)%nat -> entry b' i l = (do c <- rd (ob_basis b') l; rd c i)) /\
    (ob_orthonormal b = false -> forall l i, (l <= ob_order b)%nat -> col (ob_basis b') l i = col (ob_basis b) l i) /\
    (forall l, (l <= ob_order b)%nat -> exists s, 0 < s /\ forall i, col (ob_basis b') l i = s * col (ob_basis b) l i).
Proof.
  intros Sh (O & Pos). destruct (compute_a_ok Sh) as (b' & a & E & Sh' & Eo & Es & Ew & Eon & Ea & La & Hc & Ha).
  set (n := ob_size b) in *. set (W := wgt (ob_w b)) in *. set (P := col (ob_basis b)) in *.
  assert (Q : forall l, (l <= ob_order b)%nat -> 0 < bdot b (P l) (P l)).
  { intros l Hl. apply Pos. lia. }
  assert (X : forall l k, (l <= ob_order b)%nat -> (k <= ob_order b)%nat ->
    wdot n W (col (ob_basis b') l) (col (ob_basis b') k) =
    (if ob_orthonormal b then sqrt (1 / bdot b (P l) (P l)) * sqrt (1 / bdot b (P k) (P k)) else 1) * wdot n W (P l) (P k)).
  { intros l k Hl Hk. destruct (ob_orthonormal b).
    - rewrite <- wdot_scal2. apply wdot_ext; intros i Hi; rewrite Hc by auto; reflexivity.
    - rewrite Rmult_1_l. apply wdot_ext; intros i Hi; rewrite Hc by auto; reflexivity. }
  assert (S1 : forall l, (l <= ob_order b)%nat -> 0 < 1 / bdot b (P l) (P l)).
  { intros l Hl. apply Rdiv_lt_0_compat; [lra|auto]. }
  assert (S2 : forall l, (l <= ob_order b)%nat ->
    sqrt (1 / bdot b (P l) (P l)) * sqrt (1 / bdot b (P l) (P l)) * wdot n W (P l) (P l) = 1).
  { intros l Hl. rewrite sqrt_def by (left; auto). change (wdot n W (P l) (P l)) with (bdot b (P l) (P l)).
    field. specialize (Q l Hl). lra. }
  exists b'. split; [exact E|]. split.
  { split; [exact Sh'|]. rewrite Eo, Es, Ew. fold W. split.
    - split.
      + intros l k Hl Hk Ne. rewrite X by lia. rewrite O by auto. ring.
      + intros l Hl. rewrite X by lia. destruct (ob_orthonormal b).
        * rewrite S2 by lia. lra.
        * rewrite Rmult_1_l. apply Pos. auto.
    - exists a. split; [exact Ea|]. split; [exact La|]. intros l Hl.
      unfold bdot at 1. rewrite Es, Ew. fold n W. rewrite X, Ha by auto.
      destruct (ob_orthonormal b); [rewrite S2 by auto; ring|].
      change (wdot n W (P l) (P l)) with (bdot b (P l) (P l)). field. specialize (Q l Hl). lra. }
  split; [exact Eo|]. split; [exact Es|]. split; [exact Ew|]. split.
  { intros On. rewrite On in *. split.
    - intros l k Hl Hk. rewrite X by lia. destruct (Nat.eqb_spec l k) as [->|Ne].
      + apply S2. lia.
      + rewrite O by auto. ring.
    - intros l i Hl. unfold entry. destruct Sh' as (L1 & L2 & _). rewrite Eo in L1.
      rewrite (@rd_nth _ (ob_basis b') l []) by lia. cbn [bind].
      destruct (rd (nth l (ob_basis b') []) i); cbn [bind]; auto. rewrite Ea.
      rewrite (@rd_nth _ a l 0) by lia. cbn [bind]. change (nth l a 0) with (at_ a l). rewrite Ha by auto.
      f_equal. ring. }
  split.
  { intros Off l i Hl. rewrite Hc by auto. rewrite Off. reflexivity. }
  intros l Hl. destruct (ob_orthonormal b) eqn:Eo'.
  - exists (sqrt (1 / bdot b (P l) (P l))). split; [apply sqrt_lt_R0; auto|]. intros i. rewrite Hc by auto. ring.
  - exists 1. split; [lra|]. intros i. rewrite Hc by auto. unfold P. ring.
Qed.
