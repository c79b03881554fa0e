(** * Proofs for kinetics *)
From Verif Require Import Base BaseR Loop Material_Model Material_Proofs Source_Model Source_Spec Source_Proofs Region_Proofs Kinetics_Model Kinetics_Spec.
From Coq Require Import Lra Lia Permutation.
Set Implicit Arguments.
Unset Strict Implicit.
Open Scope R_scope.

(** ** Backward differences *)

Fixpoint pderiv (p : list R) (x : R) : R := match p with [] => 0 | _ :: p => peval p x + x * pderiv p x end.
Lemma peval_deriv p x : derivable_pt_lim (peval p) x (pderiv p x).
Proof.
  induction p as [|a p IH].
  - apply (derivable_pt_lim_const 0).
  - cbn [peval pderiv]. apply (derivable_pt_lim_ext (fct_cte a + id * peval p)%F); [reflexivity|].
    replace (peval p x + x * pderiv p x) with (0 + (1 * peval p x + id x * pderiv p x)) by (unfold id; ring).
    apply derivable_pt_lim_plus; [apply derivable_pt_lim_const|].
    apply derivable_pt_lim_mult; [apply derivable_pt_lim_id|apply IH].
Qed.

Definition bcoef (q j : nat) : R := nth j (nth (q - 1) bdf_table []) 0.
Lemma bdf_ok q j : (1 <= q <= 6)%nat -> (j <= 6)%nat -> bdf q j = Ok (bcoef q j).
Proof.
  intros Hq Hj. do 7 (destruct q as [|q]; [try lia; do 7 (destruct j as [|j]; [reflexivity|]); lia|]). lia.
Qed.
Lemma bdf_unsupported q j : (q = 0 \/ 7 <= q)%nat -> bdf q j = UB.
Proof.
  intros [->|H]; [reflexivity|]. do 7 (destruct q as [|q]; [lia|]). cbn. destruct q; reflexivity.
Qed.
Lemma bcoef0_pos q : (1 <= q <= 6)%nat -> 1 <= bcoef q 0.
Proof.
  intros Hq. do 7 (destruct q as [|q]; [try lia; unfold bcoef; cbn; lra|]). lia.
Qed.
(** the coefficients sum to zero *)
Lemma bcoef_sum q : (1 <= q <= 6)%nat -> rsum q (fun j => bcoef q (S j)) = bcoef q 0.
Proof.
  intros Hq. do 7 (destruct q as [|q]; [try lia; unfold bcoef; cbn; lra|]). lia.
Qed.

Lemma bdf_deriv q p t h : (1 <= q <= 6)%nat -> (length p <= S q)%nat -> h <> 0 ->
  bdf_rate (bcoef q) q h (peval p t) (fun j => peval p (t - INR (S j) * h)) = pderiv p t.
Proof.
  intros Hq Hp Hh. unfold bdf_rate.
  apply Rmult_eq_reg_r with h; auto. unfold Rdiv. rewrite Rmult_assoc, Rinv_l, Rmult_1_r by auto.
  destruct q as [|q]; [lia|].
  do 6 (destruct q as [|q];
    [ do 8 (destruct p as [|? p]; [first [exfalso; cbn [length] in Hp; lia | unfold bcoef; cbn; field; auto]|]); cbn [length] in Hp; lia |]).
  lia.
Qed.
Lemma bdf_exact q p t h : (1 <= q <= 6)%nat -> (length p <= S q)%nat -> h <> 0 ->
  exists a, coefs q a /\
    derivable_pt_lim (peval p) t (bdf_rate a q h (peval p t) (fun j => peval p (t - INR (S j) * h))).
Proof.
  intros Hq Hp Hh. exists (bcoef q). split.
  - intros j Hj. apply bdf_ok; auto. lia.
  - rewrite bdf_deriv by auto. apply peval_deriv.
Qed.

(** ** Interpolation *)

Lemma increasing_lt times i j : increasing times -> (i < j)%nat -> (j < length times)%nat -> nth i times 0 < nth j times 0.
Proof.
  intros I. induction j as [|j IH]; intros Hij Hj; [lia|].
  destruct (Nat.eq_dec i j) as [->|].
  - apply I. auto.
  - apply Rlt_trans with (nth j times 0); [apply IH; lia|apply I; auto].
Qed.
Lemma increasing_le times i j : increasing times -> (i <= j)%nat -> (j < length times)%nat -> nth i times 0 <= nth j times 0.
Proof.
  intros I Hij Hj. destruct (Nat.eq_dec i j) as [->|]; [lra|]. left. apply increasing_lt; auto. lia.
Qed.

(** The loop always finds an interval, whatever the order of the table. *)
Lemma bracket_search times t : let n := length times in
  nth 0 times 0 < t -> t <= nth (n - 1) times 0 -> (1 <= n)%nat ->
  exists ia, for_ 1 n 0%nat (fun i ib =>
                 do a <- rd times (i - 1); do b <- rd times i;
                 Ok (if Rlt_dec a t then if Rle_dec t b then i else ib else ib)) = Ok (S ia) /\
     (S ia < n)%nat /\ nth ia times 0 < t <= nth (S ia) times 0.
Proof.
  intros n H0 H1 Hn.
  destruct (@for_inv _ (fun i ib => (ib < i)%nat /\ (ib = 0%nat -> forall k, (k < i)%nat -> nth k times 0 < t) /\
      (ib <> 0%nat -> nth (ib - 1) times 0 < t <= nth ib times 0)) 1 n 0%nat (fun i ib =>
                 do a <- rd times (i - 1); do b <- rd times i;
                 Ok (if Rlt_dec a t then if Rle_dec t b then i else ib else ib))) as (ib & E & B1 & B2 & B3).
  - auto.
  - split; [lia|]. split; [|congruence]. intros _ k Hk. replace k with 0%nat by lia. auto.
  - intros i ib Hi (B1 & B2 & B3).
    rewrite (@rd_ok _ _ (i - 1) 0) by (fold n; lia). cbn [bind]. rewrite (@rd_ok _ _ i 0) by (fold n; lia). cbn [bind].
    eexists. split; [reflexivity|].
    destruct (Rlt_dec (nth (i - 1) times 0) t) as [A|A]; [destruct (Rle_dec t (nth i times 0)) as [B|B]|].
    + split; [lia|]. split; [lia|]. auto.
    + split; [lia|]. split; auto. intros Z k Hk. destruct (Nat.eq_dec k i) as [->|]; [lra|]. apply B2; auto. lia.
    + split; [lia|]. split; auto. intros Z k Hk. exfalso. apply A. apply B2; auto. lia.
  - destruct ib as [|ia].
    + specialize (B2 eq_refl (n - 1)%nat ltac:(lia)). lra.
    + exists ia. split; auto. split; auto. specialize (B3 ltac:(lia)). replace (S ia - 1)%nat with ia in B3 by lia. auto.
Qed.

Lemma bracket_ok times t : (1 <= length times)%nat ->
  exists ia ib fa fb, bracket times t = Ok (ia, ib, fa, fb) /\ (ia < length times)%nat /\ (ib < length times)%nat /\
    fa + fb = 1 /\ 0 <= fa /\ 0 <= fb /\
    ( (t <= nth 0 times 0 /\ ia = 0%nat /\ ib = 0%nat) \/
      (nth (length times - 1) times 0 < t /\ ia = (length times - 1)%nat /\ ib = (length times - 1)%nat) \/
      (ib = S ia /\ nth ia times 0 < t <= nth (S ia) times 0 /\
        fb = (t - nth ia times 0) / (nth (S ia) times 0 - nth ia times 0)) ).
Proof.
  intros Hn. unfold bracket. rewrite (@rd_ok _ _ 0 0) by lia. cbn [bind].
  destruct (Rle_dec t (nth 0 times 0)) as [A|A].
  - exists 0%nat, 0%nat, 1, 0. split; [reflexivity|]. repeat split; try lia; try lra. auto.
  - rewrite (@rd_ok _ _ (length times - 1) 0) by lia. cbn [bind].
    destruct (Rlt_dec (nth (length times - 1) times 0) t) as [B|B].
    + exists (length times - 1)%nat, (length times - 1)%nat, 1, 0. split; [reflexivity|]. repeat split; try lia; try lra. auto.
    + destruct (@bracket_search times t) as (ia & E & L & C); try lra; auto.
      rewrite E. cbn [bind]. rewrite (@rd_ok _ _ ia 0) by lia. cbn [bind]. rewrite (@rd_ok _ _ (S ia) 0) by lia. cbn [bind].
      set (fb := (t - nth ia times 0) / (nth (S ia) times 0 - nth ia times 0)).
      assert (0 <= fb <= 1).
      { unfold fb. split.
        - apply Rmult_le_pos; [lra|]. left. apply Rinv_0_lt_compat. lra.
        - apply Rmult_le_reg_r with (nth (S ia) times 0 - nth ia times 0); [lra|].
          unfold Rdiv. rewrite Rmult_assoc, Rinv_l by lra. lra. }
      exists ia, (S ia), (1 - fb), fb. split; [reflexivity|]. repeat split; try lia; try lra. auto.
Qed.

Lemma interpolates_bracket times t f ia ib fa fb : (1 <= length times)%nat -> increasing times ->
  bracket times t = Ok (ia, ib, fa, fb) -> interpolates times f t (fa * f ia + fb * f ib).
Proof.
  intros Hn I E.
  destruct (@bracket_ok times t Hn) as (ia' & ib' & fa' & fb' & E' & La & Lb & F & Fa & Fb & C).
  rewrite E in E'. inversion E'; subst ia' ib' fa' fb'. clear E'.
  assert (Tl : forall i j, (i < length times)%nat -> (j < length times)%nat -> nth i times 0 < nth j times 0 -> (i < j)%nat).
  { intros i j Hi Hj H. destruct (le_lt_dec j i) as [G|G]; auto.
    pose proof (@increasing_le times j i I G Hi). lra. }
  destruct C as [(C & -> & ->)|[(C & -> & ->)|(-> & C & Ef)]].
  - replace (fa * f 0%nat + fb * f 0%nat) with (f 0%nat) by (replace fa with (1 - fb) by lra; ring).
    split; [auto|split].
    + intros H. destruct (Nat.eq_dec (length times - 1) 0) as [->|]; auto.
      pose proof (@increasing_lt times 0 (length times - 1) I ltac:(lia) ltac:(lia)). lra.
    + intros i Hi H. assert (i = 0%nat) as ->.
      { destruct i; auto. pose proof (@increasing_lt times 0 (S i) I ltac:(lia) ltac:(lia)). lra. }
      replace t with (nth 0 times 0) by lra. unfold Rdiv. ring.
  - replace (fa * f (length times - 1)%nat + fb * f (length times - 1)%nat) with (f (length times - 1)%nat)
      by (replace fa with (1 - fb) by lra; ring).
    split; [|split; [auto|]].
    + intros H. pose proof (@increasing_le times 0 (length times - 1) I ltac:(lia) ltac:(lia)). lra.
    + intros i Hi H. pose proof (@increasing_le times (S i) (length times - 1) I ltac:(lia) ltac:(lia)). lra.
  - split; [|split].
    + intros H. pose proof (@increasing_le times 0 ia I ltac:(lia) ltac:(lia)). lra.
    + intros H. assert (G : (length times - 1 <= S ia)%nat).
      { destruct (le_lt_dec (length times - 1) (S ia)); auto.
        pose proof (@increasing_lt times (S ia) (length times - 1) I ltac:(lia) ltac:(lia)). lra. }
      replace (length times - 1)%nat with (S ia) in * by lia.
      assert (fb = 1) as Z. { rewrite Ef. replace t with (nth (S ia) times 0) by lra. field. lra. }
      replace fa with 0 by lra. rewrite Z. ring.
    + intros i Hi H. destruct (Nat.eq_dec i ia) as [->|N].
      * replace fa with (1 - fb) by lra. rewrite Ef. ring.
      * assert (i = S ia) as ->.
        { assert (ia < S i)%nat by (apply Tl; try lia; lra).
          destruct (le_lt_dec i (S ia)); [lia|].
          pose proof (@increasing_lt times (S ia) i I ltac:(lia) ltac:(lia)). lra. }
        assert (t = nth (S ia) times 0) as Et by lra.
        assert (fb = 1) as Z. { rewrite Ef. rewrite Et. field. lra. }
        replace fa with 0 by lra. rewrite Z, Et. unfold Rdiv. ring.
Qed.

Lemma convex_between fa fb x y : fa + fb = 1 -> 0 <= fa -> 0 <= fb -> between x y (fa * x + fb * y).
Proof.
  intros F A B. unfold between, Rmin, Rmax. replace fa with (1 - fb) in * by lra.
  destruct (Rle_dec x y); split; nra.
Qed.

(** consequences of [interpolates] *)
Lemma interpolates_knot times f i v : increasing times -> (i < length times)%nat ->
  interpolates times f (nth i times 0) v -> v = f i.
Proof.
  intros I Hi (A & B & C). destruct i as [|i].
  - apply A. lra.
  - pose proof (I i Hi). rewrite (C i Hi) by lra.
    replace ((nth (S i) times 0 - nth i times 0) / (nth (S i) times 0 - nth i times 0)) with 1 by (field; lra). ring.
Qed.
Lemma interpolates_between times f t v i : increasing times -> (S i < length times)%nat ->
  nth i times 0 <= t <= nth (S i) times 0 -> interpolates times f t v -> between (f i) (f (S i)) v.
Proof.
  intros I Hi H (A & B & C). rewrite (C i Hi H). pose proof (I i Hi).
  set (w := (t - nth i times 0) / (nth (S i) times 0 - nth i times 0)).
  assert (0 <= w <= 1).
  { unfold w. split.
    - apply Rmult_le_pos; [lra|]. left. apply Rinv_0_lt_compat. lra.
    - apply Rmult_le_reg_r with (nth (S i) times 0 - nth i times 0); [lra|].
      unfold Rdiv. rewrite Rmult_assoc, Rinv_l by lra. lra. }
  replace (f i + (f (S i) - f i) * w) with ((1 - w) * f i + w * f (S i)) by ring.
  apply convex_between; lra.
Qed.

Lemma linear_source_ok times src t : (1 <= length times)%nat -> increasing times ->
  exists v, linear_source times src t = Ok v /\ interpolates times src t v /\
    (forall i, (i < length times)%nat -> t = nth i times 0 -> v = src i) /\
    (forall i, (S i < length times)%nat -> nth i times 0 <= t <= nth (S i) times 0 -> between (src i) (src (S i)) v).
Proof.
  intros Hn I. destruct (@bracket_ok times t Hn) as (ia & ib & fa & fb & E & La & Lb & F & Fa & Fb & C).
  unfold linear_source. rewrite E. cbn [bind]. eexists. split; [reflexivity|].
  assert (P : interpolates times src t (0 + fa * src ia + fb * src ib)).
  { rewrite Rplus_0_l. apply interpolates_bracket; auto. }
  split; [exact P|]. split.
  - intros i Hi ->. eapply interpolates_knot; eauto.
  - intros i Hi H. eapply interpolates_between; eauto.
Qed.

(** A table in any order never takes the source outside the range of its values. *)
Lemma linear_source_range times src t lo hi : (1 <= length times)%nat ->
  (forall i, (i < length times)%nat -> lo <= src i <= hi) ->
  exists v, linear_source times src t = Ok v /\ lo <= v <= hi.
Proof.
  intros Hn B. destruct (@bracket_ok times t Hn) as (ia & ib & fa & fb & E & La & Lb & F & Fa & Fb & C).
  unfold linear_source. rewrite E. cbn [bind]. eexists. split; [reflexivity|].
  pose proof (B ia La). pose proof (B ib Lb). replace fa with (1 - fb) in * by lra. nra.
Qed.

Ltac inb := repeat match goal with |- context [(?a <? ?b)%nat] => replace (a <? b)%nat with true by (symmetry; apply Nat.ltb_lt; lia) end; cbn [andb].
Lemma value_mix q self A B cA cB m : defined q self -> (m < nm (kb self))%nat ->
  value q (mix_material self A B cA cB) m = cA * value q A m + cB * value q B m.
Proof.
  intros D Hm. destruct q; cbn [defined] in D; cbn [value mix_material kb st sa sf nu chi dc ss beta chid]; inb; reflexivity.
Qed.

Lemma linear_material_ok times mats self t d : (1 <= length times)%nat -> length mats = length times -> increasing times ->
  exists x, linear_update times mats self t = Ok x /\
    (forall q m, defined q self -> (m < nm (kb self))%nat ->
       interpolates times (fun i => value q (nth i mats d) m) t (value q x m) /\
       (forall i, (i < length times)%nat -> t = nth i times 0 -> value q x m = value q (nth i mats d) m) /\
       (forall i, (S i < length times)%nat -> nth i times 0 <= t <= nth (S i) times 0 ->
          between (value q (nth i mats d) m) (value q (nth (S i) mats d) m) (value q x m))) /\
    vel x = vel self /\ lam x = lam self /\ np x = np self /\ ng (kb x) = ng (kb self) /\ nm (kb x) = nm (kb self).
Proof.
  intros Hn Hl I. destruct (@bracket_ok times t Hn) as (ia & ib & fa & fb & E & La & Lb & F & Fa & Fb & C).
  unfold linear_update. rewrite E. cbn [bind]. rewrite (@rd_ok _ _ ia d) by lia. cbn [bind]. rewrite (@rd_ok _ _ ib d) by lia. cbn [bind].
  eexists. split; [reflexivity|]. split; [|repeat split].
  intros q m D Hm. rewrite value_mix by auto.
  assert (P := @interpolates_bracket times t (fun i => value q (nth i mats d) m) ia ib fa fb Hn I E). cbn beta in P.
  split; [exact P|]. split.
  - intros i Hi ->. apply (@interpolates_knot times (fun i => value q (nth i mats d) m)); auto.
  - intros i Hi H. apply (@interpolates_between times (fun i => value q (nth i mats d) m) t _ i); auto.
Qed.

(** ** Materials with synthetic terms *)

Lemma fold_sum {A} (f : A -> R) l a : fold_left (fun v i => v + f i) l a = a + sumR (map f l).
Proof.
  revert a. induction l as [|b l IH]; intros a.
  - cbn [fold_left map]. change (sumR []) with 0. ring.
  - cbn [fold_left map]. rewrite IH, sumR_cons. ring.
Qed.
Lemma fold_rsum f n a : fold_left (fun v i => v + f i) (seq 0 n) a = a + rsum n f.
Proof. rewrite fold_sum. f_equal. symmetry. apply rsum_sumR. Qed.
Lemma beta_total_sum x m : beta_total x m = rsum (np x) (fun i => beta x i m).
Proof. unfold beta_total. rewrite fold_rsum. ring. Qed.

Lemma kfinalize_ok x : positive_data x -> kfinalize x = Ok (with_base x (finalize (kb x))).
Proof.
  intros [A B]. unfold kfinalize.
  replace (forallb (fun i => positive (lam x i)) (seq 0 (np x))) with true.
  2:{ symmetry. apply forallb_forall. intros i Hi. apply in_seq in Hi. apply positive_iff, A. lia. }
  replace (forallb (fun g => positive (vel x g)) (seq 0 (ng (kb x)))) with true.
  2:{ symmetry. apply forallb_forall. intros i Hi. apply in_seq in Hi. apply positive_iff, B. lia. }
  reflexivity.
Qed.

Lemma td_update_ok kcrit x dt order syn : (1 <= order <= 6)%nat -> positive_data x ->
  exists y, td_update kcrit x dt order syn = Ok y /\
    ng (kb y) = ng (kb x) /\ nm (kb y) = nm (kb x) /\ np y = np x /\ vel y = vel x /\ lam y = lam x /\ beta y = beta x /\ chid y = chid x /\
    sa (kb y) = sa (kb x) /\ ss (kb y) = ss (kb x) /\ dc (kb y) = dc (kb x) /\ nu (kb y) = nu (kb x) /\
    forall g m, (g < ng (kb x))%nat -> (m < nm (kb x))%nat ->
      sf (kb y) g m = sf (kb x) g m / kcrit /\
      nsf (kb y) g m = nu (kb x) g m * sf (kb x) g m / kcrit /\
      st (kb y) g m = st (kb x) g m + (if syn then bcoef order 0 / (vel x g * dt) else 0) /\
      chi (kb y) g m = (if syn then (1 - rsum (np x) (fun i => beta x i m)) * chi (kb x) g m +
          rsum (np x) (fun i => lam x i * chid x g i m * dt * beta x i m / (bcoef order 0 + dt * lam x i)) else chi (kb x) g m).
Proof.
  intros Ho P. unfold td_update. rewrite bdf_ok by lia. cbn [bind].
  rewrite kfinalize_ok by exact P. eexists. split; [reflexivity|].
  do 11 (split; [reflexivity|]).
  intros g m Hg Hm. cbn [with_base kb finalize sf nsf st chi nu].
  destruct syn; cbv beta; inb; (split; [reflexivity|]); (split; [unfold Rdiv; ring|]).
  - split; [reflexivity|]. rewrite fold_rsum, beta_total_sum. reflexivity.
  - split; [ring|reflexivity].
Qed.

(** ** Synthetic sources *)

Lemma sized_row rows n l i : sized rows n l -> (i < rows)%nat -> rd l i = Ok (nth i l []) /\ (n <= length (nth i l []))%nat.
Proof. intros [A B] Hi. split; [apply rd_ok; lia|auto]. Qed.

Lemma add_row_ok G n s g v f : sized G n s -> (g < G)%nat -> (forall c, (c < n)%nat -> v c = Ok (f c)) ->
  exists s', add_row s g n v = Ok s' /\ sized G n s' /\
    forall h c, (h < G)%nat -> (c < n)%nat -> at2 s' h c = at2 s h c + (if (h =? g)%nat then f c else 0).
Proof.
  intros Sz Hg Hv. destruct (sized_row Sz Hg) as [E L]. unfold add_row. rewrite E. cbn [bind].
  destruct (@add_cells_ok n v f (nth g s []) L Hv) as (row & Er & A & B). rewrite Er. cbn [bind].
  destruct Sz as [S1 S2]. unfold wr. rewrite (proj2 (Nat.ltb_lt g (length s))) by lia.
  eexists. split; [reflexivity|]. split.
  - split; [rewrite upd_length; auto|]. intros i Hi. destruct (Nat.eq_dec i g) as [->|N].
    + rewrite nth_upd_eq by lia. rewrite A. apply S2. auto.
    + rewrite nth_upd_neq by auto. apply S2. auto.
  - intros h c Hh Hc. unfold at2. destruct (Nat.eqb_spec h g) as [->|N].
    + rewrite nth_upd_eq by lia. rewrite B by lia. rewrite (proj2 (Nat.ltb_lt c n)) by auto. reflexivity.
    + rewrite nth_upd_neq by auto. ring.
Qed.

Lemma zero_cells_ok n s : (n <= length s)%nat ->
  exists s', zero_cells n s = Ok s' /\ length s' = length s /\ forall c, (c < n)%nat -> nth c s' 0 = 0.
Proof.
  intros H. unfold zero_cells.
  destruct (@for_inv _ (fun i t => length t = length s /\ forall c, (c < i)%nat -> nth c t 0 = 0) 0 n s (fun c s => wr s c 0))
    as (t & E & A & B).
  - lia.
  - split; auto. intros; lia.
  - intros i t Hi (A & B). unfold wr. rewrite (proj2 (Nat.ltb_lt i (length t))) by lia.
    eexists. split; [reflexivity|]. split; [rewrite upd_length; auto|].
    intros c Hc. destruct (Nat.eq_dec c i) as [->|N]; [rewrite nth_upd_eq by lia; auto|rewrite nth_upd_neq by auto; apply B; lia].
  - exists t. auto.
Qed.
Lemma zero_rows_ok G n s : sized G n s ->
  exists s', for_ 0 G s (fun g s => do row <- rd s g; do row <- zero_cells n row; wr s g row) = Ok s' /\
    sized G n s' /\ forall h c, (h < G)%nat -> (c < n)%nat -> at2 s' h c = 0.
Proof.
  intros Sz.
  destruct (@for_inv _ (fun g t => sized G n t /\ forall h c, (h < g)%nat -> (c < n)%nat -> at2 t h c = 0) 0 G s
     (fun g s => do row <- rd s g; do row <- zero_cells n row; wr s g row)) as (t & E & A & B).
  - lia.
  - split; auto. intros; lia.
  - intros g t Hg (A & B). destruct (sized_row A (proj2 Hg)) as [E L]. rewrite E. cbn [bind].
    destruct (zero_cells_ok L) as (row & Er & Lr & Z). rewrite Er. cbn [bind]. destruct A as [A1 A2].
    unfold wr. rewrite (proj2 (Nat.ltb_lt g (length t))) by lia. eexists. split; [reflexivity|]. split.
    + split; [rewrite upd_length; auto|]. intros i Hi. destruct (Nat.eq_dec i g) as [->|N].
      * rewrite nth_upd_eq by lia. rewrite Lr. auto.
      * rewrite nth_upd_neq by auto. auto.
    + intros h c Hh Hc. unfold at2. destruct (Nat.eq_dec h g) as [->|N].
      * rewrite nth_upd_eq by lia. auto.
      * rewrite nth_upd_neq by auto. apply B; auto. lia.
  - exists t. auto.
Qed.

(** An accumulating loop over cells of a two-index table. *)
Lemma accum2_ok G n lo hi s (body : nat -> list (list R) -> res (list (list R))) (T : nat -> nat -> nat -> R) : (lo <= hi)%nat -> sized G n s ->
  (forall i t, (lo <= i < hi)%nat -> sized G n t -> exists t', body i t = Ok t' /\ sized G n t' /\
     forall h c, (h < G)%nat -> (c < n)%nat -> at2 t' h c = at2 t h c + T i h c) ->
  exists s', for_ lo hi s body = Ok s' /\ sized G n s' /\
    forall h c, (h < G)%nat -> (c < n)%nat -> at2 s' h c = at2 s h c + rsum (hi - lo) (fun k => T (lo + k)%nat h c).
Proof.
  intros Hl Sz HB.
  destruct (@for_inv _ (fun i t => sized G n t /\ forall h c, (h < G)%nat -> (c < n)%nat ->
     at2 t h c = at2 s h c + rsum (i - lo) (fun k => T (lo + k)%nat h c)) lo hi s body) as (t & E & A & B).
  - auto.
  - split; auto. intros. rewrite Nat.sub_diag. cbn [rsum]. ring.
  - intros i t Hi (A & B). destruct (HB i t Hi A) as (t' & E' & A' & B'). exists t'. split; auto. split; auto.
    intros h c Hh Hc. rewrite B' by auto. rewrite B by auto.
    replace (S i - lo)%nat with (S (i - lo)) by lia. cbn [rsum]. replace (lo + (i - lo))%nat with i by lia. ring.
  - exists t. auto.
Qed.

Definition delayed_past (x : kmtl) (mt : list nat) (order : nat) (fC : R -> R -> R -> R) (prec : list concs) (j g c : nat) : R :=
  rsum (np x) (fun i => fC (bcoef order (S j)) (lam x i) (bcoef order 0) * chid x g i (nth c mt 0%nat) * at2 (nth j prec []) i c).

Lemma build_rows_ok x n mt dt states prec order fC s : (1 <= order <= 6)%nat ->
  history order (ng (kb x)) n states -> precursors_ok order x n prec -> map_ok x n mt -> sized (ng (kb x)) n s ->
  exists s', build_rows x n mt dt states prec order fC s = Ok s' /\ sized (ng (kb x)) n s' /\
    forall g c, (g < ng (kb x))%nat -> (c < n)%nat ->
      at2 s' g c = rsum order (fun j => bcoef order (S j) / dt / vel x g * at2 (nth j states []) g c + delayed_past x mt order fC prec j g c).
Proof.
  intros Ho [Hs1 Hs2] Hp [Hm1 Hm2] Sz. unfold build_rows.
  set (npr := match prec with [] => 0%nat | C :: _ => length C end).
  assert (Enp : npr = np x).
  { destruct Hp as [[-> ->]|[H1 H2]]; [reflexivity|]. unfold npr. destruct prec as [|C prec]; [cbn in H1; lia|].
    apply (proj1 (H2 0%nat ltac:(lia))). }
  rewrite bdf_ok by lia. cbn [bind]. destruct (zero_rows_ok Sz) as (s1 & E1 & Sz1 & Z1). rewrite E1. cbn [bind].
  set (G := ng (kb x)) in *.
  edestruct (@accum2_ok G n 0 order s1) with (T := fun j g c => bcoef order (S j) / dt / vel x g * at2 (nth j states []) g c + delayed_past x mt order fC prec j g c)
    as (s' & E' & Sz' & V'); [lia|exact Sz1| |].
  2:{ exists s'. split; [exact E'|]. split; auto. intros g c Hg Hc. rewrite V' by auto. rewrite Z1 by auto.
      rewrite Nat.sub_0_r. rewrite Rplus_0_l. reflexivity. }
  intros j t Hj St. cbv beta. rewrite bdf_ok by lia. cbn [bind]. rewrite (@rd_ok _ states j []) by lia. cbn [bind].
  destruct (Hs2 j (proj2 Hj)) as [Hg1 Hg2].
  edestruct (@accum2_ok G n 0 G t) with (T := fun g h c => if (h =? g)%nat then
      bcoef order (S j) / dt / vel x g * at2 (nth j states []) g c + delayed_past x mt order fC prec j g c else 0)
    as (t' & Et & Szt & Vt); [lia|exact St| |].
  2:{ exists t'. split; [exact Et|]. split; auto. intros g c Hg Hc. rewrite Vt by auto. rewrite Nat.sub_0_r. f_equal.
      rewrite (@rsum_ext G _ (fun k => if (k =? g)%nat then bcoef order (S j) / dt / vel x g * at2 (nth j states []) g c + delayed_past x mt order fC prec j g c else 0)).
      - apply rsum_delta. auto.
      - intros k Hk. cbn [Nat.add]. rewrite (Nat.eqb_sym g k). destruct (Nat.eqb_spec k g) as [->|]; auto. }
  intros g u Hg Su. cbv beta. rewrite (@rd_ok _ (nth j states []) g []) by lia. cbn [bind].
  edestruct (@add_row_ok G n u g) with (f := fun c => bcoef order (S j) / dt / vel x g * at2 (nth j states []) g c)
    (v := fun c => do p <- rd (nth g (nth j states []) []) c; Ok (bcoef order (S j) / dt / vel x g * p)) as (u1 & Eu & Su1 & Vu).
  - auto.
  - apply Hg.
  - intros c Hc. pose proof (Hg2 g ltac:(lia)). rewrite (@rd_ok _ _ c 0) by lia. reflexivity.
  - rewrite Eu. cbn [bind].
    edestruct (@accum2_ok G n 0 npr u1) with (T := fun i h c => if (h =? g)%nat then
         fC (bcoef order (S j)) (lam x i) (bcoef order 0) * chid x g i (nth c mt 0%nat) * at2 (nth j prec []) i c else 0)
      as (u2 & Eu2 & Su2 & Vu2); [lia|exact Su1| |].
    2:{ exists u2. split; [exact Eu2|]. split; auto. intros h c Hh Hc. rewrite Vu2, Vu by auto. rewrite Nat.sub_0_r.
        rewrite Rplus_assoc. f_equal. destruct (Nat.eqb_spec h g) as [->|N].
        - f_equal. unfold delayed_past. rewrite Enp. apply rsum_ext. intros i Hi. cbn [Nat.add]. reflexivity.
        - rewrite (rsum_zero (n := npr)); [ring|]. intros; auto. }
    intros i w Hi Sw. cbv beta. destruct Hp as [[-> _]|[Hp1 Hp2]]; [cbn in npr; lia|].
    destruct (Hp2 j (proj2 Hj)) as [Hc1 Hc2].
    rewrite (@rd_ok _ prec j []) by lia. cbn [bind]. rewrite (@rd_ok _ (nth j prec []) i []) by lia. cbn [bind].
    apply add_row_ok; auto; [lia|].
    intros c Hc. pose proof (Hc2 i ltac:(lia)). rewrite (@rd_ok _ _ c 0) by lia. cbn [bind].
    unfold chid_at. rewrite (@rd_ok _ mt c 0%nat) by lia. reflexivity.
Qed.

(** ** Precursors *)

Lemma set_row_ok N n C i v f : sized N n C -> (i < N)%nat -> (forall c, (c < n)%nat -> v c = Ok (f c)) ->
  exists C', set_row n C i v = Ok C' /\ sized N n C' /\
    forall h c, (h < N)%nat -> (c < n)%nat -> at2 C' h c = if (h =? i)%nat then f c else at2 C h c.
Proof.
  intros Sz Hi Hv. destruct (sized_row Sz Hi) as [E L]. unfold set_row. rewrite E. cbn [bind].
  destruct (@for_inv _ (fun k t => length t = length (nth i C []) /\ forall c, (c < k)%nat -> nth c t 0 = f c) 0 n (nth i C [])
    (fun c row => do a <- v c; wr row c a)) as (row & Er & A & B).
  - lia.
  - split; auto. intros; lia.
  - intros k t Hk (A & B). rewrite Hv by lia. cbn [bind]. unfold wr. rewrite (proj2 (Nat.ltb_lt k (length t))) by lia.
    eexists. split; [reflexivity|]. split; [rewrite upd_length; auto|].
    intros c Hc. destruct (Nat.eq_dec c k) as [->|Nc]; [rewrite nth_upd_eq by lia; auto|rewrite nth_upd_neq by auto; apply B; lia].
  - rewrite Er. cbn [bind]. destruct Sz as [S1 S2]. unfold wr. rewrite (proj2 (Nat.ltb_lt i (length C))) by lia.
    eexists. split; [reflexivity|]. split.
    + split; [rewrite upd_length; auto|]. intros h Hh. destruct (Nat.eq_dec h i) as [->|Nh].
      * rewrite nth_upd_eq by lia. rewrite A. auto.
      * rewrite nth_upd_neq by auto. auto.
    + intros h c Hh Hc. unfold at2. destruct (Nat.eqb_spec h i) as [->|Nh].
      * rewrite nth_upd_eq by lia. auto.
      * rewrite nth_upd_neq by auto. reflexivity.
Qed.
Lemma set_rows_ok N n C (body : nat -> list (list R) -> res (list (list R))) F : sized N n C ->
  (forall i t, (i < N)%nat -> sized N n t -> exists t', body i t = Ok t' /\ sized N n t' /\
     forall h c, (h < N)%nat -> (c < n)%nat -> at2 t' h c = if (h =? i)%nat then F i c else at2 t h c) ->
  exists C', for_ 0 N C body = Ok C' /\ sized N n C' /\ forall h c, (h < N)%nat -> (c < n)%nat -> at2 C' h c = F h c.
Proof.
  intros Sz HB.
  destruct (@for_inv _ (fun i t => sized N n t /\ forall h c, (h < i)%nat -> (c < n)%nat -> at2 t h c = F h c) 0 N C body) as (t & E & A & B).
  - lia.
  - split; auto. intros; lia.
  - intros i t Hi (A & B). destruct (HB i t (proj2 Hi) A) as (t' & E' & A' & B'). exists t'. split; auto. split; auto.
    intros h c Hh Hc. rewrite B' by (auto; lia). destruct (Nat.eqb_spec h i) as [->|]; auto. apply B; auto. lia.
  - exists t. auto.
Qed.

Lemma init_precursors_ok x n mt fd C : map_ok x n mt -> (n <= length fd)%nat -> sized (np x) n C ->
  exists C', init_precursors x n mt fd C = Ok C' /\ sized (np x) n C' /\
    forall i c, (i < np x)%nat -> (c < n)%nat -> at2 C' i c = 1 / lam x i * beta x i (nth c mt 0%nat) * nth c fd 0.
Proof.
  intros [M1 M2] Hf Sz. unfold init_precursors.
  apply (@set_rows_ok (np x) n C _ (fun i c => 1 / lam x i * beta x i (nth c mt 0%nat) * nth c fd 0)); auto.
  intros i t Hi St. apply set_row_ok; auto.
  intros c Hc. rewrite (@rd_ok _ mt c 0%nat) by lia. cbn [bind]. rewrite (@rd_ok _ fd c 0) by lia. reflexivity.
Qed.

Lemma update_precursors_ok x n mt dt order fd prev C : (1 <= order <= 6)%nat -> map_ok x n mt -> (n <= length fd)%nat ->
  precursors_ok order x n prev -> sized (np x) n C ->
  exists C', update_precursors x n mt dt order fd prev C = Ok C' /\ sized (np x) n C' /\
    forall i c, (i < np x)%nat -> (c < n)%nat ->
      at2 C' i c = dt / (bcoef order 0 + dt * lam x i) * beta x i (nth c mt 0%nat) * nth c fd 0 +
        rsum order (fun j => dt / (bcoef order 0 + dt * lam x i) / dt * bcoef order (S j) * at2 (nth j prev []) i c).
Proof.
  intros Ho [M1 M2] Hf Hp Sz. unfold update_precursors.
  apply (@set_rows_ok (np x) n C _ (fun i c => dt / (bcoef order 0 + dt * lam x i) * beta x i (nth c mt 0%nat) * nth c fd 0 +
        rsum order (fun j => dt / (bcoef order 0 + dt * lam x i) / dt * bcoef order (S j) * at2 (nth j prev []) i c))); auto.
  intros i t Hi St. rewrite bdf_ok by lia. cbn [bind].
  destruct Hp as [[_ Z]|[Hp1 Hp2]]; [lia|].
  apply set_row_ok; auto. intros c Hc. rewrite (@rd_ok _ mt c 0%nat) by lia. cbn [bind]. rewrite (@rd_ok _ fd c 0) by lia. cbn [bind].
  set (A := dt / (bcoef order 0 + dt * lam x i)).
  destruct (@for_inv _ (fun k v => v = A * beta x i (nth c mt 0%nat) * nth c fd 0 +
       rsum (k - 1) (fun j => A / dt * bcoef order (S j) * at2 (nth j prev []) i c)) 1 (S order)
     (0 + A * beta x i (nth c mt 0%nat) * nth c fd 0) (fun j v =>
        do aj <- bdf order j;
        do Cj <- rd prev (j - 1); do Ci <- rd Cj i; do w <- rd Ci c;
        Ok (v + A / dt * aj * w))) as (v & E & V).
  - lia.
  - cbn [Nat.sub rsum]. ring.
  - intros k v Hk V. rewrite bdf_ok by lia. cbn [bind].
    destruct (Hp2 (k - 1)%nat ltac:(lia)) as [C1 C2]. pose proof (C2 i Hi).
    rewrite (@rd_ok _ prev (k - 1) []) by lia. cbn [bind].
    rewrite (@rd_ok _ _ i []) by lia. cbn [bind]. rewrite (@rd_ok _ _ c 0) by lia. cbn [bind].
    eexists. split; [reflexivity|]. rewrite V. replace (S k - 1)%nat with (S (k - 1)) by lia. cbn [rsum].
    replace (S (k - 1))%nat with k by lia. unfold at2. ring.
  - rewrite E, V. f_equal. f_equal. f_equal. lia.
Qed.

Lemma coefs_b order : (1 <= order <= 6)%nat -> coefs order (bcoef order).
Proof. intros H j Hj. apply bdf_ok; lia. Qed.

Lemma den_pos order dt la : (1 <= order <= 6)%nat -> 0 < dt -> 0 < la -> 0 < bcoef order 0 + dt * la.
Proof. intros Ho Hd Hl. pose proof (bcoef0_pos Ho). pose proof (Rmult_lt_0_compat _ _ Hd Hl). lra. Qed.

Lemma precursor_solve order dt be la f C past : (1 <= order <= 6)%nat -> 0 < dt -> 0 < la ->
  precursor_eq (bcoef order) order dt be la f C past <->
  C = dt / (bcoef order 0 + dt * la) * be * f + rsum order (fun j => dt / (bcoef order 0 + dt * la) / dt * bcoef order (S j) * past j).
Proof.
  intros Ho Hd Hl. pose proof (den_pos Ho Hd Hl) as D. unfold precursor_eq, bdf_rate.
  rewrite (@rsum_ext order (fun j => dt / (bcoef order 0 + dt * la) / dt * bcoef order (S j) * past j)
     (fun j => / (bcoef order 0 + dt * la) * (bcoef order (S j) * past j))) by (intros; field; lra).
  rewrite rsum_scal. set (H := rsum order (fun j => bcoef order (S j) * past j)).
  set (d := bcoef order 0 + dt * la) in *. split; intros E.
  - apply Rmult_eq_reg_l with d; [|lra].
    replace (d * (dt / d * be * f + / d * H)) with (dt * be * f + H) by (field; lra).
    apply (f_equal (fun z => z * dt)) in E. unfold Rdiv in E. rewrite Rmult_assoc, Rinv_l, Rmult_1_r in E by lra.
    unfold d. lra.
  - assert (E' : d * C = dt * be * f + H) by (rewrite E; field; lra).
    apply Rmult_eq_reg_r with dt; [|lra]. unfold Rdiv. rewrite Rmult_assoc, Rinv_l, Rmult_1_r by lra.
    unfold d in E'. lra.
Qed.

(** delayed source from the new precursors = part in the spectrum + part in the source *)
Lemma delayed_split x mt order dt prec fdv (Cn : nat -> R) g c nrm : (1 <= order <= 6)%nat -> 0 < dt -> positive_data x ->
  let m := nth c mt 0%nat in
  (forall i, (i < np x)%nat -> Cn i = dt / (bcoef order 0 + dt * lam x i) * beta x i m * fdv +
        rsum order (fun j => dt / (bcoef order 0 + dt * lam x i) / dt * bcoef order (S j) * at2 (nth j prec []) i c)) ->
  nrm * rsum (np x) (fun i => lam x i * chid x g i m * Cn i) =
  nrm * rsum (np x) (fun i => lam x i * chid x g i m * dt * beta x i m / (bcoef order 0 + dt * lam x i)) * fdv +
  rsum order (fun j => delayed_past x mt order (fun aj la a0 => aj * nrm * la / (a0 + dt * la)) prec j g c).
Proof.
  intros Ho Hd [Pl Pv] m HC. unfold delayed_past. fold m. rewrite rsum_swap.
  rewrite <- !rsum_scal, <- rsum_scal_r, <- rsum_plus.
  apply rsum_ext. intros i Hi. rewrite HC by auto. pose proof (den_pos Ho Hd (Pl i Hi)).
  rewrite (@rsum_ext order (fun j => bcoef order (S j) * nrm * lam x i / (bcoef order 0 + dt * lam x i) * chid x g i m * at2 (nth j prec []) i c)
    (fun j => nrm * lam x i * chid x g i m * (dt / (bcoef order 0 + dt * lam x i) / dt * bcoef order (S j) * at2 (nth j prec []) i c)))
    by (intros; field; lra).
  rewrite rsum_scal. set (q := rsum order _). field. lra.
Qed.

Lemma flux_balance order dt v lk sg y past (rhs src : R) : (1 <= order <= 6)%nat -> 0 < dt -> 0 < v ->
  (lk + (sg + bcoef order 0 / (v * dt)) * y = rhs + (rsum order (fun j => bcoef order (S j) / dt / v * past j) + src) <->
   bdf_rate (bcoef order) order dt y past / v + lk + sg * y = rhs + src).
Proof.
  intros Ho Hd Hv. unfold bdf_rate.
  rewrite (@rsum_ext order (fun j => bcoef order (S j) / dt / v * past j) (fun j => / dt * / v * (bcoef order (S j) * past j)))
    by (intros; field; lra).
  rewrite rsum_scal. set (H := rsum order (fun j => bcoef order (S j) * past j)).
  replace ((bcoef order 0 * y - H) / dt / v) with (bcoef order 0 / (v * dt) * y - / dt * / v * H) by (field; lra).
  set (k := bcoef order 0 / (v * dt)). split; intros; lra.
Qed.

Section Elimination.
Variables (kcrit : R) (x : kmtl) (n : nat) (mt : list nat) (dt : R) (order : nat) (prec : list concs) (fd : list R) (C0 : concs).
Hypotheses (Ho : (1 <= order <= 6)%nat) (Hx : positive_data x) (Hd : 0 < dt) (Hm : map_ok x n mt)
  (Hp : precursors_ok order x n prec) (Hf : (n <= length fd)%nat) (HC : sized (np x) n C0).

Lemma elim_gen nrm fC : (forall aj la a0, fC aj la a0 = aj * nrm * la / (a0 + dt * la)) -> exists xs xn Cn,
  td_update kcrit x dt order true = Ok xs /\ td_update kcrit x dt order false = Ok xn /\
  update_precursors xn n mt dt order fd prec C0 = Ok Cn /\ sized (np x) n Cn /\
  (forall g m, (g < ng (kb x))%nat -> (m < nm (kb x))%nat -> nsf (kb xs) g m = nsf (kb xn) g m) /\
  (forall i c, (i < np x)%nat -> (c < n)%nat -> forall C,
     precursor_eq (bcoef order) order dt (beta x i (nth c mt 0%nat)) (lam x i) (nth c fd 0) C (fun j => at2 (nth j prec []) i c)
     <-> C = at2 Cn i c) /\
  (forall states s0, history order (ng (kb x)) n states -> sized (ng (kb x)) n s0 ->
     exists s, build_rows xs n mt dt states prec order fC s0 = Ok s /\ sized (ng (kb x)) n s /\
     forall g c, (g < ng (kb x))%nat -> (c < n)%nat -> forall lk y,
       let m := nth c mt 0%nat in
       lk + st (kb xs) g m * y = nrm * (chi (kb xs) g m * nth c fd 0) + at2 s g c <->
       flux_eq (bcoef order) order dt (vel x g) lk (st (kb x) g m) (nrm * prompt x g m) (nth c fd 0)
         (nrm * rsum (np x) (fun i => lam x i * chid x g i m * at2 Cn i c)) y (fun j => at2 (nth j states []) g c)).
Proof.
  intros HfC. destruct (@td_update_ok kcrit x dt order true Ho Hx) as (xs & Es & Gs & Ms & Ns & Vs & Ls & Bs & Ds & _ & _ & _ & _ & Fs).
  destruct (@td_update_ok kcrit x dt order false Ho Hx) as (xn & En & Gn & Mn & Nn & Vn & Ln & Bn & Dn & _ & _ & _ & _ & Fn).
  destruct (@update_precursors_ok xn n mt dt order fd prec C0) as (Cn & EC & SC & VC); auto.
  { unfold map_ok. rewrite Mn. auto. }
  { unfold precursors_ok. rewrite Nn. auto. }
  { rewrite Nn. auto. }
  rewrite Nn in SC. rewrite Nn, Ln, Bn in VC.
  exists xs, xn, Cn. do 4 (split; [auto; fail|]). split; [|split].
  - intros g m Hg Hm'. destruct (Fs g m Hg Hm') as (_ & -> & _). destruct (Fn g m Hg Hm') as (_ & -> & _). reflexivity.
  - intros i c Hi Hc C. destruct Hx as [Pl Pv].
    rewrite (@precursor_solve order dt _ _ _ C _ Ho Hd (Pl i Hi)). rewrite VC by auto. reflexivity.
  - intros states s0 Hs Ss.
    destruct (@build_rows_ok xs n mt dt states prec order fC s0) as (s & Eb & Sb & Vb); auto.
    { rewrite Gs. auto. }
    { unfold precursors_ok. rewrite Ns. auto. }
    { unfold map_ok. rewrite Ms. auto. }
    { rewrite Gs. auto. }
    exists s. split; auto. rewrite Gs in Sb, Vb. split; auto.
    intros g c Hg Hc lk y m. rewrite Vb by auto.
    destruct (Fs g m Hg (proj2 Hm c Hc)) as (_ & _ & -> & ->). cbv iota.
    rewrite rsum_plus. rewrite Vs.
    assert (Ed : forall j, delayed_past xs mt order fC prec j g c =
                           delayed_past x mt order (fun aj la a0 => aj * nrm * la / (a0 + dt * la)) prec j g c).
    { intros j. unfold delayed_past. rewrite Ns, Ls, Ds. apply rsum_ext. intros i Hi. rewrite HfC. reflexivity. }
    rewrite (@rsum_ext order _ _ (fun j _ => Ed j)).
    pose proof (@delayed_split x mt order dt prec (nth c fd 0) (fun i => at2 Cn i c) g c nrm Ho Hd Hx) as DS. cbv zeta in DS. fold m in DS.
    unfold flux_eq. rewrite DS by (intros; apply VC; auto).
    set (hist := rsum order (fun j => delayed_past x mt order (fun aj la a0 => aj * nrm * la / (a0 + dt * la)) prec j g c)).
    set (spec := rsum (np x) (fun i => lam x i * chid x g i m * dt * beta x i m / (bcoef order 0 + dt * lam x i))).
    change ((1 - rsum (np x) (fun i => beta x i m)) * chi (kb x) g m) with (prompt x g m).
    pose proof (@flux_balance order dt (vel x g) lk (st (kb x) g m) y (fun j => at2 (nth j states []) g c)
       (nrm * (prompt x g m + spec) * nth c fd 0) hist Ho Hd (proj2 Hx g Hg)) as FB. cbv beta in FB.
    set (Z := rsum order (fun j => bcoef order (S j) / dt / vel x g * at2 (nth j states []) g c)) in *.
    set (W := bdf_rate _ _ _ _ _) in *. set (K := bcoef order 0 / (vel x g * dt)) in *.
    split; intros E.
    + assert (lk + (st (kb x) g m + K) * y = nrm * (prompt x g m + spec) * nth c fd 0 + (Z + hist)) as E' by lra.
      apply FB in E'. lra.
    + assert (W / vel x g + lk + st (kb x) g m * y = nrm * (prompt x g m + spec) * nth c fd 0 + hist) as E' by lra.
      apply FB in E'. lra.
Qed.
End Elimination.

Lemma elimination kcrit x n mt dt order states prec fd s0 C0 :
  (1 <= order <= 6)%nat -> positive_data x -> 0 < dt -> map_ok x n mt ->
  history order (ng (kb x)) n states -> precursors_ok order x n prec -> (n <= length fd)%nat ->
  sized (ng (kb x)) n s0 -> sized (np x) n C0 ->
  exists a xs xn Cn s, coefs order a /\
    td_update kcrit x dt order true = Ok xs /\ td_update kcrit x dt order false = Ok xn /\
    build_moment xs n mt dt states prec order s0 = Ok s /\
    update_precursors xn n mt dt order fd prec C0 = Ok Cn /\
    (forall g m, (g < ng (kb x))%nat -> (m < nm (kb x))%nat -> nsf (kb xs) g m = nsf (kb xn) g m) /\
    (forall i c, (i < np x)%nat -> (c < n)%nat -> forall C,
       precursor_eq a order dt (beta x i (nth c mt 0%nat)) (lam x i) (nth c fd 0) C (fun j => at2 (nth j prec []) i c)
       <-> C = at2 Cn i c) /\
    (forall g c, (g < ng (kb x))%nat -> (c < n)%nat -> forall lk y,
       let m := nth c mt 0%nat in
       lk + st (kb xs) g m * y = chi (kb xs) g m * nth c fd 0 + at2 s g c <->
       flux_eq a order dt (vel x g) lk (st (kb x) g m) (prompt x g m) (nth c fd 0)
         (rsum (np x) (fun i => lam x i * chid x g i m * at2 Cn i c)) y (fun j => at2 (nth j states []) g c)).
Proof.
  intros Ho Hx Hd Hm Hs Hp Hf Ss SC.
  destruct (@elim_gen kcrit x n mt dt order prec fd C0 Ho Hx Hd Hm Hp Hf SC 1 (fun aj la a0 => aj * la / (a0 + dt * la)))
    as (xs & xn & Cn & E1 & E2 & E3 & Z & F1 & F2 & F3).
  { intros. f_equal. ring. }
  destruct (F3 states s0 Hs Ss) as (s & Eb & _ & B).
  exists (bcoef order), xs, xn, Cn, s. split; [apply coefs_b; auto|]. do 4 (split; [auto; fail|]). do 2 (split; [auto; fail|]).
  intros g c Hg Hc lk y m. specialize (B g c Hg Hc lk y). cbv zeta in B. fold m in B. rewrite !Rmult_1_l in B. exact B.
Qed.

Lemma elimination_angle kcrit x n mt norm dt order psis prec fd s0 C0 :
  (1 <= order <= 6)%nat -> positive_data x -> 0 < dt -> map_ok x n mt ->
  history order (ng (kb x)) n psis -> precursors_ok order x n prec -> (n <= length fd)%nat ->
  sized (ng (kb x)) n s0 -> sized (np x) n C0 ->
  exists a xs xn Cn s, coefs order a /\
    td_update kcrit x dt order true = Ok xs /\ td_update kcrit x dt order false = Ok xn /\
    build_discrete xs n mt norm dt psis prec order s0 = Ok s /\
    update_precursors xn n mt dt order fd prec C0 = Ok Cn /\
    (forall g c, (g < ng (kb x))%nat -> (c < n)%nat -> forall lk y,
       let m := nth c mt 0%nat in
       lk + st (kb xs) g m * y = norm * (chi (kb xs) g m * nth c fd 0) + at2 s g c <->
       flux_eq a order dt (vel x g) lk (st (kb x) g m) (norm * prompt x g m) (nth c fd 0)
         (norm * rsum (np x) (fun i => lam x i * chid x g i m * at2 Cn i c)) y (fun j => at2 (nth j psis []) g c)).
Proof.
  intros Ho Hx Hd Hm Hs Hp Hf Ss SC.
  destruct (@elim_gen kcrit x n mt dt order prec fd C0 Ho Hx Hd Hm Hp Hf SC norm (fun aj la a0 => aj * norm * la / (a0 + dt * la)))
    as (xs & xn & Cn & E1 & E2 & E3 & Z & F1 & F2 & F3); [reflexivity|].
  destruct (F3 psis s0 Hs Ss) as (s & Eb & _ & B).
  exists (bcoef order), xs, xn, Cn, s. split; [apply coefs_b; auto|]. do 4 (split; [auto; fail|]). exact B.
Qed.

(** A steady state: every earlier solution the step reads is the present one,
    the precursors are those of [init_precursors], and the flux satisfies the
    time-independent balance. *)
Lemma steady kcrit x n mt dt order states prec phi C fd s0 C0 C1 xi :
  (1 <= order <= 6)%nat -> positive_data x -> 0 < dt -> map_ok x n mt -> (n <= length fd)%nat ->
  sized (ng (kb x)) n phi -> sized (ng (kb x)) n s0 -> sized (np x) n C0 -> sized (np x) n C1 ->
  td_update kcrit x 0 1 false = Ok xi -> init_precursors xi n mt fd C0 = Ok C ->
  (order <= length states)%nat -> (forall j, (j < order)%nat -> nth j states [] = phi) ->
  (order <= length prec)%nat -> (forall j, (j < order)%nat -> nth j prec [] = C) ->
  exists xs xn Cn s,
    td_update kcrit x dt order true = Ok xs /\ td_update kcrit x dt order false = Ok xn /\
    build_moment xs n mt dt states prec order s0 = Ok s /\
    update_precursors xn n mt dt order fd prec C1 = Ok Cn /\
    (forall i c, (i < np x)%nat -> (c < n)%nat -> at2 Cn i c = at2 C i c) /\
    (forall g c, (g < ng (kb x))%nat -> (c < n)%nat -> forall lk,
       let m := nth c mt 0%nat in
       lk + st (kb x) g m * at2 phi g c = (prompt x g m + rsum (np x) (fun i => chid x g i m * beta x i m)) * nth c fd 0 <->
       lk + st (kb xs) g m * at2 phi g c = chi (kb xs) g m * nth c fd 0 + at2 s g c).
Proof.
  intros Ho Hx Hd Hm Hf Sp Ss S0 S1 Ei EC Ls Hs Lp Hp.
  destruct (@td_update_ok kcrit x 0 1 false ltac:(lia) Hx) as (xi' & Ei' & Gi & Mi & Ni & Vi & Li & Bi & Di & _).
  rewrite Ei in Ei'. inversion Ei'; subst xi'. clear Ei'.
  destruct (@init_precursors_ok xi n mt fd C0) as (C' & EC' & SC & VC); auto.
  { unfold map_ok. rewrite Mi. auto. }
  { rewrite Ni. auto. }
  rewrite EC in EC'. inversion EC'; subst C'. clear EC'. rewrite Ni in SC. rewrite Ni, Li, Bi in VC.
  assert (HS : history order (ng (kb x)) n states). { split; auto. intros j Hj. rewrite Hs; auto. }
  assert (HP : precursors_ok order x n prec). { right. split; auto. intros j Hj. rewrite Hp; auto. }
  destruct (@elim_gen kcrit x n mt dt order prec fd C1 Ho Hx Hd Hm HP Hf S1 1 (fun aj la a0 => aj * la / (a0 + dt * la)))
    as (xs & xn & Cn & E1 & E2 & E3 & Z & F1 & F2 & F3).
  { intros. f_equal. ring. }
  destruct (F3 states s0 HS Ss) as (s & Eb & _ & B).
  assert (Rz : forall v past, (forall j, (j < order)%nat -> past j = v) -> bdf_rate (bcoef order) order dt v past = 0).
  { intros v past Hc. unfold bdf_rate. rewrite (@rsum_ext order _ (fun j => bcoef order (S j) * v)) by (intros; rewrite Hc; auto).
    rewrite rsum_scal_r, bcoef_sum by auto. unfold Rdiv. ring. }
  assert (EQ : forall i c, (i < np x)%nat -> (c < n)%nat -> at2 Cn i c = at2 C i c).
  { intros i c Hi Hc. symmetry. apply (F2 i c Hi Hc). unfold precursor_eq. rewrite Rz.
    - rewrite VC by auto. pose proof (proj1 Hx i Hi). field. lra.
    - intros j Hj. rewrite Hp by auto. reflexivity. }
  exists xs, xn, Cn, s. do 5 (split; [auto; fail|]).
  intros g c Hg Hc lk m. specialize (B g c Hg Hc lk (at2 phi g c)). cbv zeta in B. fold m in B. rewrite !Rmult_1_l in B.
  rewrite B. unfold flux_eq. rewrite Rz.
  2:{ intros j Hj. rewrite Hs; auto. }
  rewrite (@rsum_ext (np x) (fun i => lam x i * chid x g i m * at2 Cn i c) (fun i => chid x g i m * beta x i m * nth c fd 0)).
  2:{ intros i Hi. rewrite EQ, VC by auto. fold m. pose proof (proj1 Hx i Hi). field. lra. }
  rewrite rsum_scal_r. unfold Rdiv. rewrite Rmult_0_l. split; intros; lra.
Qed.

Lemma angle_integral x n mt norm dt ws order psi states prec s0 Ss g c :
  (1 <= order <= 6)%nat -> map_ok x n mt -> precursors_ok order x n prec ->
  norm * sumR ws = 1 -> length psi = length ws -> length Ss = length ws ->
  (forall a, (a < length ws)%nat -> history order (ng (kb x)) n (nth a psi [])) ->
  history order (ng (kb x)) n states ->
  (forall j h k, (j < order)%nat -> (h < ng (kb x))%nat -> (k < n)%nat ->
     at2 (nth j states []) h k = rsum (length ws) (fun a => nth a ws 0 * at2 (nth j (nth a psi []) []) h k)) ->
  sized (ng (kb x)) n s0 ->
  (forall a, (a < length ws)%nat -> build_discrete x n mt norm dt (nth a psi []) prec order s0 = Ok (nth a Ss [])) ->
  (g < ng (kb x))%nat -> (c < n)%nat ->
  exists s, build_moment x n mt dt states prec order s0 = Ok s /\ discrete_source ws Ss c g = Ok (at2 s g c).
Proof.
  intros Ho Hm Hp Hw Lpsi LS Hpsi Hst Hint Sz HB Hg Hc.
  destruct (@build_rows_ok x n mt dt states prec order (fun aj la a0 => aj * la / (a0 + dt * la)) s0 Ho Hst Hp Hm Sz) as (s & Es & _ & Vs).
  exists s. split; [exact Es|]. rewrite Vs by auto.
  assert (HA : forall a, (a < length ws)%nat -> sized (ng (kb x)) n (nth a Ss []) /\
     at2 (nth a Ss []) g c = rsum order (fun j => bcoef order (S j) / dt / vel x g * at2 (nth j (nth a psi []) []) g c +
        delayed_past x mt order (fun aj la a0 => aj * norm * la / (a0 + dt * la)) prec j g c)).
  { intros a Ha.
    destruct (@build_rows_ok x n mt dt (nth a psi []) prec order (fun aj la a0 => aj * norm * la / (a0 + dt * la)) s0 Ho (Hpsi a Ha) Hp Hm Sz) as (sa & Ea & Sa & Va).
    specialize (HB a Ha). unfold build_discrete in HB. rewrite HB in Ea. inversion Ea as [Ea']. rewrite Ea'. split; auto. }
  unfold discrete_source.
  destruct (@for_inv _ (fun a v => v = rsum a (fun a => at2 (nth a Ss []) g c * nth a ws 0)) 0 (length ws) 0
    (fun a v => do w <- rd ws a; do sa <- rd Ss a; do row <- rd sa g; do q <- rd row c; Ok (v + q * w))) as (v & Ev & V).
  - lia.
  - reflexivity.
  - intros a v Ha V. destruct (HA a (proj2 Ha)) as [[Z1 Z2] _]. pose proof (Z2 g Hg).
    rewrite (@rd_ok _ ws a 0) by lia. cbn [bind]. rewrite (@rd_ok _ Ss a []) by lia. cbn [bind].
    rewrite (@rd_ok _ _ g []) by lia. cbn [bind]. rewrite (@rd_ok _ _ c 0) by lia. cbn [bind].
    eexists. split; [reflexivity|]. rewrite V. cbn [rsum]. reflexivity.
  - rewrite Ev, V. f_equal.
    rewrite (@rsum_ext (length ws) _ (fun a => rsum order (fun j => nth a ws 0 * (bcoef order (S j) / dt / vel x g * at2 (nth j (nth a psi []) []) g c +
        delayed_past x mt order (fun aj la a0 => aj * norm * la / (a0 + dt * la)) prec j g c)))).
    2:{ intros a Ha. rewrite (proj2 (HA a Ha)), rsum_scal. ring. }
    rewrite rsum_swap. apply rsum_ext. intros j Hj. rewrite Hint by auto.
    rewrite (@rsum_ext (length ws) _ (fun a => bcoef order (S j) / dt / vel x g * (nth a ws 0 * at2 (nth j (nth a psi []) []) g c) +
        nth a ws 0 * delayed_past x mt order (fun aj la a0 => aj * norm * la / (a0 + dt * la)) prec j g c)) by (intros; ring).
    rewrite rsum_plus, rsum_scal, rsum_scal_r. f_equal.
    replace (rsum (length ws) (fun a => nth a ws 0)) with (sumR ws).
    2:{ apply sumR_nth. }
    unfold delayed_past. rewrite <- rsum_scal. apply rsum_ext. intros i Hi.
    replace (bcoef order (S j) * norm * lam x i / (bcoef order 0 + dt * lam x i))
      with (norm * (bcoef order (S j) * lam x i / (bcoef order 0 + dt * lam x i))) by (unfold Rdiv; ring).
    rewrite <- !Rmult_assoc. rewrite (Rmult_comm (sumR ws) norm), Hw. ring.
Qed.

Lemma physics_ok dt order rhs prev : (1 <= order <= 6)%nat -> dt <> 0 ->
  exists a y, coefs order a /\ update_physics dt order rhs prev = Ok y /\
    forall z, bdf_rate a order dt z prev = rhs <-> z = y.
Proof.
  intros Ho Hd. exists (bcoef order). pose proof (bcoef0_pos Ho) as B0. unfold update_physics. rewrite bdf_ok by lia. cbn [bind].
  destruct (@for_inv _ (fun k v => v = dt * rhs + rsum (k - 1) (fun j => bcoef order (S j) * prev j)) 1 (S order) (dt * rhs)
    (fun k v => do ak <- bdf order k; Ok (v + ak * prev (k - 1)%nat))) as (v & E & V).
  - lia.
  - cbn [Nat.sub rsum]. ring.
  - intros k v Hk V. rewrite bdf_ok by lia. cbn [bind]. eexists. split; [reflexivity|]. rewrite V.
    replace (S k - 1)%nat with (S (k - 1)) by lia. cbn [rsum]. replace (S (k - 1)) with k by lia. ring.
  - rewrite E. cbn [bind]. eexists. split; [apply coefs_b; auto|]. split; [reflexivity|].
    intros z. rewrite V. replace (S order - 1)%nat with order by lia. unfold bdf_rate.
    set (H := rsum order (fun j => bcoef order (S j) * prev j)). split; intros Ez.
    + rewrite <- Ez. field. split; auto. lra.
    + rewrite Ez. field. split; auto. lra.
Qed.

(** ** The stepper *)

Lemma cycle_ok q ptrs : (1 <= q)%nat -> length ptrs = q ->
  exists p', cycle q ptrs = Ok p' /\ length p' = q /\ nth 0 p' 0%nat = nth (q - 1) ptrs 0%nat /\
    forall j, (S j < q)%nat -> nth (S j) p' 0%nat = nth j ptrs 0%nat.
Proof.
  intros Hq Hl. destruct q as [|o]; [lia|]. unfold cycle. rewrite (@rd_ok _ ptrs o 0%nat) by lia. cbn [bind].
  destruct (@for_inv _ (fun i p => length p = S o /\ forall k, (k < S o)%nat ->
      nth k p 0%nat = if (o - i <? k)%nat then nth (k - 1) ptrs 0%nat else nth k ptrs 0%nat) 0 o ptrs
      (fun i p => do v <- rd p (o - i - 1); wr p (o - i) v)) as (p & E & L & V).
  - lia.
  - split; auto. intros k Hk. destruct (Nat.ltb_spec (o - 0) k); [lia|auto].
  - intros i p Hi (L & V). rewrite (@rd_ok _ p (o - i - 1) 0%nat) by lia. cbn [bind].
    unfold wr. rewrite (proj2 (Nat.ltb_lt (o - i) (length p))) by lia. eexists. split; [reflexivity|].
    split; [rewrite upd_length; auto|]. intros k Hk. destruct (Nat.eq_dec k (o - i)) as [->|N].
    + rewrite nth_upd_eq by lia. rewrite V by lia. destruct (Nat.ltb_spec (o - i) (o - i - 1)); [lia|].
      destruct (Nat.ltb_spec (o - S i) (o - i)); [auto|lia].
    + rewrite nth_upd_neq by auto. rewrite V by lia.
      destruct (Nat.ltb_spec (o - i) k), (Nat.ltb_spec (o - S i) k); auto; lia.
  - rewrite E. cbn [bind]. unfold wr. rewrite (proj2 (Nat.ltb_lt 0 (length p))) by lia.
    eexists. split; [reflexivity|]. split; [rewrite upd_length; auto|]. split.
    + rewrite nth_upd_eq by lia. f_equal. lia.
    + intros j Hj. rewrite nth_upd_neq by lia. rewrite V by lia. destruct (Nat.ltb_spec (o - o) (S j)); [|lia]. f_equal. lia.
Qed.

Lemma cycle_nodup q ptrs p' : (1 <= q)%nat -> length ptrs = q -> NoDup ptrs -> cycle q ptrs = Ok p' -> NoDup p'.
Proof.
  intros Hq Hl ND E. destruct (@cycle_ok q ptrs Hq Hl) as (p & E' & L & A & B). rewrite E in E'. inversion E'; subst p.
  apply (NoDup_nth p' 0%nat). intros i j Hi Hj Hij. rewrite L in Hi, Hj.
  assert (I : forall i j, (i < q)%nat -> (j < q)%nat -> nth i ptrs 0%nat = nth j ptrs 0%nat -> i = j).
  { intros. apply (proj1 (NoDup_nth ptrs 0%nat) ND); auto; lia. }
  destruct i as [|i], j as [|j]; auto; rewrite ?A, ?B in Hij by auto.
  - apply I in Hij; lia.
  - apply I in Hij; lia.
  - f_equal. apply I; auto; lia.
Qed.

Lemma fixed_point_ext {X} (f g : X -> res X) conv n y : (forall z, f z = g z) -> fixed_point f conv n y = fixed_point g conv n y.
Proof.
  intros H. revert y. induction n as [|n IH]; intros y; [reflexivity|]. cbn [fixed_point]. rewrite H.
  destruct (g y); cbn [bind]; auto. rewrite IH. reflexivity.
Qed.

Lemma half_step_extrapolated imp ne q i : (1 <= i)%nat ->
  extrapolated imp ne (if (i <? q)%nat then i else q) q = half_step imp ne i q.
Proof.
  intros Hi. unfold extrapolated, half_step. destruct imp, ne; auto; cbn [andb orb negb].
  destruct (Nat.ltb_spec i q), (Nat.eqb_spec i 1), (Nat.ltb_spec 1 q), (Nat.leb_spec 2 q); cbn [andb]; auto; try lia;
  destruct (Nat.eqb_spec q 1); auto; lia.
Qed.

Section Stepper.
Context {X : Type}.
Variables (stepf : R -> R -> nat -> bool -> (nat -> X) -> X -> res X) (conv : X -> X -> bool)
  (q maxit : nat) (imp ne : bool) (h : R) (d : X).
Hypotheses (Hr : reads_order stepf) (Hq : (1 <= q)%nat).
Let run := multistep stepf (fun f y => fixed_point f conv maxit y) q imp ne h d.

Lemma run_fail k m : (run k = Err -> run (k + m) = Err) /\ (run k = UB -> run (k + m) = UB).
Proof.
  induction m as [|m [IH1 IH2]]; [rewrite Nat.add_0_r; auto|].
  rewrite Nat.add_succ_r. split; intros E; unfold run; cbn [multistep]; fold run.
  - rewrite (IH1 E). reflexivity.
  - rewrite (IH2 E). reflexivity.
Qed.

Definition result_ok (n : nat) (r : res (list X * list nat * (nat -> X) * R)) : Prop :=
  match r with
  | Ok (out, ptrs, heap, t) => run n = Ok out /\ length out = S n /\ t = INR n * h /\ length ptrs = q /\ NoDup ptrs /\
      forall j, (j < Nat.min (S n) q)%nat -> heap (nth j ptrs 0%nat) = nth j out d
  | Err => run n = Err
  | UB => run n = UB
  end.

Lemma steps_ok todo : forall k heap ptrs past, run k = Ok past -> length past = S k -> length ptrs = q -> NoDup ptrs ->
  (forall j, (j < Nat.min (S k) q)%nat -> heap (nth j ptrs 0%nat) = nth j past d) ->
  result_ok (k + todo) (steps stepf conv q maxit imp ne h todo (S k) (INR k * h) heap ptrs (nth 0 past d) past).
Proof.
  induction todo as [|todo IH]; intros k heap ptrs past Er Lp Lq ND Hh.
  - cbn [steps result_ok]. rewrite Nat.add_0_r. repeat split; auto.
  - cbn [steps]. cbv zeta. rewrite half_step_extrapolated by lia.
    replace (k + S todo)%nat with (S k + todo)%nat by lia.
    assert (Er' : run (S k) = do y <- fixed_point (stepf (INR k * h + h)
        (if half_step imp ne (S k) q then 1 / 2 * h else h) (if (S k <? q)%nat then S k else q) (half_step imp ne (S k) q)
        (fun j => heap (nth j ptrs 0%nat))) conv maxit (nth 0 past d); Ok (y :: past)).
    { unfold run. cbn [multistep]. fold run. rewrite Er. cbn [bind]. cbv zeta.
      replace (INR (S k) * h) with (INR k * h + h) by (rewrite S_INR; ring).
      replace (h / 2) with (1 / 2 * h) by field.
      replace (if (S k <? q)%nat then S k else q) with (Nat.min (S k) q) by (destruct (Nat.ltb_spec (S k) q); lia).
      erewrite fixed_point_ext; [reflexivity|]. intros z. apply Hr. intros j Hj. symmetry. apply Hh. lia. }
    destruct (fixed_point _ conv maxit (nth 0 past d)) as [y| |] eqn:Ey; cbn [bind] in Er' |- *.
    + destruct (@cycle_ok q ptrs Hq Lq) as (p' & Ec & Lc & A & B).
      pose proof (cycle_nodup Hq Lq ND Ec) as ND'. rewrite Ec. cbn [bind].
      rewrite (@rd_ok _ p' 0 0%nat) by lia. cbn [bind].
      replace (INR k * h + h) with (INR (S k) * h) by (rewrite S_INR; ring).
      apply (IH (S k) _ p' (y :: past)); auto; [cbn [length]; lia|].
      intros j Hj. unfold store. destruct j as [|j].
      * rewrite Nat.eqb_refl. reflexivity.
      * destruct (Nat.eqb_spec (nth (S j) p' 0%nat) (nth 0 p' 0%nat)) as [Eq|Neq].
        -- apply (proj1 (NoDup_nth p' 0%nat) ND') in Eq; lia.
        -- rewrite B by lia. cbn [nth]. apply Hh. lia.
    + apply (proj1 (run_fail (S k) todo)). auto.
    + apply (proj2 (run_fail (S k) todo)). auto.
Qed.

Lemma ts_solve_ok N heap ptrs : length ptrs = q -> NoDup ptrs -> result_ok N (ts_solve stepf conv q maxit imp ne h N heap ptrs d).
Proof.
  intros Lq ND. unfold ts_solve. rewrite (@rd_ok _ ptrs 0 0%nat) by lia. cbn [bind].
  replace 0 with (INR 0 * h) at 1 by (cbn; ring).
  apply (@steps_ok N 0%nat (store heap (nth 0 ptrs 0%nat) d) ptrs [d]); auto.
  intros j Hj. replace j with 0%nat by lia. unfold store. rewrite Nat.eqb_refl. reflexivity.
Qed.
End Stepper.

Lemma stepper_refines X (stepf : R -> R -> nat -> bool -> (nat -> X) -> X -> res X) conv q maxit imp no_extrap h N heap ptrs init :
  reads_order stepf -> (1 <= q)%nat -> length ptrs = q -> NoDup ptrs ->
  match ts_solve stepf conv q maxit imp no_extrap h N heap ptrs init with
  | Ok (out, ptrs', heap', t) =>
      multistep stepf (fun f y => fixed_point f conv maxit y) q imp no_extrap h init N = Ok out /\
      length out = S N /\ t = INR N * h /\ length ptrs' = q /\ NoDup ptrs' /\
      (forall j, (j < Nat.min (S N) q)%nat -> heap' (nth j ptrs' 0%nat) = nth j out init)
  | Err => multistep stepf (fun f y => fixed_point f conv maxit y) q imp no_extrap h init N = Err
  | UB => multistep stepf (fun f y => fixed_point f conv maxit y) q imp no_extrap h init N = UB
  end.
Proof. intros Hr Hq Lq ND. exact (@ts_solve_ok X stepf conv q maxit imp no_extrap h init Hr Hq N heap ptrs Lq ND). Qed.

(** The fixed point loop returns the first iterate that is converged, or the last. *)
Lemma iterate_S {X} (f : X -> res X) k y : iterate f (S k) y = do z <- f y; iterate f k z.
Proof.
  induction k as [|k IH]; [cbn; destruct (f y); reflexivity|].
  cbn [iterate] in IH |- *. rewrite IH. destruct (f y); reflexivity.
Qed.
Lemma fixed_point_ok X (f : X -> res X) conv n y z : (1 <= n)%nat -> fixed_point f conv n y = Ok z ->
  exists k u, (1 <= k <= n)%nat /\ iterate f (k - 1) y = Ok u /\ iterate f k y = Ok z /\ (conv z u = true \/ k = n) /\
    forall j v w, (1 <= j < k)%nat -> iterate f (j - 1) y = Ok v -> iterate f j y = Ok w -> conv w v = false.
Proof.
  intros Hn. revert y. induction n as [|n IH]; intros y E; [lia|]. cbn [fixed_point] in E.
  destruct (f y) as [y1| |] eqn:E1; cbn [bind] in E; try discriminate.
  destruct (((n =? 0)%nat || conv y1 y)%bool) eqn:Ec.
  - inversion E; subst z. exists 1%nat, y. split; [lia|]. split; [reflexivity|]. split; [cbn; exact E1|]. split; [|intros; lia].
    apply Bool.orb_true_iff in Ec. destruct Ec as [Ec|Ec]; auto. apply Nat.eqb_eq in Ec. right. lia.
  - apply Bool.orb_false_iff in Ec. destruct Ec as [Ec1 Ec2]. apply Nat.eqb_neq in Ec1.
    destruct (IH ltac:(lia) y1 E) as (k & u & Hk & A & B & C & D).
    exists (S k), u. split; [lia|]. replace (S k - 1)%nat with (S (k - 1)) by lia.
    rewrite !iterate_S, E1. cbn [bind]. split; auto. split; auto. split; [destruct C; auto|].
    intros j v w Hj Ev Ew. destruct (Nat.eq_dec j 1) as [->|Nj].
    + cbn in Ev, Ew. inversion Ev; subst v. rewrite E1 in Ew. inversion Ew; subst w. auto.
    + destruct j as [|j]; [lia|]. replace (S j - 1)%nat with (S (j - 1)) in Ev by lia.
      rewrite iterate_S, E1 in Ev, Ew. cbn [bind] in Ev, Ew. apply (D j); auto. lia.
Qed.

Lemma ceil_ok x : x <= IZR (ceil x) < x + 1.
Proof. unfold ceil. rewrite opp_IZR. pose proof (base_Int_part (- x)). lra. Qed.
Lemma number_steps_ok final dt : 0 < final -> 0 < dt ->
  let N := number_steps final dt None in final <= INR N * dt < final + dt /\ (1 <= N)%nat.
Proof.
  intros Hf Hd N. pose proof (ceil_ok (final / dt)) as C.
  assert (P : 0 < final / dt) by (apply Rdiv_lt_0_compat; auto).
  assert (Z : (0 < ceil (final / dt))%Z). { apply lt_IZR. lra. }
  assert (E : INR N = IZR (ceil (final / dt))). { unfold N, number_steps. rewrite INR_IZR_INZ, Z2Nat.id by lia. reflexivity. }
  split; [|unfold N, number_steps; lia].
  rewrite E. assert (Ef : final = final / dt * dt) by (field; lra).
  set (k := IZR (ceil (final / dt))) in *. set (F := final / dt) in *. nra.
Qed.
Lemma number_steps_cap final dt m : number_steps final dt (Some m) = Nat.min m (number_steps final dt None).
Proof. unfold number_steps. destruct (Nat.ltb_spec m (Z.to_nat (ceil (final / dt)))); lia. Qed.

(** ** What a step reads *)
Lemma rd_firstn A (l : list A) k j : (j < k)%nat -> rd (firstn k l) j = rd l j.
Proof.
  intros H. unfold rd. replace (nth_error (firstn k l) j) with (nth_error l j); auto.
  revert k j H. induction l as [|a l IH]; intros k j H; [rewrite firstn_nil; reflexivity|].
  destruct k as [|k]; [lia|]. destruct j as [|j]; [reflexivity|]. cbn. apply IH. lia.
Qed.
Lemma build_rows_reads x n mt dt states prec order fC s :
  build_rows x n mt dt states prec order fC s = build_rows x n mt dt (firstn order states) (firstn order prec) order fC s.
Proof.
  unfold build_rows. destruct order as [|o]; [reflexivity|]. set (order := S o).
  replace (match firstn order prec with [] => 0%nat | C :: _ => length C end) with (match prec with [] => 0%nat | C :: _ => length C end)
    by (destruct prec; reflexivity).
  destruct (bdf order 0) as [a0| |]; cbn [bind]; auto.
  destruct (for_ 0 (ng (kb x)) s _) as [s1| |]; cbn [bind]; auto.
  apply for_ext. intros j t Hj. destruct (bdf order (S j)) as [aj| |]; cbn [bind]; auto.
  rewrite !rd_firstn by lia. reflexivity.
Qed.
Lemma sources_read x n mt norm dt states prec order s :
  build_moment x n mt dt states prec order s = build_moment x n mt dt (firstn order states) (firstn order prec) order s /\
  build_discrete x n mt norm dt states prec order s = build_discrete x n mt norm dt (firstn order states) (firstn order prec) order s.
Proof. split; apply build_rows_reads. Qed.
Lemma precursors_read x n mt dt order fd prev C :
  update_precursors x n mt dt order fd prev C = update_precursors x n mt dt order fd (firstn order prev) C.
Proof.
  unfold update_precursors. apply for_ext. intros i t Hi. destruct (bdf order 0) as [a0| |]; cbn [bind]; auto.
  unfold set_row. destruct (rd t i) as [row| |]; cbn [bind]; auto.
  assert (E : for_ 0 n row (fun c row => do a <- (do m <- rd mt c; do f <- rd fd c; for_ 1 (S order) (0 + dt / (a0 + dt * lam x i) * beta x i m * f)
      (fun j v => do aj <- bdf order j; do Cj <- rd prev (j - 1); do Ci <- rd Cj i; do w <- rd Ci c; Ok (v + dt / (a0 + dt * lam x i) / dt * aj * w))); wr row c a) =
    for_ 0 n row (fun c row => do a <- (do m <- rd mt c; do f <- rd fd c; for_ 1 (S order) (0 + dt / (a0 + dt * lam x i) * beta x i m * f)
      (fun j v => do aj <- bdf order j; do Cj <- rd (firstn order prev) (j - 1); do Ci <- rd Cj i; do w <- rd Ci c; Ok (v + dt / (a0 + dt * lam x i) / dt * aj * w))); wr row c a)).
  { apply for_ext. intros c r Hc. f_equal.
    destruct (rd mt c) as [m| |]; cbn [bind]; auto. destruct (rd fd c) as [f| |]; cbn [bind]; auto.
    apply for_ext. intros j v Hj. rewrite rd_firstn by lia. reflexivity. }
  rewrite E. reflexivity.
Qed.

(** ** Extrapolation *)
Lemma extrapolate_rows_ok rows n prev cur : sized rows n prev -> sized rows n cur ->
  exists new, extrapolate_rows rows n prev cur = Ok new /\ sized rows n new /\
    forall g c, (g < rows)%nat -> (c < n)%nat -> at2 new g c = 2 * at2 cur g c - at2 prev g c.
Proof.
  intros Sp Sc. unfold extrapolate_rows.
  destruct (@for_inv _ (fun i t => sized rows n t /\ forall h c, (h < rows)%nat -> (c < n)%nat ->
      at2 t h c = if (h <? i)%nat then 2 * at2 cur h c - at2 prev h c else at2 cur h c) 0 rows cur
    (fun g cur => do row <- rd cur g; do old <- rd prev g;
      do row <- for_ 0 n row (fun c row => do v <- rd row c; do w <- rd old c; wr row c (2 * v - w)); wr cur g row)) as (t & E & A & B).
  - lia.
  - split; auto.
  - intros g t Hg (A & B). destruct (sized_row A (proj2 Hg)) as [E1 L1]. destruct (sized_row Sp (proj2 Hg)) as [E2 L2].
    rewrite E1, E2. cbn [bind].
    destruct (@for_inv _ (fun k r => length r = length (nth g t []) /\ forall c, (c < n)%nat ->
       nth c r 0 = if (c <? k)%nat then 2 * at2 t g c - at2 prev g c else at2 t g c) 0 n (nth g t [])
       (fun c row => do v <- rd row c; do w <- rd (nth g prev []) c; wr row c (2 * v - w))) as (r & Er & Lr & Vr).
    + lia.
    + split; auto.
    + intros k r Hk (Lr & Vr). rewrite (@rd_ok _ r k 0) by lia. cbn [bind]. rewrite (@rd_ok _ _ k 0) by lia. cbn [bind].
      unfold wr. rewrite (proj2 (Nat.ltb_lt k (length r))) by lia. eexists. split; [reflexivity|].
      split; [rewrite upd_length; auto|]. intros c Hc. destruct (Nat.eq_dec c k) as [->|N].
      * rewrite nth_upd_eq by lia. rewrite Vr by lia. rewrite Nat.ltb_irrefl. rewrite (proj2 (Nat.ltb_lt k (S k))) by lia. reflexivity.
      * rewrite nth_upd_neq by auto. rewrite Vr by lia. destruct (Nat.ltb_spec c k), (Nat.ltb_spec c (S k)); auto; lia.
    + rewrite Er. cbn [bind]. destruct A as [A1 A2]. unfold wr. rewrite (proj2 (Nat.ltb_lt g (length t))) by lia.
      eexists. split; [reflexivity|]. split.
      * split; [rewrite upd_length; auto|]. intros i Hi. destruct (Nat.eq_dec i g) as [->|N].
        -- rewrite nth_upd_eq by lia. rewrite Lr. auto.
        -- rewrite nth_upd_neq by auto. auto.
      * intros h c Hh Hc. unfold at2 at 1. destruct (Nat.eq_dec h g) as [->|N].
        -- rewrite nth_upd_eq by lia. rewrite Vr by auto. rewrite (proj2 (Nat.ltb_lt c n)) by auto.
           rewrite B by auto. rewrite Nat.ltb_irrefl. rewrite (proj2 (Nat.ltb_lt g (S g))) by lia. reflexivity.
        -- rewrite nth_upd_neq by auto. fold (at2 t h c). rewrite B by auto.
           destruct (Nat.ltb_spec h g), (Nat.ltb_spec h (S g)); auto; lia.
  - exists t. split; auto. split; auto. intros g c Hg Hc. rewrite B by auto. rewrite (proj2 (Nat.ltb_lt g rows)) by auto. reflexivity.
Qed.

(** A half step of order one followed by extrapolation is one step of the
    implicit midpoint rule. *)
Lemma midpoint a dt y0 yh y1 (f : R -> R) : 0 < dt -> coefs 1 a -> y1 = 2 * yh - y0 ->
  (bdf_rate a 1 (1 / 2 * dt) yh (fun _ => y0) = f yh <-> (y1 - y0) / dt = f ((y0 + y1) / 2)) /\ yh = (y0 + y1) / 2.
Proof.
  intros Hd Ha ->. pose proof (Ha 0%nat ltac:(lia)) as A0. pose proof (Ha 1%nat ltac:(lia)) as A1.
  cbn in A0, A1. inversion A0 as [B0]. inversion A1 as [B1].
  replace ((y0 + (2 * yh - y0)) / 2) with yh by field. split; [|reflexivity].
  unfold bdf_rate. cbn [rsum]. rewrite <- B0, <- B1.
  replace ((1 * yh - (0 + 1 * y0)) / (1 / 2 * dt)) with ((2 * yh - y0 - y0) / dt) by (field; lra). tauto.
Qed.

Definition fixed (fixup : bool) (v : R) : R := if fixup then Rmax 0 v else v.
Lemma fixed_eq (fixup : bool) v : (if fixup then if Rlt_dec v 0 then 0 else v else v) = fixed fixup v.
Proof. unfold fixed, Rmax. destruct fixup; auto. destruct (Rlt_dec v 0), (Rle_dec 0 v); lra. Qed.

Lemma extrapolate_angle_ok fixup w n p0 p phi : (n <= length p0)%nat -> (n <= length p)%nat -> (n <= length phi)%nat ->
  exists p' phi', extrapolate_angle fixup w n p0 p phi = Ok (p', phi') /\ length p' = length p /\ length phi' = length phi /\
    forall c, (c < n)%nat -> nth c p' 0 = fixed fixup (2 * nth c p 0 - nth c p0 0) /\ nth c phi' 0 = nth c phi 0 + w * nth c p' 0.
Proof.
  intros L0 L1 L2. unfold extrapolate_angle. set (val := fun c => fixed fixup (2 * nth c p 0 - nth c p0 0)).
  match goal with |- context [for_ 0 n (p, phi) ?b] => set (body := b) end.
  destruct (@for_inv _ (fun i (s : list R * list R) => length (fst s) = length p /\ length (snd s) = length phi /\
      forall c, (c < n)%nat -> nth c (fst s) 0 = (if (c <? i)%nat then val c else nth c p 0) /\
                               nth c (snd s) 0 = (if (c <? i)%nat then nth c phi 0 + w * val c else nth c phi 0)) 0 n (p, phi) body)
    as ([p' phi'] & E & A & B & V).
  - lia.
  - split; [reflexivity|]. split; [reflexivity|]. intros c Hc. split; reflexivity.
  - intros i [u v] Hi (A & B & V). cbn [fst snd] in *. unfold body.
    rewrite (@rd_ok _ u i 0) by lia. cbn [bind]. rewrite (@rd_ok _ p0 i 0) by lia. cbn [bind]. cbv zeta.
    rewrite fixed_eq. unfold wr. rewrite (proj2 (Nat.ltb_lt i (length u))) by lia. cbn [bind].
    rewrite (@rd_ok _ v i 0) by lia. cbn [bind]. rewrite (proj2 (Nat.ltb_lt i (length v))) by lia. cbn [bind].
    eexists. split; [reflexivity|]. cbn [fst snd]. rewrite !upd_length. split; auto. split; auto.
    destruct (V i ltac:(lia)) as [V1 V2]. rewrite Nat.ltb_irrefl in V1, V2.
    intros c Hc. destruct (Nat.eq_dec c i) as [->|N].
    + rewrite !nth_upd_eq by lia. rewrite (proj2 (Nat.ltb_lt i (S i))) by lia. rewrite V1, V2. split; reflexivity.
    + rewrite !nth_upd_neq by auto. destruct (V c Hc) as [-> ->].
      destruct (Nat.ltb_spec c i), (Nat.ltb_spec c (S i)); auto; lia.
  - exists p', phi'. cbn [fst snd] in *. split; auto. split; auto. split; auto.
    intros c Hc. destruct (V c Hc) as [-> ->]. rewrite (proj2 (Nat.ltb_lt c n)) by auto. split; reflexivity.
Qed.

Lemma extrapolate_discrete_ok fixup ws n psi0 psi phi : sized (length ws) n psi0 -> sized (length ws) n psi -> (n <= length phi)%nat ->
  exists psi' phi', extrapolate_discrete fixup ws n psi0 psi phi = Ok (psi', phi') /\ sized (length ws) n psi' /\ length phi' = length phi /\
    (forall a c, (a < length ws)%nat -> (c < n)%nat -> at2 psi' a c = if fixup then Rmax 0 (2 * at2 psi a c - at2 psi0 a c) else 2 * at2 psi a c - at2 psi0 a c) /\
    (forall c, (c < n)%nat -> nth c phi' 0 = rsum (length ws) (fun a => nth a ws 0 * at2 psi' a c)).
Proof.
  intros S0 S1 Lp. unfold extrapolate_discrete. destruct (zero_cells_ok Lp) as (ph & Ez & Lz & Z). rewrite Ez. cbn [bind].
  set (val := fun a c => fixed fixup (2 * at2 psi a c - at2 psi0 a c)).
  match goal with |- context [for_ 0 (length ws) (psi, ph) ?b] => set (body := b) end.
  destruct (@for_inv _ (fun i (s : list (list R) * list R) => sized (length ws) n (fst s) /\ length (snd s) = length phi /\
      (forall a c, (a < length ws)%nat -> (c < n)%nat -> at2 (fst s) a c = if (a <? i)%nat then val a c else at2 psi a c) /\
      (forall c, (c < n)%nat -> nth c (snd s) 0 = rsum i (fun a => nth a ws 0 * val a c))) 0%nat (length ws) (psi, ph) body)
    as ([psi' phi'] & E & A1 & A2 & A3 & A4).
  - lia.
  - cbn [fst snd]. split; [auto|]. split; [auto|]. split; [auto|]. intros c Hc. cbn [rsum]. auto.
  - intros i [u v] Hi (A1 & A2 & A3 & A4). cbn [fst snd] in *. unfold body.
    destruct (sized_row A1 (proj2 Hi)) as [E1 L1]. destruct (sized_row S0 (proj2 Hi)) as [E2 L2].
    rewrite (@rd_ok _ ws i 0) by lia. cbn [bind]. rewrite E1. cbn [bind]. rewrite E2. cbn [bind].
    destruct (@extrapolate_angle_ok fixup (nth i ws 0) n (nth i psi0 []) (nth i u []) v) as (p' & v' & Ea & B1 & B2 & B3); auto; [lia|].
    rewrite Ea. cbn [bind]. destruct A1 as [C1 C2]. unfold wr. rewrite (proj2 (Nat.ltb_lt i (length u))) by lia. cbn [bind].
    eexists. split; [reflexivity|]. cbn [fst snd].
    assert (P : forall c, (c < n)%nat -> nth c p' 0 = val i c).
    { intros c Hc. destruct (B3 c Hc) as [-> _]. unfold val. f_equal. f_equal. f_equal.
      pose proof (A3 i c (proj2 Hi) Hc) as A3'. rewrite Nat.ltb_irrefl in A3'. exact A3'. }
    split; [|split; [congruence|split]].
    + split; [rewrite upd_length; auto|]. intros k Hk. destruct (Nat.eq_dec k i) as [->|N].
      * rewrite nth_upd_eq by lia. rewrite B1. auto.
      * rewrite nth_upd_neq by auto. auto.
    + intros a c Ha Hc. unfold at2 at 1. destruct (Nat.eq_dec a i) as [->|N].
      * rewrite nth_upd_eq by lia. rewrite P by auto. rewrite (proj2 (Nat.ltb_lt i (S i))) by lia. reflexivity.
      * rewrite nth_upd_neq by auto. fold (at2 u a c). rewrite A3 by auto.
        destruct (Nat.ltb_spec a i), (Nat.ltb_spec a (S i)); auto; lia.
    + intros c Hc. destruct (B3 c Hc) as [_ ->]. rewrite P, A4 by auto. cbn [rsum]. reflexivity.
  - cbn [fst snd] in *. exists psi', phi'. split; [exact E|]. split; auto. split; auto.
    assert (V : forall a c, (a < length ws)%nat -> (c < n)%nat -> at2 psi' a c = val a c).
    { intros a c Ha Hc. rewrite A3 by auto. rewrite (proj2 (Nat.ltb_lt a (length ws))) by auto. reflexivity. }
    split; [exact V|]. intros c Hc. rewrite A4 by auto. apply rsum_ext. intros a Ha. rewrite V by auto. reflexivity.
Qed.
(** without the fixup the scalar flux is extrapolated too *)
Lemma extrapolate_scalar ws n psi0 psi phi0 phi : sized (length ws) n psi0 -> sized (length ws) n psi -> (n <= length phi)%nat ->
  (forall c, (c < n)%nat -> nth c phi0 0 = rsum (length ws) (fun a => nth a ws 0 * at2 psi0 a c)) ->
  (forall c, (c < n)%nat -> nth c phi 0 = rsum (length ws) (fun a => nth a ws 0 * at2 psi a c)) ->
  exists psi' phi', extrapolate_discrete false ws n psi0 psi phi = Ok (psi', phi') /\
    forall c, (c < n)%nat -> nth c phi' 0 = 2 * nth c phi 0 - nth c phi0 0.
Proof.
  intros A B L P0 P1. destruct (@extrapolate_discrete_ok false ws n psi0 psi phi A B L) as (psi' & phi' & E & _ & _ & V1 & V2).
  exists psi', phi'. split; auto. intros c Hc. rewrite V2, P0, P1 by auto. rewrite <- rsum_scal, <- rsum_minus.
  apply rsum_ext. intros a Ha. rewrite V1 by auto. ring.
Qed.

(** Extrapolated precursors obey the midpoint rule with the fission density of
    the half step. *)
Lemma midpoint_precursors x n mt dt fd prev C Cn Cx i c : positive_data x -> 0 < dt -> map_ok x n mt -> (n <= length fd)%nat ->
  history 1 (np x) n prev -> sized (np x) n C ->
  update_precursors x n mt (1 / 2 * dt) 1 fd prev C = Ok Cn -> extrapolate_rows (np x) n (nth 0 prev []) Cn = Ok Cx ->
  (i < np x)%nat -> (c < n)%nat ->
  let old := at2 (nth 0 prev []) i c in let new := at2 Cx i c in
  (new - old) / dt = beta x i (nth c mt 0%nat) * nth c fd 0 - lam x i * ((old + new) / 2).
Proof.
  intros Hx Hd Hm Hf Hp Sz E1 E2 Hi Hc old new.
  destruct (@update_precursors_ok x n mt (1 / 2 * dt) 1 fd prev C ltac:(lia) Hm Hf (or_intror Hp) Sz) as (Cn' & E1' & Sn & V).
  rewrite E1 in E1'. inversion E1'; subst Cn'. clear E1'.
  destruct (@extrapolate_rows_ok (np x) n (nth 0 prev []) Cn (proj2 Hp 0%nat ltac:(lia)) Sn) as (Cx' & E2' & _ & W).
  rewrite E2 in E2'. inversion E2'; subst Cx'. clear E2'.
  assert (PE : precursor_eq (bcoef 1) 1 (1 / 2 * dt) (beta x i (nth c mt 0%nat)) (lam x i) (nth c fd 0) (at2 Cn i c) (fun j => at2 (nth j prev []) i c)).
  { apply precursor_solve; [lia|lra|apply (proj1 Hx); auto|]. apply V; auto. }
  destruct (@midpoint (bcoef 1) dt old (at2 Cn i c) new (fun C => beta x i (nth c mt 0%nat) * nth c fd 0 - lam x i * C) Hd
     (coefs_b (order := 1) ltac:(lia)) (W i c Hi Hc)) as [M _].
  apply M. exact PE.
Qed.

(** ** Counterexamples for time-dependent data *)
Definition base1 (f nv : R) : mtl :=
  {| ng := 1; nm := 1; st := fun _ _ => 1; sa := fun _ _ => 1; nsf := fun _ _ => nv * f; sf := fun _ _ => f; nu := fun _ _ => nv; chi := fun _ _ => 1;
     ss := fun _ _ _ => 0; dc := fun _ _ => 0; b0 := fun _ => 0%nat; b1 := fun _ => 0%nat; b2 := fun _ => 0%nat; b3 := fun _ => 0%nat;
     cut0 := 1%nat; cut1 := 0%nat; ds0 := false; ds1 := false; fin := true |}.
Definition kin1 (f nv v : R) : kmtl := {| kb := base1 f nv; np := 0; vel := fun _ => v; lam := fun _ => 1; beta := fun _ _ => 0; chid := fun _ _ _ => 0 |}.
(** nu * sigma_f is the product of the interpolants *)
Lemma fission_refuted : exists times mats self t x y,
  increasing times /\ length mats = length times /\ positive_data self /\
  linear_update times mats self t = Ok x /\ td_update 1 x 1 1 false = Ok y /\
  nth 0 times 0 <= t <= nth 1 times 0 /\
  ~ between (nsf (kb (nth 0 mats self)) 0 0) (nsf (kb (nth 1 mats self)) 0 0) (nsf (kb y) 0 0).
Proof.
  destruct (@linear_material_ok [0; 1] [kin1 3 2 1; kin1 2 3 1] (kin1 3 2 1) (1 / 2) (kin1 3 2 1)) as (x & E & V & Vv & Vl & Vn & Vg & Vm).
  { cbn; lia. } { reflexivity. }
  { intros i Hi. cbn in Hi. replace i with 0%nat by lia. cbn. lra. }
  assert (P : positive_data x).
  { split; [rewrite Vn; cbn; lia|]. intros g Hg. rewrite Vv. cbn. lra. }
  destruct (@td_update_ok 1 x 1 1 false ltac:(lia) P) as (y & Ey & _ & _ & _ & _ & _ & _ & _ & _ & _ & _ & _ & F).
  exists [0; 1], [kin1 3 2 1; kin1 2 3 1], (kin1 3 2 1), (1 / 2), x, y.
  split. { intros i Hi. cbn in Hi. replace i with 0%nat by lia. cbn. lra. }
  split; [reflexivity|]. split. { split; [cbn; lia|]. intros; cbn; lra. }
  split; [exact E|]. split; [exact Ey|]. split; [cbn; lra|].
  destruct (F 0%nat 0%nat) as (_ & -> & _); [rewrite Vg; cbn; lia|rewrite Vm; cbn; lia|].
  destruct (V (QNu 0) 0%nat) as ((_ & _ & Nu) & _ & _); [cbn; lia|cbn; lia|].
  destruct (V (QSf 0) 0%nat) as ((_ & _ & Sf) & _ & _); [cbn; lia|cbn; lia|].
  specialize (Nu 0%nat ltac:(cbn; lia) ltac:(cbn; lra)). specialize (Sf 0%nat ltac:(cbn; lia) ltac:(cbn; lra)).
  cbn in Nu, Sf. rewrite Nu, Sf. unfold between. cbn.
  rewrite Rmin_left, Rmax_left by lra. intros [_ H]. lra.
Qed.
(** velocities and decay constants stay those of the first table *)
Lemma velocity_refuted : exists times mats self t x,
  increasing times /\ length mats = length times /\ self = nth 0 mats self /\
  linear_update times mats self t = Ok x /\ t = nth 1 times 0 /\ vel x 0%nat <> vel (nth 1 mats self) 0%nat.
Proof.
  destruct (@linear_material_ok [0; 1] [kin1 1 1 1; kin1 1 1 2] (kin1 1 1 1) 1 (kin1 1 1 1)) as (x & E & V & Vv & _).
  { cbn; lia. } { reflexivity. }
  { intros i Hi. cbn in Hi. replace i with 0%nat by lia. cbn. lra. }
  exists [0; 1], [kin1 1 1 1; kin1 1 1 2], (kin1 1 1 1), 1, x.
  split. { intros i Hi. cbn in Hi. replace i with 0%nat by lia. cbn. lra. }
  split; [reflexivity|]. split; [reflexivity|]. split; [exact E|]. split; [reflexivity|]. rewrite Vv. cbn. lra.
Qed.
