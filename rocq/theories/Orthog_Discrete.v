(** * Proofs about the discrete bases DLP, DCP and DCT *)
From Verif Require Import Base BaseR Loop Vector_Model Vector_Spec Vector_Proofs Orthog_Model Orthog_Spec Orthog_Proofs Orthog_Legendre.
From Coq Require Import Lra.
Set Implicit Arguments. Unset Strict Implicit.
Open Scope R_scope.

(** ** 32-bit arithmetic *)
Lemma s32_u32 z : (-2147483648 <= z < 2147483648)%Z -> s32 (u32 z) = z.
Proof.
  intros H. unfold s32, u32.
  assert (E : ((z mod 4294967296 + 2147483648) mod 4294967296 = (z + 2147483648) mod 4294967296)%Z)
    by apply Zplus_mod_idemp_l.
  rewrite E, Z.mod_small by lia. lia.
Qed.
Lemma u32_mul a b : u32 (a * u32 b) = u32 (a * b).
Proof. unfold u32. apply Zmult_mod_idemp_r. Qed.
Lemma u32_add a b : u32 (u32 a + b) = u32 (a + b).
Proof. unfold u32. apply Zplus_mod_idemp_l. Qed.
Lemma u32_sub a b : u32 (u32 a - b) = u32 (a - b).
Proof. unfold u32. apply Zminus_mod_idemp_l. Qed.
Lemma u32_small z : (0 <= z < 4294967296)%Z -> u32 z = z.
Proof. intros H. unfold u32. apply Z.mod_small; auto. Qed.

Section C.
  Variables N i : nat.
  Hypothesis H1 : (1 <= i)%nat.
  Hypothesis H2 : (i < N)%nat.
  Hypothesis H3 : (Z.of_nat N <= 32767)%Z.
  Lemma C0_ok : dlp_C0 N i = ((Z.of_nat i - 1) * (Z.of_nat N - 1 + Z.of_nat i))%Z.
  Proof. unfold dlp_C0. rewrite u32_add, u32_mul. rewrite s32_u32; auto. nia. Qed.
  Lemma C1_ok j : (j < N)%nat -> dlp_C1 N i j = ((2 * Z.of_nat i - 1) * (Z.of_nat N - 1 - 2 * Z.of_nat j))%Z.
  Proof. intros Hj. unfold dlp_C1. rewrite u32_sub, u32_mul. rewrite s32_u32; auto. nia. Qed.
  Lemma C2_ok : dlp_C2 N i = (Z.of_nat i * (Z.of_nat N - Z.of_nat i))%Z.
  Proof. unfold dlp_C2. rewrite u32_mul. rewrite s32_u32; auto. nia. Qed.
End C.

(** A list of columns holding given values. *)
Definition holds_cols (N K : nat) (P : nat -> nat -> R) (cols : list (list R)) : Prop :=
  length cols = K /\ (forall c, In c cols -> length c = N) /\
  forall l j, (l < K)%nat -> (j < N)%nat -> col cols l j = P l j.

Lemma upd_in (A : Type) (l : list A) i x y : In y (upd l i x) -> In y l \/ y = x.
Proof.
  revert i. induction l as [|h t IH]; intros [|i] H; cbn in *; auto.
  - destruct H as [->|H]; auto.
  - destruct H as [->|H]; auto. apply IH in H. tauto.
Qed.

Lemma mapM_seq (A : Type) (f : nat -> res A) (g : nat -> A) lo k :
  (forall j, (lo <= j < lo + k)%nat -> f j = Ok (g j)) -> mapM f (seq lo k) = Ok (map g (seq lo k)).
Proof.
  revert lo. induction k as [|k IH]; intros lo H; cbn; auto.
  rewrite H by lia. cbn [bind]. rewrite IH by (intros; apply H; lia). reflexivity.
Qed.

Lemma INR_IZR n : INR n = IZR (Z.of_nat n).
Proof. apply INR_IZR_INZ. Qed.

Lemma dlp_columns_ok N order : (order < N)%nat -> (Z.of_nat N <= 32767)%Z ->
  exists cols, dlp_columns N order = Ok cols /\ holds_cols N (S order) (DL N) cols.
Proof.
  intros H1 H2. unfold dlp_columns.
  assert (L0 : forall c, In c (repeat (repeat 1 N) (S order)) -> length c = N).
  { intros c Hc. apply repeat_spec in Hc. subst. apply repeat_length. }
  assert (Z0 : forall l j, (l <= order)%nat -> (j < N)%nat -> col (repeat (repeat 1 N) (S order)) l j = 1).
  { intros l j Hl Hj. unfold col.
    rewrite (nth_indep _ [] (repeat 1 N)) by (rewrite repeat_length; lia).
    rewrite nth_repeat. rewrite (nth_indep _ 0 1) by (rewrite repeat_length; lia). apply nth_repeat. }
  destruct (Nat.ltb_spec 0 order) as [Ho|Ho].
  - rewrite wr_upd by (rewrite repeat_length; lia). cbn [bind].
    set (c1 := map _ (seq 0 N)).
    set (s1 := upd (repeat (repeat 1 N) (S order)) 1 c1).
    edestruct (@for_inv (list (list R)) (fun i cs => length cs = S order /\ (forall c, In c cs -> length c = N) /\
       forall l j, (l < i)%nat -> (l <= order)%nat -> (j < N)%nat -> col cs l j = DL N l j) 2 (S order) s1)
      as (cs & E & I1 & I2 & I3); cycle 3.
    + rewrite E. exists cs. split; [reflexivity|]. split; auto. split; auto. intros l j Hl Hj. apply I3; lia.
    + lia.
    + split; [unfold s1; rewrite upd_length, repeat_length; auto|]. split.
      { intros c Hc. apply upd_in in Hc. destruct Hc as [Hc| ->]; auto. unfold c1. rewrite map_length, seq_length. auto. }
      intros l j Hl Hl' Hj. unfold s1, col. destruct l as [|[|l]]; [| |lia].
      * rewrite nth_upd_neq by lia. change (col (repeat (repeat 1 N) (S order)) 0 j = DL N 0 j).
        rewrite Z0 by lia. reflexivity.
      * rewrite nth_upd_eq by (rewrite repeat_length; lia). unfold c1.
        rewrite nth_map_seq by lia.
        rewrite u32_small by lia. unfold DL, dlj. rewrite dl_1. rewrite minus_IZR, <- INR_IZR. cbn [Nat.add]. reflexivity.
    + intros i cs Hi (I1 & I2 & I3).
      rewrite (@rd_nth _ cs (i - 1) []) by lia. rewrite (@rd_nth _ cs (i - 2) []) by lia. cbn [bind].
      rewrite (@mapM_seq _ _ (fun j => DL N i j) 0 N).
      * cbn [bind]. rewrite wr_upd by lia. eexists. split; [reflexivity|].
        split; [rewrite upd_length; auto|]. split.
        { intros c Hc. apply upd_in in Hc. destruct Hc as [Hc| ->]; auto. rewrite map_length, seq_length. auto. }
        intros l j Hl Hl' Hj. unfold col. destruct (Nat.eq_dec i l) as [->|Ne].
        -- rewrite nth_upd_eq by lia. rewrite nth_map_seq by lia. reflexivity.
        -- rewrite nth_upd_neq by auto. apply I3; lia.
      * intros j Hj. cbn [Nat.add] in Hj.
        rewrite (@rd_nth _ _ j 0) by (rewrite I2; [lia|apply nth_In; lia]).
        rewrite (@rd_nth _ (nth (i - 2) cs []) j 0) by (rewrite I2; [lia|apply nth_In; lia]).
        cbn [bind]. f_equal.
        change (nth j (nth (i - 1) cs []) 0) with (col cs (i - 1) j).
        change (nth j (nth (i - 2) cs []) 0) with (col cs (i - 2) j).
        rewrite !I3 by lia. rewrite C0_ok, C1_ok, C2_ok by lia.
        destruct i as [|[|i]]; try lia.
        replace (S (S i) - 1)%nat with (S i) by lia. replace (S (S i) - 2)%nat with i by lia.
        unfold DL, dlj. rewrite dl_SS.
        rewrite !Nat2Z.inj_succ, <- !Z.add_1_r.
        rewrite !mult_IZR, !minus_IZR, !plus_IZR, !minus_IZR, !mult_IZR, !plus_IZR, <- !INR_IZR.
        f_equal; [|ring]. ring.
  - assert (order = 0)%nat by lia. subst order. eexists. split; [reflexivity|].
    split; [apply repeat_length|]. split; auto. intros l j Hl Hj. rewrite Z0 by lia.
    assert (l = 0)%nat by lia. subst. reflexivity.
Qed.

Lemma wdot1 n f g : wdot n (wgt None) f g = rsum n (fun i => f i * g i).
Proof. apply rsum_ext. intros. unfold wgt. ring. Qed.

Lemma DL_orthogonal N order : (order < N)%nat -> orthogonal N (S order) (wgt None) (DL N).
Proof.
  intros H. destruct (Nat.le_gt_cases 2 N) as [H2|H2].
  - split; [intros l k Hl Hk Ne; rewrite wdot1; apply DL_orth; lia|].
    intros l Hl. rewrite wdot1. apply DL_norm; lia.
  - assert (order = 0 /\ N = 1)%nat as (-> & ->) by lia. split; [intros; lia|].
    intros l Hl. assert (l = 0)%nat by lia. subst. rewrite wdot1. cbn. lra.
Qed.

Lemma orthogonal_ext n K W P Q : (forall l i, (l < K)%nat -> (i < n)%nat -> P l i = Q l i) ->
  orthogonal n K W P -> orthogonal n K W Q.
Proof.
  intros E (O & S). split.
  - intros l k Hl Hk Ne. rewrite <- (O l k) by auto. apply wdot_ext; intros; symmetry; apply E; auto.
  - intros l Hl. erewrite wdot_ext; [apply (S l Hl)| |]; intros; symmetry; apply E; auto.
Qed.

(** Any discrete basis without weights whose columns are orthogonal. *)
Lemma discrete_ok p cols P : op_w p = [] -> cols = Ok P ->
  length P = S (op_order p) -> (forall c, In c P -> length c = op_size p) ->
  orthogonal (op_size p) (S (op_order p)) (wgt None) (col P) ->
  exists b, discrete p cols = Ok b /\ normed b /\
    ob_order b = op_order p /\ ob_size b = op_size p /\ ob_w b = None /\
    (op_orthonormal p = true -> orthonormal (op_size p) (S (op_order p)) (fun _ => 1) (col (ob_basis b))) /\
    (forall l, (l <= op_order p)%nat -> exists s, 0 < s /\ (op_orthonormal p = false -> s = 1) /\
       forall i, col (ob_basis b) l i = s * col P l i).
Proof.
  intros Hw -> L1 L2 O. unfold discrete, base_weights. rewrite Hw. cbn [bind].
  set (b0 := mk_obasis (op_order p) (op_size p) (op_orthonormal p) None P None).
  destruct (@compute_a_normed b0) as (b & E & Nb & Eo & Es & Ew & On & Off & Sc).
  - split; [exact L1|]. split; [exact L2|]. cbn. discriminate.
  - exact O.
  - exists b. split; [exact E|]. split; [exact Nb|]. split; [exact Eo|]. split; [exact Es|]. split; [exact Ew|].
    split.
    + intros H. apply On in H. destruct H as (H & _). exact H.
    + intros l Hl. destruct (op_orthonormal p) eqn:Eon.
      * destruct (Sc l Hl) as (s & Hs & G). exists s. split; auto. split; [discriminate|]. exact G.
      * exists 1. split; [lra|]. split; auto. intros i. rewrite Off by auto. cbn [ob_basis b0]. ring.
Qed.

(** ** DLP *)
Lemma DLP_ok p : op_w p = [] -> (op_order p < op_size p)%nat -> (Z.of_nat (op_size p) <= 32767)%Z ->
  exists b, DLP p = Ok b /\ normed b /\ ob_order b = op_order p /\ ob_size b = op_size p /\ ob_w b = None /\
    (op_orthonormal p = true -> orthonormal (op_size p) (S (op_order p)) (fun _ => 1) (col (ob_basis b))) /\
    (forall l, (l <= op_order p)%nat -> exists s, 0 < s /\ (op_orthonormal p = false -> s = 1) /\
       forall j, (j < op_size p)%nat -> col (ob_basis b) l j = s * DL (op_size p) l j).
Proof.
  intros Hw H1 H2. destruct (dlp_columns_ok H1 H2) as (cols & E & L1 & L2 & V).
  destruct (@discrete_ok p (dlp_columns (op_size p) (op_order p)) cols) as (b & Eb & Nb & Eo & Es & Ew & On & Sc); auto.
  - apply (@orthogonal_ext _ _ _ (DL (op_size p))); [|apply DL_orthogonal; auto].
    intros l i Hl Hi. symmetry. apply V; auto.
  - exists b. do 6 (split; auto). intros l Hl. destruct (Sc l Hl) as (s & Hs & H & G).
    exists s. split; auto. split; auto. intros j Hj. rewrite G, V by lia. reflexivity.
Qed.

(** ** DCP: each column is a multiple of the discrete Legendre polynomial. *)
Lemma dcp_column_ok N i s c : (1 <= i)%nat -> (i < N)%nat -> length c = N ->
  exists c', dcp_column N i s c = Ok c' /\ length c' = N /\
    forall j, (j < N)%nat -> nth j c' 0 =
      (- sqrt ((INR N - INR i) / (INR N + INR i)) * sqrt ((2 * INR i + 1) / (2 * INR i - 1)) * s) * DL N i j.
Proof.
  intros H1 H2 Lc. assert (N2 : (2 <= N)%nat) by lia. unfold dcp_column.
  set (t := - sqrt ((INR N - INR i) / (INR N + INR i)) * sqrt ((2 * INR i + 1) / (2 * INR i - 1)) * s).
  rewrite wr_upd by lia. cbn [bind].
  assert (La : length (upd c 0 t) = N) by (rewrite upd_length; auto).
  rewrite (@rd_nth _ (upd c 0 t) 0 0) by lia. cbn [bind]. rewrite nth_upd_eq by lia.
  rewrite wr_upd by lia. cbn [bind].
  set (c1 := upd (upd c 0 t) 1 _).
  assert (L1 : length c1 = N) by (unfold c1; rewrite !upd_length; auto).
  set (mid := if (N mod 2 =? 0)%nat then (N / 2)%nat else ((N + 1) / 2)%nat).
  assert (HN : (2 <= INR N)) by (apply le_INR in N2; simpl in N2; lra).
  assert (Hi : 1 <= INR i) by (apply le_INR in H1; simpl in H1; lra).
  assert (HiN : INR i <= INR N - 1) by (apply i_le; auto).
  set (n := INR N - 1) in *.
  assert (Hn : 0 < n) by (unfold n; lra).
  assert (Mid : (1 <= mid <= N)%nat /\ (N <= 2 * mid)%nat /\ (2 * mid <= N + 1)%nat).
  { unfold mid. pose proof (Nat.div_mod N 2 ltac:(lia)). pose proof (Nat.mod_upper_bound N 2 ltac:(lia)).
    destruct (Nat.eqb_spec (N mod 2) 0); [lia|].
    assert (N mod 2 = 1)%nat by lia.
    assert ((N + 1) / 2 = N / 2 + 1)%nat.
    { replace (N + 1)%nat with ((N / 2 + 1) * 2)%nat by lia. apply Nat.div_mul. lia. }
    lia. }
  assert (D0 : DL N i 0 = 1) by (apply DL_0; auto).
  assert (D1 : DL N i 1 = 1 + (INR i * (INR i + 1)) / (1 - INR N)).
  { pose proof (@eigen n i 0 HiN Hn) as E. unfold aj, bj in E.
    unfold DL in *. fold n in D0 |- *. cbn [INR] in *. rewrite D0 in E.
    replace (0 + 1) with 1 in E by ring.
    apply (Rmult_eq_reg_l n); [|lra].
    transitivity (1 * (n - 0) * dlj n i 1 + 0 * (n + 1 - 0) * dlj n i (0 - 1)); [ring|]. rewrite E.
    unfold n. field. unfold n in Hn. lra. }
  assert (V1 : forall j, (j < 2)%nat -> nth j c1 0 = t * DL N i j).
  { intros j Hj. unfold c1. destruct j as [|[|j]]; [| |lia].
    - rewrite nth_upd_neq by lia. rewrite nth_upd_eq by lia. rewrite D0. ring.
    - rewrite nth_upd_eq by lia. rewrite D1. fold n. ring. }
  (* the recurrence in j *)
  assert (R1 : exists c2, (if (2 <? N)%nat then
    for_ 2 mid c1 (fun j c =>
      do a <- rd c (j - 1); do b <- rd c (j - 2);
      wr c j ((- (INR i * (INR i + 1)) - (2 * INR j - 1) * (INR j - INR N - 1) - INR j) / (INR j * (INR N - INR j)) * a
        + (INR j - 1) * (INR j - INR N - 1) / (INR j * (INR N - INR j)) * b))
    else Ok c1) = Ok c2 /\ length c2 = N /\ forall j, (j < mid)%nat -> nth j c2 0 = t * DL N i j).
  { destruct (Nat.ltb_spec 2 N) as [H3|H3].
    2:{ exists c1. split; auto. split; auto. intros j Hj. apply V1. lia. }
    destruct (Nat.le_gt_cases 2 mid) as [Hm|Hm]; [|exfalso; lia].
    edestruct (@for_inv (list R) (fun k c => length c = N /\ forall j, (j < k)%nat -> nth j c 0 = t * DL N i j) 2 mid c1)
      as (c2 & E & I1 & I2); cycle 3.
    - rewrite E. exists c2. auto.
    - auto.
    - split; auto.
    - intros k d Hk (I1 & I2).
      rewrite (@rd_nth _ d (k - 1) 0) by lia. rewrite (@rd_nth _ d (k - 2) 0) by lia. cbn [bind].
      rewrite wr_upd by lia. eexists. split; [reflexivity|]. split; [rewrite upd_length; auto|].
      intros j Hj. destruct (Nat.eq_dec k j) as [->|Ne]; [|rewrite nth_upd_neq by auto; apply I2; lia].
      rewrite nth_upd_eq by lia. rewrite !I2 by lia.
      pose proof (@eigen n i (INR (j - 1)) HiN Hn) as E.
      unfold DL. fold n. rewrite !minus_INR in * by lia. cbn [INR] in *.
      replace (INR j - 1 + 1) with (INR j) in E by ring.
      replace (INR j - 1 - 1) with (INR j - (1 + 1)) in E by ring.
      assert (2 <= INR j) by (assert (G : (2 <= j)%nat) by lia; apply le_INR in G; simpl in G; lra).
      assert (INR j < INR N) by (apply lt_INR; lia).
      unfold aj, bj in E. replace (INR N) with (n + 1) in * by (unfold n; ring).
      set (u := dlj n i (INR j)) in *. set (v := dlj n i (INR j - 1)) in *. set (w := dlj n i (INR j - (1 + 1))) in *.
      apply (Rmult_eq_reg_l (INR j * (n + 1 - INR j))); [|apply Rmult_integral_contrapositive; split; lra].
      transitivity (t * ((- (INR i * (INR i + 1)) - (2 * INR j - 1) * (INR j - (n + 1) - 1) - INR j) * v
         + (INR j - 1) * (INR j - (n + 1) - 1) * w)); [field; split; lra|].
      transitivity (t * ((INR j - 1 + 1) * (n - (INR j - 1)) * u + (INR j - 1) * (n + 1 - (INR j - 1)) * w
         - (INR j - 1) * (n + 1 - (INR j - 1)) * w)); [rewrite E; ring|ring]. }
  cbv zeta. destruct R1 as (c2 & E2 & L2 & V2). rewrite E2. cbn [bind].
  (* symmetry *)
  assert (P1 : (1 - 2 * INR (i mod 2)) = (-1) ^ i).
  { pose proof (Nat.div_mod i 2 ltac:(lia)) as E. rewrite E at 2. rewrite pow_add, pow_mult.
    replace ((-1) ^ 2) with 1 by ring. rewrite pow1.
    pose proof (Nat.mod_upper_bound i 2 ltac:(lia)). destruct (i mod 2) as [|[|k]]; [simpl; ring|simpl; ring|lia]. }
  rewrite P1.
  assert (G : forall k d, (k <= N - mid)%nat -> length d = N ->
     (forall j, (j < mid)%nat -> nth j d 0 = t * DL N i j) ->
     (forall j, (mid + k <= j < N)%nat -> nth j d 0 = t * DL N i j) ->
     exists d', foldM (fun c j => do v <- rd c (N - j - 1); wr c j ((-1) ^ i * v)) (rev (seq mid k)) d = Ok d' /\
       length d' = N /\ forall j, (j < N)%nat -> nth j d' 0 = t * DL N i j).
  { induction k as [|k IH]; intros d Hk Ld Lo Hi'.
    - cbn. exists d. split; auto. split; auto. intros j Hj. destruct (Nat.lt_ge_cases j mid); auto. apply Hi'. lia.
    - rewrite seq_S, rev_app_distr. cbn [rev app foldM].
      rewrite (@rd_nth _ d (N - (mid + k) - 1) 0) by lia. cbn [bind]. rewrite wr_upd by lia. cbn [bind].
      apply IH; [lia|rewrite upd_length; auto| |].
      + intros j Hj. rewrite nth_upd_neq by lia. auto.
      + intros j Hj. destruct (Nat.eq_dec (mid + k) j) as [<-|Ne].
        * rewrite nth_upd_eq by lia. rewrite Lo by lia.
          replace (N - (mid + k) - 1)%nat with (N - 1 - (mid + k))%nat by lia.
          rewrite DL_sym by lia.
          transitivity (((-1) ^ i * (-1) ^ i) * (t * DL N i (mid + k))); [ring|].
          rewrite <- pow_add. replace (i + i)%nat with (2 * i)%nat by lia. rewrite pow_mult.
          replace ((-1) ^ 2) with 1 by ring. rewrite pow1. ring.
        * rewrite nth_upd_neq by auto. apply Hi'. lia. }
  destruct (G (N - mid)%nat c2) as (c3 & E3 & L3 & V3); auto; [intros; lia|].
  exists c3. split; [exact E3|]. split; auto.
Qed.

Lemma dcp_columns_ok N order : (order < N)%nat ->
  exists cols t, dcp_columns N order = Ok cols /\ (forall l, (l <= order)%nat -> t l <> 0) /\
    holds_cols N (S order) (fun l j => t l * DL N l j) cols.
Proof.
  intros H1.
  set (g := fun i => - sqrt ((INR N - INR i) / (INR N + INR i)) * sqrt ((2 * INR i + 1) / (2 * INR i - 1))).
  set (t := fix t (l : nat) : R := match l with O => 1 | S k => g (S k) * t k end).
  assert (L0 : forall c, In c (repeat (repeat 1 N) (S order)) -> length c = N).
  { intros c Hc. apply repeat_spec in Hc. subst. apply repeat_length. }
  assert (Z0 : forall l j, (l <= order)%nat -> (j < N)%nat -> col (repeat (repeat 1 N) (S order)) l j = 1).
  { intros l j Hl Hj. unfold col.
    rewrite (nth_indep _ [] (repeat 1 N)) by (rewrite repeat_length; lia).
    rewrite nth_repeat. rewrite (nth_indep _ 0 1) by (rewrite repeat_length; lia). apply nth_repeat. }
  unfold dcp_columns.
  edestruct (@for_inv (list (list R)) (fun i cs => length cs = S order /\ (forall c, In c cs -> length c = N) /\
     forall l j, (l < i)%nat -> (l <= order)%nat -> (j < N)%nat -> col cs l j = t l * DL N l j) 1 (S order)
     (repeat (repeat 1 N) (S order))) as (cs & E & I1 & I2 & I3); cycle 3.
  - rewrite E. exists cs, t. split; [reflexivity|]. split.
    + induction l as [|l IH]; intros Hl; cbn [t]; [lra|].
      apply Rmult_integral_contrapositive. split; [|apply IH; lia].
      unfold g. rewrite S_INR. pose proof (pos_INR l).
      assert (INR (S l) < INR N) as G by (apply lt_INR; lia). rewrite S_INR in G.
      apply Rmult_integral_contrapositive. split.
      * assert (0 < sqrt ((INR N - (INR l + 1)) / (INR N + (INR l + 1)))).
        { apply sqrt_lt_R0. apply Rdiv_lt_0_compat; lra. }
        lra.
      * assert (0 < sqrt ((2 * (INR l + 1) + 1) / (2 * (INR l + 1) - 1))).
        { apply sqrt_lt_R0. apply Rdiv_lt_0_compat; lra. }
        lra.
    + split; auto. split; auto. intros l j Hl Hj. apply I3; lia.
  - lia.
  - split; [apply repeat_length|]. split; auto. intros l j Hl Hl' Hj. assert (l = 0)%nat by lia. subst.
    rewrite Z0 by lia. cbn [t]. unfold DL, dlj. rewrite dl_0. ring.
  - intros i cs Hi (I1 & I2 & I3).
    rewrite (@rd_nth _ cs (i - 1) []) by lia. cbn [bind].
    rewrite (@rd_nth _ (nth (i - 1) cs []) 0 0) by (rewrite I2; [lia|apply nth_In; lia]). cbn [bind].
    change (nth 0 (nth (i - 1) cs []) 0) with (col cs (i - 1) 0). rewrite I3 by lia.
    rewrite (@rd_nth _ cs i []) by lia. cbn [bind].
    destruct (@dcp_column_ok N i (t (i - 1)%nat * DL N (i - 1) 0) (nth i cs [])) as (c & E & Lc & V); try lia.
    { apply I2, nth_In. lia. }
    rewrite E. cbn [bind]. rewrite wr_upd by lia. eexists. split; [reflexivity|].
    split; [rewrite upd_length; auto|]. split.
    { intros d Hd. apply upd_in in Hd. destruct Hd as [Hd| ->]; auto. }
    intros l j Hl Hl' Hj. unfold col. destruct (Nat.eq_dec i l) as [->|Ne].
    + rewrite nth_upd_eq by lia. rewrite V by auto. fold (g l).
      destruct l as [|l]; [lia|]. replace (S l - 1)%nat with l by lia. rewrite DL_0 by lia. cbn [t]. ring.
    + rewrite nth_upd_neq by auto. apply I3; lia.
Qed.

Lemma orthogonal_scale n K W P t : (forall l, (l < K)%nat -> t l <> 0) ->
  orthogonal n K W P -> orthogonal n K W (fun l i => t l * P l i).
Proof.
  intros Ht (O & S). split.
  - intros l k Hl Hk Ne. rewrite wdot_scal, wdot_comm, wdot_scal, wdot_comm, O by auto. ring.
  - intros l Hl. rewrite wdot_scal, wdot_comm, wdot_scal. rewrite <- Rmult_assoc.
    apply Rmult_lt_0_compat; auto. apply Rsqr_pos_lt. auto.
Qed.

Lemma DCP_ok p : op_w p = [] -> (op_order p < op_size p)%nat ->
  exists b, DCP p = Ok b /\ normed b /\ ob_order b = op_order p /\ ob_size b = op_size p /\ ob_w b = None /\
    (op_orthonormal p = true -> orthonormal (op_size p) (S (op_order p)) (fun _ => 1) (col (ob_basis b))) /\
    (forall l, (l <= op_order p)%nat -> exists s, s <> 0 /\
       forall j, (j < op_size p)%nat -> col (ob_basis b) l j = s * DL (op_size p) l j).
Proof.
  intros Hw H1. destruct (dcp_columns_ok H1) as (cols & t & E & Ht & L1 & L2 & V).
  destruct (@discrete_ok p (dcp_columns (op_size p) (op_order p)) cols) as (b & Eb & Nb & Eo & Es & Ew & On & Sc); auto.
  - apply (@orthogonal_ext _ _ _ (fun l j => t l * DL (op_size p) l j)).
    + intros l i Hl Hi. symmetry. apply V; auto.
    + apply orthogonal_scale; [intros; apply Ht; lia|apply DL_orthogonal; auto].
  - exists b. do 6 (split; auto). intros l Hl. destruct (Sc l Hl) as (s & Hs & H & G).
    exists (s * t l). split; [apply Rmult_integral_contrapositive; split; [lra|auto]|].
    intros j Hj. rewrite G, V by lia. ring.
Qed.

(** ** DCT *)
Lemma cos_sum N q : (0 < q)%nat -> (q < 2 * N)%nat ->
  rsum N (fun j => cos (PI / INR N * (INR j + / 2) * INR q)) = 0.
Proof.
  intros H1 H2.
  assert (HN : 0 < INR N) by (apply lt_0_INR; lia).
  assert (Hq : 0 < INR q) by (apply lt_0_INR; lia).
  assert (Hq2 : INR q < 2 * INR N) by (apply lt_INR in H2; rewrite mult_INR in H2; simpl in H2; lra).
  pose proof PI_RGT_0 as Hpi.
  set (th := PI / INR N * INR q).
  assert (T : rsum N (fun j => 2 * sin (th / 2) * cos (PI / INR N * (INR j + / 2) * INR q)) = 0).
  { transitivity (rsum N (fun j => sin (th * INR (S j)) - sin (th * INR j))).
    - apply rsum_ext. intros j Hj. rewrite form4. rewrite S_INR.
      replace ((th * (INR j + 1) - th * INR j) / 2) with (th / 2) by field.
      replace ((th * (INR j + 1) + th * INR j) / 2) with (PI / INR N * (INR j + / 2) * INR q).
      + ring.
      + unfold th. field. lra.
    - rewrite (telescope N (fun j => sin (th * INR j))). cbn [INR]. rewrite Rmult_0_r, sin_0.
      replace (th * INR N) with (0 + INR q * PI) by (unfold th; field; lra).
      assert (Z : forall k, sin (0 + INR k * PI) = 0).
      { intros k. apply sin_eq_0_1. exists (Z.of_nat k). rewrite <- INR_IZR. ring. }
      rewrite Z. ring. }
  rewrite rsum_scal in T. apply Rmult_integral in T. destruct T as [T|T]; auto.
  exfalso. assert (0 < sin (th / 2)); [|lra]. apply sin_gt_0.
  - unfold th. apply Rmult_lt_0_compat; [|lra]. apply Rmult_lt_0_compat; auto. apply Rdiv_lt_0_compat; auto.
  - apply (Rmult_lt_reg_l (2 * INR N)); [lra|]. unfold th.
    replace (2 * INR N * (PI / INR N * INR q / 2)) with (PI * INR q) by (field; lra).
    apply (Rmult_lt_compat_l PI) in Hq2; auto. lra.
Qed.

Definition DC (N i j : nat) : R := cos (PI / INR N * (INR j + / 2) * INR i).
Lemma DC_prod N l k j : (k <= l)%nat -> DC N l j * DC N k j =
  / 2 * (cos (PI / INR N * (INR j + / 2) * INR (l - k)) + cos (PI / INR N * (INR j + / 2) * INR (l + k))).
Proof.
  intros H. unfold DC. rewrite minus_INR, plus_INR by auto. generalize (PI / INR N * (INR j + / 2)). intros z.
  replace (z * (INR l - INR k)) with (z * INR l - z * INR k) by ring.
  replace (z * (INR l + INR k)) with (z * INR l + z * INR k) by ring. rewrite cos_minus, cos_plus. field.
Qed.
Lemma DC_sum N l k : (k <= l)%nat -> rsum N (fun j => DC N l j * DC N k j) =
  / 2 * (rsum N (fun j => cos (PI / INR N * (INR j + / 2) * INR (l - k))) + rsum N (fun j => cos (PI / INR N * (INR j + / 2) * INR (l + k)))).
Proof.
  intros H. rewrite <- rsum_plus, <- rsum_scal. apply rsum_ext. intros j Hj. apply DC_prod. auto.
Qed.
Lemma DC_orthogonal N order : (order < N)%nat -> orthogonal N (S order) (wgt None) (DC N).
Proof.
  intros H. split.
  - assert (G : forall l k, (l < S order)%nat -> (k < l)%nat -> wdot N (wgt None) (DC N l) (DC N k) = 0).
    { intros l k Hl Hk. rewrite wdot1, DC_sum by lia. rewrite !cos_sum by lia. ring. }
    intros l k Hl Hk Ne. destruct (Nat.lt_ge_cases k l); [apply G; lia|].
    rewrite wdot_comm. apply G; lia.
  - intros l Hl. rewrite wdot1, DC_sum by lia. rewrite Nat.sub_diag.
    assert (E : rsum N (fun j => cos (PI / INR N * (INR j + / 2) * INR 0)) = INR N).
    { rewrite (@rsum_ext N _ (fun _ => 1)); [rewrite rsum_const; ring|].
      intros. cbn [INR]. rewrite Rmult_0_r. apply cos_0. }
    rewrite E. assert (0 < INR N) by (apply lt_0_INR; lia).
    destruct l as [|l]; [cbn [Nat.add]; rewrite E; lra|].
    rewrite cos_sum by lia. lra.
Qed.

Lemma DCT_ok p : op_w p = [] -> (op_order p < op_size p)%nat ->
  exists b, DCT p = Ok b /\ normed b /\ ob_order b = op_order p /\ ob_size b = op_size p /\ ob_w b = None /\
    (op_orthonormal p = true -> orthonormal (op_size p) (S (op_order p)) (fun _ => 1) (col (ob_basis b))) /\
    (forall l, (l <= op_order p)%nat -> exists s, 0 < s /\ (op_orthonormal p = false -> s = 1) /\
       forall j, (j < op_size p)%nat -> col (ob_basis b) l j = s * DC (op_size p) l j).
Proof.
  intros Hw H1.
  assert (V : forall l j, (l <= op_order p)%nat -> (j < op_size p)%nat ->
     col (dct_columns (op_size p) (op_order p)) l j = DC (op_size p) l j).
  { intros l j Hl Hj. unfold col, dct_columns. rewrite nth_map_seq by lia. rewrite nth_map_seq by auto. reflexivity. }
  destruct (@discrete_ok p (Ok (dct_columns (op_size p) (op_order p))) (dct_columns (op_size p) (op_order p)))
    as (b & Eb & Nb & Eo & Es & Ew & On & Sc); auto.
  - unfold dct_columns. rewrite map_length, seq_length. reflexivity.
  - intros c Hc. unfold dct_columns in Hc. apply in_map_iff in Hc. destruct Hc as (k & <- & _).
    rewrite map_length, seq_length. reflexivity.
  - apply (@orthogonal_ext _ _ _ (DC (op_size p))).
    + intros l i Hl Hi. symmetry. apply V; lia.
    + apply DC_orthogonal; auto.
  - exists b. do 6 (split; auto). intros l Hl. destruct (Sc l Hl) as (s & Hs & H & G).
    exists s. split; auto. split; auto. intros j Hj. rewrite G, V by lia. reflexivity.
Qed.
