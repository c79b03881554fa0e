(** * Proofs about TransformedBasis (Gram-Schmidt) and Jacobi01 *)
From Verif Require Import Base BaseR Loop Vector_Model Vector_Spec Vector_Proofs Orthog_Model Orthog_Spec Orthog_Proofs
  Orthog_Legendre Orthog_Discrete Orthog_Contin.
From Coq Require Import Lra.
Set Implicit Arguments. Unset Strict Implicit.
Open Scope R_scope.

Definition dot (n : nat) (f g : nat -> R) : R := rsum n (fun i => f i * g i).
Lemma dot_wdot n f g : dot n f g = wdot n (wgt None) f g.
Proof. symmetry. apply wdot1. Qed.
Lemma wdot_one n f g : wdot n (fun _ => 1) f g = dot n f g.
Proof. apply rsum_ext. intros. ring. Qed.

(** Orthonormal for the plain dot product, first l columns. *)
Definition on (n l : nat) (B : nat -> nat -> R) : Prop :=
  forall a b, (a < l)%nat -> (b < l)%nat -> dot n (B a) (B b) = if (a =? b)%nat then 1 else 0.

Lemma dot_combo n K c P g : dot n (combo K c P) g = rsum K (fun l => c l * dot n (P l) g).
Proof. rewrite dot_wdot, wdot_combo. apply rsum_ext. intros. rewrite dot_wdot. reflexivity. Qed.
Lemma dot_ext n f f' g g' : (forall i, (i < n)%nat -> f i = f' i) -> (forall i, (i < n)%nat -> g i = g' i) ->
  dot n f g = dot n f' g'.
Proof. intros H H'. apply rsum_ext. intros. rewrite H, H' by auto. reflexivity. Qed.
Lemma dot_comm n f g : dot n f g = dot n g f.
Proof. apply rsum_ext. intros. ring. Qed.
Lemma dot_minus n f f' g : dot n (fun i => f i - f' i) g = dot n f g - dot n f' g.
Proof. unfold dot. rewrite <- rsum_minus. apply rsum_ext. intros. ring. Qed.
Lemma dot_scal n c f g : dot n (fun i => c * f i) g = c * dot n f g.
Proof. unfold dot. rewrite <- rsum_scal. apply rsum_ext. intros. ring. Qed.
Lemma dot_combo_on n l B c m : on n l B -> (m < l)%nat -> dot n (combo l c B) (B m) = c m.
Proof.
  intros O H. rewrite dot_combo.
  rewrite (@rsum_ext l _ (fun k => if (k =? m)%nat then c m else 0)); [apply rsum_delta; auto|].
  intros k Hk. rewrite O by auto. destruct (Nat.eqb_spec k m) as [->|_]; ring.
Qed.
Lemma dot_pos n f : 0 <= dot n f f.
Proof. apply rsum_nonneg. intros. apply Rle_0_sqr. Qed.
Lemma dot_zero n f : dot n f f = 0 -> forall i, (i < n)%nat -> f i = 0.
Proof.
  intros H i Hi. assert (E : f i * f i = 0).
  { apply (@rsum_pos_terms n (fun i => f i * f i)); auto. intros. apply Rle_0_sqr. }
  apply Rmult_integral in E. tauto.
Qed.

(** The component of b outside the span of the first m columns. *)
Definition rest (n m : nat) (B : nat -> nat -> R) (b : nat -> R) (i : nat) : R :=
  b i - combo m (fun k => dot n (B k) b) B i.

Lemma combo_lt m m' c B n f : (m <= m')%nat -> (forall k, (m <= k < m')%nat -> dot n (B k) f = 0) ->
  dot n (combo m c B) f = dot n (combo m' (fun k => if (k <? m)%nat then c k else 0) B) f.
Proof.
  intros H Z. rewrite !dot_combo. replace m' with (m + (m' - m))%nat by lia. rewrite rsum_split.
  rewrite (rsum_zero (n := m' - m)).
  - rewrite Rplus_0_r. apply rsum_ext. intros k Hk. rewrite (proj2 (Nat.ltb_lt _ _)) by auto. reflexivity.
  - intros k Hk. rewrite Z by lia. ring.
Qed.

Lemma dot_combo_above n l B c m k : on n l B -> (m <= k < l)%nat -> dot n (combo m c B) (B k) = 0.
Proof.
  intros O H. rewrite dot_combo. apply (rsum_zero (n := m)). intros j Hj. rewrite O by lia.
  rewrite (proj2 (Nat.eqb_neq _ _)) by lia. ring.
Qed.
Lemma dot_combo_below n l B c m k : on n l B -> (k < m <= l)%nat -> dot n (combo m c B) (B k) = c k.
Proof.
  intros O H. apply dot_combo_on; [|lia]. intros a b Ha Hb. apply O; lia.
Qed.

Lemma sweep_out_ok n cols l b : (l <= length cols)%nat -> (forall c, In c cols -> length c = n) -> length b = n ->
  on n l (col cols) ->
  exists b', sweep_out cols l b = Ok b' /\ length b' = n /\
    forall i, (i < n)%nat -> nth i b' 0 = rest n l (col cols) (at_ b) i.
Proof.
  intros Hl Lc Lb O. unfold sweep_out.
  edestruct (@for_inv (list R) (fun m d => length d = n /\ forall i, (i < n)%nat -> nth i d 0 = rest n m (col cols) (at_ b) i) 0 l b)
    as (d & E & I1 & I2); cycle 3.
  - rewrite E. exists d. auto.
  - lia.
  - split; auto. intros i Hi. unfold rest, combo. cbn [rsum]. unfold at_. ring.
  - intros m d Hm (I1 & I2). rewrite (@rd_nth _ cols m []) by lia. cbn [bind].
    assert (Lm : length (nth m cols []) = n) by (apply Lc, nth_In; lia).
    rewrite vdot_ok by lia. cbn [bind]. unfold vaxpy. rewrite vzip_ok by lia.
    eexists. split; [reflexivity|]. rewrite I1. split; [apply vec_length|].
    intros i Hi. rewrite vec_nth by auto. rewrite Lm.
    assert (Ed : inner n (cmp (nth m cols [])) (cmp d) = dot n (col cols m) (at_ b)).
    { transitivity (dot n (rest n m (col cols) (at_ b)) (col cols m)).
      - rewrite dot_comm. apply dot_ext; auto.
      - unfold rest. rewrite dot_minus, (@dot_combo_above n l (col cols) _ m m) by (auto; lia).
        rewrite dot_comm. ring. }
    rewrite Ed, I2 by auto. unfold rest, combo. cbn [rsum]. change (nth i (nth m cols []) 0) with (col cols m i). ring.
Qed.

Lemma rest_orth n l B b k : on n l B -> (k < l)%nat -> dot n (rest n l B b) (B k) = 0.
Proof.
  intros O H. unfold rest. rewrite dot_minus, dot_combo_on by auto. rewrite dot_comm. ring.
Qed.

Lemma norm_L2 v n : length v = n -> norm L2 v = sqrt (dot n (at_ v) (at_ v)).
Proof. intros L. rewrite norm_plain by constructor. rewrite L. reflexivity. Qed.

Lemma in_span_sub n K K' P Q f : (forall l, (l < K)%nat -> in_span n K' Q (P l)) -> in_span n K P f -> in_span n K' Q f.
Proof.
  intros H (c & E). apply (@span_ext n K' Q (combo K c P)); [intros; symmetry; auto|].
  apply (@span_sum n K' Q K (fun l i => c l * P l i)). intros l Hl. apply (@span_scal n K' Q (c l) (P l)). auto.
Qed.

Lemma span_K_ext n K P Q f : (forall l i, (l < K)%nat -> (i < n)%nat -> P l i = Q l i) ->
  in_span n K P f -> in_span n K Q f.
Proof.
  intros H. apply in_span_sub. intros l Hl. apply (@span_ext n K Q (Q l)); [intros; symmetry; auto|].
  apply span_mem. auto.
Qed.

(** One more vector: same span. *)
Lemma extend_span n l B V : (forall f, in_span n l B f <-> in_span n l V f) ->
  in_span n (S l) V (B l) -> in_span n (S l) B (V l) ->
  forall f, in_span n (S l) B f <-> in_span n (S l) V f.
Proof.
  intros H HB HV f. split; apply in_span_sub; intros k Hk.
  - destruct (Nat.eq_dec k l) as [->|Ne]; auto. apply (@span_mono n l); [lia|]. apply H. apply span_mem. lia.
  - destruct (Nat.eq_dec k l) as [->|Ne]; auto. apply (@span_mono n l); [lia|]. apply H. apply span_mem. lia.
Qed.

(** Adding the normalised rest of V l. *)
Lemma gs_step n l B V Bl : on n l B -> (forall f, in_span n l B f <-> in_span n l V f) ->
  ~ in_span n l V (V l) ->
  (forall i, (i < n)%nat -> Bl i = rest n l B (V l) i * (1 / sqrt (dot n (rest n l B (V l)) (rest n l B (V l))))) ->
  let B' := fun k => if (k <? l)%nat then B k else Bl in
  on n (S l) B' /\ (forall f, in_span n (S l) B' f <-> in_span n (S l) V f).
Proof.
  intros O Sp Ind HBl B'. set (r := rest n l B (V l)) in *.
  assert (Pos : 0 < dot n r r).
  { destruct (dot_pos n r) as [P|Z]; auto. exfalso. apply Ind, Sp.
    exists (fun k => dot n (B k) (V l)). intros i Hi. pose proof (dot_zero (eq_sym Z) Hi) as E. unfold r, rest in E. lra. }
  set (s := 1 / sqrt (dot n r r)) in *.
  assert (Hs : s * s * dot n r r = 1).
  { unfold s. assert (0 < sqrt (dot n r r)) by (apply sqrt_lt_R0; auto).
    transitivity ((1 / sqrt (dot n r r)) * (1 / sqrt (dot n r r)) * (sqrt (dot n r r) * sqrt (dot n r r))).
    - rewrite sqrt_def by lra. reflexivity.
    - field. lra. }
  assert (Hs0 : s <> 0) by (intros E; rewrite E in Hs; lra).
  assert (Eb : forall k, (k < l)%nat -> dot n Bl (B k) = 0).
  { intros k Hk. rewrite (@dot_ext n Bl (fun i => s * r i) (B k) (B k)); auto; [|intros; rewrite HBl by auto; ring].
    rewrite dot_scal. unfold r. rewrite rest_orth by auto. ring. }
  assert (Bl1 : dot n Bl Bl = 1).
  { rewrite (@dot_ext n Bl (fun i => s * r i) Bl (fun i => s * r i)); try (intros; rewrite HBl by auto; ring).
    rewrite dot_scal, dot_comm, dot_scal. lra. }
  split.
  - intros a b Ha Hb. unfold B'. destruct (Nat.ltb_spec a l), (Nat.ltb_spec b l).
    + apply O; auto.
    + assert (b = l) by lia. subst b. rewrite dot_comm, Eb by auto. rewrite (proj2 (Nat.eqb_neq _ _)) by lia. reflexivity.
    + assert (a = l) by lia. subst a. rewrite Eb by auto. rewrite (proj2 (Nat.eqb_neq _ _)) by lia. reflexivity.
    + assert (a = l /\ b = l) as (-> & ->) by lia. rewrite Nat.eqb_refl. exact Bl1.
  - assert (Sub : forall f, in_span n l B f -> in_span n (S l) B' f).
    { intros f. apply in_span_sub. intros k Hk. replace (B k) with (B' k) by (unfold B'; rewrite (proj2 (Nat.ltb_lt _ _)); auto).
      apply span_mem. lia. }
    assert (Bl' : B' l = Bl) by (unfold B'; rewrite (proj2 (Nat.ltb_ge _ _)); auto).
    apply extend_span.
    + intros f. split; intros Hf.
      * apply Sp. apply (@span_K_ext n l B' B); auto. intros k i Hk _. unfold B'. rewrite (proj2 (Nat.ltb_lt _ _)); auto.
      * apply (@span_K_ext n l B B'); [|apply Sp; auto]. intros k i Hk _. unfold B'. rewrite (proj2 (Nat.ltb_lt _ _)); auto.
    + rewrite Bl'. apply (@span_ext n (S l) V (fun i => s * V l i + - s * combo l (fun k => dot n (B k) (V l)) B i)).
      * intros i Hi. rewrite HBl by auto. unfold r, rest. ring.
      * apply span_plus; apply span_scal; [apply span_mem; lia|].
        apply (@span_mono n l); [lia|]. apply Sp. exists (fun k => dot n (B k) (V l)). auto.
    + apply (@span_ext n (S l) B' (fun i => / s * B' l i + combo l (fun k => dot n (B k) (V l)) B i)).
      * intros i Hi. rewrite Bl', HBl by auto. unfold r at 1, rest. field. auto.
      * apply span_plus; [apply span_scal, span_mem; lia|]. apply Sub.
        exists (fun k => dot n (B k) (V l)). auto.
Qed.

Lemma on_ext n l B C : (forall k i, (k < l)%nat -> (i < n)%nat -> B k i = C k i) -> on n l B -> on n l C.
Proof. intros H O a b Ha Hb. rewrite <- O by auto. apply dot_ext; intros; symmetry; apply H; auto. Qed.

Section GS.
  Variables (n order : nat) (opt : bool) (x : list R) (P : list (list R)).
  Hypothesis Lx : length x = n.
  Hypothesis LP1 : length P = S order.
  Hypothesis LP2 : forall c, In c P -> length c = n.
  Let V := trans_input n opt (at_ x) (col P).
  Hypothesis Ind : independent n (S order) V.

  Lemma gram_schmidt_ok : exists cols, gram_schmidt order opt x P = Ok cols /\ length cols = S order /\
    (forall c, In c cols -> length c = n) /\ on n (S order) (col cols) /\
    forall k, (k <= S order)%nat -> forall f, in_span n k (col cols) f <-> in_span n k V f.
  Proof.
    unfold gram_schmidt. rewrite (@rd_nth _ P 0 []) by lia. cbn [bind].
    assert (L0 : length (nth 0 P []) = n) by (apply LP2, nth_In; lia).
    unfold vmul at 1. rewrite vzip_ok by lia. cbn [bind]. rewrite L0.
    set (z := vec n _). assert (Lz : length z = n) by apply vec_length.
    assert (Vz : forall i, (i < n)%nat -> at_ z i = V 0 i).
    { intros i Hi. unfold z, at_. rewrite vec_nth by auto. reflexivity. }
    rewrite (norm_L2 Lz).
    set (s0 := 1 / sqrt (dot n (at_ z) (at_ z))).
    rewrite wr_upd by lia. cbn [bind].
    set (b0 := vscale z s0). assert (Lb0 : length b0 = n) by (unfold b0; rewrite vscale_length; auto).
    assert (Ez : dot n (at_ z) (at_ z) = dot n (V 0%nat) (V 0%nat)) by (apply dot_ext; auto).
    assert (Hb0 : forall i, (i < n)%nat -> at_ b0 i = V 0 i * (1 / sqrt (dot n (V 0%nat) (V 0%nat)))).
    { intros i Hi. unfold b0, at_. rewrite vscale_nth. change (nth i z 0) with (at_ z i). rewrite Vz by auto.
      unfold s0. rewrite Ez. reflexivity. }
    edestruct (@for_inv (list (list R)) (fun l cols => length cols = S order /\ (forall c, In c cols -> length c = n) /\
        (forall k i, (l <= k <= order)%nat -> (i < n)%nat -> col cols k i = col P k i) /\
        (forall i, (i < n)%nat -> col cols 0 i = at_ b0 i) /\
        on n l (col cols) /\ forall k, (k <= l)%nat -> forall f, in_span n k (col cols) f <-> in_span n k V f)
      1 (S order) (upd P 0 b0)) as (cols & E & I1 & I2 & _ & _ & I3 & I4); cycle 3.
    - rewrite E. exists cols. do 4 (split; auto).
    - lia.
    - split; [rewrite upd_length; auto|]. split.
      { intros c Hc. apply upd_in in Hc. destruct Hc as [Hc| ->]; auto. }
      assert (C0 : forall i, col (upd P 0 b0) 0 i = at_ b0 i).
      { intros i. unfold col. rewrite nth_upd_eq by lia. reflexivity. }
      split; [|split; [auto|]].
      { intros k i Hk Hi. unfold col. rewrite nth_upd_neq by lia. reflexivity. }
      assert (G := @gs_step n 0 (col (upd P 0 b0)) V (col (upd P 0 b0) 0)).
      assert (Hr : forall i, rest n 0 (col (upd P 0 b0)) (V 0%nat) i = V 0 i).
      { intros i. unfold rest, combo. cbn [rsum]. ring. }
      destruct G as (G1 & G2).
      + intros a b Ha. lia.
      + intros f. split; intros (c & Hc); exists c; exact Hc.
      + apply Ind. lia.
      + intros i Hi. rewrite Hr, C0, Hb0 by auto. f_equal. f_equal. f_equal. apply dot_ext; intros; symmetry; apply Hr.
      + split.
        * apply (@on_ext n 1 _ (col (upd P 0 b0))) in G1; auto. intros k i Hk Hi. assert (k = 0)%nat by lia. subst. reflexivity.
        * intros k Hk f. destruct k as [|k]; [split; intros (c & Hc); exists c; exact Hc|].
          assert (k = 0)%nat by lia. subst k. rewrite <- G2.
          split; apply span_K_ext; intros k i Hk' Hi; assert (k = 0)%nat by lia; subst; reflexivity.
    - intros l cols Hl (I1 & I2 & I3 & I4 & I5 & I6).
      rewrite (@rd_nth _ cols l []) by lia. rewrite (@rd_nth _ cols 0 []) by lia. cbn [bind].
      assert (Ll : length (nth l cols []) = n) by (apply I2, nth_In; lia).
      assert (L0' : length (nth 0 cols []) = n) by (apply I2, nth_In; lia).
      assert (B1 : exists b, (if opt then vmul (nth l cols []) (nth 0 cols []) else Ok (nth l cols [])) = Ok b /\ length b = n /\
         forall i, (i < n)%nat -> at_ b i = V l i).
      { assert (Vl : forall i, (i < n)%nat -> V l i = if opt then col P l i * at_ b0 i else col P l i).
        { intros i Hi. rewrite Hb0 by auto. unfold V, trans_input. destruct l as [|l]; [lia|].
          destruct opt; auto. unfold dot, Rdiv. rewrite Rmult_1_l. reflexivity. }
        destruct opt.
        - unfold vmul. rewrite vzip_ok by lia. eexists. split; [reflexivity|]. rewrite Ll. split; [apply vec_length|].
          intros i Hi. unfold at_. rewrite vec_nth by auto. rewrite Vl by auto.
          change (nth i (nth l cols []) 0) with (col cols l i). change (nth i (nth 0 cols []) 0) with (col cols 0 i).
          rewrite I3, I4 by (auto; lia). reflexivity.
        - eexists. split; [reflexivity|]. split; auto. intros i Hi. rewrite Vl by auto.
          change (at_ (nth l cols []) i) with (col cols l i). apply I3; auto. lia. }
      destruct B1 as (b & Eb & Lb & Vb). rewrite Eb. cbn [bind].
      destruct (@sweep_out_ok n cols l b) as (b' & E' & Lb' & Vb'); auto; [lia|].
      rewrite E'. cbn [bind]. rewrite (norm_L2 Lb').
      set (bl := vscale b' (1 / sqrt (dot n (at_ b') (at_ b')))).
      assert (Lbl : length bl = n) by (unfold bl; rewrite vscale_length; auto).
      rewrite wr_upd by lia. eexists. split; [reflexivity|].
      split; [rewrite upd_length; auto|]. split.
      { intros c Hc. apply upd_in in Hc. destruct Hc as [Hc| ->]; auto. }
      assert (Old : forall k i, k <> l -> col (upd cols l bl) k i = col cols k i).
      { intros k i Hk. unfold col. rewrite nth_upd_neq by auto. reflexivity. }
      split; [intros k i Hk Hi; rewrite Old by lia; apply I3; auto; lia|].
      split; [intros i Hi; rewrite Old by lia; auto|].
      assert (Hr : forall i, (i < n)%nat -> at_ b' i = rest n l (col cols) (V l) i).
      { intros i Hi. unfold at_. rewrite Vb' by auto. unfold rest. rewrite Vb by auto. f_equal.
        apply rsum_ext. intros k Hk. f_equal. apply dot_ext; auto. }
      assert (Ni : ~ in_span n l V (V l)) by (apply Ind; lia).
      assert (G := @gs_step n l (col cols) V (at_ bl) I5 (I6 l (Nat.le_refl l)) Ni).
      destruct G as (G1 & G2).
      { intros i Hi. unfold bl, at_ at 1. rewrite vscale_nth. change (nth i b' 0) with (at_ b' i). rewrite Hr by auto.
        f_equal. f_equal. f_equal. apply dot_ext; auto. }
      assert (New : forall k i, (k < S l)%nat -> (if (k <? l)%nat then col cols k else at_ bl) i = col (upd cols l bl) k i).
      { intros k i Hk. destruct (Nat.ltb_spec k l); [rewrite Old by lia; auto|].
        assert (k = l) by lia. subst. unfold col. rewrite nth_upd_eq by lia. reflexivity. }
      split.
      + apply (@on_ext n (S l) _ (col (upd cols l bl))) in G1; auto.
      + intros k Hk f. destruct (Nat.eq_dec k (S l)) as [->|Ne].
        * rewrite <- G2. split; apply span_K_ext; intros k i Hk' Hi; [symmetry|]; apply New; auto.
        * rewrite <- I6 by lia. split; apply span_K_ext; intros k' i Hk' Hi; [|symmetry]; apply Old; lia.
  Qed.
End GS.

Lemma mapM_rd_ok (x : list R) n : (n <= length x)%nat -> mapM (rd x) (seq 0 n) = Ok (map (fun i => nth i x 0) (seq 0 n)).
Proof. intros H. apply mapM_seq. intros j Hj. apply rd_nth. lia. Qed.

(** The whole constructor, without weights. *)
Lemma TransformedBasis_ok p orig : op_w p = [] -> (op_size p <= length (op_x p))%nat ->
  length (ob_basis orig) = S (op_order p) -> (forall c, In c (ob_basis orig) -> length c = op_size p) ->
  independent (op_size p) (S (op_order p)) (trans_input (op_size p) (op_option p =? 1)%nat (at_ (op_x p)) (col (ob_basis orig))) ->
  exists b, TransformedBasis p orig = Ok b /\ normed b /\ ob_order b = op_order p /\ ob_size b = op_size p /\ ob_w b = None /\
    orthonormal (op_size p) (S (op_order p)) (fun _ => 1) (col (ob_basis b)) /\
    forall k, (k <= S (op_order p))%nat -> forall f, in_span (op_size p) k (col (ob_basis b)) f <->
      in_span (op_size p) k (trans_input (op_size p) (op_option p =? 1)%nat (at_ (op_x p)) (col (ob_basis orig))) f.
Proof.
  intros Hw Lx L1 L2 Ind. unfold TransformedBasis, base_weights. rewrite Hw. cbn [bind].
  set (n := op_size p) in *. set (opt := (op_option p =? 1)%nat) in *.
  rewrite mapM_rd_ok by auto. cbn [bind].
  set (x := map (fun i => nth i (op_x p) 0) (seq 0 n)).
  assert (Lx' : length x = n) by (unfold x; rewrite map_length, seq_length; auto).
  assert (Hx : forall i, (i < n)%nat -> at_ x i = at_ (op_x p) i).
  { intros i Hi. unfold x, at_. rewrite nth_map_seq by auto. reflexivity. }
  assert (VV : forall l i, (i < n)%nat -> trans_input n opt (at_ x) (col (ob_basis orig)) l i =
      trans_input n opt (at_ (op_x p)) (col (ob_basis orig)) l i).
  { intros l i Hi. unfold trans_input.
    rewrite (@rsum_ext n (fun i => col (ob_basis orig) 0 i * at_ x i * (col (ob_basis orig) 0 i * at_ x i))
      (fun i => col (ob_basis orig) 0 i * at_ (op_x p) i * (col (ob_basis orig) 0 i * at_ (op_x p) i))) by (intros; rewrite Hx by auto; auto).
    rewrite Hx by auto. reflexivity. }
  destruct (@gram_schmidt_ok n (op_order p) opt x (ob_basis orig)) as (cols & E & C1 & C2 & C3 & C4); auto.
  { intros l Hl Hspan. apply (Ind l Hl).
    apply (@span_ext n l _ (trans_input n opt (at_ x) (col (ob_basis orig)) l)); [intros; apply VV; auto|].
    apply (@span_K_ext n l (trans_input n opt (at_ x) (col (ob_basis orig)))); auto. }
  rewrite E. cbn [bind].
  set (b0 := mk_obasis (op_order p) n true None cols None).
  assert (O : orthogonal n (S (op_order p)) (wgt None) (col cols)).
  { split.
    - intros l k Hl Hk Ne. rewrite <- dot_wdot, C3 by auto. rewrite (proj2 (Nat.eqb_neq _ _)) by auto. reflexivity.
    - intros l Hl. rewrite <- dot_wdot, C3 by auto. rewrite Nat.eqb_refl. lra. }
  destruct (@compute_a_normed b0) as (b & Eb & Nb & Eo & Es & Ew & On & _ & Sc); auto.
  { split; [exact C1|]. split; [exact C2|]. discriminate. }
  exists b. split; [exact Eb|]. split; [exact Nb|]. split; [exact Eo|]. split; [exact Es|]. split; [exact Ew|].
  destruct (On eq_refl) as (On' & _). split; [exact On'|].
  intros k Hk f. cbn [ob_order ob_size ob_basis b0] in *.
  assert (VS : in_span n k (trans_input n opt (at_ x) (col (ob_basis orig))) f <->
    in_span n k (trans_input n opt (at_ (op_x p)) (col (ob_basis orig))) f).
  { split; apply span_K_ext; intros; [|symmetry]; apply VV; auto. }
  rewrite <- VS, <- C4 by auto. split; apply in_span_sub; intros l Hl; destruct (Sc l ltac:(lia)) as (s & Hs & G).
  - apply (@span_ext n k (col cols) (fun i => s * col cols l i)); [intros; rewrite G; auto|]. apply span_scal, span_mem; auto.
  - apply (@span_ext n k (col (ob_basis b)) (fun i => / s * col (ob_basis b) l i)); [intros; rewrite G; field; lra|].
    apply span_scal, span_mem; auto.
Qed.

(** Positive x and an orthogonal set with constant zeroth member: always independent. *)
Lemma trans_independent n K opt x P s0 : orthogonal n K (wgt None) P ->
  (forall i, (i < n)%nat -> P 0%nat i = s0) -> (forall i, (i < n)%nat -> 0 < x i) ->
  independent n K (trans_input n opt x P).
Proof.
  intros (O & Pos) H0 Hx l Hl (c & E).
  assert (NE : (0 < n)%nat).
  { destruct n; [|lia]. exfalso. specialize (Pos 0%nat ltac:(lia)). rewrite wdot1 in Pos. cbn in Pos. lra. }
  assert (S0 : s0 <> 0).
  { intros Z. specialize (Pos 0%nat ltac:(lia)). rewrite wdot1 in Pos.
    rewrite (rsum_zero (n := n)) in Pos; [lra|]. intros i Hi. rewrite H0 by auto. subst. ring. }
  assert (Q : forall l, (l < K)%nat -> 0 < dot n (P l) (P l)) by (intros; rewrite dot_wdot; auto).
  assert (O' : forall l k, (l < K)%nat -> (k < K)%nat -> l <> k -> dot n (P l) (P k) = 0) by (intros; rewrite dot_wdot; auto).
  assert (Zx : 0 < dot n (fun i => P 0%nat i * x i) (P 0%nat)).
  { assert (0 <= dot n (fun i => P 0%nat i * x i) (P 0%nat)) as [G|G]; auto.
    - apply rsum_nonneg. intros i Hi. rewrite !H0 by auto. specialize (Hx i Hi). pose proof (Rle_0_sqr s0). unfold Rsqr in *. nra.
    - exfalso. symmetry in G. pose proof (@rsum_pos_terms n (fun i => P 0%nat i * x i * P 0%nat i)) as T.
      assert (P 0%nat 0%nat * x 0%nat * P 0%nat 0%nat = 0) as T0.
      { apply T; auto. intros i Hi. rewrite !H0 by auto. specialize (Hx i Hi). pose proof (Rle_0_sqr s0). unfold Rsqr in *. nra. }
      rewrite H0 in T0 by auto. specialize (Hx 0%nat NE). apply Rmult_integral in T0. destruct T0 as [T0|T0]; [|lra].
      apply Rmult_integral in T0. destruct T0; lra. }
  destruct l as [|l].
  - (* the zeroth vector is not zero *)
    assert (dot n (fun i => P 0%nat i * x i) (P 0%nat) = 0); [|lra].
    apply (rsum_zero (n := n)). intros i Hi. specialize (E i Hi). unfold combo in E. cbn [rsum trans_input] in E. rewrite E. ring.
  - destruct opt.
    + set (nz := sqrt (rsum n (fun i => P 0%nat i * x i * (P 0%nat i * x i)))).
      assert (Hn : 0 < nz).
      { unfold nz. apply sqrt_lt_R0. destruct (dot_pos n (fun i => P 0%nat i * x i)) as [G|G]; auto.
        exfalso. pose proof (dot_zero (eq_sym G) NE) as T. cbn beta in T. rewrite H0 in T by auto. specialize (Hx 0%nat NE).
        apply Rmult_integral in T. destruct T; lra. }
      (* divide by the normalised zeroth vector *)
      assert (D : forall i, (i < n)%nat -> P (S l) i = combo (S l) (fun m => match m with O => c 0%nat * nz / s0 | _ => c m end) P i).
      { intros i Hi. specialize (E i Hi). cbn [trans_input] in E. fold nz in E.
        set (B := P 0%nat i * x i / nz) in *.
        assert (HB : B <> 0).
        { unfold B. rewrite H0 by auto. specialize (Hx i Hi). apply Rmult_integral_contrapositive. split.
          - apply Rmult_integral_contrapositive. split; lra.
          - apply Rinv_neq_0_compat. lra. }
        apply (Rmult_eq_reg_r B); auto. rewrite E. unfold combo. rewrite <- rsum_scal_r.
        apply rsum_ext. intros m Hm. destruct m as [|m].
        - cbn [trans_input]. unfold B. rewrite H0 by auto. field. split; lra.
        - cbn [trans_input]. fold nz. fold B. ring. }
      assert (dot n (P (S l)) (P (S l)) = 0); [|specialize (Q (S l) Hl); lra].
      rewrite (@dot_ext n (P (S l)) (combo (S l) (fun m => match m with O => c 0%nat * nz / s0 | _ => c m end) P) (P (S l)) (P (S l))) by auto.
      rewrite dot_combo. apply (rsum_zero (n := S l)). intros m Hm. rewrite O' by lia. ring.
    + assert (D : forall g, dot n (P (S l)) g = c 0%nat * dot n (fun i => P 0%nat i * x i) g + rsum l (fun m => c (S m) * dot n (P (S m)) g)).
      { intros g. rewrite (@dot_ext n (P (S l)) (combo (S l) c (trans_input n false x P)) g g); auto.
        rewrite dot_combo. rewrite (rsum_split 1 l). cbn [rsum]. rewrite Rplus_0_l. f_equal. }
      assert (c 0%nat = 0).
      { pose proof (D (P 0%nat)) as D0. rewrite O' in D0 by lia.
        rewrite (rsum_zero (n := l)) in D0 by (intros m Hm; rewrite O' by lia; ring).
        assert (T : c 0%nat * dot n (fun i => P 0%nat i * x i) (P 0%nat) = 0) by lra.
        apply Rmult_integral in T. destruct T; lra. }
      pose proof (D (P (S l))) as D1.
      rewrite (rsum_zero (n := l)) in D1 by (intros m Hm; rewrite O' by lia; ring).
      specialize (Q (S l) Hl). rewrite H in D1. lra.
Qed.

(** ** Jacobi01 *)
Fixpoint zeval (p : list Z) (x : R) : R := match p with [] => 0 | a :: t => IZR a + x * zeval t x end.
Fixpoint zadd (p q : list Z) : list Z :=
  match p, q with [], _ => q | _, [] => p | a :: s, b :: t => (a + b)%Z :: zadd s t end.
Fixpoint zmul (p q : list Z) : list Z :=
  match p with [] => [] | a :: t => zadd (map (Z.mul a) q) (0%Z :: zmul t q) end.
Lemma zeval_add p q x : zeval (zadd p q) x = zeval p x + zeval q x.
Proof. revert q. induction p as [|a s IH]; intros [|b t]; cbn; try ring. rewrite IH, plus_IZR. ring. Qed.
Lemma zeval_scale a q x : zeval (map (Z.mul a) q) x = IZR a * zeval q x.
Proof. induction q as [|b t IH]; cbn [map zeval]; [ring|]. rewrite IH, mult_IZR. ring. Qed.
Lemma zeval_mul p q x : zeval (zmul p q) x = zeval p x * zeval q x.
Proof. induction p as [|a t IH]; cbn [zmul zeval]; [ring|]. rewrite zeval_add, zeval_scale. cbn [zeval]. rewrite IH. ring. Qed.
(** 45045 times the integral of y^k p(y) over [-1,1] *)
Fixpoint imom (p : list Z) (k : nat) : Z :=
  match p with [] => 0%Z | a :: t => (a * (if Nat.even k then 90090 / Z.of_nat (S k) else 0) + imom t (S k))%Z end.

Lemma imom_step k : (k < 16)%nat -> IZR (if Nat.even k then 90090 / Z.of_nat (S k) else 0)%Z = 45045 * mom k.
Proof.
  intros H. unfold mom.
  do 16 (destruct k as [|k]; [
    match goal with |- IZR ?z = _ => let v := eval vm_compute in z in change z with v end;
    match goal with |- context [INR ?m] => replace (INR m) with (IZR (Z.of_nat m)) by (symmetry; apply INR_IZR) end;
    match goal with |- context [IZR (Z.of_nat ?m)] => let v := eval vm_compute in (Z.of_nat m) in change (Z.of_nat m) with v end;
    cbn [pow]; field|]).
  lia.
Qed.

Lemma rule_imom n D q y h p : (forall k, (k <= D)%nat -> rsum n (fun i => q i * y i ^ k) = h * mom k) -> (D <= 15)%nat ->
  forall k, (k + length p <= S D)%nat ->
  45045 * rsum n (fun i => q i * (y i ^ k * zeval p (y i))) = h * IZR (imom p k).
Proof.
  intros M HD. induction p as [|a t IH]; intros k Hk.
  - cbn [zeval imom]. rewrite (rsum_zero (n := n)) by (intros; ring). ring.
  - cbn [length zeval imom] in *.
    rewrite (@rsum_ext n _ (fun i => IZR a * (q i * y i ^ k) + q i * (y i ^ S k * zeval t (y i)))) by (intros; cbn [pow]; ring).
    rewrite rsum_plus, rsum_scal, M by lia. rewrite plus_IZR, mult_IZR, imom_step by lia.
    rewrite Rmult_plus_distr_l, IH by lia. ring.
Qed.

Definition jtab : list (list Z) :=
  [ [128]; [-64; 192]; [-64; -128; 320]; [48; -240; -240; 560]; [48; 192; -672; -448; 1008];
    [-40; 280; 560; -1680; -840; 1848]; [-40; -240; 1080; 1440; -3960; -1584; 3432];
    [35; -315; -945; 3465; 3465; -9009; -3003; 6435] ]%Z.
Lemma jacobi_tab l x : (l < 8)%nat -> jacobi l x = sqrt (INR (l + 1)) / 128 * zeval (nth l jtab []) x.
Proof.
  intros H. unfold jacobi.
  do 8 (destruct l as [|l]; [match goal with |- context [sqrt ?s] => generalize (sqrt s) end; intros s; cbn; field|]).
  lia.
Qed.

Definition jprod (l k : nat) : list Z := zmul [1; 1]%Z (zmul (nth l jtab []) (nth k jtab [])).
Lemma jtab_check : forallb (fun l => forallb (fun k =>
    ((length (jprod l k) =? l + k + 2)%nat && (if (l =? k)%nat then (0 <? imom (jprod l k) 0)%Z else (imom (jprod l k) 0 =? 0)%Z))%bool)
    (seq 0 8)) (seq 0 8) = true.
Proof. vm_compute. reflexivity. Qed.
Lemma jtab_ok l k : (l < 8)%nat -> (k < 8)%nat -> length (jprod l k) = (l + k + 2)%nat /\
  (l <> k -> imom (jprod l k) 0 = 0%Z) /\ (l = k -> (0 < imom (jprod l k) 0)%Z).
Proof.
  intros Hl Hk. pose proof jtab_check as C. rewrite forallb_forall in C. specialize (C l ltac:(apply in_seq; lia)).
  rewrite forallb_forall in C. specialize (C k ltac:(apply in_seq; lia)). apply andb_true_iff in C. destruct C as (C1 & C2).
  apply Nat.eqb_eq in C1. split; auto. split.
  - intros Ne. rewrite (proj2 (Nat.eqb_neq _ _) Ne) in C2. apply Z.eqb_eq. auto.
  - intros ->. rewrite Nat.eqb_refl in C2. apply Z.ltb_lt. auto.
Qed.

Lemma Jacobi01_ok p : sized p -> (op_order p < 8)%nat ->
  exact_rule (op_size p) (op_x p) (op_qw p) (op_lower p) (op_upper p) (2 * op_order p + 1) ->
  exists b, Jacobi01 p = Ok b /\ ob_order b = op_order p /\ ob_size b = op_size p /\ normed b.
Proof.
  intros (H1 & H2 & H3) Ho Ex. unfold Jacobi01. rewrite (proj2 (Nat.ltb_lt _ _) Ho).
  rewrite points_ok by auto. cbn [bind]. rewrite weights_ok by (auto; rewrite map_length, seq_length; auto). cbn [bind].
  set (n := op_size p) in *. set (K := op_order p) in *. set (h := (op_upper p - op_lower p) / 2).
  assert (Hh : 0 < h) by (unfold h; lra).
  set (w := map (fun i => nth i (op_qw p) 0 * _) (seq 0 n)).
  set (cols := on_points jacobi K _).
  assert (M : forall k, (k <= 2 * K + 1)%nat -> rsum n (fun i => nth i (op_qw p) 0 * ypt p i ^ k) = h * mom k).
  { intros k Hk. apply exact_moments with (D := (2 * K + 1)%nat); auto. }
  assert (Wd : forall l k, (l <= K)%nat -> (k <= K)%nat ->
    wdot n (wgt (Some w)) (col cols l) (col cols k) =
      sqrt (INR (l + 1)) * sqrt (INR (k + 1)) * (/ (2 * 128 * 128 * 45045) * h * IZR (imom (jprod l k) 0))).
  { intros l k Hl Hk. destruct (@jtab_ok l k) as (Lp & _); try lia.
    assert (E : 45045 * rsum n (fun i => nth i (op_qw p) 0 * (ypt p i ^ 0 * zeval (jprod l k) (ypt p i))) = h * IZR (imom (jprod l k) 0)).
    { apply rule_imom with (D := (2 * K + 1)%nat); auto; [lia|]. rewrite Lp. lia. }
    replace (/ (2 * 128 * 128 * 45045) * h * IZR (imom (jprod l k) 0)) with (/ (2 * 128 * 128 * 45045) * (h * IZR (imom (jprod l k) 0))) by ring.
    rewrite <- E.
    transitivity (sqrt (INR (l + 1)) * sqrt (INR (k + 1)) * / (2 * 128 * 128) *
      rsum n (fun i => nth i (op_qw p) 0 * (ypt p i ^ 0 * zeval (jprod l k) (ypt p i)))); [|field].
    rewrite <- rsum_scal. unfold wdot. apply rsum_ext. intros i Hi. unfold wgt, w, cols. rewrite nth_map_seq by auto.
    rewrite nth_map_seq by auto. rewrite !on_points_col by auto. rewrite !jacobi_tab by lia.
    unfold jprod. rewrite !zeval_mul. cbn [zeval pow]. unfold ypt. field. }
  set (b0 := mk_obasis K n (op_orthonormal p) (Some w) cols None).
  destruct (on_points_shape jacobi K (fun i => scaled p (nth i (op_x p) 0)) n) as (S1 & S2).
  destruct (@compute_a_normed b0) as (b & E & Nb & Eo & Es & _).
  - split; [exact S1|]. split; [exact S2|]. cbn. intros w' E. injection E as <-. unfold w. rewrite map_length, seq_length. auto.
  - cbn [ob_order ob_size ob_w ob_basis b0]. split.
    + intros l k Hl Hk Ne. rewrite Wd by lia. destruct (@jtab_ok l k) as (_ & Z & _); try lia. rewrite (Z Ne). ring.
    + intros l Hl. rewrite Wd by lia. destruct (@jtab_ok l l) as (_ & _ & Z); try lia. specialize (Z eq_refl).
      apply IZR_lt in Z. rewrite sqrt_def by apply pos_INR.
      apply Rmult_lt_0_compat; [apply lt_0_INR; lia|]. apply Rmult_lt_0_compat; auto.
      apply Rmult_lt_0_compat; auto. apply Rinv_0_lt_compat. lra.
  - exists b. split; [exact E|]. split; [exact Eo|]. split; [exact Es|]. exact Nb.
Qed.
