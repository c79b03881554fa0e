(** * Cmfd_Proofs: the coarse mesh and its map. *)
From Coquelicot Require Import Coquelicot.
From Verif Require Import Base BaseR Loop Mesh_Model Mesh_Spec Mesh_Proofs Material_Model Matrix_Model Angle_Model Angle_Spec Boundary_Model
  Boundary_Spec Cell_Spec Sweep_Model Sweep_Spec Region_Model Region_Spec Region_Proofs Tally_Model Tally_Spec Tally_Proofs Diffusion_Model Diffusion_Spec
  Cmfd_Model Cmfd_Spec.
Open Scope nat_scope.
Set Implicit Arguments. Unset Strict Implicit.

(** ** Meshes given by their edges *)
Lemma psum_ones n I : I <= n -> psum (repeat 1 n) I = I.
Proof.
  intros H. induction I as [|I IH]; [apply psum_0|]. rewrite psum_S, IH by lia. rewrite nth_repeat_lt by lia. lia.
Qed.
Lemma in_ones n I : I < n -> in_coarse (repeat 1 n) I I.
Proof. intros H. split; [rewrite repeat_length; auto|]. rewrite !psum_ones by lia. lia. Qed.
Lemma sum_ones n : list_sum (repeat 1 n) = n.
Proof. rewrite list_sum_repeat. lia. Qed.
Lemma ones_widths n cme w I : axis_widths (repeat 1 n) cme w -> I < n -> nth I w 0%R = (nth (S I) cme 0 - nth I cme 0)%R.
Proof.
  intros (_ & H & _) HI. rewrite (H I I (in_ones HI)). rewrite nth_repeat_lt by auto. cbn [INR]. field.
Qed.
Lemma ones_map a b c mm r x y z : coarse_map_ok (repeat 1 a) (repeat 1 b) (repeat 1 c) mm r -> x < a -> y < b -> z < c ->
  nth (Mesh_Model.index a b x y z) r 0%Z = nth (Mesh_Model.index a b x y z) mm 0%Z.
Proof.
  intros H Hx Hy Hz. specialize (H x y z x y z (in_ones Hx) (in_ones Hy) (in_ones Hz)). rewrite !sum_ones, !repeat_length in H. exact H.
Qed.
Lemma left_edge_block w a k : (left_edge w (a + k) - left_edge w a = rsum k (fun i => nth (a + i) w 0))%R.
Proof. unfold left_edge. rewrite rsum_split. ring. Qed.
Lemma block_pos k f : 0 < k -> (forall i, i < k -> (0 < f i)%R) -> (0 < rsum k f)%R.
Proof.
  intros Hk H. destruct k as [|k]; [lia|]. cbn [rsum]. assert (0 <= rsum k f)%R by (apply rsum_nonneg; intros; apply Rlt_le, H; lia).
  specialize (H k ltac:(lia)). lra.
Qed.
Lemma coarse_axis w x : coarse_ok w x -> 0 < length w -> (forall a, In a w -> (0 < a)%R) ->
  length (c_edges x) - 1 = length (c_count x) /\ axis_ok (repeat 1 (length (c_count x))) (c_edges x) /\
  forall I, I < length (c_count x) -> (nth (S I) (c_edges x) 0 - nth I (c_edges x) 0)%R = block_sum (c_count x) I (fun i => nth i w 0%R).
Proof.
  intros ((S1 & S2) & _ & _ & L & E & _) Hw HP. split; [lia|].
  assert (D : forall I, I < length (c_count x) -> (nth (S I) (c_edges x) 0 - nth I (c_edges x) 0)%R = block_sum (c_count x) I (fun i => nth i w 0%R)).
  { intros I HI. rewrite !E by lia. rewrite psum_S, left_edge_block. reflexivity. }
  split; auto. unfold axis_ok. rewrite repeat_length. split; [|split; [|split; [lia|]]].
  - intros H. apply (f_equal (@length nat)) in H. rewrite repeat_length in H. destruct (c_count x); cbn in *; [lia|discriminate].
  - intros f Hf. apply repeat_spec in Hf. lia.
  - intros I HI. specialize (D I HI). assert (0 < block_sum (c_count x) I (fun i => nth i w 0%R))%R; [|lra].
    assert (0 < nth I (c_count x) 0) by (apply S2, nth_In; auto).
    apply block_pos; auto. intros i Hi. apply HP, nth_In.
    assert (psum (c_count x) (S I) <= length w) by (rewrite <- S1, <- psum_all; apply psum_mono; lia).
    rewrite psum_S in H0. lia.
Qed.

(** ** The coarse mesh of a problem *)
Section Coarse.
Variables (U : problem) (C : cmesh) (level : nat).
Let m := u_mesh U.
Let D := Mesh_Model.dim m.
Let fw a := nth a [mdx m; mdy m; mdz m] [].
Let nn a := nth a [ncx m; ncy m; ncz m] 0.
Hypothesis HP : problem_ok U.
Hypothesis HC : coarse_mesh D (grid_of U 0) level = Ok C.

Lemma dim_range : 0 < D <= 3.
Proof. destruct HP as ((_ & _ & _ & _ & _ & _ & _ & _ & _ & _ & H & _) & _). unfold D, m. lia. Qed.
Lemma facts : coarse_facts D (grid_of U 0) C.
Proof. apply (coarse_mesh_facts dim_range HC). Qed.
Lemma widths_fine a : a < 3 -> fine_widths D (grid_of U 0) a = fw a.
Proof.
  intros Ha. pose proof dim_range as HD. destruct HP as (_ & Hy & Hz & _). unfold fine_widths, fw.
  destruct (Nat.ltb_spec a D) as [L|L]; [destruct a as [|[|[|a]]]; auto; lia|].
  destruct a as [|[|[|a]]]; try lia; cbn; symmetry; [apply Hy|apply Hz]; unfold D, m in L; lia.
Qed.
Lemma fw_len a : a < 3 -> length (fw a) = nn a.
Proof.
  destruct HP as ((H1 & H2 & H3 & _) & _). intros Ha. unfold fw, nn, m. destruct a as [|[|[|a]]]; auto. lia.
Qed.
Lemma fw_pos a x : a < 3 -> In x (fw a) -> (0 < x)%R.
Proof.
  destruct HP as ((_ & _ & _ & H & _) & _). intros Ha Hx. apply H. unfold fw, m in Hx. destruct a as [|[|[|a]]]; auto. lia.
Qed.
Lemma nn_pos a : a < 3 -> 0 < nn a.
Proof.
  destruct HP as ((_ & _ & _ & _ & _ & _ & _ & H1 & H2 & H3 & _) & _). intros Ha. unfold nn, m. destruct a as [|[|[|a]]]; auto. lia.
Qed.
Lemma cm_w_eq a : a < 3 -> cm_w C a = fw a.
Proof. intros Ha. rewrite (cf_w facts). apply widths_fine. auto. Qed.
Lemma fine_len a : a < 3 -> length (fine_widths D (grid_of U 0) a) = nn a.
Proof. intros Ha. rewrite widths_fine by auto. apply fw_len. auto. Qed.
Lemma mp_bound a i : a < 3 -> i < nn a -> nth i (c_map (cm_of C a)) 0 < cm_n C a.
Proof. intros Ha Hi. apply (map_bound ltac:(apply dim_range) facts); auto. rewrite fine_len; auto. Qed.
Lemma mp_len a : a < 3 -> length (c_map (cm_of C a)) = nn a.
Proof. intros Ha. rewrite (map_len facts) by auto. apply fine_len. auto. Qed.
Lemma across_nn a J f : a < 3 -> J < cm_n C a ->
  across C a J f = rsum (nn a) (fun j => if nth j (c_map (cm_of C a)) 0 =? J then f j else 0%R).
Proof. intros Ha HJ. rewrite <- (across_sum ltac:(apply dim_range) facts) by auto. rewrite fine_len by auto. reflexivity. Qed.
Lemma n_unused a : D <= a -> cm_n C a = 1.
Proof. intros H. unfold cm_n. rewrite (cf_unused facts H). reflexivity. Qed.
Lemma n_pos a : a < 3 -> 0 < cm_n C a.
Proof. intros Ha. pose proof (@mp_bound a 0 Ha (nn_pos Ha)). lia. Qed.
(** Every coarse cell has a fine cell. *)
Lemma mp_onto a I : a < 3 -> I < cm_n C a -> exists i, i < nn a /\ nth i (c_map (cm_of C a)) 0 = I.
Proof.
  intros Ha HI. pose proof dim_range as HD. destruct (le_lt_dec D a) as [L|L].
  - rewrite (n_unused L) in HI. exists 0. split; [apply nn_pos; auto|]. rewrite (cf_unused facts L). cbn. lia.
  - destruct (cf_used facts L) as ((S1 & S2) & _ & M & _). exists (psum (c_count (cm_of C a)) I). unfold cm_n in HI.
    assert (0 < nth I (c_count (cm_of C a)) 0) by (apply S2, nth_In; auto).
    assert (psum (c_count (cm_of C a)) (S I) <= nn a).
    { rewrite <- (fine_len Ha), <- S1, <- psum_all. apply psum_mono. lia. }
    rewrite psum_S in H0. split; [lia|]. apply M. split; auto. rewrite psum_S. lia.
Qed.

(** The coarse mesh. *)
Definition coarse_good (cm : mesh) : Prop :=
  coarse_of C = Ok cm /\ mesh_good cm /\ Mesh_Model.dim cm = D /\
  (forall a, a < 3 -> axis_cells cm a = cm_n C a) /\
  (forall a I, a < 3 -> I < cm_n C a -> nth I (axis_widths_of cm a) 0%R = across C a I (fun i => nth i (fw a) 0%R)) /\
  forall c, c < ncells cm -> mt cm c = c.
Lemma axis_used a : a < D -> length (c_edges (cm_of C a)) - 1 = cm_n C a /\ axis_ok (repeat 1 (cm_n C a)) (c_edges (cm_of C a)) /\
  forall I, I < cm_n C a -> (nth (S I) (c_edges (cm_of C a)) 0 - nth I (c_edges (cm_of C a)) 0)%R = across C a I (fun i => nth i (fw a) 0%R).
Proof.
  intros Ha. pose proof dim_range as HD. pose proof (cf_used facts Ha) as OK. rewrite widths_fine in OK by lia.
  destruct (coarse_axis OK) as (E1 & E2 & E3).
  - rewrite fw_len by lia. apply nn_pos. lia.
  - intros x. apply fw_pos. lia.
  - split; auto.
Qed.
Lemma across_unused a (f : nat -> R) : D <= a -> across C a 0 f = f 0.
Proof. intros H. unfold across, block_sum. rewrite (cf_unused facts H). cbn [c_count unused]. rewrite psum_0. cbn. ring. Qed.
Lemma nth_ids c n : c < n -> nth c (map Z.of_nat (seq 0 n)) 0%Z = Z.of_nat c.
Proof. intros H. rewrite (@nth_map_seq _ Z.of_nat) by auto. reflexivity. Qed.
Lemma mt_ids cm a b c : ncx cm = a -> ncy cm = b -> ncz cm = c ->
  coarse_map_ok (repeat 1 a) (repeat 1 b) (repeat 1 c) (map Z.of_nat (seq 0 (a * b * c))) (mat cm) -> forall i, i < ncells cm -> mt cm i = i.
Proof.
  intros Ea Eb Ec HM i Hi. unfold ncells in Hi. rewrite Ea, Eb, Ec in Hi. destruct (@index_total a b c i Hi) as (B1 & B2 & B3 & B4).
  unfold mt. rewrite <- B4 at 1. rewrite (ones_map HM) by auto. rewrite B4, nth_ids by auto. apply Nat2Z.id.
Qed.
Lemma coarse_exists : exists cm, coarse_good cm.
Proof.
  pose proof dim_range as HD. unfold coarse_good, coarse_of. rewrite (cf_dim facts).
  assert (W1 : forall a I, D <= a -> a < 3 -> I < cm_n C a -> across C a I (fun i => nth i (fw a) 0%R) = 1%R).
  { intros a I L Ha HI. rewrite (n_unused L) in HI. replace I with 0 by lia. rewrite across_unused by auto.
    rewrite <- widths_fine by auto. unfold fine_widths. rewrite (proj2 (Nat.ltb_ge a D)) by auto. reflexivity. }
  assert (CC : coarse_cells C = cm_n C 0 * cm_n C 1 * cm_n C 2).
  { unfold coarse_cells. rewrite (cf_dim facts). destruct (Nat.eq_dec D 1) as [E|E]; [rewrite E, (@n_unused 1), (@n_unused 2) by lia; lia|].
    destruct (Nat.eq_dec D 2) as [E2|E2]; [rewrite E2, (@n_unused 2) by lia; lia|]. replace D with 3 by lia. auto. }
  destruct (@axis_used 0 ltac:(lia)) as (L0 & A0 & B0).
  destruct (Nat.eq_dec D 1) as [E|E]; [|destruct (Nat.eq_dec D 2) as [E2|E2]].
  - rewrite E. unfold ones. rewrite L0.
    destruct (@mesh1D_ok (repeat 1 (cm_n C 0)) (c_edges (cm_of C 0)) (map Z.of_nat (seq 0 (coarse_cells C))) A0) as (cm & EQ & G & X1 & X2 & X3 & X4 & X5 & X6 & X7 & X8 & _).
    { rewrite map_length, seq_length, repeat_length, CC, (@n_unused 1), (@n_unused 2) by lia. lia. }
    rewrite sum_ones in X1. exists cm. split; auto. split; auto. split; auto.
    assert (N : forall a, a < 3 -> axis_cells cm a = cm_n C a).
    { intros a Ha. destruct a as [|[|[|a]]]; cbn; auto; try lia; rewrite n_unused by lia; auto. }
    split; auto. split.
    + intros a I Ha HI. destruct (Nat.eq_dec a 0) as [->|Na].
      * cbn [axis_widths_of]. rewrite (ones_widths X5 HI). apply B0. auto.
      * rewrite W1 by lia. rewrite n_unused in HI by lia. replace I with 0 by lia. destruct a as [|[|[|a]]]; try lia; cbn [axis_widths_of]; [rewrite X6|rewrite X7]; auto.
    + rewrite CC in X8. rewrite (@n_unused 1), (@n_unused 2) in X8 by lia. apply (@mt_ids cm (cm_n C 0) 1 1); auto.
  - rewrite E2. unfold ones. destruct (@axis_used 1 ltac:(lia)) as (L1 & A1 & B1). rewrite L0, L1.
    destruct (@mesh2D_ok (repeat 1 (cm_n C 0)) (repeat 1 (cm_n C 1)) (c_edges (cm_of C 0)) (c_edges (cm_of C 1)) (map Z.of_nat (seq 0 (coarse_cells C))) A0 A1)
      as (cm & EQ & G & X1 & X2 & X3 & X4 & X5 & X6 & X7 & X8 & _).
    { rewrite map_length, seq_length, !repeat_length, CC, (@n_unused 2) by lia. lia. }
    rewrite sum_ones in X1, X2. exists cm. split; auto. split; auto. split; auto.
    assert (N : forall a, a < 3 -> axis_cells cm a = cm_n C a).
    { intros a Ha. destruct a as [|[|[|a]]]; cbn; auto; try lia; rewrite n_unused by lia; auto. }
    split; auto. split.
    + intros a I Ha HI. destruct a as [|[|[|a]]]; try lia; cbn [axis_widths_of].
      * rewrite (ones_widths X5 HI). apply B0. auto.
      * rewrite (ones_widths X6 HI). apply B1. auto.
      * rewrite W1 by lia. rewrite n_unused in HI by lia. replace I with 0 by lia. rewrite X7. auto.
    + rewrite CC in X8. rewrite (@n_unused 2) in X8 by lia. apply (@mt_ids cm (cm_n C 0) (cm_n C 1) 1); auto.
  - assert (E3 : D = 3) by lia. rewrite E3. unfold ones. destruct (@axis_used 1 ltac:(lia)) as (L1 & A1 & B1). destruct (@axis_used 2 ltac:(lia)) as (L2 & A2 & B2).
    rewrite L0, L1, L2.
    destruct (@mesh3D_ok (repeat 1 (cm_n C 0)) (repeat 1 (cm_n C 1)) (repeat 1 (cm_n C 2)) (c_edges (cm_of C 0)) (c_edges (cm_of C 1)) (c_edges (cm_of C 2))
      (map Z.of_nat (seq 0 (coarse_cells C))) A0 A1 A2) as (cm & EQ & G & X1 & X2 & X3 & X4 & X5 & X6 & X7 & X8 & _).
    { rewrite map_length, seq_length, !repeat_length. auto. }
    rewrite sum_ones in X1, X2, X3. exists cm. split; auto. split; auto. split; auto.
    assert (N : forall a, a < 3 -> axis_cells cm a = cm_n C a) by (intros a Ha; destruct a as [|[|[|a]]]; cbn; auto; lia).
    split; auto. split.
    + intros a I Ha HI. destruct a as [|[|[|a]]]; try lia; cbn [axis_widths_of].
      * rewrite (ones_widths X5 HI). apply B0. auto.
      * rewrite (ones_widths X6 HI). apply B1. auto.
      * rewrite (ones_widths X7 HI). apply B2. auto.
    + rewrite CC in X8. apply (@mt_ids cm (cm_n C 0) (cm_n C 1) (cm_n C 2)); auto.
Qed.

(** The map of fine to coarse cells. *)
Let mp a i := nth i (c_map (cm_of C a)) 0.
Lemma map_exists : exists cmap, coarse_map C = Ok cmap /\ length cmap = ncells m /\
  forall i j k, i < ncx m -> j < ncy m -> k < ncz m ->
  nth (Mesh_Model.index (ncx m) (ncy m) i j k) cmap 0 = Mesh_Model.index (cm_n C 0) (cm_n C 1) (mp 0 i) (mp 1 j) (mp 2 k).
Proof.
  unfold coarse_map, fine_to_coarse_map. pose proof (@mp_len 0 ltac:(lia)) as LX. pose proof (@mp_len 1 ltac:(lia)) as LY. pose proof (@mp_len 2 ltac:(lia)) as LZ.
  unfold nn in LX, LY, LZ. cbn [nth] in LX, LY, LZ. rewrite LX, LY, LZ.
  set (nx := ncx m) in *. set (ny := ncy m) in *. set (nz := ncz m) in *. rewrite for3_flat. cbv zeta.
  set (val := fun c => Mesh_Model.index (cm_n C 0) (cm_n C 1) (mp 0 (cell_to_i nx c)) (mp 1 (cell_to_j nx ny c)) (mp 2 (cell_to_k nx ny c))).
  match goal with |- context [for_ 0 (nx * ny * nz) ?s0 ?b0] =>
    destruct (@for_inv _ (fun i v => length v = nx * ny * nz /\ forall c, c < i -> nth c v 0 = val c) 0 (nx * ny * nz) s0 b0)
      as (v & E & L & V) end.
  - lia.
  - rewrite repeat_length. split; auto. intros; lia.
  - intros c v Hc (L & V). destruct (@index_total nx ny nz c ltac:(lia)) as (B1 & B2 & B3 & B4).
    rewrite (@rd_ok _ (c_map (cm_of C 2)) _ 0), (@rd_ok _ (c_map (cm_of C 1)) _ 0), (@rd_ok _ (c_map (cm_of C 0)) _ 0) by lia. cbn [bind].
    rewrite B4. unfold wr. rewrite L, (proj2 (Nat.ltb_lt c _)) by lia. eexists. split; [reflexivity|].
    rewrite upd_length. split; auto. intros c' Hc'. destruct (Nat.eq_dec c c') as [<-|Ne].
    + apply nth_upd_eq. lia.
    + rewrite nth_upd_neq by auto. apply V. lia.
  - exists v. split; auto. split; auto. intros i j k Hi Hj Hk. rewrite V by (apply index_lt; auto). unfold val.
    destruct (@index_inv nx ny nz i j k Hi Hj Hk) as (P1 & P2 & P3). rewrite P1, P2, P3. reflexivity.
Qed.

(** Sums over a coarse cell. *)
Lemma triple_sum nx ny nz f : rsum (nx * ny * nz) f = rsum nx (fun i => rsum ny (fun j => rsum nz (fun k => f (Mesh_Model.index nx ny i j k)))).
Proof.
  rewrite rsum_prod2. transitivity (rsum nz (fun k => rsum nx (fun i => rsum ny (fun j => f (Mesh_Model.index nx ny i j k))))).
  - apply rsum_ext. intros k Hk. rewrite rsum_prod2, rsum_swap. apply rsum_ext. intros i Hi. apply rsum_ext. intros j Hj. f_equal. unfold Mesh_Model.index. lia.
  - rewrite rsum_swap. apply rsum_ext. intros i Hi. rewrite rsum_swap. reflexivity.
Qed.
Lemma index_inj a b c i j k i' j' k' : i < a -> j < b -> k < c -> i' < a -> j' < b -> k' < c ->
  Mesh_Model.index a b i j k = Mesh_Model.index a b i' j' k' -> i = i' /\ j = j' /\ k = k'.
Proof.
  intros H1 H2 H3 H4 H5 H6 E. destruct (@index_inv a b c i j k H1 H2 H3) as (P1 & P2 & P3). destruct (@index_inv a b c i' j' k' H4 H5 H6) as (Q1 & Q2 & Q3).
  rewrite E in P1, P2, P3. rewrite <- P1, <- P2, <- P3. auto.
Qed.
Lemma coarse_region cmap I J K f : coarse_map C = Ok cmap -> I < cm_n C 0 -> J < cm_n C 1 -> K < cm_n C 2 ->
  region_sum (ncells m) cmap (Mesh_Model.index (cm_n C 0) (cm_n C 1) I J K) f =
  across C 0 I (fun i => across C 1 J (fun j => across C 2 K (fun k => f (Mesh_Model.index (ncx m) (ncy m) i j k)))).
Proof.
  intros E HI HJ HK. destruct map_exists as (v & E' & LV & V). rewrite E in E'. assert (v = cmap) by congruence. subst v. clear E'.
  unfold region_sum, ncells. rewrite triple_sum. rewrite across_nn by (auto; lia). unfold nn at 1. cbn [nth]. apply rsum_ext. intros i Hi.
  fold (mp 0 i). pose proof (@mp_bound 0 i ltac:(lia) Hi) as Bi. fold (mp 0 i) in Bi.
  destruct (Nat.eqb_spec (mp 0 i) I) as [Ei|Ni].
  - rewrite across_nn by (auto; lia). unfold nn at 1. cbn [nth]. apply rsum_ext. intros j Hj. fold (mp 1 j).
    pose proof (@mp_bound 1 j ltac:(lia) Hj) as Bj. fold (mp 1 j) in Bj. destruct (Nat.eqb_spec (mp 1 j) J) as [Ej|Nj].
    + rewrite across_nn by (auto; lia). unfold nn at 1. cbn [nth]. apply rsum_ext. intros k Hk. fold (mp 2 k).
      pose proof (@mp_bound 2 k ltac:(lia) Hk) as Bk. fold (mp 2 k) in Bk. rewrite V by auto. rewrite Ei, Ej.
      destruct (Nat.eqb_spec (mp 2 k) K) as [Ek|Nk].
      * rewrite Ek, Nat.eqb_refl. auto.
      * rewrite (proj2 (Nat.eqb_neq _ _)); auto. intros Q. apply (@index_inj _ _ (cm_n C 2)) in Q; auto. lia.
    + apply rsum_zero. intros k Hk. pose proof (@mp_bound 2 k ltac:(lia) Hk) as Bk. rewrite V by auto.
      rewrite (proj2 (Nat.eqb_neq _ _)); auto. intros Q. apply (@index_inj _ _ (cm_n C 2)) in Q; auto. lia.
  - apply rsum_zero. intros j Hj. apply rsum_zero. intros k Hk. pose proof (@mp_bound 1 j ltac:(lia) Hj) as Bj. pose proof (@mp_bound 2 k ltac:(lia) Hk) as Bk.
    rewrite V by auto. rewrite (proj2 (Nat.eqb_neq _ _)); auto. intros Q. apply (@index_inj _ _ (cm_n C 2)) in Q; auto. lia.
Qed.
Lemma across_ext a I f g : a < 3 -> I < cm_n C a -> (forall i, i < nn a -> f i = g i) -> across C a I f = across C a I g.
Proof. intros Ha HI H. rewrite !across_nn by auto. apply rsum_ext. intros i Hi. rewrite H by auto. reflexivity. Qed.
Lemma across_scal a I c f : a < 3 -> I < cm_n C a -> across C a I (fun i => c * f i)%R = (c * across C a I f)%R.
Proof. intros Ha HI. unfold across, block_sum. rewrite <- rsum_scal. reflexivity. Qed.
Lemma across_scal_r a I c f : a < 3 -> I < cm_n C a -> across C a I (fun i => f i * c)%R = (across C a I f * c)%R.
Proof. intros Ha HI. unfold across, block_sum. rewrite <- rsum_scal_r. reflexivity. Qed.
Definition cvol (c : nat) : R :=
  (nth (cell_to_i (ncx m) c) (mdx m) 0 * nth (cell_to_j (ncx m) (ncy m) c) (mdy m) 0 * nth (cell_to_k (ncx m) (ncy m) c) (mdz m) 0)%R.
Lemma cvol_index i j k : i < ncx m -> j < ncy m -> k < ncz m ->
  cvol (Mesh_Model.index (ncx m) (ncy m) i j k) = (nth i (mdx m) 0 * nth j (mdy m) 0 * nth k (mdz m) 0)%R.
Proof. intros Hi Hj Hk. unfold cvol. destruct (@index_inv _ _ _ _ _ _ Hi Hj Hk) as (-> & -> & ->). reflexivity. Qed.
Lemma coarse_total_region cmap g I J K f : coarse_map C = Ok cmap -> I < cm_n C 0 -> J < cm_n C 1 -> K < cm_n C 2 ->
  coarse_total C (grid_of U g) I J K f = region_sum (ncells m) cmap (Mesh_Model.index (cm_n C 0) (cm_n C 1) I J K) (fun c => cvol c * f c)%R.
Proof.
  intros E HI HJ HK. rewrite (coarse_region _ E) by auto. unfold coarse_total. cbn [grid_of g_nx g_ny]. fold m.
  apply across_ext; auto; try lia. intros i Hi. apply across_ext; auto; try lia. intros j Hj. apply across_ext; auto; try lia. intros k Hk.
  rewrite cvol_index by auto. rewrite !cm_w_eq by lia. unfold at_, fw. cbn [nth]. reflexivity.
Qed.
(** The volume of a coarse cell is that of its fine cells. *)
Lemma coarse_volume cmap cm I J K : coarse_map C = Ok cmap -> coarse_good cm -> I < cm_n C 0 -> J < cm_n C 1 -> K < cm_n C 2 ->
  vol cm (Mesh_Model.index (cm_n C 0) (cm_n C 1) I J K) = region_sum (ncells m) cmap (Mesh_Model.index (cm_n C 0) (cm_n C 1) I J K) cvol.
Proof.
  intros E (EC & G & ED & N & W & M) HI HJ HK. rewrite (coarse_region _ E) by auto.
  assert (EW : forall a, a < 3 -> wid cm a (Mesh_Model.index (cm_n C 0) (cm_n C 1) I J K) = across C a (nth a [I; J; K] 0) (fun i => nth i (fw a) 0%R)).
  { intros a Ha. rewrite <- W; auto; [|destruct a as [|[|[|a]]]; auto; lia]. unfold wid.
    destruct (@index_inv _ _ _ _ _ _ HI HJ HK) as (P1 & P2 & P3). unfold cell_to_i, cell_to_j, cell_to_k in P1, P2, P3.
    pose proof (N 0 ltac:(lia)) as N0. pose proof (N 1 ltac:(lia)) as N1. cbn in N0, N1. pose proof (@n_pos 0 ltac:(lia)). pose proof (@n_pos 1 ltac:(lia)).
    destruct a as [|[|[|a]]]; try lia; cbn [coord axis_widths_of nth]; f_equal; unfold Diffusion_Spec.coord; rewrite ?N0, ?N1; auto.
    - set (c := Mesh_Model.index _ _ _ _ _) in *. rewrite <- P2. rewrite Nat.mod_mul_r by lia. rewrite (Nat.mul_comm (cm_n C 0)), Nat.div_add by lia.
      rewrite (Nat.div_small (c mod cm_n C 0)) by (apply Nat.mod_upper_bound; lia). lia.
    - set (c := Mesh_Model.index _ _ _ _ _) in *. rewrite <- P3. rewrite Nat.div_div by lia. reflexivity. }
  unfold vol. rewrite !EW by lia. cbn [nth].
  symmetry. transitivity (across C 0 I (fun i => nth i (fw 0) 0 * (across C 1 J (fun j => nth j (fw 1) 0) * across C 2 K (fun k => nth k (fw 2) 0)))%R).
  - apply across_ext; auto; try lia. intros i Hi. rewrite <- Rmult_assoc.
    transitivity (across C 1 J (fun j => nth i (fw 0) 0 * nth j (fw 1) 0 * across C 2 K (fun k => nth k (fw 2) 0))%R).
    + apply across_ext; auto; try lia. intros j Hj. rewrite <- across_scal by (auto; lia). apply across_ext; auto; try lia. intros k Hk.
      rewrite cvol_index by auto. unfold fw. cbn [nth]. ring.
    + rewrite across_scal_r by (auto; lia). rewrite across_scal by (auto; lia). ring.
  - rewrite across_scal_r by (auto; lia). ring.
Qed.
Lemma cvol_pos c : c < ncells m -> (0 < cvol c)%R.
Proof.
  intros Hc. destruct (@index_total _ _ _ _ Hc) as (B1 & B2 & B3 & _).
  assert (P : forall a i, a < 3 -> i < nn a -> (0 < nth i (fw a) 0)%R).
  { intros a i Ha Hi. apply (@fw_pos a); auto. apply nth_In. rewrite fw_len; auto. }
  pose proof (P 0 _ ltac:(lia) B1). pose proof (P 1 _ ltac:(lia) B2). pose proof (P 2 _ ltac:(lia) B3). unfold fw in *. cbn [nth] in *.
  unfold cvol. apply Rmult_lt_0_compat; auto. apply Rmult_lt_0_compat; auto.
Qed.
Lemma volume_ok c : c < ncells m -> volume m c = Ok (cvol c).
Proof.
  intros Hc. destruct (@index_total _ _ _ _ Hc) as (B1 & B2 & B3 & _). destruct HP as ((H1 & H2 & H3 & _) & _). fold m in H1, H2, H3.
  unfold volume. rewrite (@rd_ok _ (mdx m) _ 0%R), (@rd_ok _ (mdy m) _ 0%R), (@rd_ok _ (mdz m) _ 0%R) by lia. reflexivity.
Qed.
(** Cells of the coarse mesh and their regions. *)
Lemma coarse_ijk cm c : coarse_good cm -> c < ncells cm -> exists I J K, I < cm_n C 0 /\ J < cm_n C 1 /\ K < cm_n C 2 /\ c = Mesh_Model.index (cm_n C 0) (cm_n C 1) I J K.
Proof.
  intros (_ & _ & _ & N & _) Hc. pose proof (N 0 ltac:(lia)) as N0. pose proof (N 1 ltac:(lia)) as N1. pose proof (N 2 ltac:(lia)) as N2. cbn in N0, N1, N2.
  unfold ncells in Hc. rewrite N0, N1, N2 in Hc. destruct (@index_total _ _ _ _ Hc) as (B1 & B2 & B3 & B4). eauto 10.
Qed.
Lemma map_lt cmap cm c : coarse_map C = Ok cmap -> coarse_good cm -> c < ncells m -> nth c cmap 0 < ncells cm.
Proof.
  intros E (_ & _ & _ & N & _) Hc. pose proof (N 0 ltac:(lia)) as N0. pose proof (N 1 ltac:(lia)) as N1. pose proof (N 2 ltac:(lia)) as N2. cbn in N0, N1, N2.
  destruct map_exists as (v & E' & LV & V). rewrite E in E'. assert (v = cmap) by congruence. subst v.
  destruct (@index_total _ _ _ _ Hc) as (B1 & B2 & B3 & B4). rewrite <- B4, V by auto. unfold ncells. rewrite N0, N1, N2.
  apply index_lt; apply mp_bound; auto.
Qed.
Lemma map_onto cmap cm c : coarse_map C = Ok cmap -> coarse_good cm -> c < ncells cm -> exists i, i < ncells m /\ nth i cmap 0 = c.
Proof.
  intros E G Hc. destruct (coarse_ijk G Hc) as (I & J & K & HI & HJ & HK & ->).
  destruct map_exists as (v & E' & LV & V). rewrite E in E'. assert (v = cmap) by congruence. subst v.
  destruct (@mp_onto 0 I ltac:(lia) HI) as (i & Hi & Ei). destruct (@mp_onto 1 J ltac:(lia) HJ) as (j & Hj & Ej). destruct (@mp_onto 2 K ltac:(lia) HK) as (k & Hk & Ek).
  exists (Mesh_Model.index (ncx m) (ncy m) i j k). split; [apply index_lt; auto|]. rewrite V by auto. unfold mp. rewrite Ei, Ej, Ek. auto.
Qed.
Lemma map_regions cmap cm : coarse_map C = Ok cmap -> coarse_good cm -> regions cmap = ncells cm.
Proof.
  intros E G. unfold regions. destruct map_exists as (v & E' & LV & V). rewrite E in E'. assert (v = cmap) by congruence. subst v. clear E' V.
  assert (0 < ncells cm) by (destruct G as (_ & (_ & _ & _ & _ & _ & _ & _ & P1 & P2 & P3 & _) & _); unfold ncells; nia).
  assert (list_max cmap <= ncells cm - 1).
  { apply list_max_le, Forall_forall. intros x Hx. apply (In_nth _ _ 0) in Hx. destruct Hx as (i & Hi & <-). rewrite LV in Hi.
    pose proof (map_lt E G Hi). lia. }
  destruct (@map_onto cmap cm (ncells cm - 1) E G ltac:(lia)) as (i & Hi & Ei).
  assert (nth i cmap 0 <= list_max cmap).
  { assert (F : Forall (fun x => x <= list_max cmap) cmap) by (apply list_max_le; auto). rewrite Forall_forall in F. apply F, nth_In. lia. }
  lia.
Qed.
End Coarse.
