(** * Tally_Proofs4: partial currents on coarse faces, and the balance of coarse
    cells, in one and two dimensions. *)
From Coquelicot Require Import Coquelicot.
From Verif Require Import Base BaseR Loop Mesh_Model Mesh_Proofs Angle_Model Angle_Spec Boundary_Model Boundary_Spec
  Cell_Model Cell_Spec Cell_Proofs Sweep_Model Sweep_Spec Sweep_Proofs SweepBalance_Proofs SweepAll_Proofs SweepInst_Proofs
  Region_Model Region_Spec Region_Proofs Tally_Model Tally_Spec Tally_Proofs Tally_Proofs2 Tally_Proofs3.
Open Scope nat_scope.
Set Implicit Arguments. Unset Strict Implicit.
Local Notation idx := Mesh_Model.index.

Lemma adds_det n w pc phi p1 p2 : adds n w pc phi p1 -> adds n w pc phi p2 -> p1 = p2.
Proof.
  intros (L1 & A1) (L2 & A2). apply (@list_ext_nth _ 0%R); [congruence|]. intros c Hc. rewrite L1 in Hc.
  specialize (A1 c Hc). specialize (A2 c Hc). unfold at_ in *. congruence.
Qed.
Lemma stores_det n keep pc psi p1 p2 : stores n keep pc psi p1 -> stores n keep pc psi p2 -> p1 = p2.
Proof.
  unfold stores. destruct keep; [|congruence]. intros (L1 & A1) (L2 & A2). apply (@list_ext_nth _ 0%R); [congruence|].
  intros c Hc. rewrite L1 in Hc. specialize (A1 c Hc). specialize (A2 c Hc). unfold at_ in *. congruence.
Qed.

(** The contribution without the weight. *)
Definition unitw (c : dir) : dir := {| d_mu := d_mu c; d_eta := d_eta c; d_xi := d_xi c; d_w := 1 |}.
Lemma contrib_unitw C c o e d0 f x p : contrib C c o e d0 f x p = (d_w c * contrib C (unitw c) o e d0 f x p)%R.
Proof.
  unfold contrib. destruct (_ && _); [|ring]. replace (cosine (unitw c) d0) with (cosine c d0) by (destruct d0 as [|[|d0]]; reflexivity).
  cbn [unitw d_w]. ring.
Qed.

(** ** Coarse faces *)
Section Faces.
Variables (dim : nat) (G : grid) (C : cmesh).
Hypothesis Hdim : dim <= 3.
Hypothesis F : coarse_facts dim G C.
Let n (d : nat) := length (fine_widths dim G d).

Lemma along_shift axis s o (x : R) : axis < 3 -> o < 8 -> s < 2 -> (if s =? shift axis o then x else 0%R) = along axis s o x.
Proof.
  intros Ha Ho Hs. rewrite shift_positive by auto. unfold along.
  destruct (positive o axis); destruct s as [|[|s]]; try lia; reflexivity.
Qed.
Lemma flag_edge d f I (x y : R) : d < dim -> f <= n d -> I <= cm_n C d ->
  (if (flag C d f >=? 0)%Z && (I =? Z.to_nat (flag C d f)) then x else y) = if on_edge C d f I then x else y.
Proof.
  intros Hd Hf HI. unfold on_edge. fold (flag C d f). destruct (flag C d f >=? 0)%Z eqn:EF.
  - destruct (@flag_nonneg dim G C F d f Hd Hf EF) as (I' & HI' & ->). rewrite Nat2Z.id. cbn [andb].
    destruct (Nat.eqb_spec I I') as [->|N]; [rewrite Z.eqb_refl; auto|]. rewrite (proj2 (Z.eqb_neq _ _)); auto. lia.
  - cbn [andb]. rewrite (proj2 (Z.eqb_neq _ _)); auto. intros E. rewrite E in EF. rewrite Z.geb_leb in EF.
    apply Z.leb_gt in EF. lia.
Qed.
Lemma contrib_x c o s I J K f i j k p : 0 < dim -> o < 8 -> s < 2 -> I <= cm_n C 0 -> J < cm_n C 1 ->
  f <= n 0 -> j < n 1 ->
  contrib C c o (0, s, fidx C I J K 0) 0 f (i, j, k) p =
  along 0 s o (if on_edge C 0 f I then if (cmap C 1 j =? J) then if (cmap C 2 k =? K) then
    (p * d_mu c * d_w c * (nth j (cm_w C 1) 0 * nth k (cm_w C 2) 0))%R else 0%R else 0%R else 0%R).
Proof.
  intros Hd Ho Hs HI HJ Hf Hj. rewrite <- along_shift by (auto; lia). unfold contrib.
  change (area C 0 (i, j, k)) with (nth j (cm_w C 1) 0 * nth k (cm_w C 2) 0)%R. cbn [cosine].
  rewrite <- flag_edge by auto. unfold hit. cbn [Nat.eqb]. rewrite andb_true_l.
  destruct (flag C 0 f >=? 0)%Z eqn:EF; cbn [andb]; [|destruct (s =? shift 0 o); auto].
  destruct (s =? shift 0 o); cbn [andb]; auto.
  destruct (@flag_nonneg dim G C F 0 f Hd Hf EF) as (I' & HI' & ->). rewrite Nat2Z.id.
  pose proof (@map_bound dim G C Hdim F 1 j ltac:(lia) Hj) as MB. fold (cmap C 1 j) in MB.
  unfold face_of. cbn [Nat.eqb co]. unfold fidx.
  set (mx := cm_n C 0) in *. set (my := cm_n C 1) in *.
  destruct (Nat.eqb_spec (I + J * (mx + 1) + K * (mx + 1) * my) (I' + cmap C 1 j * (mx + 1) + cmap C 2 k * (mx + 1) * my)) as [E|E].
  - destruct (@mix2 I (J + K * my) I' (cmap C 1 j + cmap C 2 k * my) (mx + 1)) as (-> & E2); try lia.
    destruct (@mix2 J K (cmap C 1 j) (cmap C 2 k) my) as (-> & ->); try lia. rewrite !Nat.eqb_refl. auto.
  - destruct (Nat.eqb_spec I I') as [->|]; auto. destruct (Nat.eqb_spec (cmap C 1 j) J) as [<-|]; auto.
    destruct (Nat.eqb_spec (cmap C 2 k) K) as [<-|]; auto. congruence.
Qed.
Lemma contrib_y c o s I J K f i j k p : 1 < dim -> o < 8 -> s < 2 -> I < cm_n C 0 -> J <= cm_n C 1 ->
  f <= n 1 -> i < n 0 ->
  contrib C c o (1, s, fidx C I J K 1) 1 f (i, j, k) p =
  along 1 s o (if on_edge C 1 f J then if (cmap C 0 i =? I) then if (cmap C 2 k =? K) then
    (p * d_eta c * d_w c * (nth i (cm_w C 0) 0 * nth k (cm_w C 2) 0))%R else 0%R else 0%R else 0%R).
Proof.
  intros Hd Ho Hs HI HJ Hf Hj. rewrite <- along_shift by (auto; lia). unfold contrib.
  replace (area C 1 (i, j, k)) with (nth i (cm_w C 0) 0 * nth k (cm_w C 2) 0)%R by (unfold area; cbn [perp fst snd co]; ring). cbn [cosine].
  rewrite <- flag_edge by auto. unfold hit. cbn [Nat.eqb]. rewrite andb_true_l.
  destruct (flag C 1 f >=? 0)%Z eqn:EF; cbn [andb]; [|destruct (s =? shift 1 o); auto].
  destruct (s =? shift 1 o); cbn [andb]; auto.
  destruct (@flag_nonneg dim G C F 1 f Hd Hf EF) as (I' & HI' & ->). rewrite Nat2Z.id.
  pose proof (@map_bound dim G C Hdim F 0 i ltac:(lia) Hj) as MB. fold (cmap C 0 i) in MB.
  unfold face_of. cbn [Nat.eqb co]. unfold fidx.
  set (mx := cm_n C 0) in *. set (my := cm_n C 1) in *.
  destruct (Nat.eqb_spec (I + J * mx + K * mx * (my + 1)) (cmap C 0 i + I' * mx + cmap C 2 k * mx * (my + 1))) as [E|E].
  - destruct (@mix2 I (J + K * (my + 1)) (cmap C 0 i) (I' + cmap C 2 k * (my + 1)) mx) as (-> & E2); try lia.
    destruct (@mix2 J K I' (cmap C 2 k) (my + 1)) as (-> & ->); try lia. rewrite !Nat.eqb_refl. auto.
  - destruct (Nat.eqb_spec J I') as [->|]; auto. destruct (Nat.eqb_spec (cmap C 0 i) I) as [<-|]; auto.
    destruct (Nat.eqb_spec (cmap C 2 k) K) as [<-|]; auto. congruence.
Qed.
Lemma contrib_other c o d s i d0 f x p : d <> d0 -> contrib C c o (d, s, i) d0 f x p = 0%R.
Proof.
  intros N. unfold contrib, hit. rewrite (proj2 (Nat.eqb_neq _ _) N). cbn [andb]. rewrite andb_false_r. auto.
Qed.
Lemma along_sum axis s o m (f : nat -> R) : rsum m (fun i => along axis s o (f i)) = along axis s o (rsum m f).
Proof. unfold along. destruct (Bool.eqb _ _); auto. apply rsum_zero. auto. Qed.
Lemma along_ext axis s o x y : x = y -> along axis s o x = along axis s o y. Proof. intros ->. auto. Qed.
Lemma if_sum (b : bool) m (f : nat -> R) : rsum m (fun i => if b then f i else 0%R) = if b then rsum m f else 0%R.
Proof. destruct b; auto. apply rsum_zero. auto. Qed.

Lemma partial_current_val T axis s I J K : tally_for C T -> axis < 3 -> s < 2 -> fidx C I J K axis < sizes C axis ->
  partial_current C T I J K axis s = Ok (val T (axis, s, fidx C I J K axis)).
Proof.
  intros (L3 & HT) Ha Hs HI. destruct (HT axis Ha) as (L2 & HS). pose proof (HS s Hs) as L1.
  unfold partial_current. rewrite (@rd_ok _ T axis []) by lia. cbn [bind].
  rewrite (@rd_ok _ (nth axis T []) s []) by lia. cbn [bind]. rewrite fidx_Z, (@rdz_nat _ _ _ 0%R) by lia. reflexivity.
Qed.
Lemma fidx_x I J K : 0 < dim -> I <= cm_n C 0 -> J < cm_n C 1 -> K < cm_n C 2 -> fidx C I J K 0 < sizes C 0.
Proof.
  intros Hd HI HJ HK. unfold sizes. rewrite (cf_dim F), (proj2 (Nat.ltb_lt _ _) Hd). cbn [nth].
  apply (@index_lt (cm_n C 0 + 1) (cm_n C 1) (cm_n C 2)); lia.
Qed.
Lemma fidx_y I J K : 1 < dim -> I < cm_n C 0 -> J <= cm_n C 1 -> K < cm_n C 2 -> fidx C I J K 1 < sizes C 1.
Proof.
  intros Hd HI HJ HK. unfold sizes. rewrite (cf_dim F), (proj2 (Nat.ltb_lt _ _) Hd). cbn [nth].
  apply (@index_lt (cm_n C 0) (cm_n C 1 + 1) (cm_n C 2)); lia.
Qed.
Lemma unused_n d : dim <= d -> cm_n C d = 1.
Proof. intros H. unfold cm_n. rewrite (cf_unused F H). reflexivity. Qed.
Lemma unused_w d i : dim <= d -> i = 0 -> nth i (cm_w C d) 0%R = 1%R.
Proof. intros H ->. rewrite (cf_w F). unfold fine_widths. rewrite (proj2 (Nat.ltb_ge _ _) H). reflexivity. Qed.
Lemma unused_across d I f : dim <= d -> I = 0 -> across C d I f = f 0.
Proof. intros H ->. unfold across, block_sum. rewrite (cf_unused F H). cbn. ring. Qed.
Lemma unused_map d : dim <= d -> cmap C d 0 = 0.
Proof. intros H. unfold cmap. rewrite (cf_unused F H). reflexivity. Qed.

(** ** Sums over coarse cells *)
Lemma across_ext d I f h : d < 3 -> I < cm_n C d -> (forall i, i < n d -> f i = h i) -> across C d I f = across C d I h.
Proof.
  intros Hd HI H. unfold across, block_sum. apply rsum_ext. intros i Hi. apply H.
  pose proof (@edge_le dim G C F d (S I) Hd HI) as E. rewrite edge_S in E. unfold edge in E. unfold n. lia.
Qed.
Lemma across_plus d I f h : across C d I (fun i => f i + h i)%R = (across C d I f + across C d I h)%R.
Proof. unfold across, block_sum. apply (rsum_plus _). Qed.
Lemma across_scal d I a f : across C d I (fun i => a * f i)%R = (a * across C d I f)%R.
Proof. unfold across, block_sum. apply rsum_scal. Qed.
Lemma across_tele d I (X : nat -> R) : across C d I (fun i => X (S i) - X i)%R = (X (edge C d (S I)) - X (edge C d I))%R.
Proof.
  unfold across, block_sum. rewrite edge_S. fold (edge C d I). generalize (edge C d I). intros p.
  induction (nth I (c_count (cm_of C d)) 0) as [|m IH]; cbn [rsum].
  - rewrite Nat.add_0_r. ring.
  - rewrite IH. rewrite <- plus_n_Sm. ring.
Qed.
Lemma across_over d I q (f : nat -> nat -> nat -> R) : across C d I (fun i => over_angles q (fun o a => f o a i)) = over_angles q (fun o a => across C d I (f o a)).
Proof.
  unfold across, block_sum, over_angles. rewrite rsum_swap. apply rsum_ext. intros o _. rewrite rsum_swap. apply rsum_ext. intros a _. auto.
Qed.
Lemma across_swap d I d' I' (f : nat -> nat -> R) : across C d I (fun i => across C d' I' (f i)) = across C d' I' (fun j => across C d I (fun i => f i j)).
Proof. unfold across, block_sum. apply rsum_swap. Qed.
End Faces.
Lemma over_ext q f h : (forall o a, o < q_noct q -> a < q_nao q -> f o a = h o a) -> over_angles q f = over_angles q h.
Proof. intros H. unfold over_angles. apply rsum_ext. intros o Ho. apply rsum_ext. intros a Ha. auto. Qed.
Lemma over_plus q f h : over_angles q (fun o a => f o a + h o a)%R = (over_angles q f + over_angles q h)%R.
Proof.
  unfold over_angles. rewrite <- (rsum_plus (q_noct q)). apply rsum_ext. intros o _. apply (rsum_plus (q_nao q)).
Qed.
Lemma over_scal q x f : over_angles q (fun o a => x * f o a)%R = (x * over_angles q f)%R.
Proof. unfold over_angles. rewrite <- rsum_scal. apply rsum_ext. intros o _. rewrite <- rsum_scal. auto. Qed.
Lemma over_minus q f h : over_angles q (fun o a => f o a - h o a)%R = (over_angles q f - over_angles q h)%R.
Proof.
  transitivity (over_angles q (fun o a => f o a + (-1) * h o a)%R); [apply over_ext; intros; ring|].
  rewrite over_plus, over_scal. ring.
Qed.
(** The sign of an octant along an axis. *)
Definition sgn (o axis : nat) : R := if positive o axis then 1%R else (-1)%R.
Lemma along_diff axis o x : (along axis 1 o x - along axis 0 o x = sgn o axis * x)%R.
Proof. unfold along, sgn. cbn [Nat.eqb]. destruct (positive o axis); cbn [Bool.eqb]; ring. Qed.
Lemma sgn_step o axis (X : nat -> R) i :
  (X (to (positive o axis) i) - X (from (positive o axis) i) = sgn o axis * (X (S i) - X i))%R.
Proof. unfold to, from, sgn. destruct (positive o axis); ring. Qed.
