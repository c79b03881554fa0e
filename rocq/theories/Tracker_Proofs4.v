From Verif Require Import Base BaseR Util_Model Mesh_Model Mesh_Spec Mesh_Proofs Csg_Model Csg_Spec Csg_Proofs Pin_Model Pin_Spec Pin_Proofs7 Tracker_Model Tracker_Spec Tracker_Proofs Tracker_Proofs2 Tracker_Proofs3.
Set Implicit Arguments. Unset Strict Implicit.
Open Scope R_scope.

(** ** Tracks through a mesh *)
Lemma cell_exists w x : forall n, (n <= length w)%nat -> 0 <= x < left_edge w n -> exists i, (i < n)%nat /\ left_edge w i <= x < left_edge w (S i).
Proof.
  induction n as [|n IH]; intros H K; [unfold left_edge in K; cbn in K; lra|].
  destruct (Rlt_dec x (left_edge w n)) as [L|L].
  - destruct (IH ltac:(lia) ltac:(lra)) as (i & A & B). exists i. auto.
  - exists n. split; [lia|]. lra.
Qed.

Lemma corner s ax ay bx by_ x0 y0 d : (ax = 0 /\ by_ = 0 \/ bx = 0 /\ ay = 0) -> 0 <= ax -> 0 <= ay -> 0 <= bx -> 0 <= by_ -> ax < x0 -> bx < x0 -> ay < y0 -> by_ < y0 ->
  0 < d -> 2 * d <= x0 -> 2 * d <= y0 -> x0 - d <= ax + s * (bx - ax) -> y0 - d <= ay + s * (by_ - ay) -> False.
Proof.
  intros [[-> ->]|[-> ->]] A1 A2 A3 A4 B1 B2 B3 B4 D X0 Y0 H K.
  - assert (1 / 2 < s) by nra. assert (1 / 2 < 1 - s) by nra. lra.
  - assert (1 / 2 < s) by nra. assert (1 / 2 < 1 - s) by nra. lra.
Qed.

Lemma pos5 : 0 < / 10 ^ 5. Proof. apply Rinv_0_lt_compat, pow_lt. lra. Qed.

Section Mesh.
Context (m : mesh) (G : mesh_good m) (P0 P1 : point) (HM : mesh_track m P0 P1).
Notation L := (distance P0 P1).
Notation ex := (left_edge (mdx m)).
Notation ey := (left_edge (mdy m)).

Lemma mesh_region reg : In reg (geometry_of_mesh m) -> exists i j z1 mm, (i < ncx m)%nat /\ (j < ncy m)%nat /\ 0 <= z1 /\
  reg = cell_region false (ex i) (ex (S i)) (ey j) (ey (S j)) 0 z1 mm.
Proof.
  intros H. apply In_nth_error in H. destruct H as (c & Hc).
  assert (c < ncells m)%nat by (rewrite <- geometry_length; apply nth_error_Some; congruence).
  destruct G as (LX & LY & LZ & WP & _ & _ & _ & PX & PY & PZ & D1 & D2 & D3). destruct HM as (DM & _).
  destruct (mesh_index_bijection (ncx m) (ncy m) (ncz m)) as (_ & BIJ & _). destruct (BIJ c H) as (Hi & Hj & Hk & EI).
  assert (N := geometry_nth Hi Hj Hk). rewrite EI, Hc in N. injection N as N. rewrite DM in N. cbn [Nat.eqb] in N. rewrite (D3 ltac:(lia)) in Hk.
  assert (cell_to_k (ncx m) (ncy m) c = 0)%nat as K0 by lia. rewrite K0 in N. rewrite !edges_from_nth in N by lia. rewrite !Rplus_0_l in N.
  exists (cell_to_i (ncx m) c), (cell_to_j (ncx m) (ncy m) c), (left_edge (mdz m) 1), (nth c (mat m) 0%Z). repeat split; auto.
  - replace 0 with (left_edge (mdz m) 0) by (unfold left_edge; reflexivity). apply left_edge_mono; [auto|lia].
Qed.

Lemma ML : 0 < L.
Proof.
  destruct HM as (_ & _ & _ & _ & A & _). pose proof eps13_pos. destruct (dist_nonneg P0 P1) as [|E]; auto. exfalso. rewrite <- E in A.
  assert (Z : px P1 - px P0 = 0).
  { unfold distance in E. symmetry in E. apply sqrt_eq_0 in E; [|repeat apply Rplus_le_le_0_compat; apply Rle_0_sqr].
    assert (0 <= (py P1 - py P0) * (py P1 - py P0)) by apply Rle_0_sqr. assert (0 <= (pz P1 - pz P0) * (pz P1 - pz P0)) by apply Rle_0_sqr. assert (0 <= (px P1 - px P0) * (px P1 - px P0)) by apply Rle_0_sqr.
    assert ((px P1 - px P0) * (px P1 - px P0) = 0) by lra. nra. }
  rewrite Z, Rabs_R0 in A. lra.
Qed.
Lemma onx t : px (on_track P0 P1 t) = px P0 + t / L * (px P1 - px P0). Proof. unfold on_track. cbn. ring. Qed.
Lemma ony t : py (on_track P0 P1 t) = py P0 + t / L * (py P1 - py P0). Proof. unfold on_track. cbn. ring. Qed.
Lemma onz t : pz (on_track P0 P1 t) = 0.
Proof. destruct HM as (_ & _ & (_ & _ & A & _) & (_ & _ & B & _) & _). unfold on_track. cbn. rewrite A, B. ring. Qed.
Lemma dx_ne : px P1 <> px P0.
Proof. intros E. destruct HM as (_ & _ & _ & _ & A & _). pose proof eps13_pos. pose proof ML. rewrite E in A. unfold Rminus in A. rewrite Rplus_opp_r, Rabs_R0 in A. nra. Qed.
Lemma dy_ne : py P1 <> py P0.
Proof. intros E. destruct HM as (_ & _ & _ & _ & _ & A & _). pose proof eps13_pos. pose proof ML. rewrite E in A. unfold Rminus in A. rewrite Rplus_opp_r, Rabs_R0 in A. nra. Qed.

Lemma frac t : 0 < t < L -> 0 < t / L < 1.
Proof. intros H. pose proof ML. split; [apply Rdiv_lt_0_compat; lra|]. apply (Rmult_lt_reg_r L); auto. unfold Rdiv. rewrite Rmult_assoc, Rinv_l; lra. Qed.
Lemma strict s a b X : 0 < s < 1 -> 0 <= a <= X -> 0 <= b <= X -> b <> a -> 0 < a + s * (b - a) < X.
Proof. intros. destruct (Rtotal_order a b) as [K|[K|K]]; [|lra|]; split; nra. Qed.
Lemma inside t : 0 < t < L -> 0 < px (on_track P0 P1 t) < twx m /\ 0 < py (on_track P0 P1 t) < twy m.
Proof.
  intros H. apply frac in H. rewrite onx, ony. destruct HM as (_ & _ & (A1 & A2 & _) & (B1 & B2 & _) & _).
  split; apply strict; auto; [apply dx_ne|apply dy_ne].
Qed.
Lemma outside t : t < 0 \/ L < t -> let p := on_track P0 P1 t in px p < 0 \/ twx m < px p \/ py p < 0 \/ twy m < py p.
Proof.
  intros H p. unfold p. rewrite onx, ony. pose proof ML. pose proof dx_ne. pose proof dy_ne. destruct HM as (_ & _ & (A1 & A2 & _ & A3) & (B1 & B2 & _ & B3) & _).
  assert (K : t / L < 0 \/ 1 < t / L).
  { destruct H as [H|H]; [left|right]; apply (Rmult_lt_reg_r L); auto; unfold Rdiv; rewrite Rmult_assoc, Rinv_l; lra. }
  set (s := t / L) in *. clearbody s. destruct K as [K|K].
  - destruct A3 as [E|[E|[E|E]]]; rewrite E in *; [left; nra|right; left; nra|right; right; left; nra|right; right; right; nra].
  - destruct B3 as [E|[E|[E|E]]]; rewrite E in *; [left; nra|right; left; nra|right; right; left; nra|right; right; right; nra].
Qed.

Lemma leaves_cell x0 x1 y0 y1 z0 z1 mm s o : In (s, o) (region_leaves (cell_region false x0 x1 y0 y1 z0 z1 mm)) ->
  exists e, (forall t, qf s (psub (on_track P0 P1 t) o) = px (on_track P0 P1 t) - e) /\ (e = x0 \/ e = x1) \/
            (forall t, qf s (psub (on_track P0 P1 t) o) = py (on_track P0 P1 t) - e) /\ (e = y0 \/ e = y1).
Proof.
  intros H. cbn [region_leaves cell_region rnode append_node leaves app] in H. cbn in H.
  destruct H as [H|[H|[H|[H|[]]]]]; injection H as <- <-; [exists x0; left|exists x1; left|exists y0; right|exists y1; right]; (split; [intros t; unfold qf, plane; cbn; ring|auto]).
Qed.
Lemma inc_leaf x0 x1 y0 y1 z0 z1 mm : forall e, (e = x0 \/ e = x1 ->
  exists s o, In (s, o) (region_leaves (cell_region false x0 x1 y0 y1 z0 z1 mm)) /\ forall t, qf s (psub (on_track P0 P1 t) o) = px (on_track P0 P1 t) - e) /\
  (e = y0 \/ e = y1 ->
  exists s o, In (s, o) (region_leaves (cell_region false x0 x1 y0 y1 z0 z1 mm)) /\ forall t, qf s (psub (on_track P0 P1 t) o) = py (on_track P0 P1 t) - e).
Proof.
  intros e. split; intros [->| ->]; [exists (plane 1 0 0 x0)|exists (plane 1 0 0 x1)|exists (plane 0 1 0 y0)|exists (plane 0 1 0 y1)]; exists (P3 0 0 0);
  (split; [cbn; auto|intros t; unfold qf, plane; cbn; ring]).
Qed.
Lemma slope_x : eps13 / 2 < Rabs ((px P1 - px P0) / L).
Proof.
  pose proof ML. destruct HM as (_ & _ & _ & _ & A & _). unfold Rdiv at 2. rewrite Rabs_mult, (Rabs_right (/ L)) by (apply Rle_ge, Rlt_le, Rinv_0_lt_compat; auto).
  apply (Rmult_lt_reg_r L); auto. rewrite Rmult_assoc, Rinv_l by lra. lra.
Qed.
Lemma slope_y : eps13 / 2 < Rabs ((py P1 - py P0) / L).
Proof.
  pose proof ML. destruct HM as (_ & _ & _ & _ & _ & A & _). unfold Rdiv at 2. rewrite Rabs_mult, (Rabs_right (/ L)) by (apply Rle_ge, Rlt_le, Rinv_0_lt_compat; auto).
  apply (Rmult_lt_reg_r L); auto. rewrite Rmult_assoc, Rinv_l by lra. lra.
Qed.
Lemma linear_x s o e : (forall t, qf s (psub (on_track P0 P1 t) o) = px (on_track P0 P1 t) - e) ->
  forall t, qf s (psub (on_track P0 P1 t) o) = 0 * t * t + (px P1 - px P0) / L * t + (px P0 - e).
Proof. intros H t. rewrite H, onx. pose proof ML. field. lra. Qed.
Lemma linear_y s o e : (forall t, qf s (psub (on_track P0 P1 t) o) = py (on_track P0 P1 t) - e) ->
  forall t, qf s (psub (on_track P0 P1 t) o) = 0 * t * t + (py P1 - py P0) / L * t + (py P0 - e).
Proof. intros H t. rewrite H, ony. pose proof ML. field. lra. Qed.

(** A value between the ends is reached. *)
Lemma reach_x e : px P0 <= e <= px P1 \/ px P1 <= e <= px P0 -> exists t, 0 <= t <= L /\ px (on_track P0 P1 t) = e.
Proof.
  intros H. pose proof ML as LP. pose proof dx_ne. exists ((e - px P0) / (px P1 - px P0) * L). rewrite onx.
  assert (S : 0 <= (e - px P0) / (px P1 - px P0) <= 1).
  { destruct H as [H|H].
    - split; [apply Rle_mult_inv_pos; lra|]. apply (Rmult_le_reg_r (px P1 - px P0)); [lra|]. unfold Rdiv. rewrite Rmult_assoc, Rinv_l; lra.
    - replace ((e - px P0) / (px P1 - px P0)) with ((px P0 - e) / (px P0 - px P1)) by (field; lra). split; [apply Rle_mult_inv_pos; lra|]. apply (Rmult_le_reg_r (px P0 - px P1)); [lra|]. unfold Rdiv. rewrite Rmult_assoc, Rinv_l; lra. }
  split; [nra|]. field. lra.
Qed.
Lemma reach_y e : py P0 <= e <= py P1 \/ py P1 <= e <= py P0 -> exists t, 0 <= t <= L /\ py (on_track P0 P1 t) = e.
Proof.
  intros H. pose proof ML as LP. pose proof dy_ne. exists ((e - py P0) / (py P1 - py P0) * L). rewrite ony.
  assert (S : 0 <= (e - py P0) / (py P1 - py P0) <= 1).
  { destruct H as [H|H].
    - split; [apply Rle_mult_inv_pos; lra|]. apply (Rmult_le_reg_r (py P1 - py P0)); [lra|]. unfold Rdiv. rewrite Rmult_assoc, Rinv_l; lra.
    - replace ((e - py P0) / (py P1 - py P0)) with ((py P0 - e) / (py P0 - py P1)) by (field; lra). split; [apply Rle_mult_inv_pos; lra|]. apply (Rmult_le_reg_r (py P0 - py P1)); [lra|]. unfold Rdiv. rewrite Rmult_assoc, Rinv_l; lra. }
  split; [nra|]. field. lra.
Qed.
Lemma side a b e : ~ (a <= e <= b \/ b <= e <= a) -> (a < e /\ b < e) \/ (e < a /\ e < b).
Proof. intros H. destruct (Rlt_dec a e), (Rlt_dec b e); [left; auto| | |right]; try (exfalso; apply H; lra). split; apply Rnot_le_lt; intros K; apply H; lra. Qed.

(** Widths. *)
Lemma edge_steps : (forall i, (i < ncx m)%nat -> ex i + 2 * / 10 ^ 5 <= ex (S i)) /\ (forall j, (j < ncy m)%nat -> ey j + 2 * / 10 ^ 5 <= ey (S j)).
Proof.
  destruct G as (LX & LY & _). destruct HM as (_ & W & _). unfold left_edge. cbn [rsum].
  split; intros i Hi; [specialize (W (nth i (mdx m) 0))|specialize (W (nth i (mdy m) 0))].
  - specialize (W ltac:(left; apply nth_In; lia)). lra.
  - specialize (W ltac:(right; apply nth_In; lia)). lra.
Qed.
Lemma edge_ends i j : (i < ncx m)%nat -> (j < ncy m)%nat ->
  (ex i = 0 \/ 2 * / 10 ^ 5 <= ex i) /\ (ex (S i) = twx m \/ ex (S i) + 2 * / 10 ^ 5 <= twx m) /\
  (ey j = 0 \/ 2 * / 10 ^ 5 <= ey j) /\ (ey (S j) = twy m \/ ey (S j) + 2 * / 10 ^ 5 <= twy m).
Proof.
  intros Hi Hj. destruct edge_steps as [SX SY]. destruct G as (LX & LY & LZ & WP & TX & TY & _).
  assert (X0 : ex 0 = 0) by reflexivity. assert (Y0 : ey 0 = 0) by reflexivity.
  assert (MX : forall a b, (a <= b <= ncx m)%nat -> ex a <= ex b) by (intros; apply left_edge_mono; [auto|lia]).
  assert (MY : forall a b, (a <= b <= ncy m)%nat -> ey a <= ey b) by (intros; apply left_edge_mono; [auto|lia]).
  repeat split.
  - destruct i as [|i]; auto. right. specialize (SX 0%nat ltac:(lia)). specialize (MX 1%nat (S i) ltac:(lia)). lra.
  - destruct (Nat.eq_dec (S i) (ncx m)) as [E|E]; [left; rewrite E; auto|right]. specialize (SX (S i) ltac:(lia)). specialize (MX (S (S i)) (ncx m) ltac:(lia)). lra.
  - destruct j as [|j]; auto. right. specialize (SY 0%nat ltac:(lia)). specialize (MY 1%nat (S j) ltac:(lia)). lra.
  - destruct (Nat.eq_dec (S j) (ncy m)) as [E|E]; [left; rewrite E; auto|right]. specialize (SY (S j) ltac:(lia)). specialize (MY (S (S j)) (ncy m) ltac:(lia)). lra.
Qed.

(** A line through the enlarged box whose track misses all four planes: impossible. *)
Lemma no_miss i j s : (i < ncx m)%nat -> (j < ncy m)%nat ->
  ex i - / 10 ^ 5 <= px P0 + s * (px P1 - px P0) <= ex (S i) + / 10 ^ 5 -> ey j - / 10 ^ 5 <= py P0 + s * (py P1 - py P0) <= ey (S j) + / 10 ^ 5 ->
  exists e, ((e = ex i \/ e = ex (S i)) /\ (px P0 <= e <= px P1 \/ px P1 <= e <= px P0)) \/ ((e = ey j \/ e = ey (S j)) /\ (py P0 <= e <= py P1 \/ py P1 <= e <= py P0)).
Proof.
  intros Hi Hj BX BY. pose proof dx_ne as DX. pose proof dy_ne as DY. pose proof pos5 as D5. destruct (edge_ends Hi Hj) as (E1 & E2 & E3 & E4). destruct edge_steps as [SX SY]. specialize (SX i Hi). specialize (SY j Hj).
  destruct HM as (_ & _ & (A1 & A2 & _ & A3) & (B1 & B2 & _ & B3) & _).
  set (x0 := ex i) in *. set (x1 := ex (S i)) in *. set (y0 := ey j) in *. set (y1 := ey (S j)) in *. set (d := / 10 ^ 5) in *. set (X := twx m) in *. set (Y := twy m) in *.
  assert (DEC : forall a b e, {a <= e <= b \/ b <= e <= a} + {~ (a <= e <= b \/ b <= e <= a)}).
  { intros a b e. destruct (Rle_dec a e), (Rle_dec e b), (Rle_dec b e), (Rle_dec e a); (left; lra) || (right; lra). }
  destruct (DEC (px P0) (px P1) x0) as [K|K1]; [exists x0; auto|]. destruct (DEC (px P0) (px P1) x1) as [K|K2]; [exists x1; auto|].
  destruct (DEC (py P0) (py P1) y0) as [K|K3]; [exists y0; auto|]. destruct (DEC (py P0) (py P1) y1) as [K|K4]; [exists y1; auto|]. exfalso. clear DEC.
  apply side in K1, K2, K3, K4. clearbody x0 x1 y0 y1 d X Y.
  destruct P0 as [a1 a2 a3], P1 as [b1 b2 b3]. cbn [px py pz] in *. clear HM a3 b3.
  destruct K1 as [K1|K1], K3 as [K3|K3].
  - (* below and left *) apply (@corner s a1 a2 b1 b2 x0 y0 d); try lra.
  - destruct K4 as [K4|K4]; [exfalso; lra|]. apply (@corner s a1 (Y - a2) b1 (Y - b2) x0 (Y - y1) d); try lra.
  - destruct K2 as [K2|K2]; [exfalso; lra|]. apply (@corner s (X - a1) a2 (X - b1) b2 (X - x1) y0 d); try lra.
  - destruct K2 as [K2|K2]; [exfalso; lra|]. destruct K4 as [K4|K4]; [exfalso; lra|].
    apply (@corner s (X - a1) (Y - a2) (X - b1) (Y - b2) (X - x1) (Y - y1) d); try lra.
Qed.

Theorem mesh_trackable : trackable (geometry_of_mesh m) P0 P1.
Proof.
  pose proof ML as LP. pose proof seg_eps_pos as EP. pose proof pos5 as D5. pose proof dx_ne as DX.
  assert (UR := track_ray_unit LP).
  assert (AT : forall x, at_distance (track_ray P0 P1) x = on_track P0 P1 (x - seg_eps)) by (intros x; rewrite <- at_track by auto; f_equal; ring).
  split; [exact LP|]. split; [|split; [|split; [|split; [|split]]]].
  - intros reg H. destruct (mesh_region H) as (i & j & z1 & mm & Hi & Hj & _ & ->). split; [discriminate|].
    intros s o Hl. apply leaves_cell in Hl. destruct Hl as (e & [[Q _]|[Q _]]).
    + exists 0, ((px P1 - px P0) / L), (px P0 - e). split; [apply linear_x; auto|]. right; left. split; auto. apply slope_x.
    + exists 0, ((py P1 - py P0) / L), (py P0 - e). split; [apply linear_y; auto|]. right; left. split; auto. apply slope_y.
  - intros t Ht. destruct (inside Ht) as [IX IY]. assert (G' := G). destruct G' as (LX & LY & LZ & WP & TX & TY & TZ & PX & PY & PZ & D1 & D2 & D3).
    destruct (@cell_exists (mdx m) (px (on_track P0 P1 t)) (ncx m) ltac:(lia) ltac:(rewrite TX; lra)) as (i & Hi & Ci).
    destruct (@cell_exists (mdy m) (py (on_track P0 P1 t)) (ncy m) ltac:(lia) ltac:(rewrite TY; lra)) as (j & Hj & Cj).
    destruct (mesh_index_bijection (ncx m) (ncy m) (ncz m)) as (BJ1 & BIJ & _).
    destruct (BJ1 i j 0%nat Hi Hj PZ) as (LC & I1 & I2 & I3). set (c := index (ncx m) (ncy m) i j 0) in *.
    assert (DM : dim m = 2%nat) by apply HM.
    exists c. split; [rewrite geometry_length; auto|]. intros c' r Hr.
    assert (Hc' : (c' < ncells m)%nat) by (rewrite <- geometry_length; apply nth_error_Some; congruence).
    destruct (geometry_cell (on_track P0 P1 t) G Hc') as (r' & N & _ & b & E & B). rewrite Hr in N. injection N as <-. rewrite E. f_equal.
    apply Bool.eq_iff_eq_true. rewrite B, Nat.eqb_eq. destruct (BIJ c' Hc') as (Hi' & Hj' & Hk' & EI'). split.
    + intros (U & V & _). assert (cell_to_i (ncx m) c' = i) by (eapply in_cell_ho_unique; [|exact U|split; [lia|exact Ci]]; auto).
      assert (cell_to_j (ncx m) (ncy m) c' = j) by (eapply in_cell_ho_unique; [|exact V|split; [lia|exact Cj]]; auto).
      rewrite <- EI', H, H0. unfold c. rewrite (D3 ltac:(lia)) in Hk'. f_equal. lia.
    + intros ->. unfold in_box_cell. rewrite I1, I2. split; [split; [lia|auto]|]. split; [split; [lia|auto]|]. intros K. lia.
  - intros t Ht reg H. destruct (mesh_region H) as (i & j & z1 & mm & Hi & Hj & _ & ->).
    assert (O := @outside t ltac:(lra)). cbn zeta in O.
    assert (G' := G). destruct G' as (LX & LY & LZ & WP & TX & TY & _).
    assert (X0 : ex 0 <= ex i) by (apply left_edge_mono; [auto|lia]). assert (X1 : ex (S i) <= ex (ncx m)) by (apply left_edge_mono; [auto|lia]).
    assert (Y0 : ey 0 <= ey j) by (apply left_edge_mono; [auto|lia]). assert (Y1 : ey (S j) <= ey (ncy m)) by (apply left_edge_mono; [auto|lia]).
    change (ex 0) with 0 in X0. change (ey 0) with 0 in Y0. rewrite TX in X1. rewrite TY in Y1.
    destruct (cell_region_contains false (ex i) (ex (S i)) (ey j) (ey (S j)) 0 z1 mm (on_track P0 P1 t)) as (b & E & B). rewrite E. f_equal.
    destruct b; auto. exfalso. destruct B as [B _]. specialize (B eq_refl). lra.
  - intros reg t H Ht C. destruct (mesh_region H) as (i & j & z1 & mm & Hi & Hj & Z1 & ->).
    destruct (cell_region_contains false (ex i) (ex (S i)) (ey j) (ey (S j)) 0 z1 mm (on_track P0 P1 t)) as (b & E & B). rewrite E in C. injection C as ->.
    destruct B as [B _]. specialize (B eq_refl). destruct edge_steps as [SX SY]. specialize (SX i Hi). specialize (SY j Hj).
    apply intersects_box_spec; [cbn [cell_region rmin rmax px py pz]; lra|cbn [cell_region rmin rmax px py pz]; lra|intros [K _]; cbn in K; pose proof ML; apply DX; apply Rmult_integral in K; assert (0 < 1 / L) by (apply Rdiv_lt_0_compat; lra); destruct K as [K|K]; lra|].
    exists (t + seg_eps), (t + seg_eps). rewrite AT. replace (t + seg_eps - seg_eps) with t by ring.
    assert (IB : in_bounds (cell_region false (ex i) (ex (S i)) (ey j) (ey (S j)) 0 z1 mm) (on_track P0 P1 t)).
    { unfold in_bounds. rewrite onz. cbn [cell_region rmin rmax px py pz]. repeat split; try lra. }
    split; [lra|]. split; [lra|]. split; [lra|]. split; exact IB.
  - intros reg H IB. destruct (mesh_region H) as (i & j & z1 & mm & Hi & Hj & Z1 & ->). destruct edge_steps as [SX SY]. assert (SX' := SX i Hi). assert (SY' := SY j Hj).
    apply intersects_box_spec in IB; [|cbn [cell_region rmin rmax px py pz]; lra|cbn [cell_region rmin rmax px py pz]; lra|intros [K _]; cbn in K; apply DX; apply Rmult_integral in K; assert (0 < 1 / L) by (apply Rdiv_lt_0_compat; lra); destruct K as [K|K]; lra].
    destruct IB as (t1 & _ & _ & _ & _ & (B1 & B2 & _) & _). rewrite AT in B1, B2. cbn [cell_region rmin rmax px py pz] in B1, B2. rewrite onx in B1. rewrite ony in B2.
    destruct (@no_miss i j ((t1 - seg_eps) / L) Hi Hj B1 B2) as (e & [[EE K]|[EE K]]).
    + destruct (reach_x K) as (t & Ht & Et). exists t. split; [lra|]. destruct (proj1 (@inc_leaf (ex i) (ex (S i)) (ey j) (ey (S j)) 0 z1 mm e) EE) as (s & o & Hl & Q).
      exists s, o. split; auto. split; [rewrite Q; lra|]. exists 0, ((px P1 - px P0) / L), (px P0 - e). split; [apply linear_x; auto|]. right. split; auto. apply slope_x.
    + destruct (reach_y K) as (t & Ht & Et). exists t. split; [lra|]. destruct (proj2 (@inc_leaf (ex i) (ex (S i)) (ey j) (ey (S j)) 0 z1 mm e) EE) as (s & o & Hl & Q).
      exists s, o. split; auto. split; [rewrite Q; lra|]. exists 0, ((py P1 - py P0) / L), (py P0 - e). split; [apply linear_y; auto|]. right. split; auto. apply slope_y.
  - intros reg t u H M1 M2 TU. destruct (mesh_region H) as (i & j & z1 & mm & Hi & Hj & Z1 & ->). destruct edge_steps as [SX SY]. specialize (SX i Hi). specialize (SY j Hj).
    destruct M1 as (s1 & o1 & H1 & Q1), M2 as (s2 & o2 & H2 & Q2). apply leaves_cell in H1, H2.
    assert (SM : / 10 ^ 12 <= 2 * / 10 ^ 5). { assert (/ 10 ^ 12 <= / 10 ^ 5) by (apply Rinv_le_contravar; [apply pow_lt; lra|apply Rle_pow; [lra|lia]]). lra. }
    assert (UX : Rabs ((px P1 - px P0) / L) <= 1 /\ Rabs ((py P1 - py P0) / L) <= 1).
    { unfold unit_ray, track_ray in UR. cbn [direction px py pz pscale psub] in UR. set (a := (px P1 - px P0)) in *. set (b := py P1 - py P0) in *. set (c := pz P1 - pz P0) in *.
      assert (Q : (a / L) * (a / L) + (b / L) * (b / L) + (1 / L * c) * (1 / L * c) = 1) by (etransitivity; [|exact UR]; unfold Rdiv; ring).
      assert (0 <= (a / L) * (a / L)) by apply Rle_0_sqr. assert (0 <= (b / L) * (b / L)) by apply Rle_0_sqr. assert (0 <= (1 / L * c) * (1 / L * c)) by apply Rle_0_sqr.
      split; apply Rabs_le; split; nra. }
    assert (FAR : forall d e e', Rabs d <= 1 -> 2 * / 10 ^ 5 <= Rabs (e' - e) -> d * (u - t) = e' - e -> 2 * / 10 ^ 5 <= u - t).
    { intros d e e' Hd He Q. rewrite <- Q, Rabs_mult, (Rabs_right (u - t)) in He by lra. nra. }
    destruct HM as (_ & _ & _ & _ & _ & _ & CO). pose proof slope_x as SLX. pose proof slope_y as SLY. pose proof eps13_pos as E13.
    assert (NZ : forall d, eps13 / 2 < Rabs d -> d <> 0) by (intros d Hd ->; rewrite Rabs_R0 in Hd; lra). apply NZ in SLX, SLY.
    destruct H1 as (e1 & [[F1 K1]|[F1 K1]]), H2 as (e2 & [[F2 K2]|[F2 K2]]); rewrite F1 in Q1; rewrite F2 in Q2.
    + rewrite onx in Q1, Q2. assert (Q : (px P1 - px P0) / L * (u - t) = e2 - e1) by (unfold Rdiv in *; lra).
      destruct (Req_dec e1 e2) as [->|NE]; [exfalso; rewrite Rminus_diag_eq with (r1 := e2) (r2 := e2) in Q by reflexivity; apply Rmult_integral in Q; destruct Q; [auto|lra]|].
      apply Rle_trans with (2 * / 10 ^ 5); auto. apply (FAR ((px P1 - px P0) / L) e1 e2); [tauto| |exact Q].
      destruct K1 as [-> | ->], K2 as [-> | ->]; try contradiction; unfold Rabs; destruct (Rcase_abs _); lra.
    + assert (W : t = u \/ / 10 ^ 12 <= Rabs (u - t)).
      { destruct K1 as [-> | ->], K2 as [-> | ->]; [apply (CO i j)|apply (CO i (S j))|apply (CO (S i) j)|apply (CO (S i) (S j))]; lra. }
      destruct W as [W|W]; [lra|]. rewrite Rabs_right in W by lra. auto.
    + assert (W : u = t \/ / 10 ^ 12 <= Rabs (t - u)).
      { destruct K1 as [-> | ->], K2 as [-> | ->]; [apply (CO i j)|apply (CO (S i) j)|apply (CO i (S j))|apply (CO (S i) (S j))]; lra. }
      destruct W as [W|W]; [lra|]. rewrite Rabs_left in W by lra. lra.
    + rewrite ony in Q1, Q2. assert (Q : (py P1 - py P0) / L * (u - t) = e2 - e1) by (unfold Rdiv in *; lra).
      destruct (Req_dec e1 e2) as [->|NE]; [exfalso; rewrite Rminus_diag_eq with (r1 := e2) (r2 := e2) in Q by reflexivity; apply Rmult_integral in Q; destruct Q; [auto|lra]|].
      apply Rle_trans with (2 * / 10 ^ 5); auto. apply (FAR ((py P1 - py P0) / L) e1 e2); [tauto| |exact Q].
      destruct K1 as [-> | ->], K2 as [-> | ->]; try contradiction; unfold Rabs; destruct (Rcase_abs _); lra.
Qed.
End Mesh.
