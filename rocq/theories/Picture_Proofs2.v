(** * Proofs on the pixels of meshes and geometries (no model content) *)
From Coq Require Import ZArith Lra Lia.
From Verif Require Import Base BaseR Loop Util_Model Util_Proofs Mesh_Model Mesh_Spec Mesh_Proofs Csg_Model Picture_Model
  Picture_Spec Picture_Proofs.
Open Scope nat_scope.
Set Implicit Arguments. Unset Strict Implicit.

Lemma ceil_spec x : (x <= IZR (ceil x) < x + 1)%R.
Proof. unfold ceil. destruct (base_Int_part (- x)) as [A B]. rewrite opp_IZR. lra. Qed.
Lemma ceil_pos x : (0 < x)%R -> 1 <= Z.to_nat (ceil x).
Proof. intros H. destruct (ceil_spec x) as [A _]. assert (0 < ceil x)%Z by (apply lt_IZR; lra). lia. Qed.
Lemma ceil_INR x : (0 < x)%R -> INR (Z.to_nat (ceil x)) = IZR (ceil x).
Proof. intros H. destruct (ceil_spec x) as [A _]. assert (0 < ceil x)%Z by (apply lt_IZR; lra). rewrite INR_IZR_INZ, Z2Nat.id; auto. lia. Qed.

Lemma linspace_rd w p k : k < p -> rd (linspace 0%R w p) k = Ok (spot w p k).
Proof.
  intros H. unfold linspace, spot. destruct (Nat.leb_spec p 1) as [L|L].
  - replace p with 1 by lia. replace k with 0 by lia. cbn. unfold rd. cbn. f_equal. lra.
  - destruct (progression_spec p 0%R ((w - 0) / INR (p - 1))) as [A B].
    rewrite (@rd_ok _ _ k 0%R) by (rewrite A; auto). f_equal. rewrite B by auto.
    field. apply not_0_INR. lia.
Qed.
Lemma center_rd w p k : k < p -> rd (linspace_center 0%R w p) k = Ok (middle w p k).
Proof.
  intros H. destruct (@linspace_center_spec 0%R w p ltac:(lia)) as [A B].
  rewrite (@rd_ok _ _ k 0%R) by (rewrite A; auto). f_equal. rewrite B by auto. unfold middle.
  rewrite plus_INR. cbn [INR]. field. apply not_0_INR. lia.
Qed.
Lemma spot_range w p k : (0 <= w)%R -> k < p -> (0 <= spot w p k <= w)%R.
Proof.
  intros H K. unfold spot. destruct (Nat.eq_dec p 1) as [->|N].
  - replace k with 0 by lia. cbn. lra.
  - assert (0 < INR (p - 1))%R by (apply lt_0_INR; lia).
    assert (0 <= INR k)%R by apply pos_INR. assert (INR k <= INR (p - 1))%R by (apply le_INR; lia).
    assert (0 <= INR k / INR (p - 1))%R by (apply Rmult_le_pos; [auto|left; apply Rinv_0_lt_compat; auto]).
    assert (INR k / INR (p - 1) <= 1)%R by (apply Rmult_le_reg_r with (INR (p - 1)); [auto|]; unfold Rdiv; rewrite Rmult_assoc, Rinv_l by lra; lra).
    split; [apply Rmult_le_pos; lra|]. rewrite <- (Rmult_1_r w) at 2. apply Rmult_le_compat_l; lra.
Qed.

(** ** Edges *)
Section Axis.
  Variable w : list R.
  Hypothesis POS : forall x, In x w -> (0 < x)%R.
  Lemma edge_S i : left_edge w (S i) = (left_edge w i + nth i w 0)%R.
  Proof. reflexivity. Qed.
  Lemma edge_lt i j : i < j -> j <= List.length w -> (left_edge w i < left_edge w j)%R.
  Proof.
    intros H L. induction j as [|j IH]; [lia|]. rewrite edge_S.
    assert (0 < nth j w 0)%R by (apply POS, nth_In; lia).
    destruct (Nat.eq_dec i j) as [->|N]; [lra|]. assert (left_edge w i < left_edge w j)%R by (apply IH; lia). lra.
  Qed.
  Lemma edge_le i j : i <= j -> j <= List.length w -> (left_edge w i <= left_edge w j)%R.
  Proof. intros H L. destruct (Nat.eq_dec i j) as [->|N]; [lra|]. left. apply edge_lt; lia. Qed.
  Lemma in_cell_unique a i x : in_cell w i x -> (left_edge w a < x < left_edge w (S a))%R -> a < List.length w -> i = a.
  Proof.
    intros [Li Hi] Ha La. destruct (Nat.lt_trichotomy i a) as [H|[H|H]]; auto.
    - pose proof (@edge_le (S i) a ltac:(lia) ltac:(lia)). lra.
    - pose proof (@edge_le (S a) i ltac:(lia) ltac:(lia)). lra.
  Qed.
  Lemma edge_pos : w <> [] -> (0 < left_edge w (List.length w))%R.
  Proof. intros H. destruct w as [|a r] eqn:E; [tauto|]. rewrite <- E in *. change 0%R with (left_edge w 0). apply edge_lt; auto. rewrite E. cbn. lia. Qed.
  Lemma edge_two m : (forall x, In x w -> (m <= x)%R) -> 2 <= List.length w -> (2 * m <= left_edge w (List.length w))%R.
  Proof.
    intros HM L. pose proof (@edge_le 2 (List.length w) L (le_n _)) as E. rewrite !edge_S in E.
    change (left_edge w 0) with 0%R in E.
    pose proof (HM _ (@nth_In _ 0 w 0%R ltac:(lia))). pose proof (HM _ (@nth_In _ 1 w 0%R ltac:(lia))). lra.
  Qed.
  Lemma edge_one m : (forall x, In x w -> (m <= x)%R) -> 1 <= List.length w -> (m <= left_edge w (List.length w))%R.
  Proof.
    intros HM L. pose proof (@edge_le 1 (List.length w) L (le_n _)) as E. rewrite !edge_S in E.
    change (left_edge w 0) with 0%R in E. pose proof (HM _ (@nth_In _ 0 w 0%R ltac:(lia))). lra.
  Qed.
End Axis.

Lemma min_spec a b : ((min_ a b = a \/ min_ a b = b) /\ min_ a b <= a /\ min_ a b <= b)%R.
Proof. unfold min_. destruct (Rlt_dec b a); lra. Qed.

Definition finest (hi : R) (m : mesh) : R := min_ (vec_min hi (mdx m)) (vec_min hi (mdy m)).
Lemma finest_spec hi m : mesh_good m -> (0 < hi)%R ->
  (0 < finest hi m)%R /\ (forall x, In x (mdx m) -> (finest hi m <= x)%R) /\ (forall x, In x (mdy m) -> (finest hi m <= x)%R).
Proof.
  intros G H. unfold finest. destruct (min_spec (vec_min hi (mdx m)) (vec_min hi (mdy m))) as (A & B & C).
  destruct (vec_min_gen (mdx m) hi) as (X1 & X2 & X3). destruct (vec_min_gen (mdy m) hi) as (Y1 & Y2 & Y3).
  destruct G as (_ & _ & _ & P & _).
  split; [|split; intros x Hx; [specialize (X3 x Hx)|specialize (Y3 x Hx)]; lra].
  destruct A as [-> | ->]; [destruct X1 as [-> |I]|destruct Y1 as [-> |I]]; auto.
Qed.

Section Mesh.
  Variables (hi : R) (m : mesh) (n : nat).
  Hypothesis G : mesh_good m.
  Hypothesis HI : (0 < hi)%R.
  Hypothesis N : 0 < n.
  Let w := finest hi m.
  Let nx := n * Z.to_nat (ceil (twx m / w)).
  Let ny := n * Z.to_nat (ceil (twy m / w)).

  Lemma w_pos : (0 < w)%R. Proof. apply (finest_spec G HI). Qed.
  Lemma xpos : forall x, In x (mdx m) -> (0 < x)%R.
  Proof. intros x H. destruct G as (_ & _ & _ & P & _). auto. Qed.
  Lemma ypos : forall x, In x (mdy m) -> (0 < x)%R.
  Proof. intros x H. destruct G as (_ & _ & _ & P & _). auto. Qed.
  Lemma zpos : forall x, In x (mdz m) -> (0 < x)%R.
  Proof. intros x H. destruct G as (_ & _ & _ & P & _). auto. Qed.
  Lemma wx_pos : (0 < twx m)%R.
  Proof. pose proof xpos as P. destruct G as (L & _ & _ & _ & E & _ & _ & Q & _). rewrite <- E, <- L. apply edge_pos; auto. destruct (mdx m); [cbn in L; lia|discriminate]. Qed.
  Lemma wy_pos : (0 < twy m)%R.
  Proof. pose proof ypos as P. destruct G as (_ & L & _ & _ & _ & E & _ & _ & Q & _). rewrite <- E, <- L. apply edge_pos; auto. destruct (mdy m); [cbn in L; lia|discriminate]. Qed.
  Lemma wz_pos : (0 < twz m)%R.
  Proof. pose proof zpos as P. destruct G as (_ & _ & L & _ & _ & _ & E & _ & _ & Q & _). rewrite <- E, <- L. apply edge_pos; auto. destruct (mdz m); [cbn in L; lia|discriminate]. Qed.
  Lemma div_pos a b : (0 < a)%R -> (0 < b)%R -> (0 < a / b)%R.
  Proof. intros. apply Rdiv_lt_0_compat; auto. Qed.
  Lemma nx_pos : 0 < nx.
  Proof. pose proof (@ceil_pos _ (div_pos wx_pos w_pos)). unfold nx. nia. Qed.
  Lemma ny_pos : 0 < ny.
  Proof. pose proof (@ceil_pos _ (div_pos wy_pos w_pos)). unfold ny. nia. Qed.

  Lemma pixels_eq : mesh_pixels hi m n = (nx, ny). Proof. reflexivity. Qed.

  Lemma found i j : i < nx -> j < ny -> exists c, find_cell m (spot (twx m) nx i, spot (twy m) ny j, 0%R) = Some c /\
    shows m c (spot (twx m) nx i) (spot (twy m) ny j).
  Proof.
    intros Hi Hj. destruct (find_cell_spec (spot (twx m) nx i) (spot (twy m) ny j) 0%R G) as [A B].
    destruct (find_cell m _) as [c|] eqn:E.
    - exists c. split; auto. destruct (B c eq_refl) as (Q1 & Q2 & Q3 & _). split; auto.
    - exfalso. apply (proj1 A eq_refl). pose proof wx_pos. pose proof wy_pos. pose proof wz_pos.
      pose proof (@spot_range (twx m) nx i ltac:(lra) Hi). pose proof (@spot_range (twy m) ny j ltac:(lra) Hj). lra.
  Qed.

  Lemma raster_square : twx m = twy m ->
    exists r, mesh_raster hi m n = Ok r /\ r_nx r = nx /\ r_ny r = nx /\ List.length (r_cells r) = nx * nx /\
    forall i j, i < nx -> j < nx -> exists c, nth_error (r_cells r) (i + j * nx) = Some (Some c) /\
      shows m c (spot (twx m) nx i) (spot (twy m) nx j).
  Proof.
    intros SQ. assert (E : ny = nx) by (unfold ny, nx; rewrite SQ; reflexivity).
    unfold mesh_raster. rewrite pixels_eq, E.
    destruct (@fill_square nx (fun j => j) (fun x y => Ok (find_cell m (x, y, 0%R)))
      (linspace 0%R (twx m) nx) (linspace 0%R (twy m) nx) (spot (twx m) nx) (spot (twy m) nx)
      (fun i j => find_cell m (spot (twx m) nx i, spot (twy m) nx j, 0%R))) as (c & EC & L & H); auto.
    - intros. apply linspace_rd. auto.
    - intros. apply linspace_rd. auto.
    - intros r Hr. exists r. auto.
    - rewrite EC. cbn [bind]. eexists. split; [reflexivity|]. cbn [r_nx r_ny r_cells]. split; auto. split; auto. split; auto.
      intros i j Hi Hj. destruct (found Hi (eq_ind_r (fun k => j < k) Hj E)) as (k & F & S). rewrite E in *.
      exists k. split; auto. rewrite H, F by auto. reflexivity.
  Qed.

  Lemma raster_tall : (exists d, (In d (mdx m) \/ In d (mdy m)) /\ twx m + d <= twy m)%R -> mesh_raster hi m n = UB.
  Proof.
    intros (d & Hd & H). assert (w <= d)%R by (destruct (finest_spec G HI) as (_ & A & B); destruct Hd; auto).
    pose proof w_pos as W. pose proof wx_pos as X. pose proof wy_pos as Y.
    assert (L : nx + 1 <= ny).
    { unfold nx, ny. assert (Z.to_nat (ceil (twx m / w)) + 1 <= Z.to_nat (ceil (twy m / w))); [|nia].
      apply INR_le. rewrite plus_INR. rewrite !ceil_INR by (apply div_pos; auto). cbn [INR].
      destruct (ceil_spec (twx m / w)) as [_ A]. destruct (ceil_spec (twy m / w)) as [B _].
      assert (C : (twx m / w + 1 <= twy m / w)%R).
      { apply Rmult_le_reg_r with w; auto. unfold Rdiv. rewrite Rmult_plus_distr_r, !Rmult_assoc, Rinv_l by lra. lra. }
      assert (D : (ceil (twx m / w) < ceil (twy m / w))%Z) by (apply lt_IZR; lra).
      rewrite <- plus_IZR. apply IZR_le. lia. }
    unfold mesh_raster. rewrite pixels_eq.
    rewrite (@fill_tall nx ny (fun j => j) _ _ _ (spot (twx m) nx) (spot (twy m) ny)
      (fun i j => find_cell m (spot (twx m) nx i, spot (twy m) ny j, 0%R)) (ny - 1)).
    - reflexivity.
    - apply nx_pos.
    - lia.
    - lia.
    - intros. apply linspace_rd. auto.
    - intros. apply linspace_rd. auto.
    - reflexivity.
  Qed.

  Lemma raster_wide : (exists d, (In d (mdx m) \/ In d (mdy m)) /\ twy m + d <= twx m)%R ->
    2 <= n \/ 2 <= ncy m -> 2 <= ncx m \/ 2 <= ncy m ->
    exists r, mesh_raster hi m n = Ok r /\
      exists c, nth_error (r_cells r) (r_nx r - 1 + (r_ny r - 1) * r_nx r) = Some (Some c) /\
        ~ shows m c (spot (twx m) (r_nx r) (r_nx r - 1)) (spot (twy m) (r_ny r) (r_ny r - 1)).
  Proof.
    intros (d & Hd & H) HN HC. destruct (finest_spec G HI) as (_ & A1 & B1). fold w in A1, B1.
    assert (w <= d)%R by (destruct Hd; auto).
    pose proof w_pos as W. pose proof wx_pos as X. pose proof wy_pos as Y.
    assert (L : ny + 1 <= nx).
    { unfold nx, ny. assert (Z.to_nat (ceil (twy m / w)) + 1 <= Z.to_nat (ceil (twx m / w))); [|nia].
      apply INR_le. rewrite plus_INR. rewrite !ceil_INR by (apply div_pos; auto). cbn [INR].
      destruct (ceil_spec (twy m / w)) as [_ A]. destruct (ceil_spec (twx m / w)) as [B _].
      assert (C : (twy m / w + 1 <= twx m / w)%R).
      { apply Rmult_le_reg_r with w; auto. unfold Rdiv. rewrite Rmult_plus_distr_r, !Rmult_assoc, Rinv_l by lra. lra. }
      assert (D : (ceil (twy m / w) < ceil (twx m / w))%Z) by (apply lt_IZR; lra).
      rewrite <- plus_IZR. apply IZR_le. lia. }
    pose proof xpos as XP. pose proof ypos as YP.
    destruct G as (LX & LY & LZ & _ & EX & EY & _).
    assert (Y2 : 2 <= ny).
    { pose proof (@ceil_pos _ (div_pos Y W)). unfold ny. destruct HN as [HN|HN]; [nia|].
      assert (2 <= Z.to_nat (ceil (twy m / w))); [|nia]. apply INR_le. rewrite ceil_INR by (apply div_pos; auto).
      destruct (ceil_spec (twy m / w)) as [B _]. cbn [INR].
      pose proof (@edge_two (mdy m) YP w B1 ltac:(lia)) as T. rewrite LY, EY in T.
      assert ((1 + 1) <= twy m / w)%R; [|lra]. apply Rmult_le_reg_r with w; auto. unfold Rdiv. rewrite Rmult_assoc, Rinv_l by lra. lra. }
    unfold mesh_raster. rewrite pixels_eq.
    destruct (@fill_wide nx ny (fun j => j) (fun x y => Ok (find_cell m (x, y, 0%R)))
      (linspace 0%R (twx m) nx) (linspace 0%R (twy m) ny) (spot (twx m) nx) (spot (twy m) ny)
      (fun i j => find_cell m (spot (twx m) nx i, spot (twy m) ny j, 0%R))) as (c & EC & LC & K); auto; try lia.
    - intros. apply linspace_rd. auto.
    - intros. apply linspace_rd. auto.
    - rewrite EC. cbn [bind]. eexists. split; [reflexivity|]. cbn [r_nx r_ny r_cells].
      exists 0. split; [exact K|]. intros (_ & (Q1 & Q2) & (Q3 & Q4)).
      assert (S1 : spot (twx m) nx (nx - 1) = twx m).
      { unfold spot. field. apply not_0_INR. lia. }
      assert (S2 : spot (twy m) ny (ny - 1) = twy m).
      { unfold spot. field. apply not_0_INR. lia. }
      assert (C0 : cell_to_i (ncx m) 0 = 0). { unfold cell_to_i. apply Nat.mod_0_l. lia. }
      assert (D0 : cell_to_j (ncx m) (ncy m) 0 = 0).
      { unfold cell_to_j. rewrite Nat.mod_0_l by nia. apply Nat.div_0_l. lia. }
      rewrite S1 in Q2. rewrite S2 in Q4. rewrite C0 in Q2. rewrite D0 in Q4.
      destruct HC as [HC|HC].
      + pose proof (@edge_lt _ XP 1 (ncx m) ltac:(lia) ltac:(lia)). rewrite EX in H1. lra.
      + pose proof (@edge_lt _ YP 1 (ncy m) ltac:(lia) ltac:(lia)). rewrite EY in H1. lra.
  Qed.

  (** Finer than one pixel per smallest cell: every cell is met. *)
  Lemma axis_met (wd : list R) (tw : R) (a : nat) :
    (forall x, In x wd -> (0 < x)%R) -> (forall x, In x wd -> (w <= x)%R) -> left_edge wd (List.length wd) = tw ->
    2 <= n -> a < List.length wd ->
    let p := n * Z.to_nat (ceil (tw / w)) in
    exists i, i < p /\ forall k, in_cell wd k (spot tw p i) -> k = a.
  Proof.
    intros P M T N2 A p. pose proof w_pos as W.
    assert (TP : (0 < tw)%R) by (rewrite <- T; apply edge_pos; auto; destruct wd; [cbn in A; lia|discriminate]).
    pose proof (@ceil_pos _ (div_pos TP W)) as CP. assert (PP : 2 <= p) by (unfold p; nia).
    destruct (Nat.eq_dec (List.length wd) 1) as [L1|L1].
    - exists 0. split; [lia|]. intros k [K _]. lia.
    - pose proof (@edge_two wd P w M ltac:(lia)) as T2. rewrite T in T2.
      set (h := (tw / INR (p - 1))%R).
      assert (Q : (0 < INR (p - 1))%R) by (apply lt_0_INR; lia).
      assert (HP : (0 < h)%R) by (apply div_pos; auto).
      assert (HW : (h < w)%R).
      { assert (tw / w < INR (p - 1))%R.
        { rewrite minus_INR by lia. cbn [INR]. unfold p. rewrite mult_INR, ceil_INR by (apply div_pos; auto).
          destruct (ceil_spec (tw / w)) as [C _].
          assert (2 <= INR n)%R by (change 2%R with (INR 2); apply le_INR; lia).
          assert (2 <= tw / w)%R by (apply Rmult_le_reg_r with w; auto; unfold Rdiv; rewrite Rmult_assoc, Rinv_l by lra; lra).
          assert (2 * (tw / w) <= INR n * IZR (ceil (tw / w)))%R by (apply Rmult_le_compat; lra). lra. }
        unfold h. apply Rmult_lt_reg_r with (INR (p - 1)); auto. unfold Rdiv. rewrite Rmult_assoc, Rinv_l by lra.
        apply Rmult_lt_compat_r with (r := w) in H; auto. unfold Rdiv in H. rewrite Rmult_assoc, Rinv_l in H by lra. lra. }
      pose proof (@edge_le wd P 0 a ltac:(lia) ltac:(lia)) as E0. change (left_edge wd 0) with 0%R in E0.
      pose proof (@edge_le wd P (S a) (List.length wd) ltac:(lia) ltac:(lia)) as E1. rewrite T in E1.
      assert (ES : (left_edge wd a + w <= left_edge wd (S a))%R).
      { rewrite edge_S. pose proof (M _ (@nth_In _ a wd 0%R A)). lra. }
      destruct (archimed (left_edge wd a / h)) as [U1 U2].
      set (u := up (left_edge wd a / h)) in *.
      assert (Q0 : (0 <= left_edge wd a / h)%R) by (apply Rmult_le_pos; [auto|left; apply Rinv_0_lt_compat; auto]).
      assert (UP : (0 < u)%Z) by (apply lt_IZR; lra).
      exists (Z.to_nat u).
      assert (EI : INR (Z.to_nat u) = IZR u) by (rewrite INR_IZR_INZ, Z2Nat.id; auto; lia).
      assert (SP : spot tw p (Z.to_nat u) = (IZR u * h)%R) by (unfold spot, h; rewrite EI; field; lra).
      assert (G1 : (left_edge wd a < IZR u * h)%R).
      { apply Rmult_lt_compat_r with (r := h) in U1; auto. unfold Rdiv in U1. rewrite Rmult_assoc, Rinv_l in U1 by lra. lra. }
      assert (G2 : (IZR u * h <= left_edge wd a + h)%R).
      { assert (IZR u <= left_edge wd a / h + 1)%R by lra. apply Rmult_le_compat_r with (r := h) in H; [|lra].
        unfold Rdiv in H. rewrite Rmult_plus_distr_r, Rmult_assoc, Rinv_l in H by lra. lra. }
      split.
      + apply INR_lt. rewrite EI. assert (IZR u < INR (p - 1))%R.
        { apply Rmult_lt_reg_r with h; auto. replace (INR (p - 1) * h)%R with tw by (unfold h; field; lra). lra. }
        rewrite minus_INR in H by lia. cbn [INR] in H. lra.
      + intros k K. rewrite SP in K. apply (in_cell_unique P K); auto. lra.
  Qed.

  Lemma every_cell : twx m = twy m -> 2 <= n -> dim m <= 2 -> forall r, mesh_raster hi m n = Ok r ->
    forall c, c < ncells m -> In (Some c) (r_cells r).
  Proof.
    intros SQ N2 D r ER c C. destruct (raster_square SQ) as (r' & ER' & _ & _ & _ & H). rewrite ER in ER'. injection ER' as <-.
    destruct (finest_spec G HI) as (_ & A1 & B1). pose proof xpos as XP. pose proof ypos as YP.
    assert (E : ny = nx) by (unfold ny, nx; rewrite SQ; reflexivity).
    assert (GG := G). destruct GG as (LX & LY & LZ & _ & EX & EY & _ & PX & PY & PZ & _ & _ & D3).
    assert (NZ : ncz m = 1) by (apply D3; lia). unfold ncells in C. rewrite NZ in C.
    assert (CI : cell_to_i (ncx m) c < ncx m) by (unfold cell_to_i; apply Nat.mod_upper_bound; lia).
    assert (CJ : cell_to_j (ncx m) (ncy m) c < ncy m).
    { unfold cell_to_j. apply Nat.div_lt_upper_bound; [lia|]. apply Nat.mod_upper_bound. nia. }
    destruct (@axis_met (mdx m) (twx m) (cell_to_i (ncx m) c)) as (i & Hi & Ki); auto; [congruence|lia|].
    destruct (@axis_met (mdy m) (twy m) (cell_to_j (ncx m) (ncy m) c)) as (j & Hj & Kj); auto; [congruence|lia|].
    fold nx in Hi, Ki. fold ny in Hj, Kj. rewrite E in Hj, Kj.
    destruct (H i j Hi Hj) as (k & Ek & Lk & Xk & Yk).
    apply Ki in Xk. apply Kj in Yk. replace c with k; [eapply nth_error_In; exact Ek|].
    unfold ncells in Lk. rewrite NZ in Lk. unfold cell_to_i, cell_to_j in Xk, Yk.
    rewrite !(Nat.mod_small _ (ncx m * ncy m)) in Yk by lia.
    rewrite (Nat.div_mod k (ncx m)), (Nat.div_mod c (ncx m)) by lia. congruence.
  Qed.
End Mesh.

(** ** Geometries *)
Lemma geo_pixels_pos wx wy d : 0 < fst (geo_pixels wx wy d) /\ 0 < snd (geo_pixels wx wy d).
Proof. unfold geo_pixels. cbn [fst snd]. lia. Qed.

Lemma find_total geo p : (forall r, In r geo -> rnode r <> None) -> exists o, geo_find geo p = Ok o.
Proof.
  unfold geo_find. generalize 0. induction geo as [|r t IH]; intros i H; cbn [geo_find_from]; [eauto|].
  unfold region_contains. destruct (rnode r) as [nd|] eqn:E; [|exfalso; apply (H r (or_introl eq_refl)); auto].
  assert (exists b, (if have_bound r then if pleb (rmin r) p && pleb p (rmax r) then Ok (contains nd p) else Ok (contains nd p) else Ok (contains nd p)) = Ok b) as (b & Eb).
  { destruct (have_bound r); [destruct (_ && _)|]; eauto. }
  rewrite Eb. cbn [bind]. destruct b; [eauto|]. apply IH. intros q Q. apply H. right. auto.
Qed.

Lemma geo_square geo w delta :
  (forall r, In r geo -> rnode r <> None) ->
  exists r p, geo_raster geo w w delta = Ok r /\ r_nx r = p /\ r_ny r = p /\ 5 <= p /\ List.length (r_cells r) = p * p /\
  forall i j, i < p -> j < p -> exists o, nth_error (r_cells r) (i + j * p) = Some o /\
    geo_find geo (P3 (middle w p i) (middle w p (p - 1 - j)) 0%R) = Ok o.
Proof.
  intros D. unfold geo_raster.
  assert (E : exists p, geo_pixels w w delta = (p, p) /\ 5 <= p) by (unfold geo_pixels; eexists; split; [reflexivity|lia]).
  destruct E as (p & E & P5). rewrite E.
  set (get := fun i j => match geo_find geo (P3 (middle w p i) (middle w p (p - 1 - j)) 0%R) with Ok o => o | _ => None end).
  destruct (@fill_square p (fun j => p - j - 1) (fun x y => geo_find geo (P3 x y 0%R))
    (linspace_center 0%R w p) (linspace_center 0%R w p) (middle w p) (middle w p) get) as (c & EC & L & H).
  - intros. lia.
  - intros. apply center_rd. auto.
  - intros. apply center_rd. auto.
  - intros i j Hi Hj. unfold get. replace (p - 1 - (p - j - 1)) with j by lia.
    destruct (@find_total geo (P3 (middle w p i) (middle w p j) 0%R) D) as (o & ->). reflexivity.
  - intros r Hr. exists (p - 1 - r). lia.
  - rewrite EC. cbn [bind]. eexists. exists p. split; [reflexivity|]. cbn [r_nx r_ny r_cells].
    split; auto. split; auto. split; auto. split; auto. intros i j Hi Hj. exists (get i j). split; [apply H; auto|].
    unfold get. destruct (@find_total geo (P3 (middle w p i) (middle w p (p - 1 - j)) 0%R) D) as (o & ->). reflexivity.
Qed.

Lemma geo_tall geo wx wy delta :
  (forall r, In r geo -> rnode r <> None) ->
  fst (geo_pixels wx wy delta) < snd (geo_pixels wx wy delta) -> geo_raster geo wx wy delta = UB.
Proof.
  intros D. destruct (geo_pixels_pos wx wy delta) as [A B]. unfold geo_raster. destruct (geo_pixels wx wy delta) as [nx ny]. cbn [fst snd] in *. intros H.
  set (get := fun i j => match geo_find geo (P3 (middle wx nx i) (middle wy ny j) 0%R) with Ok o => o | _ => None end).
  rewrite (@fill_tall nx ny (fun j => ny - j - 1) _ _ _ (middle wx nx) (middle wy ny) get 0); auto; try lia.
  - intros. apply center_rd. auto.
  - intros. apply center_rd. auto.
  - intros i j Hi Hj. unfold get.
    destruct (@find_total geo (P3 (middle wx nx i) (middle wy ny j) 0%R) D) as (o & ->). reflexivity.
Qed.

Lemma geo_tall_width geo wx wy delta :
  (forall r, In r geo -> rnode r <> None) -> (0 < wx)%R -> (0 < delta)%R -> (wx + delta <= wy)%R ->
  geo_raster geo wx wy delta = UB.
Proof.
  intros D X DP H. apply geo_tall; auto. unfold geo_pixels. cbn [fst snd].
  destruct (min_spec (min_ delta (wx / 5)%R) (wy / 5)%R) as (A & B & C).
  destruct (min_spec delta (wx / 5)%R) as (A' & B' & C').
  set (w := min_ (min_ delta (wx / 5)%R) (wy / 5)%R) in *.
  assert (W : (0 < w)%R) by (destruct A as [-> | ->]; [destruct A' as [-> | ->]|]; lra).
  destruct (ceil_spec (wx / w)) as [_ E1]. destruct (ceil_spec (wx / w)) as [E0 _]. destruct (ceil_spec (wy / w)) as [E2 _].
  assert (F : (wx / w + 1 <= wy / w)%R).
  { apply Rmult_le_reg_r with w; auto. unfold Rdiv. rewrite Rmult_plus_distr_r, !Rmult_assoc, Rinv_l by lra. lra. }
  assert (F5 : (5 <= wx / w)%R).
  { apply Rmult_le_reg_r with w; auto. unfold Rdiv. rewrite !Rmult_assoc, Rinv_l by lra. lra. }
  assert (ceil (wx / w) < ceil (wy / w))%Z by (apply lt_IZR; lra).
  assert (5 <= ceil (wx / w))%Z by (apply le_IZR; lra). lia.
Qed.
