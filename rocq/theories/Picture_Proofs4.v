(** * Proofs on whole pictures (no model content) *)
From Coq Require Import ZArith Lra Lia.
From Verif Require Import Base BaseR Loop Util_Model Util_Spec Util_Proofs Mesh_Model Mesh_Spec Mesh_Proofs Csg_Model
  Csg_Spec Csg_Proofs Picture_Model Picture_Spec Picture_Proofs Picture_Proofs2 Picture_Proofs3.
Open Scope nat_scope.
Set Implicit Arguments. Unset Strict Implicit.

Lemma copy_all A (d : A) (l : list A) n : List.length l = n -> mapM (rd l) (seq 0 n) = Ok l.
Proof.
  intros <-. rewrite (@mapM_ok _ _ (rd l) (fun k => nth k l d)).
  - f_equal. apply (@list_ext_nth _ d); [rewrite map_length, seq_length; auto|].
    intros k Hk. rewrite map_length, seq_length in Hk. apply nth_map_seq. auto.
  - intros k Hk. apply in_seq in Hk. apply rd_ok. lia.
Qed.

Lemma write_ok hi lo nx ny c data cs : List.length data = nx * ny -> List.length cs = nx * ny ->
  color hi lo c data = Ok cs -> write hi lo nx ny c data = Ok {| p_w := nx; p_h := ny; p_rgb := cs |}.
Proof.
  intros L1 L2 E. unfold write. rewrite (@copy_all _ 0%R) by auto. cbn [bind]. rewrite E. cbn [bind].
  rewrite (@copy_all _ (0, 0, 0)%Z) by auto. reflexivity.
Qed.

Lemma index_parts p k : k < p * p -> exists i j, i < p /\ j < p /\ k = i + j * p.
Proof.
  intros H. assert (p <> 0) by (intros ->; lia). exists (k mod p), (k / p).
  pose proof (Nat.mod_upper_bound k p ltac:(auto)). pose proof (Nat.div_mod k p ltac:(auto)).
  split; auto. split; [apply Nat.div_lt_upper_bound; auto|lia].
Qed.

Lemma square_picture hi lo m n values :
  mesh_good m -> dim m <= 2 -> twx m = twy m -> 2 <= n -> (0 < hi)%R ->
  List.length values = ncells m -> (forall x, In x values -> 0 <= x <= hi)%R ->
  (exists a b, In a values /\ In b values /\ (a < b)%R) ->
  exists pic p fc, mesh_picture hi lo m n values = Ok pic /\ 0 < p /\ p_w pic = p /\ p_h pic = p /\
    List.length (p_rgb pic) = p * p /\
    (forall i j, i < p -> j < p -> exists c, shows m c (spot (twx m) p i) (spot (twy m) p j) /\
       nth_error (p_rgb pic) (i + j * p) = Some (fc (nth c values 0%R))) /\
    (forall c, c < ncells m -> exists i j, i < p /\ j < p /\
       nth_error (p_rgb pic) (i + j * p) = Some (fc (nth c values 0%R))) /\
    (forall x, In x values -> is_rgb (fc x)) /\
    (forall x y, In x values -> In y values -> (x <= y)%R -> (red (fc x) <= red (fc y))%Z /\ (blue (fc y) <= blue (fc x))%Z) /\
    (forall x, is_min_of x values -> fc x = (0, 0, 255)%Z) /\
    (forall x, is_max_of x values -> (lo <= x)%R -> fc x = (255, 0, 0)%Z).
Proof.
  intros G D SQ N2 HI LV V DIFF.
  destruct (@raster_square hi m n G ltac:(lia) SQ) as (r & ER & EX & EY & LR & H).
  pose proof (@every_cell hi m n G HI ltac:(lia) SQ N2 D r ER) as EV.
  set (p := n * Z.to_nat (ceil (twx m / finest hi m))) in *.
  assert (PP : 0 < p) by (apply nx_pos; auto; lia).
  set (gv := fun c : option nat => match c with None => 0%R | Some k => nth k values 0%R end).
  assert (CS : forall c, In c (r_cells r) -> exists k, c = Some k /\ k < ncells m).
  { intros c I. apply In_nth_error in I. destruct I as (q & Q).
    assert (q < p * p) by (rewrite <- LR; apply nth_error_Some; congruence).
    destruct (index_parts H0) as (i & j & Hi & Hj & ->). destruct (H i j Hi Hj) as (k & K1 & K2 & _).
    exists k. split; [congruence|auto]. }
  assert (ED : mesh_data r values = Ok (map gv (r_cells r))).
  { unfold mesh_data. apply mapM_ok. intros c I. destruct (CS c I) as (k & -> & K). apply rd_ok. lia. }
  assert (IM : forall x, In x (map gv (r_cells r)) <-> In x values).
  { intros x. rewrite in_map_iff. split.
    - intros (c & <- & I). destruct (CS c I) as (k & -> & K). apply nth_In. lia.
    - intros I. apply (In_nth _ _ 0%R) in I. destruct I as (k & K & <-). exists (Some k). split; auto. apply EV. lia. }
  destruct (@default_spec hi lo (map gv (r_cells r))) as (fc & EC & C1 & C2 & C3 & C4).
  { intros x X. apply V, IM. auto. }
  { destruct DIFF as (a & b & A & B & AB). exists a, b. rewrite !IM. auto. }
  unfold mesh_picture. rewrite ER. cbn [bind]. rewrite ED. cbn [bind]. rewrite EX, EY.
  rewrite (@write_ok hi lo p p Default _ (map fc (map gv (r_cells r)))); [|rewrite map_length; auto|rewrite !map_length; auto|auto].
  eexists. exists p, fc. split; [reflexivity|]. cbn [p_w p_h p_rgb]. split; [auto|]. split; [auto|]. split; [auto|].
  split; [rewrite !map_length; auto|]. split; [|split; [|split; [|split; [|split]]]].
  - intros i j Hi Hj. destruct (H i j Hi Hj) as (c & K & S). exists c. split; auto.
    rewrite map_map. erewrite map_nth_error by exact K. reflexivity.
  - intros c Hc. pose proof (EV c Hc) as I. apply In_nth_error in I. destruct I as (q & Q).
    assert (Lq : q < p * p) by (rewrite <- LR; apply nth_error_Some; congruence).
    destruct (index_parts Lq) as (i & j & Hi & Hj & ->). exists i, j. split; auto. split; auto.
    rewrite map_map. erewrite map_nth_error by exact Q. reflexivity.
  - intros x X. apply C1, IM. auto.
  - intros x y X Y. apply C2; apply IM; auto.
  - intros x [I M]. apply C3; [|apply V; auto]. split; [apply IM; auto|]. intros a A. apply M, IM. auto.
  - intros x [I M]. apply C4. split; [apply IM; auto|]. intros a A. apply M, IM. auto.
Qed.

(** ** With one pixel per smallest cell a cell can be missing *)
Lemma ones x I : x < 3 -> I = x -> in_coarse [1; 1; 1] I x.
Proof. intros H ->. unfold in_coarse, psum. destruct x as [|[|[|x]]]; cbn; lia. Qed.
Lemma min_list hi l v : In v l -> (forall x, In x l -> (v <= x)%R) -> (v <= hi)%R -> vec_min hi l = v.
Proof.
  intros I M H. destruct (vec_min_gen l hi) as (A & B & C). pose proof (C v I).
  destruct A as [A|A]; [lra|]. pose proof (M _ A). lra.
Qed.
Lemma ceil_is x z : (IZR z - 1 < x <= IZR z)%R -> ceil x = z.
Proof.
  intros H. destruct (ceil_spec x) as [A B].
  assert (z - 1 < ceil x)%Z by (apply lt_IZR; rewrite minus_IZR; lra).
  assert (ceil x < z + 1)%Z by (apply lt_IZR; rewrite plus_IZR; lra). lia.
Qed.

Lemma cell_missed hi : (2 <= hi)%R -> exists m r c,
  mesh2D [1; 1; 1] [1; 1; 1] [0; 1.3; 2.3; 3.5]%R [0; 1.3; 2.3; 3.5]%R [0; 0; 0; 0; 1; 0; 0; 0; 0]%Z = Ok m /\
  mesh_raster hi m 1 = Ok r /\ c < ncells m /\ nth c (mat m) 0%Z = 1%Z /\ ~ In (Some c) (r_cells r).
Proof.
  intros HI.
  assert (AX : axis_ok [1; 1; 1] [0; 1.3; 2.3; 3.5]%R).
  { split; [discriminate|]. split; [intros f [<-|[<-|[<-|[]]]]; lia|]. split; auto.
    intros [|[|[|i]]] Hi; cbn in *; try lra; lia. }
  destruct (@mesh2D_ok [1; 1; 1] [1; 1; 1] [0; 1.3; 2.3; 3.5]%R [0; 1.3; 2.3; 3.5]%R [0; 0; 0; 0; 1; 0; 0; 0; 0]%Z AX AX eq_refl)
    as (m & E & G & NX & NY & NZ & D & WX & WY & WZ & CM & LM & _).
  cbn [list_sum fold_right] in NX, NY. cbn in NX, NY.
  assert (W : forall w, axis_widths [1; 1; 1] [0; 1.3; 2.3; 3.5]%R w -> w = [1.3; 1; 1.2]%R).
  { intros w (L & H & _). cbn in L. destruct w as [|a [|b [|c [|d w]]]]; try discriminate.
    pose proof (H 0 0 (@ones 0 0 ltac:(lia) eq_refl)) as H0. pose proof (H 1 1 (@ones 1 1 ltac:(lia) eq_refl)) as H1.
    pose proof (H 2 2 (@ones 2 2 ltac:(lia) eq_refl)) as H2. cbn in H0, H1, H2.
    replace a with 1.3%R by lra. replace b with 1%R by lra. replace c with 1.2%R by lra. reflexivity. }
  apply W in WX. apply W in WY. clear W.
  assert (GG := G). destruct GG as (LX & LY & LZ & _ & SX & SY & _).
  assert (TX : twx m = 3.5%R) by (rewrite <- SX, NX, WX; unfold left_edge; cbn; lra).
  assert (TY : twy m = 3.5%R) by (rewrite <- SY, NY, WY; unfold left_edge; cbn; lra).
  assert (F : finest hi m = 1%R).
  { unfold finest. rewrite WX, WY. rewrite (@min_list hi [1.3; 1; 1.2]%R 1%R); [| cbn; auto| |lra].
    - unfold min_. destruct (Rlt_dec 1 1); reflexivity.
    - intros x [<-|[<-|[<-|[]]]]; lra. }
  destruct (@raster_square hi m 1 G ltac:(lia) ltac:(congruence)) as (r & ER & EX & EY & LR & H).
  rewrite F, TX in *. rewrite TY in H. replace (ceil (3.5 / 1)) with 4%Z in * by (symmetry; apply ceil_is; lra).
  change (1 * Z.to_nat 4) with 4 in *.
  exists m, r, 4. split; auto. split; auto. split; [unfold ncells; rewrite NX, NY, NZ; cbn; lia|]. split.
  - apply (CM 1 1 0 1 1 0); [apply ones; lia|apply ones; lia|unfold in_coarse, psum; cbn; lia].
  - intros I. apply In_nth_error in I. destruct I as (q & Q).
    assert (Lq : q < 4 * 4) by (rewrite <- LR; apply nth_error_Some; congruence).
    destruct (index_parts Lq) as (i & j & Hi & Hj & ->). destruct (H i j Hi Hj) as (c & K1 & _ & K2 & _).
    rewrite Q in K1. injection K1 as <-. rewrite NX, WX in K2. change (cell_to_i 3 4) with 1 in K2.
    destruct K2 as [_ K2]. unfold left_edge, spot in K2. cbn in K2.
    destruct i as [|[|[|[|i]]]]; [| | | |lia]; cbn in K2; lra.
Qed.

(** ** Mesh and geometry pictures are mirrored *)
Lemma mirrored hi : (2 <= hi)%R -> exists m r g,
  mesh2D [1] [1; 1] [0; 2]%R [0; 1; 2]%R [0; 1]%Z = Ok m /\
  mesh_raster hi m 1 = Ok r /\ geo_raster (geometry_of_mesh m) 2%R 2%R 1%R = Ok g /\
  nth_error (r_cells r) 0 = Some (Some 0) /\ nth_error (r_cells g) 0 = Some (Some 1).
Proof.
  intros HI.
  destruct (@mesh2D_ok [1] [1; 1] [0; 2]%R [0; 1; 2]%R [0; 1]%Z) as (m & E & G & NX & NY & NZ & D & WX & WY & WZ & CM & LM & _).
  { split; [discriminate|]. split; [intros f [<-|[]]; lia|]. split; auto. intros [|i] Hi; cbn in *; try lra; lia. }
  { split; [discriminate|]. split; [intros f [<-|[<-|[]]]; lia|]. split; auto. intros [|[|i]] Hi; cbn in *; try lra; lia. }
  { reflexivity. }
  cbn in NX, NY.
  assert (WX' : mdx m = [2%R]).
  { destruct WX as (L & H & _). cbn in L. destruct (mdx m) as [|a [|b w]]; try discriminate.
    specialize (H 0 0 ltac:(unfold in_coarse, psum; cbn; lia)). cbn in H. replace a with 2%R by lra. reflexivity. }
  assert (WY' : mdy m = [1%R; 1%R]).
  { destruct WY as (L & H & _). cbn in L. destruct (mdy m) as [|a [|b [|c w]]]; try discriminate.
    pose proof (H 0 0 ltac:(unfold in_coarse, psum; cbn; lia)) as H0. pose proof (H 1 1 ltac:(unfold in_coarse, psum; cbn; lia)) as H1.
    cbn in H0, H1. replace a with 1%R by lra. replace b with 1%R by lra. reflexivity. }
  assert (GG := G). destruct GG as (LX & LY & LZ & _ & SX & SY & _).
  assert (TX : twx m = 2%R) by (rewrite <- SX, NX, WX'; unfold left_edge; cbn; lra).
  assert (TY : twy m = 2%R) by (rewrite <- SY, NY, WY'; unfold left_edge; cbn; lra).
  assert (NC : ncells m = 2) by (unfold ncells; rewrite NX, NY, NZ; reflexivity).
  destruct (@raster_square hi m 1 G ltac:(lia) ltac:(congruence)) as (r & ER & EX & EY & LR & H).
  assert (F : (0 < finest hi m)%R) by (apply finest_spec; auto; lra).
  assert (PP := @nx_pos hi m 1 G ltac:(lra) ltac:(lia)).
  destruct (@geo_square (geometry_of_mesh m) 2%R 1%R) as (g & p & EG & PX & PY & P5 & LG & HG).
  { intros q Q. apply In_nth_error in Q. destruct Q as (k & K).
    assert (k < ncells m).
    { assert (L : k < List.length (geometry_of_mesh m)) by (apply nth_error_Some; congruence).
      unfold geometry_of_mesh in L. rewrite NX, NY, NZ in L. cbn in L. lia. }
    destruct (@geometry_cell m k (P3 0 0 0) G H0) as (q' & E1 & _ & b & E2 & _). rewrite K in E1. injection E1 as <-.
    unfold region_contains in E2. destruct (rnode q); [discriminate|discriminate]. }
  exists m, r, g. split; auto. split; auto. split; auto. split.
  - destruct (H 0 0 PP PP) as (c & K1 & K2 & _ & K3). cbn [Nat.add Nat.mul] in K1. rewrite K1. f_equal. f_equal.
    rewrite NC in K2. rewrite NX, NY, WY' in K3. destruct c as [|[|c]]; [auto| |lia]. change (cell_to_j 1 2 1) with 1 in K3.
    destruct K3 as [_ K3]. unfold left_edge, spot in K3. cbn [rsum nth INR] in K3. unfold Rdiv in K3. rewrite Rmult_0_l, Rmult_0_r in K3. lra.
  - destruct (HG 0 0 ltac:(lia) ltac:(lia)) as (o & K1 & K2). cbn [Nat.add Nat.mul] in K1. rewrite K1. f_equal.
    destruct (@geometry_find m (P3 (middle 2 p 0) (middle 2 p (p - 1 - 0)) 0%R) G) as (o' & K3 & K4).
    rewrite K2 in K3. injection K3 as <-. apply K4. rewrite NC. split; [lia|].
    assert (PR : (0 < INR p)%R) by (apply lt_0_INR; lia).
    assert (P5R : (5 <= INR p)%R) by (change 5%R with (IZR (Z.of_nat 5)); rewrite <- INR_IZR_INZ; apply le_INR; auto).
    assert (IP : (0 < / INR p <= / 5)%R) by (split; [apply Rinv_0_lt_compat; auto|apply Rinv_le_contravar; lra]).
    unfold in_box_cell. cbn [px py pz]. rewrite NX, NY, WX', WY'. change (cell_to_i 1 1) with 0. change (cell_to_j 1 2 1) with 1.
    assert (M0 : middle 2 p 0 = / INR p) by (unfold middle; cbn [INR]; field; lra).
    assert (M1 : (middle 2 p (p - 1 - 0) = 2 - / INR p)%R).
    { unfold middle. rewrite Nat.sub_0_r, minus_INR by lia. cbn [INR]. field. lra. }
    rewrite M0, M1. unfold in_cell_ho, left_edge. cbn. split; [|split; [|rewrite D; discriminate]]; repeat split; try lia; lra.
Qed.

Lemma find_range_from geo p : forall i k, geo_find_from i geo p = Ok (Some k) -> i <= k < i + List.length geo.
Proof.
  induction geo as [|r t IH]; intros i k; cbn [geo_find_from List.length]; [discriminate|].
  destruct (region_contains r p) as [[]| |]; cbn [bind]; intros E; try discriminate.
  - inversion E; subst. lia.
  - apply IH in E. lia.
Qed.
Lemma find_range geo p k : geo_find geo p = Ok (Some k) -> k < List.length geo.
Proof. intros H. apply find_range_from in H. lia. Qed.

(** A picture of a geometry shows, at the middle of every pixel, the index or
    the material of the region there, and -1 outside all regions. *)
Lemma geo_values geo w delta flag :
  (forall r, In r geo -> rnode r <> None) ->
  exists r p data, geo_raster geo w w delta = Ok r /\ geo_data geo r flag = Ok data /\ 5 <= p /\ List.length data = p * p /\
  forall i j, i < p -> j < p -> exists o, geo_find geo (P3 (middle w p i) (middle w p (p - 1 - j)) 0%R) = Ok o /\
    match o with
    | None => nth_error data (i + j * p) = Some (-1)%R
    | Some k => exists g, nth_error geo k = Some g /\
        nth_error data (i + j * p) = Some (if flag then INR k else IZR (rmat g))
    end.
Proof.
  intros D. destruct (@geo_square geo w delta D) as (r & p & E & _ & _ & P5 & L & H).
  set (val := fun c : option nat => match c with None => (-1)%R | Some k => if flag then INR k else match nth_error geo k with Some g => IZR (rmat g) | None => 0%R end end).
  exists r, p, (map val (r_cells r)). split; auto. split; [|split; auto; split; [rewrite map_length; auto|]].
  - unfold geo_data. apply mapM_ok. intros c Hc. apply In_nth_error in Hc. destruct Hc as [q Hq].
    assert (Q : q < p * p) by (rewrite <- L; apply nth_error_Some; congruence).
    assert (EQ : q = q mod p + (q / p) * p) by (rewrite (Nat.div_mod q p) at 1; lia).
    destruct (H (q mod p) (q / p)) as (o & Ho & F); [apply Nat.mod_upper_bound; lia|apply Nat.div_lt_upper_bound; lia|].
    rewrite <- EQ, Hq in Ho. inversion Ho; subst o. unfold val. destruct c as [k|]; auto. destruct flag; auto.
    apply find_range in F. destruct (nth_error geo k) as [g|] eqn:G; [|apply nth_error_None in G; lia].
    unfold rd. rewrite G. reflexivity.
  - intros i j Hi Hj. destruct (H i j Hi Hj) as (o & Ho & F). exists o. split; auto.
    pose proof (map_nth_error val _ _ Ho) as M. destruct o as [k|]; auto.
    apply find_range in F. destruct (nth_error geo k) as [g|] eqn:G; [|apply nth_error_None in G; lia].
    exists g. split; auto. rewrite M. unfold val. rewrite G. reflexivity.
Qed.
