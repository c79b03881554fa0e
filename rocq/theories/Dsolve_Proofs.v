From Verif Require Import Base BaseR Util_Model Mesh_Model Mesh_Spec Mesh_Proofs Material_Model Material_Spec Matrix_Model Matrix_Spec Matrix_Proofs.
From Verif Require Import Diffusion_Model Diffusion_Spec Diffusion_Proofs Boundary_Proofs Dsolve_Model Dsolve_Spec.
From Coq Require Import Lra Classical.
Set Implicit Arguments. Unset Strict Implicit.
Open Scope nat_scope.

(** ** Accumulating into a vector *)
Definition adds (l : list (nat * R)) (Q : list R) : res (list R) := foldM (fun Q '(r, v) => bump Q r v) l Q.

Lemma bump_ok Q r v : r < length Q -> exists Q', bump Q r v = Ok Q' /\ length Q' = length Q /\
  forall k, nth k Q' 0%R = (nth k Q 0 + if r =? k then v else 0)%R.
Proof.
  intros H. exists (upd Q r (nth r Q 0 + v)%R). split; [|split].
  - unfold bump, rd. rewrite (nth_error_nth' Q 0%R H). cbn [bind]. unfold wr. apply Nat.ltb_lt in H. rewrite H. auto.
  - apply upd_length.
  - intros k. destruct (Nat.eqb_spec r k) as [<-|N].
    + rewrite nth_upd_eq by auto. auto.
    + rewrite nth_upd_neq by auto. ring.
Qed.

Lemma adds_ok l : forall Q, (forall p, In p l -> fst p < length Q) -> exists Q', adds l Q = Ok Q' /\ length Q' = length Q /\
  forall k, nth k Q' 0%R = (nth k Q 0 + sumR (map (fun p => if fst p =? k then snd p else 0) l))%R.
Proof.
  induction l as [|[r v] t IH]; intros Q H.
  - exists Q. split; [auto|split; [auto|]]. intros k. cbn. ring.
  - destruct (@bump_ok Q r v) as (Q1 & E1 & L1 & N1); [apply (H (r, v)); cbn; auto|].
    destruct (IH Q1) as (Q2 & E2 & L2 & N2).
    + intros p Hp. rewrite L1. apply H. cbn; auto.
    + exists Q2. split; [|split; [congruence|]].
      * unfold adds in *. cbn [foldM]. rewrite E1. cbn [bind]. exact E2.
      * intros k. rewrite N2, N1. cbn [map fst snd]. rewrite sumR_cons. ring.
Qed.

Lemma sumR_seq n (f : nat -> R) : sumR (map f (seq 0 n)) = rsum n f.
Proof.
  induction n as [|n IH]; [auto|]. rewrite seq_S, map_app, sumR_app, IH. cbn. ring.
Qed.

Lemma rsum_one n k (f : nat -> R) : k < n -> (forall j, j < n -> j <> k -> f j = 0%R) -> rsum n f = f k.
Proof.
  intros H Z. rewrite (@rsum_ext n f (fun j => if j =? k then f k else 0%R)).
  - apply rsum_delta. auto.
  - intros j Hj. cbn beta. destruct (Nat.eqb_spec j k) as [->|N]; [auto|apply Z; auto].
Qed.

Lemma foldM_in T X (f g : T -> X -> res T) l : forall s, (forall x s, In x l -> f s x = g s x) -> foldM f l s = foldM g l s.
  Proof.
    induction l as [|x l IH]; intros s H; [auto|]. cbn [foldM]. rewrite H by (cbn; auto).
    destruct (g s x); cbn [bind]; auto. apply IH. intros. apply H. cbn; auto.
  Qed.

Section S.
  Variable P : dprob.
  Hypothesis PK : prob_ok P.
  Let m := q_mesh P.
  Let n := ncells m.
  Let G := ng (q_mat P).

  Lemma P_good : mesh_good m. Proof. destruct PK as (H & _). exact H. Qed.
  Lemma P_ng : 0 < G. Proof. destruct PK as (_ & H & _). cbn in H. unfold G. lia. Qed.

  Lemma row_in c g : c < n -> g < G -> c + g * n < d_size P.
  Proof. intros Hc Hg. unfold d_size. fold m n G. nia. Qed.
  Lemma row_eq c g c' g' : c < n -> c' < n -> c + g * n = c' + g' * n -> c = c' /\ g = g'.
  Proof. intros H H' E. assert (g = g') by nia. subst. split; lia. Qed.

  (** ** Volume source *)
  Lemma add_source_ok f Q : length Q = d_size P -> exists Q', add_source P f Q = Ok Q' /\ length Q' = d_size P /\
    forall g c, g < G -> c < n -> nth (c + g * n) Q' 0%R = (nth (c + g * n) Q 0 + f c g)%R.
  Proof.
    intros L.
    assert (E : add_source P f Q = adds (flat_map (fun g => map (fun c => (c + g * n, f c g)) (seq 0 n)) (seq 0 G)) Q).
    { unfold add_source, adds. fold m n G. rewrite <- foldM_flat_map. apply foldM_in.
      intros g Q1 _. rewrite <- foldM_map. auto. }
    destruct (@adds_ok (flat_map (fun g => map (fun c => (c + g * n, f c g)) (seq 0 n)) (seq 0 G)) Q) as (Q' & E' & L' & N').
    - intros p Hp. apply in_flat_map in Hp as (g & Hg & Hp). apply in_map_iff in Hp as (c & <- & Hc).
      apply in_seq in Hg, Hc. cbn [fst]. rewrite L. apply row_in; lia.
    - exists Q'. split; [congruence|split; [congruence|]]. intros g c Hg Hc. rewrite N'. f_equal.
      rewrite map_flat_map, sumR_flat, sumR_seq. rewrite (@rsum_one G g) by
        (auto; intros j Hj NE; rewrite map_map; cbn [fst snd]; rewrite sumR_seq; apply (rsum_zero (n := n)); intros c' Hc';
         destruct (Nat.eqb_spec (c' + j * n) (c + g * n)) as [E1|]; auto; destruct (row_eq Hc' Hc E1); congruence).
      rewrite map_map. cbn [fst snd]. rewrite sumR_seq. rewrite (@rsum_one n c).
      + rewrite Nat.eqb_refl. auto.
      + auto.
      + intros c' Hc' NE. destruct (Nat.eqb_spec (c' + g * n) (c + g * n)) as [E1|]; auto. destruct (row_eq Hc' Hc E1); congruence.
  Qed.

  Lemma volume_ok i : exists Q, build_volume_source P i (repeat 0%R (d_size P)) = Ok Q /\ length Q = d_size P /\
    forall g c, g < G -> c < n -> nth (c + g * n) Q 0%R = vsource P i c g.
  Proof.
    unfold build_volume_source.
    assert (X : forall l Q, length Q = d_size P -> exists Q',
      foldM (fun Q e => match e with None => Ok Q | Some f => add_source P f Q end) l Q = Ok Q' /\ length Q' = d_size P /\
      forall g c, g < G -> c < n -> nth (c + g * n) Q' 0%R =
        (nth (c + g * n) Q 0 + sumR (map (fun e => match e with Some f => f c g | None => 0%R end) l))%R).
    { induction l as [|e l IH]; intros Q L.
      - exists Q. split; [auto|split; [auto|]]. intros. cbn. ring.
      - cbn [foldM]. destruct e as [f|].
        + destruct (add_source_ok f L) as (Q1 & E1 & L1 & N1). rewrite E1. cbn [bind].
          destruct (IH Q1 L1) as (Q2 & E2 & L2 & N2). exists Q2. split; [auto|split; [auto|]].
          intros g c Hg Hc. rewrite N2, N1 by auto. cbn [map]. rewrite sumR_cons. ring.
        + cbn [bind]. destruct (IH Q L) as (Q2 & E2 & L2 & N2). exists Q2. split; [auto|split; [auto|]].
          intros g c Hg Hc. rewrite N2 by auto. cbn [map]. rewrite sumR_cons. ring. }
    destruct (X (i_ext i) (repeat 0%R (d_size P))) as (Q & E & L & N); [apply repeat_length|]. rewrite E. cbn [bind].
    assert (Z : forall k, nth k (repeat 0%R (d_size P)) 0%R = 0%R) by (intros; apply nth_repeat).
    unfold vsource. destruct (i_fis i) as [f|].
    - destruct (q_mult P).
      + exists Q. split; [auto|split; [auto|]]. intros. rewrite N, Z by auto. ring.
      + destruct (add_source_ok f L) as (Q1 & E1 & L1 & N1). exists Q1. split; [auto|split; [auto|]].
        intros. rewrite N1, N, Z by auto. ring.
    - exists Q. split; [auto|split; [auto|]]. intros. rewrite N, Z by auto. ring.
  Qed.

  (** ** Outer faces *)
  Lemma axis_pos a : 0 < axis_cells m a.
  Proof. destruct P_good as (_ & _ & _ & _ & _ & _ & _ & X & Y & Z & _). destruct a as [|[|a]]; auto. Qed.
  Lemma bound_lt a dir : bound m a dir < axis_cells m a.
  Proof. assert (H := axis_pos a). unfold bound. destruct dir; lia. Qed.
  Lemma dim_le : 1 <= dim m <= 3. Proof. destruct P_good as (_ & _ & _ & _ & _ & _ & _ & _ & _ & _ & D & _). auto. Qed.

  Lemma faces_in a dir i1 i2 g : In (a, dir, i1, i2, g) (faces P) <->
    a < dim m /\ dir < 2 /\ i1 < axis_cells m (dim1 a) /\ i2 < axis_cells m (dim2 a) /\ g < G.
  Proof.
    unfold faces. fold m G. rewrite in_flat_map. split.
    - intros (a' & Ha & H). apply in_flat_map in H as (dir' & Hd & H). apply in_flat_map in H as (i1' & H1 & H).
      apply in_flat_map in H as (i2' & H2 & H). apply in_map_iff in H as (g' & E & Hg). inversion E; subst.
      apply in_seq in Ha, Hd, H1, H2, Hg. repeat split; lia.
    - intros (Ha & Hd & H1 & H2 & Hg). exists a. split; [apply in_seq; lia|]. apply in_flat_map. exists dir. split; [apply in_seq; lia|].
      apply in_flat_map. exists i1. split; [apply in_seq; lia|]. apply in_flat_map. exists i2. split; [apply in_seq; lia|].
      apply in_map_iff. exists g. split; auto. apply in_seq. lia.
  Qed.

  (** The cell of a face and the indices of a face from the cell. *)
  Lemma face_inside a dir i1 i2 : a < 3 -> i1 < axis_cells m (dim1 a) -> i2 < axis_cells m (dim2 a) ->
    inside m (face_pos m a dir i1 i2 0) (face_pos m a dir i1 i2 1) (face_pos m a dir i1 i2 2).
  Proof.
    intros Ha H1 H2. assert (B := bound_lt a dir). unfold inside, face_pos.
    destruct a as [|[|[|a]]]; cbn in *; try lia; repeat split; auto.
  Qed.
  Lemma face_cell_lt a dir i1 i2 : a < 3 -> i1 < axis_cells m (dim1 a) -> i2 < axis_cells m (dim2 a) -> face_cell m a dir i1 i2 < n.
  Proof. intros. unfold face_cell. rewrite cell_index. apply cell_lt. apply face_inside; auto. Qed.
  Lemma face_coord a dir i1 i2 b : a < 3 -> i1 < axis_cells m (dim1 a) -> i2 < axis_cells m (dim2 a) -> b < 3 ->
    coord m b (face_cell m a dir i1 i2) = face_pos m a dir i1 i2 b.
  Proof.
    intros Ha H1 H2 Hb. unfold face_cell. rewrite cell_index. rewrite (coord_cell b (@face_inside a dir i1 i2 Ha H1 H2)).
    destruct b as [|[|[|b]]]; auto; lia.
  Qed.
  Lemma coord_lt c b : c < n -> b < 3 -> coord m b c < axis_cells m b.
  Proof.
    intros Hc Hb. destruct (cell_ex Hc) as (i & j & k & I & ->). rewrite (coord_cell b I).
    destruct I as (I & J & K). destruct b as [|[|[|b]]]; cbn; auto; lia.
  Qed.
  Lemma coord_all c c' : c < n -> c' < n -> (forall b, b < 3 -> coord m b c = coord m b c') -> c = c'.
  Proof.
    intros Hc Hc' H. destruct (cell_ex Hc) as (i & j & k & I & E). destruct (cell_ex Hc') as (i' & j' & k' & I' & E').
    subst c c'. assert (H0 := H 0). assert (H1 := H 1). assert (H2 := H 2).
    rewrite (coord_cell 0 I), (coord_cell 0 I') in H0. rewrite (coord_cell 1 I), (coord_cell 1 I') in H1. rewrite (coord_cell 2 I), (coord_cell 2 I') in H2.
    cbn in H0, H1, H2. rewrite H0, H1, H2 by lia. auto.
  Qed.

  Definition half (s : nat) := s / 2.
  Lemma edge_bound a dir c : a < 3 -> dir < 2 -> c < n -> on_edge m c (2 * a + dir) = (coord m a c =? bound m a dir).
  Proof.
    intros Ha Hd Hc. destruct (cell_ex Hc) as (i & j & k & I & E). subst c. rewrite (coord_cell a I). unfold on_edge.
    destruct dir as [|[|dir]]; [| |lia].
    - rewrite Nat.add_0_r. destruct (half0 m a) as [-> ->]. rewrite (cell_pos I). auto.
    - destruct (half1 m a) as [-> ->]. rewrite (cell_pos I). auto.
  Qed.
  Lemma face_of_cell a dir c : a < 3 -> c < n -> coord m a c = bound m a dir -> face_cell m a dir (coord m (dim1 a) c) (coord m (dim2 a) c) = c.
  Proof.
    intros Ha Hc E.
    assert (L1 : coord m (dim1 a) c < axis_cells m (dim1 a)) by (apply coord_lt; auto; destruct a; cbn; lia).
    assert (L2 : coord m (dim2 a) c < axis_cells m (dim2 a)) by (apply coord_lt; auto; destruct a as [|[|[|a]]]; cbn; lia).
    apply coord_all; auto.
    - apply face_cell_lt; auto.
    - intros b Hb. rewrite face_coord by auto. unfold face_pos.
      destruct a as [|[|[|a]]]; [| | |lia]; destruct b as [|[|[|b]]]; cbn; auto; lia.
  Qed.
  Lemma face_is a dir i1 i2 c : a < 3 -> i1 < axis_cells m (dim1 a) -> i2 < axis_cells m (dim2 a) ->
    face_cell m a dir i1 i2 = c -> coord m a c = bound m a dir /\ i1 = coord m (dim1 a) c /\ i2 = coord m (dim2 a) c.
  Proof.
    intros Ha H1 H2 <-. rewrite !face_coord; auto; try (destruct a as [|[|[|a]]]; cbn; lia).
  Qed.
  Lemma face_width_ok a dir c : a < 3 -> c < n -> coord m a c = bound m a dir -> face_width m a dir = Ok (wid m a c).
  Proof.
    intros Ha Hc E. unfold face_width, rd.
    assert (L : bound m a dir < length (axis_widths_of m a)).
    { destruct P_good as (X & Y & Z & _). assert (B := bound_lt a dir). destruct a as [|[|a]]; cbn in *; lia. }
    rewrite (nth_error_nth' _ 0%R L). unfold wid. rewrite E. destruct a as [|[|a]]; auto.
  Qed.

  (** ** Reading and writing the tables *)
  Lemma table_bin b a dir i1 i2 g : table_of m G b -> a < dim m -> dir < 2 -> i1 < axis_cells m (dim1 a) -> i2 < axis_cells m (dim2 a) -> g < G ->
    bin b (2 * a + dir) g (brow (dim m) i1 i2) (bcol (dim m) i1 i2) = true.
  Proof.
    intros (T1 & T2 & T3) Ha Hd H1 H2 Hg. unfold bin. rewrite T1, T2, T3. cbn [btab_new b_r b_c].
    assert (SA : (2 * a + dir) / 2 = a) by (destruct dir as [|[|dir]]; [rewrite Nat.add_0_r; apply (half0 m a)|apply (half1 m a)|lia]).
    rewrite SA. assert (D := dim_le). destruct P_good as (_ & _ & _ & _ & _ & _ & _ & X & Y & Z & _ & D2 & D3).
    rewrite !andb_true_iff, !Nat.ltb_lt.
    destruct (dim m) as [|[|[|[|d]]]]; try lia; (destruct a as [|[|[|a]]]; try lia); cbn in *; repeat split; auto; lia.
  Qed.
  Lemma table_at b a dir g c : a < dim m -> dir < 2 -> c < n -> 
    b_v b (2 * a + dir) g (brow (dim m) (coord m (dim1 a) c) (coord m (dim2 a) c)) (bcol (dim m) (coord m (dim1 a) c) (coord m (dim2 a) c)) =
    at_face m b (2 * a + dir) g c.
  Proof.
    intros Ha Hd Hc. unfold at_face.
    assert (SA : (2 * a + dir) / 2 = a) by (destruct dir as [|[|dir]]; [rewrite Nat.add_0_r; apply (half0 m a)|apply (half1 m a)|lia]).
    rewrite SA. assert (D := dim_le).
    destruct (dim m) as [|[|[|[|d]]]]; try lia; (destruct a as [|[|[|a]]]; try lia); auto.
  Qed.
  Lemma bget_ok b a dir g c : table_of m G b -> a < dim m -> dir < 2 -> c < n -> g < G ->
    bget (dim m) b (2 * a + dir) g (coord m (dim1 a) c) (coord m (dim2 a) c) = Ok (at_face m b (2 * a + dir) g c).
  Proof.
    intros T Ha Hd Hc Hg. assert (D := dim_le). unfold bget. rewrite (@table_bin b a dir _ _ g T Ha Hd).
    - rewrite table_at; auto.
    - apply coord_lt; auto. destruct a; cbn; lia.
    - apply coord_lt; auto. destruct a as [|[|[|a]]]; cbn; lia.
    - auto.
  Qed.

  (** ** Boundary source *)
  Definition bterm (i : dinput) (g c s : nat) : R :=
    let D := dc (q_mat P) g (mt m c) in let W := wid m (s / 2) c in
    ((8 * D * at_face m (i_in i) s g c) / ((4 * D + W) * W))%R.
  Definition badd (i : dinput) (f : nat * nat * nat * nat * nat) : nat * R :=
    match f with (a, dir, i1, i2, g) => let c := face_cell m a dir i1 i2 in (c + g * n, bterm i g c (2 * a + dir)) end.

  Lemma boundary_adds i Q : call_ok P i -> build_boundary_source P i Q = adds (map (badd i) (faces P)) Q.
  Proof.
    intros (TI & TO). unfold build_boundary_source, adds. rewrite <- foldM_map. apply foldM_in.
    intros [[[[a dir] i1] i2] g] Q1 Hf. fold m. fold n. apply faces_in in Hf as (Ha & Hd & H1 & H2 & Hg).
    assert (A3 : a < 3) by (assert (D := dim_le); lia).
    assert (FC := @face_cell_lt a dir i1 i2 A3 H1 H2).
    destruct (@face_is a dir i1 i2 _ A3 H1 H2 eq_refl) as (E0 & E1 & E2).
    unfold badd. cbv zeta. rewrite (face_width_ok A3 FC E0). cbn [bind].
    set (c := face_cell m a dir i1 i2) in *. rewrite E1, E2.
    rewrite (@bget_ok (i_in i) a dir g c TI Ha Hd FC Hg). cbn [bind]. unfold bterm.
    assert (SA : (2 * a + dir) / 2 = a) by (destruct dir as [|[|dir]]; [rewrite Nat.add_0_r; apply (half0 m a)|apply (half1 m a)|lia]).
    rewrite SA. auto.
  Qed.

  Lemma boundary_ok i Q : call_ok P i -> length Q = d_size P -> exists Q', build_boundary_source P i Q = Ok Q' /\ length Q' = d_size P /\
    forall g c, g < G -> c < n -> nth (c + g * n) Q' 0%R =
      (nth (c + g * n) Q 0 + rsum (dim m) (fun a => rsum 2 (fun dir => if on_edge m c (2 * a + dir) then bterm i g c (2 * a + dir) else 0)))%R.
  Proof.
    intros CK L. rewrite (boundary_adds _ CK). destruct (@adds_ok (map (badd i) (faces P)) Q) as (Q' & E & L' & N).
    - intros p Hp. apply in_map_iff in Hp as ([[[[a dir] i1] i2] g] & <- & Hf). apply faces_in in Hf as (Ha & Hd & H1 & H2 & Hg).
      cbn [badd fst]. rewrite L. apply row_in; auto. apply face_cell_lt; auto. assert (D := dim_le); lia.
    - exists Q'. split; [auto|split; [congruence|]]. intros g c Hg Hc. rewrite N. f_equal. rewrite map_map.
      unfold faces. fold m G. rewrite map_flat_map, sumR_flat, sumR_seq. apply rsum_ext. intros a Ha.
      rewrite map_flat_map, sumR_flat, sumR_seq. apply rsum_ext. intros dir Hd.
      rewrite map_flat_map, sumR_flat, sumR_seq.
      assert (A3 : a < 3) by (assert (D := dim_le); lia).
      assert (Z : forall i1 i2 g', i1 < axis_cells m (dim1 a) -> i2 < axis_cells m (dim2 a) -> g' < G ->
        (if fst (badd i (a, dir, i1, i2, g')) =? c + g * n then snd (badd i (a, dir, i1, i2, g')) else 0%R) <> 0%R ->
        coord m a c = bound m a dir /\ i1 = coord m (dim1 a) c /\ i2 = coord m (dim2 a) c /\ g' = g).
      { intros i1 i2 g' H1 H2 Hg'. cbn [badd fst snd]. destruct (Nat.eqb_spec (face_cell m a dir i1 i2 + g' * n) (c + g * n)) as [E1|]; [|intros []; auto].
        intros _. destruct (@row_eq _ _ _ _ (@face_cell_lt a dir i1 i2 A3 H1 H2) Hc E1) as [E2 ->].
        destruct (@face_is a dir i1 i2 c A3 H1 H2 E2) as (F0 & F1 & F2). auto. }
      assert (L1 : coord m (dim1 a) c < axis_cells m (dim1 a)) by (apply coord_lt; auto; destruct a; cbn; lia).
      assert (L2 : coord m (dim2 a) c < axis_cells m (dim2 a)) by (apply coord_lt; auto; destruct a as [|[|[|a']]]; cbn; lia).
      assert (IN : forall i1, sumR (map (fun x => if fst (badd i x) =? c + g * n then snd (badd i x) else 0%R)
                   (flat_map (fun i2 => map (fun g => (a, dir, i1, i2, g)) (seq 0 G)) (seq 0 (axis_cells m (dim2 a))))) =
                   rsum (axis_cells m (dim2 a)) (fun i2 => rsum G (fun g' =>
                     if fst (badd i (a, dir, i1, i2, g')) =? c + g * n then snd (badd i (a, dir, i1, i2, g')) else 0%R))).
      { intros i1. rewrite map_flat_map, sumR_flat, sumR_seq. apply rsum_ext. intros i2 H2. rewrite map_map, sumR_seq. auto. }
      rewrite (@rsum_ext _ _ _ (fun i1 _ => IN i1)). clear IN.
      rewrite (@edge_bound a dir c A3 Hd Hc). destruct (Nat.eqb_spec (coord m a c) (bound m a dir)) as [EB|NB].
      + rewrite (@rsum_one _ (coord m (dim1 a) c)); auto.
        2: { intros i1 H1 N1. apply (rsum_zero (n := axis_cells m (dim2 a))). intros i2 H2. apply (rsum_zero (n := G)). intros g' Hg'.
             apply NNPP. intros X. apply (@Z i1 i2 g' H1 H2 Hg') in X. tauto. }
        rewrite (@rsum_one _ (coord m (dim2 a) c)); auto.
        2: { intros i2 H2 N2. apply (rsum_zero (n := G)). intros g' Hg'.
             apply NNPP. intros X. apply (@Z _ i2 g' L1 H2 Hg') in X. tauto. }
        rewrite (@rsum_one _ g); auto.
        2: { intros g' Hg' N2. apply NNPP. intros X. apply (@Z _ _ g' L1 L2 Hg') in X. tauto. }
        cbn [badd fst snd]. rewrite (face_of_cell A3 Hc EB). rewrite Nat.eqb_refl. auto.
      + apply (rsum_zero (n := axis_cells m (dim1 a))). intros i1 H1. apply (rsum_zero (n := axis_cells m (dim2 a))). intros i2 H2.
        apply (rsum_zero (n := G)). intros g' Hg'. apply NNPP. intros X. apply (@Z i1 i2 g' H1 H2 Hg') in X. tauto.
  Qed.

  (** ** Outgoing currents *)
  Definition jout (x : list R) (i : dinput) (g c s : nat) : R :=
    let D := dc (q_mat P) g (mt m c) in let W := wid m (s / 2) c in
    (((2 * D) * part n x g c + (W - 4 * D) * at_face m (i_in i) s g c) / (4 * D + W))%R.
  Definition key (f : nat * nat * nat * nat * nat) : nat * nat * nat * nat :=
    match f with (a, dir, i1, i2, g) => (2 * a + dir, g, brow (dim m) i1 i2, bcol (dim m) i1 i2) end.
  Definition bat (b : btab) (k : nat * nat * nat * nat) : R := match k with (s, g, r, c) => b_v b s g r c end.
  Definition fout (x : list R) (i : dinput) (f : nat * nat * nat * nat * nat) : R :=
    match f with (a, dir, i1, i2, g) => jout x i g (face_cell m a dir i1 i2) (2 * a + dir) end.

  Lemma key_inj f f' : In f (faces P) -> In f' (faces P) -> key f = key f' -> f = f'.
  Proof.
    destruct f as [[[[a dir] i1] i2] g], f' as [[[[a' dir'] i1'] i2'] g']. intros H H' E.
    apply faces_in in H as (Ha & Hd & H1 & H2 & Hg). apply faces_in in H' as (Ha' & Hd' & H1' & H2' & Hg').
    unfold key in E. injection E as E1 E2 E3 E4. assert (a = a' /\ dir = dir') as [<- <-] by lia. subst g'.
    assert (D := dim_le). destruct P_good as (_ & _ & _ & _ & _ & _ & _ & X & Y & Z & _ & D2 & D3).
    assert (i1 = i1' /\ i2 = i2') as [<- <-]; [|auto].
    destruct (dim m) as [|[|[|[|d]]]]; try lia; (destruct a as [|[|[|a]]]; try lia); cbn in *; lia.
  Qed.

  Lemma fill_fold x i : call_ok P i -> length x = d_size P -> forall l b, incl l (faces P) -> table_of m G b ->
    exists b', foldM (fun out '(a, dir, i1, i2, g) =>
      do W <- face_width m a dir;
      let c := face_cell m a dir i1 i2 in
      let D := dc (q_mat P) g (mt m c) in
      do J <- bget (dim m) (i_in i) (2 * a + dir) g i1 i2;
      do p <- rd x (c + g * ncells m);
      bset (dim m) out (2 * a + dir) g i1 i2 (((2 * D) * p + (W - 4 * D) * J) / (4 * D + W))%R) l b = Ok b' /\ table_of m G b' /\
      (forall f, In f l -> bat b' (key f) = fout x i f) /\
      (forall k, (forall f, In f l -> key f <> k) -> bat b' k = bat b k).
  Proof.
    intros (TI & TO) LX. induction l as [|[[[[a dir] i1] i2] g] l IH]; intros b HI TB.
    - exists b. split; [auto|split; [auto|split; [intros f []|auto]]].
    - assert (Hf := HI _ (or_introl eq_refl)). assert (IF := Hf). apply faces_in in Hf as (Ha & Hd & H1 & H2 & Hg).
      assert (A3 : a < 3) by (assert (D := dim_le); lia).
      assert (FC := @face_cell_lt a dir i1 i2 A3 H1 H2).
      destruct (@face_is a dir i1 i2 _ A3 H1 H2 eq_refl) as (E0 & E1 & E2).
      cbn [foldM]. rewrite (face_width_ok A3 FC E0). cbn [bind]. cbv zeta.
      assert (BG : bget (dim m) (i_in i) (2 * a + dir) g i1 i2 = Ok (at_face m (i_in i) (2 * a + dir) g (face_cell m a dir i1 i2))).
      { assert (Y := @bget_ok (i_in i) a dir g _ TI Ha Hd FC Hg). rewrite <- E1, <- E2 in Y. exact Y. }
      rewrite BG. cbn [bind]. unfold rd.
      assert (RL : face_cell m a dir i1 i2 + g * ncells m < length x) by (rewrite LX; apply row_in; auto).
      rewrite (nth_error_nth' x 0%R RL). cbn [bind]. unfold bset. rewrite (table_bin TB Ha Hd H1 H2 Hg). cbn [bind].
      match goal with |- context [foldM _ l ?b1] => destruct (IH b1) as (b' & F & TB' & V & O) end.
      + intros f Hf. apply HI. cbn; auto.
      + destruct TB as (T1 & T2 & T3). split; [|split]; auto.
      + exists b'. split; [exact F|split; [auto|split]].
        * intros f [<-|Hf]; [|apply V; auto].
          destruct (classic (In (a, dir, i1, i2, g) l)) as [Y|NI]; [apply V; auto|].
          rewrite O.
          -- unfold bat, key, fout, jout, part. cbn [b_v]. rewrite !Nat.eqb_refl. cbn [andb].
             assert (SA : (2 * a + dir) / 2 = a) by (destruct dir as [|[|dir]]; [rewrite Nat.add_0_r; apply (half0 m a)|apply (half1 m a)|lia]).
             rewrite SA. auto.
          -- intros f' Hf' KE. apply key_inj in KE; auto; [congruence|apply HI; cbn; auto].
        * intros k Hk. rewrite O by (intros; apply Hk; cbn; auto). destruct k as [[[s' g'] r'] c']. unfold bat. cbn [b_v].
          assert (NK := Hk _ (or_introl eq_refl)). unfold key in NK.
          destruct (Nat.eqb_spec s' (2 * a + dir)), (Nat.eqb_spec g' g), (Nat.eqb_spec r' (brow (dim m) i1 i2)), (Nat.eqb_spec c' (bcol (dim m) i1 i2)); cbn [andb]; auto.
          congruence.
  Qed.

  Lemma fill_boundary_ok x i : call_ok P i -> length x = d_size P -> exists b', fill_boundary P x i = Ok b' /\ table_of m G b' /\
    forall s g c, s < 2 * dim m -> g < G -> c < n -> on_edge m c s = true -> at_face m b' s g c = jout x i g c s.
  Proof.
    intros CK LX. destruct (@fill_fold x i CK LX (faces P) (i_out i)) as (b' & F & T & V & _).
    - apply incl_refl.
    - apply CK.
    - exists b'. split; [exact F|split; [auto|]]. intros s g c Hs Hg Hc HE.
      assert (SE : s = 2 * (s / 2) + s mod 2) by (apply Nat.div_mod_eq). set (a := s / 2) in *. set (dir := s mod 2) in *.
      assert (Hd : dir < 2) by (apply Nat.mod_upper_bound; lia). assert (Ha : a < dim m) by lia.
      assert (A3 : a < 3) by (assert (D := dim_le); lia).
      rewrite SE in *. rewrite edge_bound in HE by auto. apply Nat.eqb_eq in HE.
      rewrite <- table_at by auto.
      assert (L1 : coord m (dim1 a) c < axis_cells m (dim1 a)) by (apply coord_lt; auto; destruct a; cbn; lia).
      assert (L2 : coord m (dim2 a) c < axis_cells m (dim2 a)) by (apply coord_lt; auto; destruct a as [|[|[|a']]]; cbn; lia).
      specialize (V (a, dir, coord m (dim1 a) c, coord m (dim2 a) c, g)). cbn [key bat fout] in V.
      rewrite V, (face_of_cell A3 Hc HE); auto. apply faces_in. auto.
  Qed.

  (** ** Filling the state *)
  Lemma mapM_rd x s k : s + k <= length x -> mapM (rd x) (seq s k) = Ok (map (fun r => nth r x 0%R) (seq s k)).
  Proof.
    revert s. induction k as [|k IH]; intros s H; [auto|]. cbn [seq mapM map]. unfold rd at 1.
    rewrite (nth_error_nth' x 0%R) by lia. cbn [bind]. rewrite IH by lia. auto.
  Qed.
  Lemma mapM_map A B (f : A -> res B) (h : A -> B) l : (forall a, In a l -> f a = Ok (h a)) -> mapM f l = Ok (map h l).
  Proof.
    induction l as [|a l IH]; intros H; [auto|]. cbn [mapM map]. rewrite H by (cbn; auto). cbn [bind].
    rewrite IH by (intros; apply H; cbn; auto). auto.
  Qed.
  Lemma fill_state_ok x : length x = d_size P -> exists phi, fill_state P x = Ok phi /\ length phi = G /\
    forall g c, g < G -> c < n -> nth c (nth g phi []) 0%R = part n x g c.
  Proof.
    intros L. exists (map (fun g => map (fun r => nth r x 0%R) (seq (g * n) n)) (seq 0 G)). split; [|split].
    - unfold fill_state. fold m n G. apply mapM_map. intros g Hg. apply in_seq in Hg. apply mapM_rd. rewrite L. unfold d_size. fold m n G. nia.
    - rewrite map_length, seq_length. auto.
    - intros g c Hg Hc. rewrite (nth_indep _ [] (map (fun r => nth r x 0%R) (seq (0 * n) n))) by (rewrite map_length, seq_length; auto).
      rewrite (map_nth (fun g => map (fun r => nth r x 0%R) (seq (g * n) n))). rewrite seq_nth by auto.
      rewrite (nth_indep _ 0%R (nth 0 x 0%R)) by (rewrite map_length, seq_length; auto).
      rewrite (map_nth (fun r => nth r x 0%R)). rewrite seq_nth by auto. unfold part. f_equal. cbn. lia.
  Qed.
End S.
