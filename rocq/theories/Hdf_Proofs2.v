(** * Proofs on materials and meshes in files (no model content) *)
From Coq Require Import String Ascii DecimalString DecimalNat Lra Lia.
From Verif Require Import Base BaseR Loop Util_Model Util_Proofs Material_Model Mesh_Model Mesh_Spec Mesh_Proofs Csg_Model
  Csg_Proofs Hdf_Model Hdf_Spec Hdf_Proofs.
Open Scope string_scope.
Open Scope nat_scope.
Set Implicit Arguments. Unset Strict Implicit.

Lemma foldM_cat A S (f : S -> A -> res S) l1 l2 s :
  foldM f (l1 ++ l2) s = do s' <- foldM f l1 s; foldM f l2 s'.
Proof. revert s; induction l1 as [|a t IH]; intros s; cbn; auto. destruct (f s a); cbn; auto. Qed.

(** An invariant along seq 0 n. *)
Lemma foldM_seq S (f : S -> nat -> res S) (I : nat -> S -> Prop) n s :
  I 0 s -> (forall k x, k < n -> I k x -> exists y, f x k = Ok y /\ I (Datatypes.S k) y) ->
  exists y, foldM f (seq 0 n) s = Ok y /\ I n y.
Proof.
  intros I0 H. induction n as [|n IH]; [exists s; auto|].
  destruct IH as (y & E & Iy); [intros; apply H; auto; lia|].
  destruct (H n y ltac:(lia) Iy) as (z & Ez & Iz). exists z. split; auto.
  rewrite seq_S, foldM_cat, E. cbn [bind foldM Nat.add]. rewrite Ez. reflexivity.
Qed.

Lemma material_name_inj a b : material_name a = material_name b -> a = b.
Proof.
  unfold material_name. cbn. intros H. inversion H as [E]. clear H.
  assert (N : forall n, Nat.to_uint n <> Decimal.Nil).
  { intros n Q. pose proof (Unsigned.of_to n) as O. rewrite Q in O. cbn in O. subst n. discriminate. }
  pose proof (NilZero.usu _ (N a)) as Ua. rewrite E, (NilZero.usu _ (N b)) in Ua. inversion Ua as [Q].
  rewrite <- (Unsigned.of_to a), <- Q, Unsigned.of_to. reflexivity.
Qed.
Lemma find_material (f : nat -> node) n k : k < n ->
  mfind (material_name k) (map (fun j => (material_name j, f j)) (seq 0 n)) = Some (f k).
Proof.
  intros K. apply mfind_some.
  - rewrite map_map. cbn [fst]. apply FinFun.Injective_map_NoDup; [|apply seq_NoDup].
    intros a b. apply material_name_inj.
  - apply in_map_iff. exists k. split; auto. apply in_seq. lia.
Qed.

Definition get_field (x : mtl) (f : field) : nat -> nat -> R :=
  match f with FT => st x | FA => sa x | FNSF => nsf x | FSF => sf x | FNU => nu x | FCHI => chi x | FDC => dc x end.
Lemma field_dec (a b : field) : {a = b} + {a <> b}.
Proof. decide equality. Defined.

Lemma get_set x f k g v f' g' k' : get_field (set_field x f k g v) f' g' k' =
  if field_dec f' f then (if (g' =? g) && (k' =? k) then v else get_field x f' g' k') else get_field x f' g' k'.
Proof. destruct f, f'; cbn [get_field set_field field_dec]; cbn; reflexivity. Qed.

Lemma set_vec_ok x f k v : List.length v = ng x ->
  exists y, set_vec x f k v = Ok y /\ ng y = ng x /\ nm y = nm x /\ ss y = ss x /\
  forall f' g' k', get_field y f' g' k' =
    if field_dec f' f then (if (g' <? ng x) && (k' =? k) then nth g' v 0%R else get_field x f' g' k') else get_field x f' g' k'.
Proof.
  intros L. unfold set_vec.
  destruct (@foldM_seq mtl (fun x g => do a <- rd v g; Ok (set_field x f k g a)) (fun n y => ng y = ng x /\ nm y = nm x /\ ss y = ss x /\
    forall f' g' k', get_field y f' g' k' =
    if field_dec f' f then (if (g' <? n) && (k' =? k) then nth g' v 0%R else get_field x f' g' k') else get_field x f' g' k') (ng x) x)
    as (y & E & H); [| |eauto].
  - repeat split; auto. intros. destruct (field_dec f' f); auto.
  - intros g z G (A & B & C & H). rewrite (@rd_ok _ v g 0%R) by lia. cbn [bind]. eexists. split; [reflexivity|].
    split; [exact A|]. split; [exact B|]. split; [exact C|]. intros f' g' k'. rewrite get_set, H.
    destruct (field_dec f' f); auto.
    destruct (Nat.eqb_spec g' g) as [->|N], (Nat.eqb_spec k' k) as [->|M]; cbn [andb].
    + assert (Q : (g <? S g) = true) by (apply Nat.ltb_lt; lia). rewrite Q. reflexivity.
    + rewrite !Bool.andb_false_r. reflexivity.
    + rewrite !Bool.andb_true_r. destruct (Nat.ltb_spec g' g), (Nat.ltb_spec g' (S g)); auto; lia.
    + rewrite !Bool.andb_false_r. reflexivity.
Qed.

Lemma flat_length (f : nat -> nat -> R) n l : List.length (flat_map (fun g => map (f g) (seq 0 n)) l) = List.length l * n.
Proof. induction l as [|a t IH]; cbn; auto. rewrite app_length, map_length, seq_length, IH. reflexivity. Qed.
Lemma flat_rd (f : nat -> nat -> R) n : forall r p g gp, g < r -> gp < n ->
  nth_error (flat_map (fun g => map (f g) (seq 0 n)) (seq p r)) (gp + g * n) = Some (f (p + g) gp).
Proof.
  induction r as [|r IH]; intros p g gp G GP; [lia|]. cbn [seq flat_map]. destruct g as [|g].
  - rewrite nth_error_app1 by (rewrite map_length, seq_length; lia).
    rewrite Nat.mul_0_l, Nat.add_0_r, Nat.add_0_r. apply map_nth_error.
    rewrite (nth_error_nth' _ 0) by (rewrite seq_length; auto). rewrite seq_nth by auto. reflexivity.
  - rewrite nth_error_app2 by (rewrite map_length, seq_length; lia). rewrite map_length, seq_length.
    replace (gp + S g * n - n) with (gp + g * n) by lia. rewrite IH by lia. f_equal. f_equal. lia.
Qed.

(** What a file keeps of material k. *)
Definition kept (m y : mtl) (k : nat) : Prop := forall g, g < ng m ->
  st y g k = st m g k /\ sa y g k = sa m g k /\ sf y g k = sf m g k /\ nu y g k = nu m g k /\ chi y g k = chi m g k /\
  dc y g k = sa m g k /\ forall gp, gp < ng m -> ss y g gp k = ss m g gp k.

Lemma set_if_ok x f k m h : ng x = ng m ->
  exists y, set_if x f k (Some (vec_of m h k)) = Ok y /\ ng y = ng x /\ nm y = nm x /\ ss y = ss x /\
  forall f' g' k', get_field y f' g' k' =
    if field_dec f' f then (if (g' <? ng m) && (k' =? k) then h g' k' else get_field x f' g' k') else get_field x f' g' k'.
Proof.
  intros N. destruct (@set_vec_ok x f k (vec_of m h k)) as (y & E & A & B & C & H).
  { unfold vec_of. rewrite map_length, seq_length. auto. }
  exists y. split; [exact E|]. repeat (split; auto). intros f' g' k'. rewrite H, N.
  destruct (field_dec f' f); auto. destruct (Nat.ltb_spec g' (ng m)); auto. destruct (Nat.eqb_spec k' k) as [->|]; auto.
  cbn [andb]. unfold vec_of. rewrite (nth_map_seq (fun g => h g k)) by auto. reflexivity.
Qed.

Lemma read_vec_ok kids name l n : mfind name kids = Some (Vec l) -> List.length l = n -> read_vec kids name n = Ok (Some l).
Proof. intros F <-. unfold read_vec. rewrite F, Nat.eqb_refl. reflexivity. Qed.
Lemma vec_of_length m h k : List.length (vec_of m h k) = ng m.
Proof. unfold vec_of. rewrite map_length, seq_length. auto. Qed.

Lemma read_scatter m k x : ng x = ng m ->
  exists y, foldM (fun x g => foldM (fun x gp =>
      do a <- rd (flat_map (fun g => map (fun gp => ss m g gp k) (seq 0 (ng m))) (seq 0 (ng m))) (gp + g * ng x);
      Ok (set_scatter x k g gp a)) (seq 0 (ng x)) x) (seq 0 (ng x)) x = Ok y /\
  ng y = ng x /\ nm y = nm x /\ (forall f, get_field y f = get_field x f) /\
  forall g gp k', ss y g gp k' = if (k' =? k) && (g <? ng m) && (gp <? ng m) then ss m g gp k' else ss x g gp k'.
Proof.
  intros N. rewrite N.
  destruct (@foldM_seq mtl (fun x g => foldM (fun x gp =>
      do a <- rd (flat_map (fun g => map (fun gp => ss m g gp k) (seq 0 (ng m))) (seq 0 (ng m))) (gp + g * ng x);
      Ok (set_scatter x k g gp a)) (seq 0 (ng x)) x)
    (fun n y => ng y = ng x /\ nm y = nm x /\ (forall f, get_field y f = get_field x f) /\
     forall g gp k', ss y g gp k' = if (k' =? k) && (g <? n) && (gp <? ng m) then ss m g gp k' else ss x g gp k') (ng m) x) as (y & E & H).
  - repeat split; auto. intros. rewrite Bool.andb_false_r. reflexivity.
  - intros g z G (A & B & C & D). rewrite A, N.
    destruct (@foldM_seq mtl (fun x gp =>
      do a <- rd (flat_map (fun g => map (fun gp => ss m g gp k) (seq 0 (ng m))) (seq 0 (ng m))) (gp + g * ng x);
      Ok (set_scatter x k g gp a))
      (fun n y => ng y = ng x /\ nm y = nm x /\ (forall f, get_field y f = get_field x f) /\
       forall g' gp k', ss y g' gp k' = if (k' =? k) && (g' =? g) && (gp <? n) then ss m g' gp k' else ss z g' gp k') (ng m) z) as (y & E & H).
    + repeat split; auto. intros. rewrite Bool.andb_false_r. reflexivity.
    + intros gp w GP (A' & B' & C' & D').
      unfold rd. rewrite A', N. rewrite (@flat_rd (fun g gp => ss m g gp k)) by auto. cbn [bind Nat.add].
      eexists. split; [reflexivity|]. split; [cbn [set_scatter ng]; congruence|]. split; [exact B'|]. split; [intros q; rewrite <- C'; destruct q; reflexivity|].
      intros g' gp' k'. cbn [set_scatter ss]. unfold set3. rewrite D'.
      destruct (Nat.eqb_spec g' g) as [->|]; destruct (Nat.eqb_spec gp' gp) as [->|]; destruct (Nat.eqb_spec k' k) as [->|]; cbn [andb]; auto.
      * rewrite (proj2 (Nat.ltb_lt gp (S gp))) by lia. reflexivity.
      * destruct (Nat.ltb_spec gp' gp), (Nat.ltb_spec gp' (S gp)); auto; lia.
    + exists y. split; auto. destruct H as (A' & B' & C' & D'). split; [congruence|]. split; [auto|]. split; [auto|].
      intros g' gp k'. rewrite D', D. destruct (k' =? k); cbn [andb]; auto.
      destruct (Nat.eqb_spec g' g) as [->|Q]; cbn [andb].
      * rewrite (proj2 (Nat.ltb_lt g (S g))) by lia. cbn [andb]. rewrite Nat.ltb_irrefl. reflexivity.
      * destruct (Nat.ltb_spec g' g), (Nat.ltb_spec g' (S g)); auto; lia.
  - exists y. split; auto. destruct H as (A & B & C & D). split; [congruence|]. auto.
Qed.

Lemma read_one_ok kids m x k : ng x = ng m -> mfind (material_name k) kids = Some (material_node m k) ->
  exists y, read_one kids x k = Ok y /\ ng y = ng x /\ nm y = nm x /\ kept m y k /\
  (forall f g k', k' <> k -> get_field y f g k' = get_field x f g k') /\
  (forall g gp k', k' <> k -> ss y g gp k' = ss x g gp k').
Proof.
  intros N F. unfold read_one. rewrite F. unfold material_node.
  match goal with |- context [read_vec ?k _ _] => set (sub := k) end.
  rewrite (@read_vec_ok sub "sigma_t" (vec_of m (st m) k)) by (auto; rewrite vec_of_length; auto). cbn [bind].
  change (set_vec x FT k (vec_of m (st m) k)) with (set_if x FT k (Some (vec_of m (st m) k))).
  destruct (@set_if_ok x FT k m (st m) N) as (x1 & -> & N1 & M1 & S1 & H1). cbn [bind].
  rewrite (@read_vec_ok sub "sigma_a" (vec_of m (sa m) k)) by (auto; rewrite vec_of_length; congruence). cbn [bind].
  destruct (@set_if_ok x1 FA k m (sa m)) as (x2 & -> & N2 & M2 & S2 & H2); [congruence|]. cbn [bind].
  rewrite (@read_vec_ok sub "sigma_f" (vec_of m (sf m) k)) by (auto; rewrite vec_of_length; congruence). cbn [bind].
  destruct (@set_if_ok x2 FSF k m (sf m)) as (x3 & -> & N3 & M3 & S3 & H3); [congruence|]. cbn [bind].
  rewrite (@read_vec_ok sub "nu" (vec_of m (nu m) k)) by (auto; rewrite vec_of_length; congruence). cbn [bind].
  destruct (@set_if_ok x3 FNU k m (nu m)) as (x4 & -> & N4 & M4 & S4 & H4); [congruence|]. cbn [bind].
  rewrite (@read_vec_ok sub "chi" (vec_of m (chi m) k)) by (auto; rewrite vec_of_length; congruence). cbn [bind].
  destruct (@set_if_ok x4 FCHI k m (chi m)) as (x5 & -> & N5 & M5 & S5 & H5); [congruence|]. cbn [bind].
  rewrite (@read_vec_ok sub "diff_coef" (vec_of m (sa m) k)) by (auto; rewrite vec_of_length; congruence). cbn [bind].
  destruct (@set_if_ok x5 FDC k m (sa m)) as (x6 & -> & N6 & M6 & S6 & H6); [congruence|]. cbn [bind].
  assert (NN : ng x6 = ng m) by congruence.
  rewrite (@read_vec_ok sub "sigma_s" (flat_map (fun g => map (fun gp => ss m g gp k) (seq 0 (ng m))) (seq 0 (ng m)))); auto.
  2:{ rewrite (@flat_length (fun g gp => ss m g gp k)), seq_length, NN. reflexivity. }
  cbn [bind].
  destruct (@read_scatter m k x6 NN) as (y & -> & Ny & My & Fy & Sy).
  exists y. split; auto. split; [congruence|]. split; [congruence|].
  assert (G : forall f g k', get_field y f g k' = if (g <? ng m) && (k' =? k) then
     match f with FT => st m g k' | FA => sa m g k' | FNSF => get_field x f g k' | FSF => sf m g k' | FNU => nu m g k' | FCHI => chi m g k' | FDC => sa m g k' end
     else get_field x f g k').
  { intros f g k'. rewrite Fy, H6, H5, H4, H3, H2, H1. destruct f; cbn [field_dec]; cbn; destruct (_ && _); reflexivity. }
  split; [|split].
  - intros g Hg. assert (Q : (g <? ng m) && (k =? k) = true) by (rewrite Nat.eqb_refl, Bool.andb_true_r; apply Nat.ltb_lt; auto).
    pose proof (G FT g k) as G1. pose proof (G FA g k) as G2. pose proof (G FSF g k) as G3. pose proof (G FNU g k) as G4.
    pose proof (G FCHI g k) as G5. pose proof (G FDC g k) as G6. rewrite Q in *. cbn [get_field] in *.
    repeat (split; auto). intros gp Hgp. rewrite Sy, Nat.eqb_refl. apply Nat.ltb_lt in Hg, Hgp. rewrite Hg, Hgp. reflexivity.
  - intros f g k' D. rewrite G. apply Nat.eqb_neq in D. rewrite D, Bool.andb_false_r. reflexivity.
  - intros g gp k' D. rewrite Sy. apply Nat.eqb_neq in D. rewrite D. cbn [andb]. rewrite S6, S5, S4, S3, S2, S1. reflexivity.
Qed.

Lemma kept_other m x y k : kept m x k -> (forall f g, get_field y f g k = get_field x f g k) ->
  (forall g gp, ss y g gp k = ss x g gp k) -> kept m y k.
Proof.
  intros K F S g G. destruct (K g G) as (A & B & C & D & E & H & I).
  pose proof (F FT g). pose proof (F FA g). pose proof (F FSF g). pose proof (F FNU g). pose proof (F FCHI g). pose proof (F FDC g).
  cbn [get_field] in *. repeat (split; [congruence|]). intros gp GP. rewrite S. auto.
Qed.

Lemma fold_left_in A B (f g : A -> B -> A) l : (forall a b, In b l -> f a b = g a b) -> forall a, fold_left f l a = fold_left g l a.
Proof. induction l as [|b t IH]; intros H a; cbn; auto. rewrite H by (left; auto). apply IH. intros. apply H. right. auto. Qed.
Lemma row_lower_in n k g s t : g <= n -> (forall a b, a < n -> b < k -> s a b = t a b) -> row_lower n k g s = row_lower n k g t.
Proof.
  intros L H. unfold row_lower. apply fold_left_in. intros a m M. apply in_seq in M. apply fold_left_in. intros b p P. apply in_seq in P.
  rewrite H by lia. reflexivity.
Qed.
Lemma row_upper_in n k g s t : (forall a b, a < n -> b < k -> s a b = t a b) -> row_upper n k g s = row_upper n k g t.
Proof.
  intros H. unfold row_upper. apply fold_left_in. intros a m M. apply in_seq in M. apply fold_left_in. intros b p P. apply in_seq in P.
  rewrite H by lia. reflexivity.
Qed.

Definition material_file (m : mtl) : node :=
  Grp [("number_groups", Z.of_nat (ng m)); ("number_materials", Z.of_nat (nm m))]
      (map (fun k => (material_name k, material_node m k)) (seq 0 (nm m))).

Lemma material_round s kids m : for_reading s = Ok s -> root_kids s = Ok kids -> mfind "material" kids = Some (material_file m) ->
  exists b, read_material s = Ok (b, s) /\ same_material_but_diffusion m b /\
    forall k g, k < nm m -> g < ng m -> dc b g k = sa m g k.
Proof.
  intros R K F. unfold read_material. rewrite R. cbn [bind]. rewrite K. cbn [bind]. rewrite F. unfold material_file.
  set (sub := map _ _). cbn [attribute mfind String.eqb Ascii.eqb Bool.eqb bind]. rewrite !Nat2Z.id.
  destruct (@foldM_seq mtl (read_one sub) (fun j x => ng x = ng m /\ nm x = nm m /\ forall k, k < j -> kept m x k) (nm m) (material_new (nm m) (ng m)))
    as (x & E & N & M & H).
  - split; auto. split; auto. intros. lia.
  - intros k x Hk (N & M & H). destruct (@read_one_ok sub m x k N (find_material (material_node m) Hk)) as (y & E & Ny & My & Ky & Fy & Sy).
    exists y. split; auto. split; [congruence|]. split; [congruence|]. intros q Hq.
    destruct (Nat.eq_dec q k) as [->|D]; auto. apply (@kept_other m x y q); auto. apply H. lia.
  - rewrite E. cbn [bind]. exists (finalize x). split; auto. split.
    + split; [exact N|]. split; [exact M|]. split; [reflexivity|]. intros k g Hk Hg.
      destruct (H k Hk g Hg) as (A & B & C & D & F' & _ & I). cbn [finalize st sa sf nu chi nsf ss].
      rewrite C, D. split; [exact A|]. split; [exact B|]. split; [reflexivity|]. split; [reflexivity|]. split; [exact F'|].
      split; [reflexivity|]. split; [exact I|].
      assert (SS : forall a b q, a < ng m -> b < ng m -> q < nm m -> ss x a b q = ss m a b q) by (intros a b q Ha Hb Hq; apply (H q Hq a Ha); auto).
      intros [|]; unfold lower, upper; cbn [finalize b0 b1 b2 b3]; rewrite N, M; split;
        first [apply row_lower_in; [lia|] | apply row_upper_in]; intros; apply SS; auto.
    + intros k g Hk Hg. apply (H k Hk g Hg).
Qed.

(** ** Meshes *)
Lemma edges_length e w : List.length (edges_from e w) = S (List.length w).
Proof. revert e; induction w as [|a t IH]; intros e; cbn; auto. Qed.
Lemma list_sum_ones n : list_sum (repeat 1 n) = n.
Proof. induction n as [|n IH]; cbn; auto. Qed.
Lemma psum_ones n i : i <= n -> psum (repeat 1 n) i = i.
Proof.
  revert i. induction n as [|n IH]; intros i Hi; [assert (i = 0) by lia; subst; reflexivity|].
  destruct i as [|i]; [reflexivity|]. cbn [repeat]. unfold psum in *. cbn. f_equal. apply IH. lia.
Qed.
Lemma left_edge_S w i : left_edge w (S i) = (left_edge w i + nth i w 0)%R.
Proof. reflexivity. Qed.
Lemma fine_widths w : widths (repeat 1 (List.length (edges_from 0 w) - 1)) (edges_from 0 w) = Ok w.
Proof.
  rewrite edges_length. replace (S (List.length w) - 1) with (List.length w) by lia.
  destruct (@widths_spec (repeat 1 (List.length w)) (edges_from 0 w)) as (v & E & L & H).
  - intros f F. apply repeat_spec in F. lia.
  - rewrite edges_length, repeat_length. lia.
  - rewrite E. f_equal. rewrite list_sum_ones in L. apply (@list_ext_nth _ 0%R); auto. intros i Hi.
    rewrite (H i i).
    + rewrite !edges_from_nth by lia. rewrite left_edge_S.
      replace (nth i (repeat 1 (List.length w)) 0) with 1 by (symmetry; apply (repeat_spec (List.length w) 1); apply nth_In; rewrite repeat_length; lia).
      cbn [INR]. field.
    + split; [rewrite repeat_length; lia|]. rewrite !psum_ones by lia. lia.
Qed.
Lemma fine_total w : w <> [] -> total (edges_from 0 w) = Ok (left_edge w (List.length w)).
Proof.
  intros N. unfold total. rewrite (@rd_ok _ (edges_from 0 w) (List.length (edges_from 0 w) - 1) 0%R), (@rd_ok _ (edges_from 0 w) 0 0%R) by (rewrite edges_length; lia).
  cbn [bind]. f_equal. rewrite edges_length. replace (S (List.length w) - 1) with (List.length w) by lia.
  rewrite !edges_from_nth by lia. unfold left_edge. cbn [rsum]. ring.
Qed.
Lemma flat_axis : total [0%R; 0%R] = Ok 0%R /\ exists a, widths (repeat 1 (List.length [0%R; 0%R] - 1)) [0%R; 0%R] = Ok [a].
Proof.
  split; [cbn; f_equal; ring|]. cbn [List.length Nat.sub repeat].
  destruct (@widths_spec [1] [0%R; 0%R]) as (v & E & L & _); auto.
  - intros f [<-|[]]. lia.
  - destruct v as [|a [|b r]]; try discriminate. exists a. exact E.
Qed.

Lemma read_map_ok kids m : keyed text m -> m <> [] -> mfind "mesh_map" kids = Some (Map (DVecInt (entries m))) ->
  read_map kids "mesh_map" = Ok m.
Proof.
  intros K NE F. unfold read_map. rewrite F, entries_text by auto. destruct m as [|e r]; [contradiction|].
  assert (Q : forall l acc, keyed text l -> NoDup (map fst (acc ++ l)) ->
    foldM (fun (m : smap (list Z)) e => do k <- text_of (fst e); Ok (massign k (snd e) m)) l acc = Ok (acc ++ l)%list).
  { induction l as [|[k v] t IH]; intros acc KT N; cbn [foldM fst snd]; [rewrite app_nil_r; auto|].
    destruct KT as (ND & T). rewrite text_of_text by (apply (T (k, v)); left; auto). cbn [bind].
    rewrite massign_new.
    - rewrite IH.
      + rewrite <- app_assoc. reflexivity.
      + split; [inversion ND; auto|]. intros q Q. apply T. right. auto.
      + rewrite <- app_assoc. exact N.
    - rewrite map_app in N. cbn [map fst] in N. apply NoDup_remove_2 in N. intros Q. apply N. apply in_or_app. auto. }
  rewrite Q; auto. apply K.
Qed.
Lemma refill (m : smap (list Z)) mt k : NoDup (map fst m) -> forall acc,
  mfind "MATERIAL" acc = Some mt ->
  mfind k (fold_left (fun a e => if (fst e =? "MATERIAL")%string then a else massign (fst e) (snd e) a) m acc) =
  if (k =? "MATERIAL")%string then Some mt else match mfind k m with Some v => Some v | None => mfind k acc end.
Proof.
  induction m as [|[a v] t IH]; intros N acc A; cbn [fold_left fst snd mfind].
  - destruct (String.eqb_spec k "MATERIAL") as [->|]; auto.
  - inversion N; subst. destruct (String.eqb_spec a "MATERIAL") as [->|D].
    + rewrite IH by auto. destruct (k =? "MATERIAL")%string eqn:E; auto.
    + rewrite IH; auto.
      * rewrite mfind_assign. destruct (k =? "MATERIAL")%string; auto. destruct (String.eqb_spec k a) as [Q|]; auto.
        rewrite Q, mfind_none by auto. reflexivity.
      * rewrite mfind_assign. destruct (String.eqb_spec "MATERIAL" a) as [Q|]; auto. congruence.
Qed.

Definition mesh_file (m : mapped) : node :=
  let b := body m in
  Grp [("dimension", Z.of_nat (dim b)); ("number_cells_x", Z.of_nat (ncx b));
       ("number_cells_y", Z.of_nat (ncy b)); ("number_cells_z", Z.of_nat (ncz b))]
      [("dx", Vec (mdx b)); ("dy", Vec (mdy b)); ("dz", Vec (mdz b));
       ("mesh_map", Map (DVecInt (entries (maps m))))].

Lemma mesh_round s kids m : built m -> for_reading s = Ok s -> root_kids s = Ok kids -> mfind "mesh" kids = Some (mesh_file m) ->
  exists b, read_mesh s = Ok (b, s) /\ same_mesh m b.
Proof.
  intros ((LX & LY & LZ & _ & TX & TY & TZ & PX & PY & PZ & DD & D2 & D3) & B2 & B3 & KM & MM) RD K F.
  unfold read_mesh. rewrite RD. cbn [bind]. rewrite K. cbn [bind]. rewrite F. unfold mesh_file.
  set (b := body m) in *. match goal with |- context [read_vec ?k _ _] => set (sub := k) end.
  match goal with |- context [attribute ?a "number_cells_x"] =>
    change (attribute a "dimension") with (Ok (Z.of_nat (dim b)));
    change (attribute a "number_cells_x") with (Ok (Z.of_nat (ncx b)));
    change (attribute a "number_cells_y") with (Ok (Z.of_nat (ncy b)));
    change (attribute a "number_cells_z") with (Ok (Z.of_nat (ncz b))) end.
  cbn [bind].
  assert (C : ((0 <? Z.of_nat (ncx b)) && (0 <? Z.of_nat (ncy b)) && (0 <? Z.of_nat (ncz b)) &&
     ((Z.of_nat (dim b) =? 1) || (Z.of_nat (dim b) =? 2) || (Z.of_nat (dim b) =? 3)))%Z = true).
  { assert (dim b = 1 \/ dim b = 2 \/ dim b = 3) as Q by lia.
    repeat (apply andb_true_intro; split); try (apply Z.ltb_lt; lia).
    destruct Q as [Q|[Q|Q]]; rewrite Q; reflexivity. }
  rewrite C, !Nat2Z.id.
  rewrite (@read_vec_ok sub "dx" (mdx b)), (@read_vec_ok sub "dy" (mdy b)), (@read_vec_ok sub "dz" (mdz b)) by auto. cbn [bind needed].
  rewrite (@read_map_ok sub (maps m)); auto.
  2:{ intros Q. rewrite Q in MM. discriminate. }
  cbn [bind]. rewrite MM.
  assert (NX : mdx b <> []) by (intros Q; rewrite Q in LX; cbn in LX; lia).
  assert (NY : mdy b <> []) by (intros Q; rewrite Q in LY; cbn in LY; lia).
  assert (NZ : mdz b <> []) by (intros Q; rewrite Q in LZ; cbn in LZ; lia).
  destruct flat_axis as (FT0 & fa & FW).
  assert (MAPS : forall k, mfind k (fold_left (fun a e => if (fst e =? "MATERIAL")%string then a else massign (fst e) (snd e) a)
     (maps m) [("MATERIAL", mat b)]) = mfind k (maps m)).
  { intros k. rewrite (@refill (maps m) (mat b)); [|apply KM|reflexivity]. destruct (String.eqb_spec k "MATERIAL") as [->|N]; auto.
    destruct (mfind k (maps m)); auto. cbn. apply String.eqb_neq in N. rewrite N. reflexivity. }
  assert (ONE : forall w : list R, list_sum (repeat 1 (List.length (edges_from 0 w) - 1)) = List.length w)
    by (intros w; rewrite list_sum_ones, edges_length; lia).
  assert (CASES : dim b = 1 \/ dim b = 2 \/ dim b = 3) by lia.
  destruct CASES as [D|[D|D]]; rewrite D; cbn [Z.of_nat Pos.of_succ_nat Pos.succ Z.eqb Pos.eqb].
  - destruct (B2 ltac:(lia)) as (Y1 & Y2). destruct (B3 ltac:(lia)) as (Z1 & Z2).
    unfold mesh1D_fine, mesh_fine. rewrite (fine_total NX), FT0. cbn [bind]. rewrite fine_widths, FW. cbn [bind].
    eexists. split; [reflexivity|]. unfold same_mesh. cbn [body maps dim mdx mdy mdz twx twy twz mat Nat.ltb Nat.leb]. fold b.
    unfold ncx, ncy, ncz. cbn [xfm yfm zfm]. rewrite ONE. fold (ncx b) (ncy b) (ncz b).
    rewrite Y1, Y2, Z1, Z2, LX, TX. cbn. repeat (split; auto); try (rewrite <- ?LY, <- ?LZ, ?Y1, ?Z1; reflexivity).
  - destruct (B3 ltac:(lia)) as (Z1 & Z2).
    unfold mesh2D_fine, mesh_fine. rewrite (fine_total NX), (fine_total NY), FT0. cbn [bind]. rewrite !fine_widths, FW. cbn [bind].
    eexists. split; [reflexivity|]. unfold same_mesh. cbn [body maps dim mdx mdy mdz twx twy twz mat Nat.ltb Nat.leb]. fold b.
    unfold ncx, ncy, ncz. cbn [xfm yfm zfm]. rewrite !ONE. fold (ncx b) (ncy b) (ncz b).
    rewrite Z1, Z2, LX, TX, LY, TY. cbn. repeat (split; auto); try (rewrite <- ?LZ, ?Z1; reflexivity).
  - unfold mesh3D_fine, mesh_fine. rewrite (fine_total NX), (fine_total NY), (fine_total NZ). cbn [bind]. rewrite !fine_widths. cbn [bind].
    eexists. split; [reflexivity|]. unfold same_mesh. cbn [body maps dim mdx mdy mdz twx twy twz mat Nat.ltb Nat.leb]. fold b.
    unfold ncx, ncy, ncz. cbn [xfm yfm zfm]. rewrite !ONE. fold (ncx b) (ncy b) (ncz b).
    rewrite LX, TX, LY, TY, LZ, TZ. repeat (split; auto).
Qed.
