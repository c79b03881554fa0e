(** * Proofs on sessions with a file (no model content) *)
From Coq Require Import String Ascii Permutation Lra Lia.
From Verif Require Import Base BaseR Loop Util_Model Util_Proofs Material_Model Mesh_Model Mesh_Spec Csg_Model
  Hdf_Model Hdf_Spec Hdf_Proofs Hdf_Proofs2.
Open Scope string_scope.
Open Scope nat_scope.
Set Implicit Arguments. Unset Strict Implicit.

Definition name_of (i : item) : string := match kind_of i with KInput => "input" | KMaterial => "material" | KMesh => "mesh" end.
Lemma name_inj i j : name_of i = name_of j -> kind_of i = kind_of j.
Proof. unfold name_of. destruct (kind_of i), (kind_of j); auto; discriminate. Qed.

Section Order.
Variable ord : list string -> list string.
Hypothesis any_order : forall l, Permutation (ord l) l.

Definition restores (i : item) (n : node) : Prop :=
  match i with
  | IInput d => exists d' h, read_node ord n = Ok (d', h) /\ 0 < h /\ same_input d d'
  | IMaterial m => n = material_file m
  | IMesh m => n = mesh_file m
  end.

Lemma item_node i : savable_item i -> exists n h, restores i n /\ (kind_of i <> KMaterial -> 0 < h) /\ (kind_of i = KMaterial -> h = 0) /\
  forall s, write_item s i = do s <- for_writing s; add_root s (name_of i) n h.
Proof.
  destruct i as [d|m|m]; intros SV.
  - destruct (input_round any_order SV) as (n & h & E & R). exists n, (S h). split; [exact R|]. split; [lia|]. split; [discriminate|].
    intros s. cbn [write_item]. unfold write_input. destruct (for_writing s); cbn [bind]; auto. rewrite E. reflexivity.
  - exists (material_file m), 0. split; [reflexivity|]. split; [cbn; congruence|]. split; auto.
  - exists (mesh_file m), 1. split; [reflexivity|]. split; [lia|]. split; [discriminate|]. auto.
Qed.

Lemma write_new s kids i : savable_item i -> file s = Some RW -> disk s = Some (Grp [] kids) -> mfind (name_of i) kids = None ->
  exists n h, write_item s i = Ok {| disk := Some (Grp [] (kids ++ [(name_of i, n)])); held := held s + h; file := Some RW |} /\
    restores i n /\ (kind_of i <> KMaterial -> 0 < h) /\ (kind_of i = KMaterial -> h = 0).
Proof.
  intros SV F D M. destruct (item_node SV) as (n & h & R & H & H0 & W). exists n, h. split; auto.
  rewrite W. unfold for_writing. rewrite F. cbn [bind]. unfold add_root. rewrite F, D, M. reflexivity.
Qed.
Lemma write_first D i : savable_item i ->
  exists n h, write_item (fresh_session D) i = Ok {| disk := Some (Grp [] [(name_of i, n)]); held := h; file := Some RW |} /\
    restores i n /\ (kind_of i <> KMaterial -> 0 < h) /\ (kind_of i = KMaterial -> h = 0).
Proof.
  intros SV. destruct (item_node SV) as (n & h & R & H & H0 & W). exists n, h. split; auto. rewrite W. reflexivity.
Qed.

(** Everything written is found again. *)
Definition all_there (items : list item) (kids : list (string * node)) : Prop :=
  map fst kids = map name_of items /\ forall i, In i items -> exists n, mfind (name_of i) kids = Some n /\ restores i n.

Lemma write_more items : forall done s kids, Forall savable_item items -> NoDup (map kind_of (done ++ items)) ->
  file s = Some RW -> disk s = Some (Grp [] kids) -> all_there done kids ->
  exists s' kids', foldM write_item items s = Ok s' /\ disk s' = Some (Grp [] kids') /\ all_there (done ++ items) kids'.
Proof.
  induction items as [|i t IH]; intros done s kids SV ND F D (K & A).
  - exists s, kids. rewrite app_nil_r. repeat (split; auto).
  - inversion SV; subst. assert (NI : ~ In (name_of i) (map fst kids)).
    { rewrite K. intros Q. apply in_map_iff in Q. destruct Q as (j & Ej & Ij). apply name_inj in Ej.
      rewrite map_app in ND. cbn [map] in ND. apply NoDup_remove_2 in ND. apply ND. apply in_or_app. left. rewrite <- Ej. apply in_map. auto. }
    destruct (@write_new s kids i) as (n & h & E & R & _); auto; [apply mfind_none; auto|].
    cbn [foldM]. rewrite E. cbn [bind].
    destruct (IH (done ++ [i])%list {| disk := Some (Grp [] (kids ++ [(name_of i, n)])); held := held s + h; file := Some RW |} (kids ++ [(name_of i, n)])%list)
      as (s' & kids' & E' & D' & A'); auto.
    + rewrite <- app_assoc. auto.
    + split; [rewrite !map_app, K; reflexivity|]. intros j J. apply in_app_or in J. rewrite mfind_app. destruct J as [J|[<-|[]]].
      * destruct (A j J) as (q & Q & Rq). exists q. rewrite Q. auto.
      * rewrite (mfind_none NI). cbn. rewrite String.eqb_refl. eauto.
    + exists s', kids'. rewrite <- app_assoc in A'. auto.
Qed.

Lemma write_all items D : items <> [] -> Forall savable_item items -> NoDup (map kind_of items) ->
  exists s kids, foldM write_item items (fresh_session D) = Ok s /\ disk s = Some (Grp [] kids) /\ all_there items kids.
Proof.
  destruct items as [|i t]; [contradiction|]. intros _ SV ND. inversion SV; subst.
  destruct (@write_first D i) as (n & h & E & R & _); auto. cbn [foldM]. rewrite E. cbn [bind].
  destruct (@write_more t [i] {| disk := Some (Grp [] [(name_of i, n)]); held := h; file := Some RW |} [(name_of i, n)]) as (s & kids & Es & Ds & A); auto.
  - split; auto. intros j [<-|[]]. exists n. cbn. rewrite String.eqb_refl. auto.
  - exists s, kids. auto.
Qed.

(** Reading from any session on that file. *)
Lemma reading_ok s kids : disk s = Some (Grp [] kids) ->
  exists s', for_reading s = Ok s' /\ for_reading s' = Ok s' /\ disk s' = disk s /\ root_kids s' = Ok kids /\
    file s' <> None /\ (file s = None -> held s = 0 -> file s' = Some RO).
Proof.
  intros D. unfold for_reading. destruct (file s) as [a|] eqn:F.
  - exists s. rewrite F. unfold root_kids. rewrite D. repeat (split; auto; try congruence).
  - unfold open_read. rewrite D. eexists. split; [reflexivity|]. cbn [file disk]. split; auto. split; auto. split; auto. split; [discriminate|].
    intros _ Z. rewrite Z. reflexivity.
Qed.
Lemma read_from s s' : for_reading s = Ok s' -> for_reading s' = Ok s' ->
  read_input ord s = read_input ord s' /\ read_material s = read_material s' /\ read_mesh s = read_mesh s'.
Proof. intros A B. unfold read_input, read_material, read_mesh. rewrite A, B. auto. Qed.

Theorem round_trip items D : items <> [] -> Forall savable_item items -> NoDup (map kind_of items) ->
  exists s, foldM write_item items (fresh_session D) = Ok s /\
  forall s1, disk s1 = disk s ->
    (forall d, In (IInput d) items -> exists d' s2, read_input ord s1 = Ok (d', s2) /\ disk s2 = disk s /\ same_input d d') /\
    (forall m, In (IMaterial m) items -> exists b s2, read_material s1 = Ok (b, s2) /\ disk s2 = disk s /\
       same_material_but_diffusion m b /\ forall k g, k < nm m -> g < ng m -> dc b g k = sa m g k) /\
    (forall m, In (IMesh m) items -> exists b s2, read_mesh s1 = Ok (b, s2) /\ disk s2 = disk s /\ same_mesh m b) /\
    (~ In KInput (map kind_of items) -> read_input ord s1 = Err) /\
    (~ In KMaterial (map kind_of items) -> read_material s1 = Err) /\
    (~ In KMesh (map kind_of items) -> read_mesh s1 = Err).
Proof.
  intros NE SV ND. destruct (write_all D NE SV ND) as (s & kids & E & Ds & (K & A)). exists s. split; auto.
  intros s1 D1. rewrite Ds in *. destruct (reading_ok D1) as (s' & R1 & R2 & D2 & K2 & _). rewrite D1 in D2.
  destruct (read_from R1 R2) as (-> & -> & ->).
  assert (MISS : forall i, ~ In (kind_of i) (map kind_of items) -> mfind (name_of i) kids = None).
  { intros i N. apply mfind_none. rewrite K. intros Q. apply in_map_iff in Q. destruct Q as (j & Ej & Ij). apply name_inj in Ej.
    apply N. rewrite <- Ej. apply in_map. auto. }
  split; [|split; [|split; [|split; [|split]]]].
  - intros d I. destruct (A _ I) as (n & F & d' & h & Rn & _ & S). cbn in F. unfold read_input. rewrite R2. cbn [bind]. rewrite K2. cbn [bind].
    rewrite F, Rn. cbn [bind fst snd]. eexists _, _. split; [reflexivity|]. split; auto.
  - intros m I. destruct (A _ I) as (n & F & Rn). cbn in F, Rn. subst n.
    destruct (@material_round s' kids m R2 K2 F) as (b & Eb & S1 & S2). exists b, s'. auto.
  - intros m I. destruct (A _ I) as (n & F & Rn). cbn in F, Rn. subst n.
    rewrite Forall_forall in SV. destruct (@mesh_round s' kids m (SV _ I) R2 K2 F) as (b & Eb & S1). exists b, s'. auto.
  - intros N. unfold read_input. rewrite R2. cbn [bind]. rewrite K2. cbn [bind].
    pose proof (MISS (IInput (IDB (empty_db idb))) N) as F. cbn in F. rewrite F. reflexivity.
  - intros N. unfold read_material. rewrite R2. cbn [bind]. rewrite K2. cbn [bind].
    pose proof (MISS (IMaterial (material_new 0 0)) N) as F. cbn in F. rewrite F. reflexivity.
  - intros N. unfold read_mesh. rewrite R2. cbn [bind]. rewrite K2. cbn [bind].
    pose proof (MISS (IMesh (Build_mapped (Build_mesh 0 [] [] [] [] [] [] [] [] [] 0 0 0 [])%R [])) N) as F. cbn in F. rewrite F. reflexivity.
Qed.

(** A file with an input or a mesh cannot be replaced by the same process. *)
Theorem no_second_save D i j : kind_of i <> KMaterial -> savable_item i ->
  exists s, write_item (fresh_session D) i = Ok s /\ write_item (close s) j = Err.
Proof.
  intros N SV. destruct (@write_first D i SV) as (n & h & E & _ & H & _). eexists. split; [exact E|].
  specialize (H N). assert (Q : (h =? 0) = false) by (apply Nat.eqb_neq; lia).
  destruct j as [d|m|m]; cbn [write_item]; unfold write_input, write_material, write_mesh, for_writing, open_write; cbn [close file held]; rewrite Q; reflexivity.
Qed.
Theorem no_save_after_read D d j : savable d ->
  exists s d' s2, write_item (fresh_session D) (IInput d) = Ok s /\ read_input ord (fresh_session (disk s)) = Ok (d', s2) /\
    same_input d d' /\ write_item (close s2) j = Err.
Proof.
  intros SV. destruct (@write_first D (IInput d) SV) as (n & h & E & (d' & hr & Rn & P & S) & _).
  eexists. exists d'. eexists. split; [exact E|]. split; [|split; [exact S|]].
  - unfold read_input. cbn [disk fresh_session for_reading file open_read bind root_kids name_of kind_of mfind String.eqb]. cbn. rewrite Rn. cbn [bind fst snd]. reflexivity.
  - assert (Q : (hr =? 0) = false) by (apply Nat.eqb_neq; lia).
    destruct j as [q|m|m]; cbn [write_item]; unfold write_input, write_material, write_mesh, for_writing, open_write; cbn [close file held fresh_session disk Nat.add]; rewrite Q; reflexivity.
Qed.
(** A file of materials can. *)
Theorem material_replaced D m i : exists s, write_item (fresh_session D) (IMaterial m) = Ok s /\
  write_item (close s) i = write_item (fresh_session (disk s)) i.
Proof.
  destruct (@write_first D (IMaterial m) I) as (n & h & E & _ & _ & H). eexists. split; [exact E|]. rewrite (H eq_refl). reflexivity.
Qed.

(** The second of a kind is dropped without a word. *)
Theorem second_dropped D i j : savable_item i -> savable_item j -> kind_of i = kind_of j ->
  exists s, write_item (fresh_session D) i = Ok s /\ write_item s j = Ok s.
Proof.
  intros SI SJ K. destruct (@write_first D i SI) as (n & h & E & _). eexists. split; [exact E|].
  destruct (item_node SJ) as (n' & h' & _ & _ & _ & W). rewrite W. cbn [for_writing file bind]. unfold add_root. cbn [file disk mfind].
  replace (name_of j) with (name_of i) by (unfold name_of; rewrite K; auto). rewrite String.eqb_refl. reflexivity.
Qed.
(** So is anything written after reading. *)
Theorem dropped_after_read D m i : savable_item i ->
  exists s b s2, write_item (fresh_session D) (IMaterial m) = Ok s /\ read_material (fresh_session (disk s)) = Ok (b, s2) /\
    write_item s2 i = Ok s2.
Proof.
  intros SI. destruct (@write_first D (IMaterial m) Logic.I) as (n & h & E & R & _ & _). cbn in R. subst n.
  destruct (@reading_ok (fresh_session (Some (Grp [] [("material", material_file m)]))) [("material", material_file m)] eq_refl)
    as (s' & R1 & R2 & D2 & K2 & _ & RO').
  destruct (@material_round s' _ m R2 K2 eq_refl) as (b & Eb & _).
  eexists. exists b, s'. split; [exact E|]. cbn [disk]. split.
  - destruct (read_from R1 R2) as (_ & Q & _). cbn [name_of kind_of]. rewrite Q. exact Eb.
  - destruct (item_node SI) as (n' & h' & _ & _ & _ & W). rewrite W. unfold for_writing. rewrite (RO' eq_refl eq_refl). cbn [bind].
    unfold add_root. rewrite (RO' eq_refl eq_refl), D2. reflexivity.
Qed.
End Order.

Lemma diffusion_lost : exists m s b s2, fin m = true /\ write_material (fresh_session None) m = Ok s /\
  read_material (close s) = Ok (b, s2) /\ ~ same_diffusion m b.
Proof.
  set (m := finalize (compute_diff_coef (set_field (material_new 1 1) FT 0 0 1%R))).
  destruct (@round_trip (fun l => l) (fun l => Permutation_refl l) [IMaterial m] None) as (s & E & H).
  - discriminate.
  - repeat constructor.
  - repeat constructor. auto.
  - destruct (H (close s) eq_refl) as (_ & HM & _). destruct (HM m (or_introl eq_refl)) as (b & s2 & Er & _ & _ & DC).
    exists m, s, b, s2. split; [reflexivity|]. split.
    { cbn [foldM write_item] in E. destruct (write_material (fresh_session None) m); cbn [bind] in E; congruence. }
    split; auto. intros S. specialize (S 0 0 ltac:(cbn; lia) ltac:(cbn; lia)). specialize (DC 0 0 ltac:(cbn; lia) ltac:(cbn; lia)).
    rewrite S in DC. cbn in DC. lra.
Qed.
