(** * Theorems on saved problems (C124) *)
From Coq Require Import String Permutation Lra Lia.
From Verif Require Import Base BaseR Loop Util_Model Material_Model Mesh_Model Mesh_Spec Mesh_Proofs Hdf_Model Hdf_Spec Hdf_Proofs3.
Open Scope string_scope.
Open Scope nat_scope.

(** C124 *)
Theorem C124_round_trip_partial :
  forall ord, (forall l, Permutation (ord l) l) -> forall items D,
  items <> [] -> Forall savable_item items -> NoDup (map kind_of items) ->
  exists s, foldM write_item items (fresh_session D) = Ok s /\
  forall s1, disk s1 = disk s ->
    (forall d, In (IInput d) items -> exists d' s2, read_input ord s1 = Ok (d', s2) /\ disk s2 = disk s /\ same_input d d') /\
    (forall m, In (IMaterial m) items -> exists b s2, read_material s1 = Ok (b, s2) /\ disk s2 = disk s /\
       same_material_but_diffusion m b /\ forall k g, k < nm m -> g < ng m -> dc b g k = sa m g k) /\
    (forall m, In (IMesh m) items -> exists b s2, read_mesh s1 = Ok (b, s2) /\ disk s2 = disk s /\ same_mesh m b) /\
    (~ In KInput (map kind_of items) -> read_input ord s1 = Err) /\
    (~ In KMaterial (map kind_of items) -> read_material s1 = Err) /\
    (~ In KMesh (map kind_of items) -> read_mesh s1 = Err).
Proof. exact @round_trip. Qed.
Print Assumptions C124_round_trip_partial.

(** A database with a nested one, and a mesh with two maps. *)
Example C124_case : exists d b,
  d = IDB (Build_db [("n", 2%Z)] [("x", 0.5%R)] [("v", [1; 2]%Z)] [("w", [])] [("s", "gmres")]
            [("inner", IDB (Build_db [("n", 3%Z)] [] [] [] [] []))]) /\
  mesh1D [2; 1] [0; 1; 3]%R [4; 5]%Z = Ok b /\
  Forall savable_item [IInput d; IMesh (Build_mapped b [("MATERIAL", mat b); ("REGION", [0; 0; 1]%Z)]); IMaterial (material_new 2 3)].
Proof.
  destruct (@mesh1D_ok [2; 1] [0; 1; 3]%R [4; 5]%Z) as (b & E & G & _ & _ & _ & D & _ & DY & DZ & _ & _ & _).
  { split; [discriminate|]. split; [intros f [<-|[<-|[]]]; lia|]. split; auto. intros [|[|i]] Hi; cbn in *; try lra; lia. }
  { reflexivity. }
  assert (K : forall (k : string), In k ["n"; "x"; "v"; "w"; "s"; "gmres"; "inner"; "MATERIAL"; "REGION"] -> link k).
  { intros k K. cbn in K. repeat (destruct K as [<-|K]); try contradiction;
      repeat split; try discriminate; intros Q; cbn in Q; repeat (destruct Q as [Q|Q]; [discriminate Q|]); exact Q. }
  assert (T : forall k, In k ["n"; "x"; "v"; "w"; "s"; "gmres"; "inner"; "MATERIAL"; "REGION"] -> text k) by (intros k I; apply (K k I)).
  eexists. exists b. split; [reflexivity|]. split; auto. constructor; [|constructor; [|constructor; [exact I|constructor]]].
  - assert (K0 : forall V P, @keyed V P []) by (intros; split; [constructor|intros e []]).
    assert (K1 : forall V (P : string -> Prop) k (v : V), P k -> keyed P [(k, v)]).
    { intros V P k v H. split; [constructor; [intros []|constructor]|]. intros e [<-|[]]. exact H. }
    intros p x A. destruct p as [|k p]; cbn [at_ m_db mfind] in A.
    + inversion A; subst x. cbn [m_int m_dbl m_str m_vec_int m_vec_dbl m_db].
      do 5 (split; [apply K1; apply T; cbn; tauto|]). split; [apply K1; apply K; cbn; tauto|].
      intros e [<-|[]]. apply T; cbn; tauto.
    + destruct (String.eqb k "inner"); [|discriminate]. destruct p as [|k' p]; cbn in A; [|discriminate].
      inversion A; subst x. cbn [m_int m_dbl m_str m_vec_int m_vec_dbl m_db].
      split; [apply K1; apply T; cbn; tauto|]. do 5 (split; [apply K0|]). intros e [].
  - unfold savable_item, built. cbn [body maps]. split; auto. pose proof G as (_ & _ & _ & _ & _ & TY & TZ & _).
    assert (NY : ncy b = 1) by (destruct G as (_ & L & _); rewrite <- L, DY; reflexivity).
    assert (NZ : ncz b = 1) by (destruct G as (_ & _ & L & _); rewrite <- L, DZ; reflexivity).
    split; [intros _; split; auto; rewrite <- TY, DY, NY; unfold left_edge; cbn; lra|].
    split; [intros _; split; auto; rewrite <- TZ, DZ, NZ; unfold left_edge; cbn; lra|].
    split; [|reflexivity]. split; [cbn; repeat constructor; cbn; intuition discriminate|].
    intros e [<-|[<-|[]]]; apply T; cbn; tauto.
Qed.

Theorem C124_diffusion_refuted :
  exists m s b s2, fin m = true /\ write_material (fresh_session None) m = Ok s /\
  read_material (close s) = Ok (b, s2) /\ ~ same_diffusion m b.
Proof. exact diffusion_lost. Qed.
Print Assumptions C124_diffusion_refuted.

Theorem C124_replace_refuted :
  forall D i j, kind_of i <> KMaterial -> savable_item i ->
  exists s, write_item (fresh_session D) i = Ok s /\ write_item (close s) j = Err.
Proof. exact (@no_second_save (fun l => l) (fun l => Permutation_refl l)). Qed.
Print Assumptions C124_replace_refuted.

Theorem C124_replace_after_read_refuted :
  forall ord, (forall l, Permutation (ord l) l) -> forall D d j, savable d ->
  exists s d' s2, write_item (fresh_session D) (IInput d) = Ok s /\ read_input ord (fresh_session (disk s)) = Ok (d', s2) /\
    same_input d d' /\ write_item (close s2) j = Err.
Proof. exact @no_save_after_read. Qed.
Print Assumptions C124_replace_after_read_refuted.

Theorem C124_replace_material_partial :
  forall D m i, exists s, write_item (fresh_session D) (IMaterial m) = Ok s /\
  write_item (close s) i = write_item (fresh_session (disk s)) i.
Proof. exact (@material_replaced (fun l => l) (fun l => Permutation_refl l)). Qed.
Print Assumptions C124_replace_material_partial.

Theorem C124_second_write_refuted :
  forall D i j, savable_item i -> savable_item j -> kind_of i = kind_of j ->
  exists s, write_item (fresh_session D) i = Ok s /\ write_item s j = Ok s.
Proof. exact (@second_dropped (fun l => l) (fun l => Permutation_refl l)). Qed.
Print Assumptions C124_second_write_refuted.

Theorem C124_write_after_read_refuted :
  forall D m i, savable_item i ->
  exists s b s2, write_item (fresh_session D) (IMaterial m) = Ok s /\ read_material (fresh_session (disk s)) = Ok (b, s2) /\
    write_item s2 i = Ok s2.
Proof. exact (@dropped_after_read (fun l => l) (fun l => Permutation_refl l)). Qed.
Print Assumptions C124_write_after_read_refuted.
