(** * Specification vocabulary for saved problems (C124) *)
From Coq Require Import String Ascii.
From Verif Require Import Base BaseR Util_Model Material_Model Mesh_Model Mesh_Spec Hdf_Model.
Open Scope string_scope.
Open Scope nat_scope.
Set Implicit Arguments.

(** The database reached through a path of nested names. *)
Fixpoint at_ (d : idb) (p : list string) : option idb :=
  match p, d with
  | [], _ => Some d
  | k :: q, IDB x => match mfind k (m_db x) with Some e => at_ e q | None => None end
  end.
(** Two databases no get, at any depth, tells apart. *)
Definition same_input (a b : idb) : Prop :=
  forall p, match at_ a p, at_ b p with
            | Some (IDB x), Some (IDB y) => forall t k, t <> TDb -> getv x t k = getv y t k
            | None, None => True
            | _, _ => False
            end.

(** A nonempty string without zero bytes; a link name. *)
Definition text (s : string) : Prop := s <> "" /\ ~ In (ascii_of_nat 0) (list_ascii_of_string s).
Definition link (s : string) : Prop := text s /\ s <> "." /\ ~ In "/"%char (list_ascii_of_string s).
Definition keyed {V} (P : string -> Prop) (m : smap V) : Prop := NoDup (map fst m) /\ forall e, In e m -> P (fst e).
(** A database (its maps have every key once) whose strings are texts. *)
Definition savable (d : idb) : Prop :=
  forall p x, at_ d p = Some (IDB x) ->
    keyed text (m_int x) /\ keyed text (m_dbl x) /\ keyed text (m_str x) /\ keyed text (m_vec_int x) /\
    keyed text (m_vec_dbl x) /\ keyed link (m_db x) /\ forall e, In e (m_str x) -> text (snd e).

(** The same cross sections, up to the diffusion coefficients, and the
    bounds of the finalized original. *)
Definition same_material_but_diffusion (a b : mtl) : Prop :=
  ng b = ng a /\ nm b = nm a /\ fin b = true /\
  forall k g, k < nm a -> g < ng a ->
    st b g k = st a g k /\ sa b g k = sa a g k /\ sf b g k = sf a g k /\ nu b g k = nu a g k /\ chi b g k = chi a g k /\
    nsf b g k = (nu a g k * sf a g k)%R /\
    (forall gp, gp < ng a -> ss b g gp k = ss a g gp k) /\
    forall t, lower b g t = lower (finalize a) g t /\ upper b g t = upper (finalize a) g t.
Definition same_diffusion (a b : mtl) : Prop := forall k g, k < nm a -> g < ng a -> dc b g k = dc a g k.

(** A mesh as the constructors make them, with its maps. *)
Definition built (m : mapped) : Prop :=
  mesh_good (body m) /\
  (dim (body m) < 2 -> mdy (body m) = [1%R] /\ twy (body m) = 1%R) /\
  (dim (body m) < 3 -> mdz (body m) = [1%R] /\ twz (body m) = 1%R) /\
  keyed text (maps m) /\ mfind "MATERIAL" (maps m) = Some (mat (body m)).
Definition same_mesh (a b : mapped) : Prop :=
  let x := body a in let y := body b in
  dim y = dim x /\ ncx y = ncx x /\ ncy y = ncy x /\ ncz y = ncz x /\ mdx y = mdx x /\ mdy y = mdy x /\ mdz y = mdz x /\
  twx y = twx x /\ twy y = twy x /\ twz y = twz x /\ mat y = mat x /\ forall k, mfind k (maps b) = mfind k (maps a).

Definition savable_item (i : item) : Prop :=
  match i with IInput d => savable d | IMaterial _ => True | IMesh m => built m end.
(** One of a kind. *)
Inductive kind := KInput | KMaterial | KMesh.
Definition kind_of (i : item) : kind := match i with IInput _ => KInput | IMaterial _ => KMaterial | IMesh _ => KMesh end.
