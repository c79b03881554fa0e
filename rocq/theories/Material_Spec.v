(** * Specification vocabulary for materials *)
From Verif Require Import Base BaseR Material_Model.
Open Scope nat_scope.

(** Some material scatters from gp into g. *)
Definition transfer (x : mtl) (g gp : nat) : Prop :=
  exists k, k < nm x /\ (0 < ss x g gp k)%R.

(** Scattering bounds contain every transfer and are attained. *)
Definition bounds_complete (x : mtl) : Prop :=
  forall g gp, g < ng x -> gp < ng x -> transfer x g gp ->
    lower x g false <= gp <= upper x g false /\
    upper x gp true <= g <= lower x gp true.
Definition bounds_attained (x : mtl) : Prop :=
  forall g, g < ng x ->
    lower x g false <= g <= upper x g false /\ upper x g true <= g <= lower x g true /\
    upper x g false < ng x /\ lower x g true < ng x /\
    (lower x g false = g \/ transfer x g (lower x g false)) /\
    (upper x g false = g \/ transfer x g (upper x g false)) /\
    (lower x g true = g \/ transfer x (lower x g true) g) /\
    (upper x g true = g \/ transfer x (upper x g true) g).

(** g receives upscatter: from a group with a higher index. *)
Definition upscatters_into (x : mtl) (g : nat) : Prop :=
  exists gp, g < gp < ng x /\ transfer x g gp.
(** g is the source of upscatter: into a group with a lower index. *)
Definition upscatters_from (x : mtl) (g : nat) : Prop :=
  exists gp, gp < g /\ transfer x gp g.

Definition cutoff_ok (x : mtl) (c : nat) : Prop :=
  c <= ng x /\ (forall g, g < c -> ~ upscatters_into x g) /\ (c < ng x -> upscatters_into x c).
Definition adjoint_cutoff_ok (x : mtl) (c : nat) : Prop :=
  (forall g, c < g < ng x -> ~ upscatters_from x g) /\ (c <> 0 -> c < ng x /\ upscatters_from x c).

(** Operations that do not (re)compute the derived data. *)
Definition plain (o : mop) : bool :=
  match o with Finalize => false | SetDown _ _ => false | _ => true end.

(** Same cross sections. *)
Definition same_sections (x y : mtl) : Prop :=
  ng x = ng y /\ nm x = nm y /\
  (forall g gp k, ss x g gp k = ss y g gp k) /\
  (forall g k, nu x g k = nu y g k /\ sf x g k = sf y g k).
