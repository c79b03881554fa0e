(** * Specification vocabulary for solid geometry *)
From Verif Require Import Base BaseR Mesh_Model Mesh_Spec Csg_Model.
Open Scope R_scope.

(** Point sets. *)
Definition pset := point -> Prop.
Definition s_union (A B : pset) : pset := fun p => A p \/ B p.
Definition s_inter (A B : pset) : pset := fun p => A p /\ B p.
Definition s_diff (A B : pset) : pset := fun p => A p /\ ~ B p.
Definition s_shift (A : pset) (t : point) : pset := fun p => exists q, A q /\ p = padd q t.
(** Half space of a surface. *)
Definition s_side (s : quadric) (outer : bool) : pset :=
  fun p => if outer then 0 <= qf s p else qf s p < 0.

Fixpoint den (n : node) : pset :=
  match n with
  | Prim s sn => s_side s sn
  | Union a b => s_union (den a) (den b)
  | Inter a b => s_inter (den a) (den b)
  | Diff a b => s_diff (den a) (den b)
  | Trans m t => s_shift (den m) t
  end.

(** The value of the surface function along a ray. *)
Definition along (s : quadric) (r : ray) (t : R) : R := qf s (at_distance r t).

(** The ray meets the surface transversally and the equation is not nearly
    degenerate: it has a definite leading coefficient and is not tangent. *)
Definition transversal (s : quadric) (r : ray) : Prop :=
  exists a b c, (forall t, along s r t = a * t * t + b * t + c) /\
    ((eps13 / 2 <= Rabs a /\ b * b <> 4 * a * c) \/ (a = 0 /\ eps13 / 2 < Rabs b)).

(** std::sort by distance from a point. *)
Definition is_psort (srt : point -> list point -> list point) : Prop :=
  forall o l, Permutation l (srt o l) /\
    StronglySorted (fun p q => distance o p <= distance o q) (srt o l).

(** The surfaces of a tree with the total translation applied to each. *)
Fixpoint leaves (n : node) (t : point) : list (quadric * point) :=
  match n with
  | Prim s _ => [(s, t)]
  | Union a b | Inter a b | Diff a b => leaves a t ++ leaves b t
  | Trans m u => leaves m (padd t u)
  end.

Definition in_box (lo hi p : point) : Prop :=
  px lo <= px p <= px hi /\ py lo <= py p <= py hi /\ pz lo <= pz p <= pz hi.

(** The box of a region; one without height is unbounded in z. *)
Definition in_bounds (r : region) (p : point) : Prop :=
  px (rmin r) <= px p <= px (rmax r) /\ py (rmin r) <= py p <= py (rmax r) /\
  (pz (rmin r) < pz (rmax r) -> pz (rmin r) <= pz p <= pz (rmax r)).
(** The ray runs in a face x = const of the box. *)
Definition grazes_x (r : region) (y : ray) : Prop :=
  px (direction y) = 0 /\ (px (origin y) = px (rmin r) \/ px (origin y) = px (rmax r)).

(** Half-open cell of a mesh axis. *)
Definition in_cell_ho (w : list R) (i : nat) (x : R) : Prop :=
  (i < length w)%nat /\ left_edge w i <= x < left_edge w (S i).

Definition no_sharing (d : tdb) : Prop := NoDup (map t_segs (flat_map snd d)).
