(** * Specification vocabulary for pictures *)
From Verif Require Import Base BaseR Mesh_Model Mesh_Spec.
Open Scope nat_scope.

(** Pixel k of p along a side of length w: from end to end, or the middles of
    p equal parts. *)
Definition spot (w : R) (p k : nat) : R := (w * (INR k / INR (p - 1)))%R.
Definition middle (w : R) (p k : nat) : R := (w * ((INR k + / 2) / INR p))%R.

(** Cell c of the mesh contains the point (x, y). *)
Definition shows (m : mesh) (c : nat) (x y : R) : Prop :=
  c < ncells m /\ in_cell (mdx m) (cell_to_i (ncx m) c) x /\ in_cell (mdy m) (cell_to_j (ncx m) (ncy m) c) y.

(** A pixel of three bytes. *)
Definition red (c : Z * Z * Z) : Z := fst (fst c).
Definition blue (c : Z * Z * Z) : Z := snd c.
Definition is_rgb (c : Z * Z * Z) : Prop :=
  (0 <= fst (fst c) <= 255)%Z /\ (0 <= snd (fst c) <= 255)%Z /\ (0 <= snd c <= 255)%Z.

(** The colours of the interpolating maps, the distance of two colours, and
    the distance walked along a list of colours up to the one of number k. *)
Definition jet_colours : list (Z * Z * Z) :=
  [(0, 0, 139); (0, 0, 255); (0, 127, 255); (0, 255, 255); (144, 238, 144); (255, 255, 0); (255, 165, 0); (255, 0, 0); (139, 0, 0)]%Z.
Definition hot_colours : list (Z * Z * Z) := [(0, 0, 0); (255, 0, 0); (255, 255, 0); (255, 255, 255)]%Z.
Definition cool_colours : list (Z * Z * Z) := [(0, 255, 255); (255, 0, 255)]%Z.
Definition green (c : Z * Z * Z) : Z := snd (fst c).
Definition apart (a b : Z * Z * Z) : R :=
  sqrt (IZR (red a - red b) ^ 2 + IZR (green a - green b) ^ 2 + IZR (blue a - blue b) ^ 2)%R.
Definition colour (cs : list (Z * Z * Z)) (k : nat) : Z * Z * Z := nth k cs (0, 0, 0)%Z.
Definition walked (cs : list (Z * Z * Z)) (k : nat) : R := rsum k (fun i => apart (colour cs i) (colour cs (S i))).
(** z is the part u of the way from a to b, rounded down. *)
Definition part_way (u : R) (a b z : Z) : Prop := (IZR z <= IZR a + (IZR b - IZR a) * u < IZR z + 1)%R.
(** The colour of the part t of the way along a list of colours. *)
Definition colour_at (cs : list (Z * Z * Z)) (t : R) (c : Z * Z * Z) : Prop :=
  let s := (t * walked cs (length cs - 1))%R in
  exists k u, S k < length cs /\ (0 <= u <= 1 /\ s = walked cs k + u * (walked cs (S k) - walked cs k))%R /\
    part_way u (red (colour cs k)) (red (colour cs (S k))) (red c) /\
    part_way u (green (colour cs k)) (green (colour cs (S k))) (green c) /\
    part_way u (blue (colour cs k)) (blue (colour cs (S k))) (blue c).
