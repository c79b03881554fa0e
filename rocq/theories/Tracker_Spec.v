(** * Tracker_Spec: what tracks and their segments must be *)
From Verif Require Import Base BaseR Util_Model Mesh_Model Mesh_Spec Csg_Model Csg_Spec Pin_Model Pin_Spec Tracker_Model.
Open Scope R_scope.

(** std::sort of the segments by the distance of their midpoints. *)
Definition is_msort (f : point -> list mseg -> list mseg) : Prop :=
  forall o l, Permutation l (f o l) /\ StronglySorted (fun a b => distance (ms_mid a) o <= distance (ms_mid b) o) (f o l).

(** The point at distance t from P0 on the way to P1. *)
Definition on_track (P0 P1 : point) (t : R) : point := padd P0 (pscale (t / distance P0 P1) (psub P1 P0)).

(** The surface meets the track in finitely many points, found by the solver of the
    quadratic: the leading coefficient is not tiny, or the surface is a plane that is
    crossed or missed.  Tangent surfaces must not be entered. *)
Definition regular (s : quadric) (o P0 P1 : point) : Prop :=
  exists a b c, (forall t, qf s (psub (on_track P0 P1 t) o) = a * t * t + b * t + c) /\
    ((eps13 / 2 <= Rabs a /\ (0 < a \/ b * b <> 4 * a * c)) \/
     (a = 0 /\ eps13 / 2 < Rabs b) \/ (a = 0 /\ b = 0 /\ c <> 0)).

Definition region_leaves (reg : region) : list (quadric * point) :=
  match rnode reg with None => [] | Some n => leaves n (P3 0 0 0) end.
(** The track meets a surface of the region at t. *)
Definition meets (reg : region) (P0 P1 : point) (t : R) : Prop :=
  exists s o, In (s, o) (region_leaves reg) /\ qf s (psub (on_track P0 P1 t) o) = 0.
(** ... going through it. *)
Definition goes_through (reg : region) (P0 P1 : point) (t : R) : Prop :=
  exists s o, In (s, o) (region_leaves reg) /\ qf s (psub (on_track P0 P1 t) o) = 0 /\
    exists a b c, (forall u, qf s (psub (on_track P0 P1 u) o) = a * u * u + b * u + c) /\
      ((eps13 / 2 <= Rabs a /\ b * b <> 4 * a * c) \/ (a = 0 /\ eps13 / 2 < Rabs b)).

Definition trackable (rs : list region) (P0 P1 : point) : Prop :=
  let L := distance P0 P1 in
  0 < L /\
  (forall reg, In reg rs -> rnode reg <> None /\ forall s o, In (s, o) (region_leaves reg) -> regular s o P0 P1) /\
  (* one region at each point of the track, none just before and after *)
  (forall t, 0 < t < L -> exists i, only_region rs (on_track P0 P1 t) i) /\
  (forall t, - seg_eps < t < 0 \/ L < t < L + seg_eps -> no_region rs (on_track P0 P1 t)) /\
  (* bounding boxes let those through that the track meets, and only regions with an intersection *)
  (forall reg t, In reg rs -> 0 < t < L -> region_contains reg (on_track P0 P1 t) = Ok true ->
     intersects_box reg (track_ray P0 P1) (L + 2 * seg_eps) = true) /\
  (forall reg, In reg rs -> intersects_box reg (track_ray P0 P1) (L + 2 * seg_eps) = true ->
     exists t, - seg_eps < t <= L + seg_eps /\ goes_through reg P0 P1 t) /\
  (* intersections with one region are not closer than the tolerance *)
  (forall reg t u, In reg rs -> meets reg P0 P1 t -> meets reg P0 P1 u -> t < u -> / 10 ^ 12 <= u - t).

(** The segments follow each other without gap from distance a to distance b, each
    inside its region. *)
Fixpoint tiles (rs : list region) (P0 P1 : point) (l : list segment) (a b : R) : Prop :=
  match l with
  | [] => a = b
  | s :: t =>
      0 < slength s /\
      (forall u, a < u < a + slength s -> exists reg, nth_error rs (sregion s) = Some reg /\ region_contains reg (on_track P0 P1 u) = Ok true) /\
      tiles rs P0 P1 t (a + slength s) b
  end.

(** Tracks through a two-dimensional mesh: between points of the boundary, not
    parallel to an axis, and passing no corner of the mesh at less than the tolerance
    unless through it.  Cells are not narrower than twice the margin of the bounding
    boxes. *)
Definition on_boundary (X Y : R) (p : point) : Prop :=
  0 <= px p <= X /\ 0 <= py p <= Y /\ pz p = 0 /\ (px p = 0 \/ px p = X \/ py p = 0 \/ py p = Y).
Definition clear_of_corners (m : mesh) (P0 P1 : point) : Prop :=
  forall i j t u, px (on_track P0 P1 t) = left_edge (mdx m) i -> py (on_track P0 P1 u) = left_edge (mdy m) j -> t = u \/ / 10 ^ 12 <= Rabs (u - t).
Definition mesh_track (m : mesh) (P0 P1 : point) : Prop :=
  dim m = 2%nat /\ (forall w, In w (mdx m) \/ In w (mdy m) -> 2 * / 10 ^ 5 <= w) /\
  on_boundary (twx m) (twy m) P0 /\ on_boundary (twx m) (twy m) P1 /\
  eps13 / 2 * distance P0 P1 < Rabs (px P1 - px P0) /\ eps13 / 2 * distance P0 P1 < Rabs (py P1 - py P0) /\
  clear_of_corners m P0 P1.

(** ** Generated tracks *)
(** A rule for a face: points inside, weights adding up to the length. *)
Definition face_rule (base : nat -> R -> list (R * R)) : Prop :=
  forall n L, (0 < n)%nat -> 0 < L ->
  length (base n L) = n /\ sumR (map snd (base n L)) = L /\ forall x w, In (x, w) (base n L) -> 0 < x < L.
(** Signs of the direction in the four octants. *)
Definition sgn_x (o : nat) : R := match o with 0%nat | 3%nat => 1 | _ => -1 end.
Definition sgn_y (o : nat) : R := match o with 0%nat | 1%nat => 1 | _ => -1 end.
(** The track crosses the rectangle in the given direction from an incoming to an
    outgoing face. *)
Definition crosses (X Y dx dy : R) (t : track) : Prop :=
  on_boundary X Y (enter t) /\ on_boundary X Y (exit t) /\
  (0 < dx /\ px (enter t) = 0 \/ dx < 0 /\ px (enter t) = X \/ 0 < dy /\ py (enter t) = 0 \/ dy < 0 /\ py (enter t) = Y) /\
  (0 < dx /\ px (exit t) = X \/ dx < 0 /\ px (exit t) = 0 \/ 0 < dy /\ py (exit t) = Y \/ dy < 0 /\ py (exit t) = 0) /\
  exists a, 0 < a /\ exit t = padd (enter t) (pscale a (P3 dx dy 0)).
(** Azimuths of the first quadrant, as cosine and sine. *)
Definition good_azimuths (azi : list (R * R)) : Prop :=
  forall c s, In (c, s) azi -> eps13 / 2 < c /\ eps13 / 2 < s /\ c * c + s * s = 1.
(** Position across the direction (c, s). *)
Definition offset (c s : R) (t : track) : R := c * py (enter t) - s * px (enter t).
