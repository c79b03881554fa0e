(** * Model of constructive solid geometry, quadrics, regions and tracks
    Source: /repo/src/geometry/{Point,Ray,QuadraticSurface,Surface,CSG,Region,
    RegionFactory,Geometry,Macrobody,Track,TrackDB}.  [double] is [R]. *)
From Verif Require Import Base BaseR Mesh_Model.
Open Scope R_scope.

Record point := P3 { px : R; py : R; pz : R }.
(** Point.hh 34-52, Point.cc 47-50 *)
Definition padd (p q : point) := P3 (px p + px q) (py p + py q) (pz p + pz q).
Definition psub (p q : point) := P3 (px p - px q) (py p - py q) (pz p - pz q).
Definition pscale (s : R) (p : point) := P3 (px p * s) (py p * s) (pz p * s).
(** Point.cc 53-59 *)
Definition distance (p q : point) : R :=
  sqrt ((px q - px p) * (px q - px p) + (py q - py p) * (py q - py p) + (pz q - pz p) * (pz q - pz p)).

(** Ray.hh 20-41 (the unit length of the direction is a Require). *)
Record ray := { origin : point; direction : point }.

(** ** QuadraticSurface *)
Record quadric := { qA : R; qB : R; qC : R; qD : R; qE : R; qF : R; qG : R; qH : R; qI : R; qJ : R }.

(** QuadraticSurface.cc 34-39 *)
Definition qf (s : quadric) (r : point) : R :=
  let '(x, y, z) := (px r, py r, pz r) in
  qA s*x*x + qB s*y*y + qC s*z*z + qD s*x*y + qE s*x*z + qF s*y*z + qG s*x + qH s*y + qI s*z + qJ s.

(** QuadraticSurface.cc 25-30 and 49-50: product with the 4x4 matrix d_M. *)
Definition qM (s : quadric) (v : R * R * R * R) : R * R * R * R :=
  let '(a, b, c, d) := v in
  (2*qA s*a + qD s*b + qE s*c + qG s*d,
   qD s*a + 2*qB s*b + qF s*c + qH s*d,
   qE s*a + qF s*b + 2*qC s*c + qI s*d,
   qG s*a + qH s*b + qI s*c + 2*qJ s*d).
Definition dot4 (u v : R * R * R * R) : R :=
  let '(a, b, c, d) := u in let '(a', b', c', d') := v in a*a' + b*b' + c*c' + d*d'.

Definition eps13 : R := / 10 ^ 13.

(** QuadraticSurface.cc 46-51: the coefficients a, b, c. *)
Definition abc (s : quadric) (r : ray) : R * R * R :=
  let R_ := (px (origin r), py (origin r), pz (origin r), 1) in
  let D := (px (direction r), py (direction r), pz (direction r), 0) in
  (dot4 D (qM s D), dot4 D (qM s R_) + dot4 R_ (qM s D), dot4 R_ (qM s R_)).

(** QuadraticSurface.cc 52-63: the two candidate distances t[0], t[1]. *)
Definition roots (a b c : R) : R * R :=
  if Rlt_dec (Rabs a) eps13
  then (if Rlt_dec eps13 (Rabs b) then (- c / b, 0) else (0, 0))
  else if Rlt_dec (4 * a * c) (b * b)
       then ((- b + sqrt (b * b - 4 * a * c)) / (2 * a), (- b - sqrt (b * b - 4 * a * c)) / (2 * a))
       else (0, 0).

(** QuadraticSurface.cc 65-73: smaller first, forward and within range only;
    the returned points are given by their distances. *)
Definition keep (max_t tt : R) : list R :=
  if Rle_dec tt 0 then []
  else if Rlt_dec max_t 0 then [tt] else if Rle_dec tt max_t then [tt] else [].
Definition hit_distances (s : quadric) (r : ray) (max_t : R) : list R :=
  let '(a, b, c) := abc s r in
  let '(t0, t1) := roots a b c in
  let first := if Rle_dec t1 t0 then t1 else t0 in
  let second := if Rlt_dec t0 t1 then t1 else t0 in
  keep max_t first ++ keep max_t second.
Definition at_distance (r : ray) (t : R) : point := padd (origin r) (pscale t (direction r)).
Definition q_intersections (s : quadric) (r : ray) (max_t : R) : list point :=
  map (at_distance r) (hit_distances s r max_t).

(** Surface.hh 56-59 *)
Definition sense (s : quadric) (r : point) : bool := if Rle_dec 0 (qf s r) then true else false.

(** QuadraticSurfaceFactory.hh 52-55, 70-79 *)
Definition plane (a b c d : R) : quadric := Build_quadric 0 0 0 0 0 0 a b c (- d).
Definition sphere (x0 y0 z0 r : R) : quadric :=
  Build_quadric 1 1 1 0 0 0 (-2*x0) (-2*y0) (-2*z0) (x0*x0+y0*y0+z0*z0-r*r).
Definition cylinderZ (x0 y0 r : R) : quadric :=
  Build_quadric 1 1 0 0 0 0 (-2*x0) (-2*y0) 0 (x0*x0+y0*y0-r*r).

(** ** CSG.cc *)
Inductive node :=
| Prim (s : quadric) (sn : bool)
| Union (l r : node)
| Inter (l r : node)
| Diff (l r : node)
| Trans (n : node) (t : point).

(** CSG.cc 28-31, 80-83, 97-100, 114-119, 145-148 *)
Fixpoint contains (n : node) (p : point) : bool :=
  match n with
  | Prim s sn => Bool.eqb (sense s p) sn
  | Union l r => contains l p || contains r p
  | Inter l r => contains l p && contains r p
  | Diff l r => contains l p && negb (contains r p)
  | Trans m t => contains m (psub p t)
  end.

Section Isect.
  (** std::sort with IntersectionPointCompare(r.origin), CSG.hh 58-66. *)
  Variable srt : point -> list point -> list point.
  (** CSG.cc 34-38, 54-66, 134-142 *)
  Fixpoint intersections (n : node) (r : ray) (t_max : R) : list point :=
    match n with
    | Prim s _ => q_intersections s r t_max
    | Union a b | Inter a b | Diff a b =>
        srt (origin r) (intersections a r t_max ++ intersections b r t_max)
    | Trans m t =>
        map (fun p => padd p t)
            (intersections m {| origin := psub (origin r) t; direction := direction r |} t_max)
    end.
End Isect.

(** ** Region.cc *)
Inductive nop := OUnion | OInter | ODiff.
(** Region.cc 103-119: append_node; the first node is taken whatever the operator. *)
Definition append_node (cur : option node) (n : node) (op : nop) : option node :=
  match cur with
  | None => Some n
  | Some c => Some (match op with OUnion => Union c n | OInter => Inter c n | ODiff => Diff c n end)
  end.
Record region := { rnode : option node; rmin : point; rmax : point; rmat : Z }.

(** Point.cc 73-97: the comparison operators (operator< is componentwise <=). *)
Definition pleb (p q : point) : bool :=
  (if Rle_dec (px p) (px q) then true else false) && (if Rle_dec (py p) (py q) then true else false)
  && (if Rle_dec (pz p) (pz q) then true else false).

(** Region.cc 15-31, 58-67: contains; both branches evaluate the tree. *)
Definition have_bound (r : region) : bool := if Rlt_dec 0 (distance (rmin r) (rmax r)) then true else false.
Definition region_contains (r : region) (p : point) : res bool :=
  match rnode r with
  | None => UB
  | Some n =>
      if have_bound r then
        if pleb (rmin r) p && pleb p (rmax r) then Ok (contains n p) else Ok (contains n p)
      else Ok (contains n p)
  end.

(** IEEE values of a product with the reciprocal of a direction component: that of
    zero is infinite, and zero times infinity is not a number.  (The reciprocal of
    -0 has the other sign; entry and exit are then exchanged once more by r.sign.) *)
Inductive xr := Fin (x : R) | PInf | MInf | NaN.
Definition times_inverse (v d : R) : xr :=
  if Req_EM_T d 0 then (if Rlt_dec 0 v then PInf else if Rlt_dec v 0 then MInf else NaN) else Fin (v * / d).
Definition rgt (a b : R) : bool := if Rlt_dec b a then true else false.
(** The comparison a > b; false with NaN on either side. *)
Definition xgt (a b : xr) : bool :=
  match a, b with
  | NaN, _ | _, NaN => false
  | Fin x, Fin y => rgt x y
  | _, PInf | MInf, _ => false
  | _, _ => true
  end.
(** Region.cc 78-81: entry and exit distance of one axis; r.sign = 1/d < 0. *)
Definition slab (lo hi o d : R) : xr * xr :=
  if Rlt_dec d 0 then (times_inverse (hi - o) d, times_inverse (lo - o) d)
  else (times_inverse (lo - o) d, times_inverse (hi - o) d).
(** Region.cc 70-100: intersects_bounding_box. *)
Definition intersects_box (r : region) (y : ray) (max_length : R) : bool :=
  let '(o, d) := (origin y, direction y) in
  let '(tmin, tmax) := slab (px (rmin r)) (px (rmax r)) (px o) (px d) in
  let '(tymin, tymax) := slab (py (rmin r)) (py (rmax r)) (py o) (py d) in
  if xgt tmin tymax || xgt tymin tmax then false
  else
    let tmin := if xgt tymin tmin then tymin else tmin in
    let tmax := if xgt tmax tymax then tymax else tmax in
    if rgt (pz (rmax r)) (pz (rmin r)) then
      let '(tzmin, tzmax) := slab (pz (rmin r)) (pz (rmax r)) (pz o) (pz d) in
      if xgt tmin tzmax || xgt tzmin tmax then false
      else
        let tmin := if xgt tzmin tmin then tzmin else tmin in
        let tmax := if xgt tmax tzmax then tzmax else tmax in
        xgt (Fin max_length) tmin && xgt tmax (Fin 0)
    else xgt (Fin max_length) tmin && xgt tmax (Fin 0).

(** RegionFactory.cc 205-213: CreateTranslatedRegion (bounds minus origin). *)
Definition translated_region (r : region) (o : point) : res region :=
  match rnode r with
  | None => UB
  | Some n => Ok {| rnode := Some (Trans n o); rmin := psub (rmin r) o; rmax := psub (rmax r) o; rmat := rmat r |}
  end.

(** ** Geometry.cc *)
(** Geometry.cc 99-111: find; [None] is -1. *)
Fixpoint geo_find_from (i : nat) (rs : list region) (p : point) : res (option nat) :=
  match rs with
  | [] => Ok None
  | r :: t => do b <- region_contains r p; if (b : bool) then Ok (Some i) else geo_find_from (S i) t p
  end.
Definition geo_find := geo_find_from 0.

(** Geometry.cc 43-57: mesh edges along one axis, starting at zero. *)
Fixpoint edges_from (e : R) (w : list R) : list R :=
  match w with [] => [e] | a :: r => e :: edges_from (e + a) r end.

(** Geometry.cc 66-77: the region of one cell. *)
Definition cell_region (dim3 : bool) (x0 x1 y0 y1 z0 z1 : R) (m : Z) : region :=
  let app cur s sn := append_node cur (Prim s sn) OInter in
  let n := app None (plane 1 0 0 x0) true in
  let n := app n (plane 1 0 0 x1) false in
  let n := app n (plane 0 1 0 y0) true in
  let n := app n (plane 0 1 0 y1) false in
  let n := if dim3 then app n (plane 0 0 1 z0) true else n in
  let n := if dim3 then app n (plane 0 0 1 z1) false else n in
  {| rnode := n;
     rmin := P3 (x0 - / 10 ^ 5) (y0 - / 10 ^ 5) (z0 - / 10 ^ 5);
     rmax := P3 (x1 + / 10 ^ 5) (y1 + / 10 ^ 5) (z1 + / 10 ^ 5); rmat := m |}.

(** Geometry.cc 60-80: k, j, i loops. *)
Definition geometry_of_mesh (m : mesh) : list region :=
  let ex := edges_from 0 (mdx m) in
  let ey := edges_from 0 (mdy m) in
  let ez := edges_from 0 (mdz m) in
  flat_map (fun k => flat_map (fun j => map (fun i =>
    cell_region (Nat.eqb (dim m) 3) (nth i ex 0) (nth (S i) ex 0) (nth j ey 0) (nth (S j) ey 0)
                (nth k ez 0) (nth (S k) ez 0) (nth (index (ncx m) (ncy m) i j k) (mat m) 0%Z))
    (seq 0 (ncx m))) (seq 0 (ncy m))) (seq 0 (ncz m)).

(** ** Macrobody.cc 22-28 *)
Definition macro_contains (ss : list quadric) (p : point) : bool :=
  fold_left (fun _ s => negb (sense s p)) ss false.

(** ** Track.cc, Track.hh.  Segments live in shared storage: a track holds a
    reference (an index) to its segment vector, shared with its reverses. *)
Record segment := { sregion : nat; slength : R }.
Record track := { t_enter : point; t_exit : point; t_weight : R; t_rev : bool; t_segs : nat }.
(** Track.cc 51-64 *)
Definition enter (t : track) := if t_rev t then t_exit t else t_enter t.
Definition exit (t : track) := if t_rev t then t_enter t else t_exit t.
(** Track.cc 31-48 *)
Definition reverse (t : track) : track :=
  {| t_enter := enter t; t_exit := exit t; t_weight := t_weight t; t_rev := true; t_segs := t_segs t |}.
(** Track.hh 70-75: segment(0), segment(1), ... *)
Definition listed (h : list (list segment)) (t : track) : list segment :=
  let s := nth (t_segs t) h [] in if t_rev t then rev s else s.

(** ** TrackDB.cc.  A database is a list of (angular weight, tracks). *)
Definition tdb := list (R * list track).
(** TrackDB.cc 26-61: the volume attributed to one region. *)
Definition seg_volume (h : list (list segment)) (r : nat) (w : R) (t : track) : R :=
  sumR (map (fun s => if Nat.eqb (sregion s) r then slength s * t_weight t * w else 0) (nth (t_segs t) h [])).
Definition db_volume (h : list (list segment)) (d : tdb) (r : nat) : R :=
  sumR (map (fun a => sumR (map (seg_volume h r (fst a)) (snd a))) d) / sumR (map fst d).
(** TrackDB.cc 77-87: normalize scales the segments of every track. *)
Definition scale_segs (f : nat -> R) (l : list segment) : list segment :=
  map (fun s => {| sregion := sregion s; slength := slength s * f (sregion s) |}) l.
Definition normalize_track (f : nat -> R) (h : list (list segment)) (t : track) : list (list segment) :=
  upd h (t_segs t) (scale_segs f (nth (t_segs t) h [])).
Definition normalize (h : list (list segment)) (d : tdb) (ref : nat -> R) : list (list segment) :=
  let appx := db_volume h d in
  let f r := ref r / appx r in
  fold_left (fun h a => fold_left (normalize_track f) (snd a) h) d h.
