(** * Model of the tracker
    Source: /repo/src/geometry/Tracker.{hh,cc}, Track.cc.  Two dimensions (three are
    not implemented).  [double] is [R]; printing and the debug checks are left out.
    std::sort is any sort, given as a parameter. *)
From Verif Require Import Base BaseR Util_Model Mesh_Model Csg_Model Angle_Model.
Open Scope R_scope.

(** ** Segments of one track *)
(** Tracker.cc 371-378: a segment with its midpoint. *)
Record mseg := { ms_mid : point; ms_seg : segment }.

Section Segmentize.
  (** Sorting of intersection points (CSG.cc 64) and of segments (Tracker.cc 459). *)
  Variable srt : point -> list point -> list point.
  Variable msrt : point -> list mseg -> list mseg.

  (** Tracker.cc 436-454: the pieces between consecutive intersections; soft_equiv
      with its default precision. *)
  Fixpoint pieces (reg : region) (r : nat) (pts : list point) : res (list mseg) :=
    match pts with
    | p :: ((q :: _) as t) =>
        do rest <- pieces reg r t;
        if soft_equiv (Rabs (distance p q)) 0 (/ 10 ^ 12) then Ok rest
        else
          let mid := pscale (/ 2) (padd p q) in
          do b <- region_contains reg mid;
          Ok (if (b : bool) then {| ms_mid := mid; ms_seg := {| sregion := r; slength := distance p q |} |} :: rest else rest)
    | _ => Ok []
    end.
  (** Tracker.cc 412-455: one region.  Without intersections points.size() - 1 wraps
      around and the loop reads outside the vector. *)
  Definition region_pieces (reg : region) (r : nat) (y : ray) (len : R) : res (list mseg) :=
    if intersects_box reg y len then
      match rnode reg with
      | None => UB
      | Some n =>
          match intersections srt n y len with
          | [] => UB
          | pts => pieces reg r pts
          end
      end
    else Ok [].
  Fixpoint all_pieces (rs : list region) (r : nat) (y : ray) (len : R) : res (list mseg) :=
    match rs with
    | [] => Ok []
    | reg :: t => do a <- region_pieces reg r y len; do b <- all_pieces t (S r) y len; Ok (a ++ b)
    end.
  Definition seg_eps : R := / 10 ^ 9.
  (** Tracker.cc 402-415 *)
  Definition track_ray (P0 P1 : point) : ray :=
    let D := pscale (1 / distance P0 P1) (psub P1 P0) in
    {| origin := psub P0 (pscale seg_eps D); direction := D |}.
  (** Tracker.cc 397-483: the segments added to a track from P0 to P1. *)
  Definition segmentize (rs : list region) (P0 P1 : point) : res (list segment) :=
    do l <- all_pieces rs 0 (track_ray P0 P1) (distance P0 P1 + 2 * seg_eps);
    Ok (map ms_seg (msrt P0 l)).

  (** ** Generation of tracks *)
  (** Tracker.cc 94-129: find_exit.  The directions have no z component; vectors of
      intersections are read without a check of their size. *)
  Definition find_exit (X Y : R) (entry dir : point) : res point :=
    let y := {| origin := entry; direction := dir |} in
    do ix <- rd (q_intersections (plane 1 0 0 X) y (-1)) 0;
    do iy <- rd (q_intersections (plane 0 1 0 Y) y (-1)) 0;
    Ok (if Rlt_dec (distance iy entry) (distance ix entry) then iy else ix).

  Definition heap := list (list segment).
  (** Track.cc 18-28: a new track has its own empty storage. *)
  Definition new_track (h : heap) (p0 p1 : point) (w : R) : heap * track :=
    (h ++ [[]], {| t_enter := p0; t_exit := p1; t_weight := w; t_rev := false; t_segs := length h |}).
  Fixpoint make_tracks (h : heap) (l : list (point * point * R)) : heap * list track :=
    match l with
    | [] => (h, [])
    | (p0, p1, w) :: t =>
        let '(h1, a) := new_track h p0 p1 w in
        let '(h2, b) := make_tracks h1 t in (h2, a :: b)
    end.

  (** std::map of octant and angle to tracks, kept in the order of its keys. *)
  Definition tkey := (nat * nat)%type.
  Definition tmap := list (tkey * list track).
  Definition key_eqb (a b : tkey) : bool := Nat.eqb (fst a) (fst b) && Nat.eqb (snd a) (snd b).
  Definition key_ltb (a b : tkey) : bool := Nat.ltb (fst a) (fst b) || (Nat.eqb (fst a) (fst b) && Nat.ltb (snd a) (snd b)).
  Fixpoint map_find (m : tmap) (k : tkey) : option (list track) :=
    match m with [] => None | (k', v) :: t => if key_eqb k' k then Some v else map_find t k end.
  (** operator[] and assignment *)
  Fixpoint map_set (m : tmap) (k : tkey) (v : list track) : tmap :=
    match m with
    | [] => [(k, v)]
    | (k', v') :: t => if key_eqb k' k then (k, v) :: t else if key_ltb k k' then (k, v) :: (k', v') :: t else (k', v') :: map_set t k v
    end.
  (** insert(begin, end): existing keys keep their value. *)
  Definition map_insert (m : tmap) (l : tmap) : tmap :=
    fold_left (fun m kv => match map_find m (fst kv) with Some _ => m | None => map_set m (fst kv) (snd kv) end) l m.

  (** Base quadrature of a given number of points on [0, b]: points with weights. *)
  Variable base : nat -> R -> list (R * R).

  Definition ceil (x : R) : Z := (- Int_part (- x))%Z.
  (** Tracker.cc 155-156 *)
  Definition number_points (min_number : nat) (len width c : R) : nat := Z.to_nat (Z.max (Z.of_nat min_number) (ceil (len / (width / c)))).
  (** Tracker.cc 145-190: tracks of one azimuth in the first quadrant; those from the
      west face come first. *)
  Definition quadrant (X Y width : R) (min_number : nat) (c s : R) (h : heap) : res (heap * list track) :=
    let nh := number_points min_number X width c in
    let nv := number_points min_number Y width s in
    do l <- mapM (fun e => do x <- find_exit X Y (fst e) (P3 c s 0); Ok (fst e, x, snd e))
      (map (fun yw => (P3 0 (fst yw) 0, snd yw * s)) (base nv Y) ++ map (fun xw => (P3 (fst xw) 0 0, snd xw * c)) (base nh X));
    Ok (make_tracks h l).
  (** Azimuths: cosine and sine, with the number of polar angles (for the angle index). *)
  Fixpoint first_quadrant (X Y width : R) (min_number np a : nat) (azi : list (R * R)) (h : heap) (m : tmap) : res (heap * tmap) :=
    match azi with
    | [] => Ok (h, m)
    | (c, s) :: t =>
        do ht <- quadrant X Y width min_number c s h;
        first_quadrant X Y width min_number np (S a) t (fst ht) (map_set m (0%nat, (a * np)%nat) (snd ht))
    end.
  (** Tracker.cc 193-217: mirrored tracks. *)
  Definition mirror (X : R) (p : point) : point := P3 (X - px p) (py p) 0.
  Definition mirror_all (X : R) (h : heap) (m : tmap) : heap * tmap :=
    let '(h, l) := fold_left (fun (s : heap * tmap) kv =>
      let '(h, l) := s in
      let '(h, ts) := make_tracks h (map (fun t => (mirror X (enter t), mirror X (exit t), t_weight t)) (snd kv)) in
      (h, map_set l (1%nat, snd (fst kv)) ts)) m (h, []) in
    (h, map_insert m l).
  (** Tracker.cc 219-252: reversed tracks. *)
  Definition reverse_all (m : tmap) : tmap :=
    map_insert m (fold_left (fun l kv =>
      map_set l ((if Nat.eqb (fst (fst kv)) 1 then 3%nat else 2%nat), snd (fst kv)) (map reverse (snd kv))) m []).
  (** Tracker.cc 74-78 and 399-400: segments are added to the tracks that are not reversed. *)
  Definition segment_all (rs : list region) (h : heap) (m : tmap) : res heap :=
    foldM (fun h t => if t_rev t then Ok h
                      else do l <- segmentize rs (enter t) (exit t); Ok (upd h (t_segs t) (nth (t_segs t) h [] ++ l)))
      (flat_map snd m) h.
  (** Tracker.cc 133-252: generate_tracks_2D_cartesian; the map of an earlier call is
      kept. *)
  Definition generate (width : R) (min_number np : nat) (azi : list (R * R)) (X Y : R) (st : heap * tmap) : res (heap * tmap) :=
    do hm <- first_quadrant X Y width min_number np 0 azi (fst st) (snd st);
    let '(h, m) := mirror_all X (fst hm) (snd hm) in
    Ok (h, reverse_all m).
  (** Tracker.cc 60-84: trackit *)
  Definition trackit (width : R) (min_number np : nat) (azi : list (R * R)) (X Y : R) (rs : list region) (st : heap * tmap) : res (heap * tmap) :=
    do hm <- generate width min_number np azi X Y st;
    do h <- segment_all rs (fst hm) (snd hm);
    Ok (h, snd hm).
End Segmentize.

(** QuadratureFactory.cc 194-195 and Tracker.cc 28: the rule used by default. *)
Definition uniform_base (n : nat) (L : R) : list (R * R) := combine (fst (uniform_rule 0 L n)) (snd (uniform_rule 0 L n)).
