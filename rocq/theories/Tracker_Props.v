(** * Tracker_Props *)
From Verif Require Import Base BaseR Util_Model Mesh_Model Mesh_Spec Csg_Model Csg_Spec Pin_Model Pin_Spec Tracker_Model Tracker_Spec
  Tracker_Proofs3 Tracker_Proofs4 Tracker_Proofs5 Tracker_Proofs8 Tracker_Proofs9 Tracker_Proofs10.
Open Scope R_scope.

(** C99.  Full statement: for every geometry whose regions cover each point of a track
    once, the segments of the track tile it.  It fails for pin cells that a track
    crosses outside the pin, and for assemblies. *)
Theorem C99_segments_partial rs P0 P1 srt msrt : trackable rs P0 P1 -> is_psort srt -> is_msort msrt ->
  exists segs, segmentize srt msrt rs P0 P1 = Ok segs /\ tiles rs P0 P1 segs 0 (distance P0 P1) /\ sumR (map slength segs) = distance P0 P1.
Proof.
  intros H1 H2 H3. destruct (segmentize_tiles H1 H2 H3) as (segs & A & B). exists segs. split; [exact A|]. split; [exact B|]. rewrite (tiles_sum B). ring.
Qed.
Print Assumptions C99_segments_partial.

Theorem C99_mesh_partial m P0 P1 srt msrt : mesh_good m -> mesh_track m P0 P1 -> is_psort srt -> is_msort msrt ->
  exists segs, segmentize srt msrt (geometry_of_mesh m) P0 P1 = Ok segs /\ tiles (geometry_of_mesh m) P0 P1 segs 0 (distance P0 P1) /\ sumR (map slength segs) = distance P0 P1.
Proof. intros H1 H2. apply C99_segments_partial. apply mesh_trackable; auto. Qed.
Print Assumptions C99_mesh_partial.

Theorem C99_pin_refuted :
  exists P rs P0 P1, made P /\ centred P /\ pin_inside P /\ flat P /\ create_pin_cell P = Ok rs /\
  on_boundary (px (pc_pitch P)) (py (pc_pitch P)) P0 /\ on_boundary (px (pc_pitch P)) (py (pc_pitch P)) P1 /\
  (forall t, 0 < t < distance P0 P1 -> only_region rs (on_track P0 P1 t) 1) /\
  forall srt msrt, segmentize srt msrt rs P0 P1 = UB.
Proof. exact @pin_missed. Qed.
Print Assumptions C99_pin_refuted.
Theorem C99_assembly_refuted :
  exists P rs P0 P1, made P /\ centred P /\ pin_inside P /\ flat P /\ create_assembly 3 1 [P] [0; 0; 0]%nat = Ok rs /\
  on_boundary (3 * px (pc_pitch P)) (py (pc_pitch P)) P0 /\ on_boundary (3 * px (pc_pitch P)) (py (pc_pitch P)) P1 /\
  (forall t, 0 < t < distance P0 P1 -> exists i, only_region rs (on_track P0 P1 t) i) /\
  forall srt msrt, is_msort msrt -> ~ exists segs, segmentize srt msrt rs P0 P1 = Ok segs /\ tiles rs P0 P1 segs 0 (distance P0 P1).
Proof. exact @assembly_lost. Qed.
Print Assumptions C99_assembly_refuted.

(** A case: through three of four cells. *)
Example C99_case : mesh_good four /\ mesh_track four (P3 0 (1 / 4) 0) (P3 2 (5 / 4) 0).
Proof. split; [exact four_good|exact case_mesh_track]. Qed.
Example C99_case_trackable : trackable (geometry_of_mesh four) (P3 0 (1 / 4) 0) (P3 2 (5 / 4) 0).
Proof. apply mesh_trackable; [exact four_good|exact case_mesh_track]. Qed.

(** C100.  Full statement: tracks cross the domain in the directions of the quadrature,
    their widths add up to the extent of the domain across the direction, neighbours
    are not further apart than the requested maximum, and each trackit starts anew.
    Widths, spacing and reuse fail. *)
Theorem C100_tracks_partial base X Y width minn np azi : face_rule base -> 0 < X -> 0 < Y -> (0 < minn)%nat -> (0 < np)%nat -> good_azimuths azi ->
  exists h m, generate base width minn np azi X Y ([], []) = Ok (h, m) /\
  (forall k ts, In (k, ts) m -> (fst k < 4)%nat /\ exists a, (a < length azi)%nat /\ snd k = (a * np)%nat) /\
  forall a c s, nth_error azi a = Some (c, s) -> exists ts0 ts1,
    map_find m (0%nat, (a * np)%nat) = Some ts0 /\ map_find m (1%nat, (a * np)%nat) = Some ts1 /\
    map_find m (2%nat, (a * np)%nat) = Some (map reverse ts0) /\ map_find m (3%nat, (a * np)%nat) = Some (map reverse ts1) /\
    map enter ts0 = map (fun yw => P3 0 (fst yw) 0) (base (number_points minn Y width s) Y) ++ map (fun xw => P3 (fst xw) 0 0) (base (number_points minn X width c) X) /\
    map enter ts1 = map (fun t => P3 (X - px (enter t)) (py (enter t)) 0) ts0 /\ map exit ts1 = map (fun t => P3 (X - px (exit t)) (py (exit t)) 0) ts0 /\
    (forall o ts, map_find m (o, (a * np)%nat) = Some ts -> (length ts = number_points minn Y width s + number_points minn X width c)%nat /\
       sumR (map t_weight ts) = Y * s + X * c /\ forall t, In t ts -> crosses X Y (sgn_x o * c) (sgn_y o * s) t).
Proof. intros. apply tracks_run; auto. Qed.
Print Assumptions C100_tracks_partial.

Theorem C100_trackit_partial base X Y width minn np azi srt msrt rs h m : face_rule base -> 0 < X -> 0 < Y -> (0 < minn)%nat -> (0 < np)%nat -> good_azimuths azi ->
  is_psort srt -> is_msort msrt -> generate base width minn np azi X Y ([], []) = Ok (h, m) ->
  (forall o a ts t, (o < 2)%nat -> map_find m (o, a) = Some ts -> In t ts -> trackable rs (enter t) (exit t)) ->
  exists h', trackit srt msrt base width minn np azi X Y rs ([], []) = Ok (h', m) /\
  forall o a ts t, map_find m (o, a) = Some ts -> In t ts ->
    let L := distance (enter t) (exit t) in
    sumR (map slength (listed h' t)) = L /\
    (t_rev t = false -> tiles rs (enter t) (exit t) (listed h' t) 0 L) /\ (t_rev t = true -> tiles rs (exit t) (enter t) (rev (listed h' t)) 0 L).
Proof. intros. eapply trackit_tiles; eauto. Qed.
Print Assumptions C100_trackit_partial.

Theorem C100_mesh_partial :
  forall base srt msrt m width minn np azi h tm,
  face_rule base -> is_psort srt -> is_msort msrt -> mesh_good m -> dim m = 2%nat ->
  (forall w, In w (mdx m) \/ In w (mdy m) -> 2 * / 10 ^ 5 <= w) -> (0 < minn)%nat -> (0 < np)%nat -> good_azimuths azi ->
  generate base width minn np azi (twx m) (twy m) ([], []) = Ok (h, tm) ->
  (forall o a ts t, (o < 2)%nat -> map_find tm (o, a) = Some ts -> In t ts -> clear_of_corners m (enter t) (exit t)) ->
  exists h', trackit srt msrt base width minn np azi (twx m) (twy m) (geometry_of_mesh m) ([], []) = Ok (h', tm) /\
  forall o a ts t, map_find tm (o, a) = Some ts -> In t ts ->
    let L := distance (enter t) (exit t) in
    sumR (map slength (listed h' t)) = L /\
    (t_rev t = false -> tiles (geometry_of_mesh m) (enter t) (exit t) (listed h' t) 0 L) /\ (t_rev t = true -> tiles (geometry_of_mesh m) (exit t) (enter t) (rev (listed h' t)) 0 L).
Proof. exact @trackit_mesh. Qed.
Print Assumptions C100_mesh_partial.
Theorem C100_widths_partial :
  forall base X Y width minn np azi h m a c s ts o,
  face_rule base -> 0 < X -> 0 < Y -> (0 < minn)%nat -> (0 < np)%nat -> good_azimuths azi ->
  generate base width minn np azi X Y ([], []) = Ok (h, m) -> nth_error azi a = Some (c, s) -> map_find m (o, (a * np)%nat) = Some ts ->
  (sumR (map t_weight ts) = X * s + Y * c <-> X = Y \/ c = s).
Proof. exact @widths_iff. Qed.
Print Assumptions C100_widths_partial.
Theorem C100_spacing_partial :
  forall X Y width minn np azi h m a c s ts,
  0 < X -> 0 < Y -> 0 < width -> (0 < minn)%nat -> (0 < np)%nat -> good_azimuths azi ->
  generate uniform_base width minn np azi X Y ([], []) = Ok (h, m) -> nth_error azi a = Some (c, s) -> map_find m (0%nat, (a * np)%nat) = Some ts ->
  exists ws ss, ts = ws ++ ss /\ ws <> [] /\ ss <> [] /\
    (forall t, In t ws -> px (enter t) = 0) /\ (forall t, In t ss -> py (enter t) = 0) /\
    (forall i t u, nth_error ws i = Some t -> nth_error ws (S i) = Some u -> 0 < offset c s u - offset c s t <= width * (c / s)) /\
    (forall i t u, nth_error ss i = Some t -> nth_error ss (S i) = Some u -> 0 < offset c s t - offset c s u <= width * (s / c)).
Proof. exact @spacing. Qed.
Print Assumptions C100_spacing_partial.
Theorem C100_widths_refuted :
  exists X Y c s width h m ts, 0 < X /\ 0 < Y /\ good_azimuths [(c, s)] /\
  generate uniform_base width 1 1 [(c, s)] X Y ([], []) = Ok (h, m) /\ map_find m (0%nat, 0%nat) = Some ts /\ sumR (map t_weight ts) <> X * s + Y * c.
Proof. exact @widths_wrong. Qed.
Print Assumptions C100_widths_refuted.
Theorem C100_spacing_refuted :
  exists c s width h m ts t u, 0 < width /\ good_azimuths [(c, s)] /\
  generate uniform_base width 1 1 [(c, s)] 1 1 ([], []) = Ok (h, m) /\ map_find m (0%nat, 0%nat) = Some ts /\ In t ts /\ In u ts /\
  (forall v, In v ts -> offset c s v <= offset c s t \/ offset c s u <= offset c s v) /\ offset c s t + width < offset c s u.
Proof. exact @spacing_wrong. Qed.
Print Assumptions C100_spacing_refuted.
Theorem C100_stale_partial :
  forall base X Y width minn np azi st h m o k ts,
  o <> 0%nat -> generate base width minn np azi X Y st = Ok (h, m) ->
  map_find (snd st) (o, k) = Some ts -> map_find m (o, k) = Some ts.
Proof. exact @keeps_old. Qed.
Print Assumptions C100_stale_partial.
Theorem C100_reuse_refuted :
  exists c s width st1 h m ts t, 0 < width /\ good_azimuths [(c, s)] /\
  generate uniform_base width 1 1 [(c, s)] 1 1 ([], []) = Ok st1 /\ generate uniform_base width 1 1 [(c, s)] 2 1 st1 = Ok (h, m) /\
  map_find m (1%nat, 0%nat) = Some ts /\ In t ts /\ ~ crosses 2 1 (sgn_x 1 * c) (sgn_y 1 * s) t.
Proof. exact @used_again. Qed.
Print Assumptions C100_reuse_refuted.

(** Cases: the default rule, and a mesh whose generated tracks keep clear of the corners. *)
Example C100_case_rule : face_rule uniform_base. Proof. exact uniform_face. Qed.
Example C100_case : mesh_good square /\ exists h tm, good_azimuths [(4 / 5, 3 / 5)] /\ generate uniform_base 1 1 1 [(4 / 5, 3 / 5)] (twx square) (twy square) ([], []) = Ok (h, tm) /\
  (exists ts, map_find tm (1%nat, 0%nat) = Some ts /\ length ts = 2%nat) /\
  forall o a ts t, (o < 2)%nat -> map_find tm (o, a) = Some ts -> In t ts -> clear_of_corners square (enter t) (exit t).
Proof. split; [exact square_good|exact case_trackit]. Qed.
Example C99_sort_exists : is_msort (fun o => fold_right (mins o) []).
Proof. exact msort_exists. Qed.
