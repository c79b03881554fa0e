(** * Theorems on solid geometry (C17-C19, C66-C70) *)
From Verif Require Import Base BaseR Loop Mesh_Model Mesh_Spec Mesh_Proofs Csg_Model Csg_Spec Csg_Proofs.
Open Scope R_scope.

(** C17: membership is the set denotation, for every tree and point. *)
Theorem C17_contains_is_set :
  forall n,
  forall p, contains n p = true <-> den n p.
Proof. exact @contains_den. Qed.
Print Assumptions C17_contains_is_set.
Theorem C17_set_algebra :
  forall a b c p,
  contains (Diff a (Union b c)) p = contains (Inter (Diff a b) (Diff a c)) p /\
  contains (Diff a (Inter b c)) p = contains (Union (Diff a b) (Diff a c)) p /\
  contains (Inter a (Union b c)) p = contains (Union (Inter a b) (Inter a c)) p /\
  contains (Union a (Inter b c)) p = contains (Inter (Union a b) (Union a c)) p /\
  contains (Diff a (Diff a b)) p = contains (Inter a b) p.
Proof. exact @contains_laws. Qed.
Print Assumptions C17_set_algebra.
Theorem C17_region_contains :
  forall n0 l lo hi m,
  exists n, build_region n0 l = Some n /\
    forall p, exists b, region_contains {| rnode := build_region n0 l; rmin := lo; rmax := hi; rmat := m |} p = Ok b /\
      (b = true <-> fold_left (fun A x => set_op (snd x) A (den (fst x))) l (den n0) p).
Proof. exact @region_contains_spec. Qed.
Print Assumptions C17_region_contains.
(** The intersections of a tree, for any sort. *)
Theorem C17_intersections_complete :
  forall srt n r m,
  is_psort srt ->
  forall p, In p (intersections srt n r m) <->
    exists s t q, In (s, t) (leaves n pzero) /\ In q (q_intersections s (shift_ray r t) m) /\ p = padd q t.
Proof. exact @intersections_leaves. Qed.
Print Assumptions C17_intersections_complete.
Theorem C17_intersections_ordered :
  forall srt n,
  is_psort srt -> forall r m,
  (forall s t, In (s, t) (leaves n pzero) -> transversal s (shift_ray r t)) ->
  StronglySorted (fun p q => distance (origin r) p <= distance (origin r) q) (intersections srt n r m).
Proof. exact @intersections_sorted. Qed.
Print Assumptions C17_intersections_ordered.
Example C17_sort_exists : is_psort (fun o => fold_right (pins o) []).
Proof. exact psort_exists. Qed.
Example C17_case : contains (Trans (Diff (Prim (sphere 0 0 0 2) false) (Prim (sphere 0 0 0 1) false)) (P3 5 0 0)) (P3 (13/2) 0 0) = true.
Proof. rewrite contains_den. exists (P3 (3/2) 0 0). split; [|apply point_eq; simpl; lra].
  unfold den, s_diff, s_side, qf. simpl. lra. Qed.

(** C18 *)
Theorem C18_tangent_refuted :
  exists s r t, 0 < t /\ along s r t = 0 /\ q_intersections s r (-1) = [].
Proof. exact @hits_tangent. Qed.
Print Assumptions C18_tangent_refuted.
Theorem C18_small_coefficients_refuted :
  exists s r t, 0 < t /\ along s r t = 0 /\
  (forall t', along s r t' = 0 -> t' = t \/ t' = t + 2) /\ q_intersections s r (-1) = [].
Proof. exact @hits_small. Qed.
Print Assumptions C18_small_coefficients_refuted.
Theorem C18_ray_surface_partial :
  forall s r max_t,
  transversal s r ->
  exists ts, q_intersections s r max_t = map (at_distance r) ts /\
  StronglySorted Rlt ts /\
  forall t, In t ts <-> (0 < t /\ (max_t < 0 \/ t <= max_t) /\ along s r t = 0).
Proof. exact @hits_spec. Qed.
Print Assumptions C18_ray_surface_partial.
Example C18_case : transversal (sphere 0 0 0 1) {| origin := P3 (-2) 0 0; direction := P3 1 0 0 |}.
Proof. exact transversal_case. Qed.

(** C19 *)
Theorem C19_reverse_once_partial :
  forall h t,
  t_rev t = false ->
  enter (reverse t) = exit t /\ exit (reverse t) = enter t /\ listed h (reverse t) = rev (listed h t).
Proof. exact @reverse_once. Qed.
Print Assumptions C19_reverse_once_partial.
Theorem C19_reverse_twice_ends_partial :
  forall t,
  enter (reverse (reverse t)) = enter t /\ exit (reverse (reverse t)) = exit t.
Proof. exact @reverse_twice_ends. Qed.
Print Assumptions C19_reverse_twice_ends_partial.
Theorem C19_reverse_twice_refuted :
  exists h t, t_rev t = false /\ listed h (reverse (reverse t)) <> listed h t.
Proof. exact @reverse_twice_wrong. Qed.
Print Assumptions C19_reverse_twice_refuted.

(** C66 *)
Theorem C66_find_is_cell :
  forall m p,
  mesh_good m ->
  exists o, geo_find (geometry_of_mesh m) p = Ok o /\
    forall c, o = Some c <-> ((c < ncells m)%nat /\ in_box_cell m c p).
Proof. exact @geometry_find. Qed.
Print Assumptions C66_find_is_cell.
Theorem C66_agrees_with_mesh :
  forall m p c,
  mesh_good m -> (c < ncells m)%nat ->
  strictly_in (mdx m) (cell_to_i (ncx m) c) (px p) ->
  strictly_in (mdy m) (cell_to_j (ncx m) (ncy m) c) (py p) ->
  strictly_in (mdz m) (cell_to_k (ncx m) (ncy m) c) (pz p) ->
  geo_find (geometry_of_mesh m) p = Ok (Some c) /\ find_cell m (px p, py p, pz p) = Some c /\
  exists r, nth_error (geometry_of_mesh m) c = Some r /\ rmat r = nth c (mat m) 0%Z.
Proof. exact @geometry_find_cell. Qed.
Print Assumptions C66_agrees_with_mesh.
Example C66_case : exists m, mesh1D [2%nat] [0; 2] [7%Z] = Ok m /\ mesh_good m /\ 
  strictly_in (mdx m) 1 (3/2) /\ geo_find (geometry_of_mesh m) (P3 (3/2) (1/2) (1/2)) = Ok (Some 1%nat).
Proof.
  destruct (@mesh1D_ok [2%nat] [0; 2] [7%Z]) as (m & E & G & A & B & C & D & W & DY & DZ & _).
  { split; [discriminate|]. split; [intros f [<-|[]]; lia|]. split; auto. intros [|i] Hi; simpl in *; try lra; lia. }
  { reflexivity. }
  exists m. split; auto. split; auto. destruct W as (L & HW & _).
  assert (W0 : nth 0 (mdx m) 0 = 1) by (rewrite (HW 0%nat 0%nat); [simpl; lra|unfold in_coarse, psum; simpl; lia]).
  assert (W1 : nth 1 (mdx m) 0 = 1) by (rewrite (HW 0%nat 1%nat); [simpl; lra|unfold in_coarse, psum; simpl; lia]).
  assert (SI : strictly_in (mdx m) 1 (3/2)).
  { split; [rewrite L; simpl; lia|]. unfold left_edge. simpl. rewrite W0, W1. lra. }
  split; auto. change (list_sum [2%nat]) with 2%nat in A.
  apply geometry_find_cell; auto.
  - unfold ncells. rewrite A, B, C. simpl. lia.
  - rewrite A. exact SI.
  - rewrite A, B, DY. split; [simpl; lia|]. unfold left_edge. simpl. lra.
  - rewrite A, B, DZ. change (cell_to_k 2 1 1) with 0%nat. split; [simpl; lia|]. unfold left_edge. simpl. lra.
Qed.

(** C67: the region moves, its box goes the other way. *)
Theorem C67_translated_box_refuted :
  exists r o r' y p, 
  (forall q, region_contains r q = Ok true -> in_box (rmin r) (rmax r) q) /\
  translated_region r o = Ok r' /\ (exists t, 0 < t < 20 /\ p = at_distance y t) /\
  region_contains r' p = Ok true /\ intersects_box r' y 20 = false.
Proof. exact @translated_box_wrong. Qed.
Print Assumptions C67_translated_box_refuted.
Theorem C67_translated_contains_partial :
  forall r o,
  forall r', translated_region r o = Ok r' ->
  forall p b, region_contains r p = Ok b -> region_contains r' (padd p o) = Ok b.
Proof. exact @translated_contains. Qed.
Print Assumptions C67_translated_contains_partial.

(** C68.  Full statement: without [~ grazes_x].  It fails for rays running in a face
    x = const of the box. *)
Theorem C68_bounding_box_partial :
  forall r y L,
  px (rmin r) <= px (rmax r) -> py (rmin r) <= py (rmax r) -> ~ grazes_x r y ->
  (intersects_box r y L = true <->
   exists t1 t2, t1 <= t2 /\ t1 < L /\ 0 < t2 /\ in_bounds r (at_distance y t1) /\ in_bounds r (at_distance y t2)).
Proof. exact @intersects_box_spec. Qed.
Print Assumptions C68_bounding_box_partial.
Theorem C68_graze_refuted :
  exists r y L, px (rmin r) <= px (rmax r) /\ py (rmin r) <= py (rmax r) /\
  (exists t1 t2, t1 <= t2 /\ t1 < L /\ 0 < t2 /\ in_bounds r (at_distance y t1) /\ in_bounds r (at_distance y t2)) /\
  intersects_box r y L = false.
Proof. exact @graze_rejected. Qed.
Print Assumptions C68_graze_refuted.
(** A case: a ray in the plane z = 1/2, along y. *)
Example C68_case : ~ grazes_x {| rnode := None; rmin := P3 0 0 0; rmax := P3 1 1 1; rmat := 0%Z |}
  {| origin := P3 (1 / 3) (-1) (1 / 2); direction := P3 0 1 0 |}.
Proof. unfold grazes_x. cbn. lra. Qed.

(** C69 *)
Theorem C69_normalize_refuted :
  exists h t ref, t_rev t = false /\
  db_volume h [(1, [t]); (1, [reverse t])] 0 = 1 /\ ref 0%nat = 2 /\
  db_volume (normalize h [(1, [t]); (1, [reverse t])] ref) [(1, [t]); (1, [reverse t])] 0 = 4.
Proof. exact @normalize_shared. Qed.
Print Assumptions C69_normalize_refuted.
Theorem C69_normalize_partial :
  forall h d ref r,
  no_sharing d -> db_volume h d r <> 0 ->
  db_volume (normalize h d ref) d r = ref r.
Proof. exact @normalize_ok. Qed.
Print Assumptions C69_normalize_partial.
Theorem C69_swept_volume :
  forall h d n,
  sumR (map fst d) <> 0 ->
  (forall t s, In t (flat_map snd d) -> In s (nth (t_segs t) h []) -> (sregion s < n)%nat) ->
  rsum n (db_volume h d) =
  sumR (map (fun a => fst a * sumR (map (fun t => t_weight t * sumR (map slength (nth (t_segs t) h []))) (snd a))) d)
  / sumR (map fst d).
Proof. exact @volume_total. Qed.
Print Assumptions C69_swept_volume.
Theorem C69_untouched_region :
  forall h d r,
  sumR (map fst d) <> 0 ->
  (forall t, In t (flat_map snd d) -> forall s, In s (nth (t_segs t) h []) -> sregion s <> r) ->
  db_volume h d r = 0.
Proof. exact @volume_region. Qed.
Print Assumptions C69_untouched_region.
Example C69_case : no_sharing [(1, [{| t_enter := P3 0 0 0; t_exit := P3 1 0 0; t_weight := 1; t_rev := false; t_segs := 0 |}]);
  (1, [{| t_enter := P3 0 1 0; t_exit := P3 1 1 0; t_weight := 1; t_rev := false; t_segs := 1 |}])].
Proof. unfold no_sharing. simpl. constructor; [simpl; intuition discriminate|repeat constructor; simpl; tauto]. Qed.

(** C70 *)
Theorem C70_macrobody_refuted :
  exists ss p, (exists s, In s ss /\ sense s p = true) /\ macro_contains ss p = true.
Proof. exact @macro_wrong. Qed.
Print Assumptions C70_macrobody_refuted.
Theorem C70_macrobody_partial :
  forall s p,
  macro_contains [s] p = negb (sense s p).
Proof. exact @macro_single. Qed.
Print Assumptions C70_macrobody_partial.
