(** * Theorems on pictures (C120) *)
From Coq Require Import Lra Lia.
From Verif Require Import Base BaseR Util_Model Util_Spec Mesh_Model Mesh_Spec Mesh_Proofs Csg_Model Picture_Model Picture_Spec
  Picture_Proofs2 Picture_Proofs3 Picture_Proofs4 Picture_Proofs5.
Open Scope nat_scope.

(** C120 *)
Theorem C120_mesh_partial :
  forall hi lo m n values,
  mesh_good m -> dim m <= 2 -> twx m = twy m -> 2 <= n -> (0 < hi)%R ->
  length values = ncells m -> (forall x, In x values -> 0 <= x <= hi)%R ->
  (exists a b, In a values /\ In b values /\ (a < b)%R) ->
  exists pic p fc, mesh_picture hi lo m n values = Ok pic /\ 0 < p /\ p_w pic = p /\ p_h pic = p /\
    length (p_rgb pic) = p * p /\
    (forall i j, i < p -> j < p -> exists c, shows m c (spot (twx m) p i) (spot (twy m) p j) /\
       nth_error (p_rgb pic) (i + j * p) = Some (fc (nth c values 0%R))) /\
    (forall c, c < ncells m -> exists i j, i < p /\ j < p /\
       nth_error (p_rgb pic) (i + j * p) = Some (fc (nth c values 0%R))) /\
    (forall x, In x values -> is_rgb (fc x)) /\
    (forall x y, In x values -> In y values -> (x <= y)%R -> (red (fc x) <= red (fc y))%Z /\ (blue (fc y) <= blue (fc x))%Z) /\
    (forall x, is_min_of x values -> fc x = (0, 0, 255)%Z) /\
    (forall x, is_max_of x values -> (lo <= x)%R -> fc x = (255, 0, 0)%Z).
Proof. exact @square_picture. Qed.
Print Assumptions C120_mesh_partial.
Example C120_case : exists m, mesh2D [1] [1; 1] [0; 2]%R [0; 1; 2]%R [0; 1]%Z = Ok m /\
  mesh_good m /\ dim m <= 2 /\ twx m = twy m /\ length [0; 1]%R = ncells m.
Proof.
  destruct (@mesh2D_ok [1] [1; 1] [0; 2]%R [0; 1; 2]%R [0; 1]%Z) as (m & E & G & NX & NY & NZ & D & (_ & _ & SX) & (_ & _ & SY) & _).
  { split; [discriminate|]. split; [intros f [<-|[]]; lia|]. split; auto. intros [|i] Hi; cbn in *; try lra; lia. }
  { split; [discriminate|]. split; [intros f [<-|[<-|[]]]; lia|]. split; auto. intros [|[|i]] Hi; cbn in *; try lra; lia. }
  { reflexivity. }
  exists m. split; auto. split; auto. split; [lia|]. pose proof G as (_ & _ & _ & _ & TX & TY & _).
  split; [|unfold ncells; rewrite NX, NY, NZ; reflexivity].
  rewrite <- TX, <- TY, NX, NY, SX, SY. cbn. lra.
Qed.

Theorem C120_geometry_partial :
  forall geo w delta,
  (forall r, In r geo -> rnode r <> None) ->
  exists r p, geo_raster geo w w delta = Ok r /\ r_nx r = p /\ r_ny r = p /\ 5 <= p /\ length (r_cells r) = p * p /\
  forall i j, i < p -> j < p -> exists o, nth_error (r_cells r) (i + j * p) = Some o /\
    geo_find geo (P3 (middle w p i) (middle w p (p - 1 - j)) 0%R) = Ok o.
Proof. exact @geo_square. Qed.
Print Assumptions C120_geometry_partial.

Theorem C120_geometry_values_partial :
  forall geo w delta flag,
  (forall r, In r geo -> rnode r <> None) ->
  exists r p data, geo_raster geo w w delta = Ok r /\ geo_data geo r flag = Ok data /\ 5 <= p /\ length data = p * p /\
  forall i j, i < p -> j < p -> exists o, geo_find geo (P3 (middle w p i) (middle w p (p - 1 - j)) 0%R) = Ok o /\
    match o with
    | None => nth_error data (i + j * p) = Some (-1)%R
    | Some k => exists g, nth_error geo k = Some g /\
        nth_error data (i + j * p) = Some (if flag then INR k else IZR (rmat g))
    end.
Proof. exact @geo_values. Qed.
Print Assumptions C120_geometry_values_partial.

Theorem C120_default_map :
  forall hi lo values,
  (forall x, In x values -> (0 <= x)%R) -> (exists a b, In a values /\ In b values /\ (a < b)%R) ->
  exists fc, color hi lo Default values = Ok (map fc values) /\
    (forall x, In x values -> is_rgb (fc x)) /\
    (forall x y, In x values -> In y values -> (x <= y)%R -> (red (fc x) <= red (fc y))%Z /\ (blue (fc y) <= blue (fc x))%Z) /\
    (forall x, is_min_of x values -> (x <= hi)%R -> fc x = (0, 0, 255)%Z) /\
    (forall x, is_max_of x values -> (lo <= x)%R -> fc x = (255, 0, 0)%Z).
Proof. exact @default_spec. Qed.
Print Assumptions C120_default_map.

Theorem C120_coolwarm_map :
  forall hi lo values,
  (forall x, In x values -> (0 <= x)%R) -> (exists a b, In a values /\ In b values /\ (a < b)%R) ->
  exists fc, color hi lo CoolWarm values = Ok (map fc values) /\ (forall x, In x values -> is_rgb (fc x)).
Proof. exact @coolwarm_spec. Qed.
Print Assumptions C120_coolwarm_map.

Theorem C120_interpolated_maps :
  forall c values, c <> Default /\ c <> CoolWarm -> forall hi lo,
  exists r, color hi lo c values = Ok r /\ length r = length values /\ Forall is_rgb r.
Proof. exact @interp_map_ok. Qed.
Print Assumptions C120_interpolated_maps.

Theorem C120_interpolated_colours :
  forall c values mn mx, c <> Default -> c <> CoolWarm -> forall hi lo,
  is_min_of mn values -> is_max_of mx values -> (mn < mx)%R -> (mn <= hi)%R -> (lo <= mx)%R ->
  let cs := match c with Jet => jet_colours | Hot => hot_colours | _ => cool_colours end in
  exists r, color hi lo c values = Ok r /\ Forall2 (fun x => colour_at cs ((x - mn) / (mx - mn))%R) values r.
Proof. exact @interp_colours. Qed.
Print Assumptions C120_interpolated_colours.

(** Three values. *)
Example C120_interpolated_case : is_min_of 1%R [2; 1; 5]%R /\ is_max_of 5%R [2; 1; 5]%R /\ (1 < 5)%R.
Proof. repeat split; cbn; try tauto; try lra; intros a A; cbn in A; destruct A as [<-|[<-|[<-|[]]]]; lra. Qed.

Theorem C120_uniform_refuted :
  forall hi lo c n x, c = Default \/ c = CoolWarm -> 0 < n -> (lo <= x <= hi)%R -> (0 < lo)%R ->
  color hi lo c (repeat x n) = UB.
Proof. exact @constant_ub. Qed.
Print Assumptions C120_uniform_refuted.

Theorem C120_tall_refuted :
  forall hi m n, mesh_good m -> (0 < hi)%R -> 0 < n ->
  (exists d, (In d (mdx m) \/ In d (mdy m)) /\ twx m + d <= twy m)%R ->
  mesh_raster hi m n = UB.
Proof. exact @raster_tall. Qed.
Print Assumptions C120_tall_refuted.

Theorem C120_tall_geometry_refuted :
  forall geo wx wy delta, (forall r, In r geo -> rnode r <> None) ->
  (0 < wx)%R -> (0 < delta)%R -> (wx + delta <= wy)%R -> geo_raster geo wx wy delta = UB.
Proof. exact @geo_tall_width. Qed.
Print Assumptions C120_tall_geometry_refuted.

Theorem C120_wide_refuted :
  forall hi m n, mesh_good m -> (0 < hi)%R -> 0 < n ->
  (exists d, (In d (mdx m) \/ In d (mdy m)) /\ twy m + d <= twx m)%R ->
  2 <= n \/ 2 <= ncy m -> 2 <= ncx m \/ 2 <= ncy m ->
  exists r, mesh_raster hi m n = Ok r /\
    exists c, nth_error (r_cells r) (r_nx r - 1 + (r_ny r - 1) * r_nx r) = Some (Some c) /\
      ~ shows m c (spot (twx m) (r_nx r) (r_nx r - 1)) (spot (twy m) (r_ny r) (r_ny r - 1)).
Proof. exact @raster_wide. Qed.
Print Assumptions C120_wide_refuted.

Theorem C120_missing_cell_refuted :
  forall hi, (2 <= hi)%R -> exists m r c,
  mesh2D [1; 1; 1] [1; 1; 1] [0; 1.3; 2.3; 3.5]%R [0; 1.3; 2.3; 3.5]%R [0; 0; 0; 0; 1; 0; 0; 0; 0]%Z = Ok m /\
  mesh_raster hi m 1 = Ok r /\ c < ncells m /\ nth c (mat m) 0%Z = 1%Z /\ ~ In (Some c) (r_cells r).
Proof. exact @cell_missed. Qed.
Print Assumptions C120_missing_cell_refuted.

Theorem C120_mirrored_refuted :
  forall hi, (2 <= hi)%R -> exists m r g,
  mesh2D [1] [1; 1] [0; 2]%R [0; 1; 2]%R [0; 1]%Z = Ok m /\
  mesh_raster hi m 1 = Ok r /\ geo_raster (geometry_of_mesh m) 2%R 2%R 1%R = Ok g /\
  nth_error (r_cells r) 0 = Some (Some 0) /\ nth_error (r_cells g) 0 = Some (Some 1).
Proof. exact @mirrored. Qed.
Print Assumptions C120_mirrored_refuted.
