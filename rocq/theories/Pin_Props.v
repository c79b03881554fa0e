(** * Pin_Props *)
From Verif Require Import Base BaseR Loop Mesh_Model Mesh_Spec Csg_Model Pin_Model Pin_Spec Pin_Proofs2 Pin_Proofs4 Pin_Proofs5 Pin_Proofs6 Pin_Proofs7 Pin_Proofs8.
Open Scope nat_scope.

(** C97.  Full statement: for every pin cell the constructor accepts, every number of
    cells and either kind of mesh, C97_uniform_partial and C97_best_fit_partial without
    the hypotheses [square], [centred], [fits].  It fails for a rectangular pitch, a
    pin off the centre, and best fit meshes of thin and of wide pins. *)
Theorem C97_uniform_partial :
  forall P n flag,
  made P -> square P -> centred P -> 0 < n -> flag && (length (pc_radii P) =? 1) && (7 <=? n) = false ->
  exists m reg, meshify P n flag = Ok (m, reg) /\ covers P n m reg /\ symmetric n reg /\
  (forall i, i < n -> nth i (mdx m) 0%R = (px (pc_pitch P) / INR n)%R /\ nth i (mdy m) 0%R = (py (pc_pitch P) / INR n)%R) /\
  forall i j, i < n -> j < n -> exists k,
    in_ring P ((INR i + / 2) * (px (pc_pitch P) / INR n)) ((INR j + / 2) * (py (pc_pitch P) / INR n)) k /\
    nth (Mesh_Model.index n n i j 0) reg (-1)%Z = Z.of_nat k.
Proof. exact @uniform_mesh. Qed.
Print Assumptions C97_uniform_partial.
Theorem C97_best_fit_partial P r n : made P -> pc_radii P = [r] -> square P -> centred P -> pin_inside P -> fits (px (pc_pitch P)) r n -> 7 <= n ->
  exists m reg, meshify P n true = Ok (m, reg) /\ covers P n m reg /\ symmetric n reg /\
  (Rabs (region_area m reg 0 - PI * (r * r)) <= / 10 ^ 15 * (r * r))%R /\
  (region_area m reg 0 + region_area m reg 1 = px (pc_pitch P) * py (pc_pitch P))%R /\
  forall i j x y, i < n -> j < n -> inside (mdx m) i x -> inside (mdy m) j y ->
    (nth (Mesh_Model.index n n i j 0) reg (-1)%Z = 0%Z <->
     in_stair r (x - px (pc_pitch P) / 2) (y - py (pc_pitch P) / 2)).
Proof. intros HM HR HS HC HI HF N7. exact (fit_mesh HM HR HS HI HF eq_refl N7 HC). Qed.
Print Assumptions C97_best_fit_partial.
(** Fine enough meshes fit. *)
Theorem C97_fine_fits_partial :
  forall p r n,
  (0 < r)%R -> (p <= INR n * stair_d r)%R -> (p <= INR n * (p / 2 - stair_L r / 2 - stair_d r))%R -> (2 * r <= p)%R -> fits p r n.
Proof. exact @fits_fine. Qed.
Print Assumptions C97_fine_fits_partial.
Theorem C97_rectangular_refuted :
  exists P, made P /\ centred P /\ forall n flag, 0 < n ->
  exists m reg, meshify P n flag = Ok (m, reg) /\ twy m <> py (pc_pitch P) /\ ~ volumes_total m (px (pc_pitch P) * py (pc_pitch P))%R.
Proof. exact @rectangular_pitch. Qed.
Print Assumptions C97_rectangular_refuted.
Theorem C97_offset_refuted :
  exists P n m reg, made P /\ square P /\ pin_inside P /\ meshify P n false = Ok (m, reg) /\
  exists i j, i < n /\ j < n /\
    in_ring P ((INR i + / 2) * (px (pc_pitch P) / INR n)) ((INR j + / 2) * (py (pc_pitch P) / INR n)) 0 /\
    nth (Mesh_Model.index n n i j 0) reg (-1)%Z = 1%Z.
Proof. exact @offset_ignored. Qed.
Print Assumptions C97_offset_refuted.
Theorem C97_thin_refuted :
  exists P n m reg, made P /\ square P /\ centred P /\ pin_inside P /\ 7 <= n /\ length (pc_radii P) = 1 /\
  meshify P n true = Ok (m, reg) /\ ncx m <> n /\ (left_edge (mdx m) (ncx m) < px (pc_pitch P))%R.
Proof. exact @thin_pin. Qed.
Print Assumptions C97_thin_refuted.
Theorem C97_wide_refuted :
  exists P n m reg, made P /\ square P /\ centred P /\ pin_inside P /\ 7 <= n /\ length (pc_radii P) = 1 /\
  meshify P n true = Ok (m, reg) /\ mesh_good m /\ ncx m = S n.
Proof. exact @wide_pin. Qed.
Print Assumptions C97_wide_refuted.
Example C97_case : let P := single_pin (126 / 100) (54 / 100) in
  made P /\ square P /\ centred P /\ pin_inside P /\ fits (px (pc_pitch P)) (54 / 100) 14.
Proof. exact case_fit. Qed.

(** C98.  Full statement: the same for every pin cell the constructor accepts, with
    nothing outside the cell.  It fails for cells with height, pins larger than the
    cell, and divided pins off the centre. *)
Theorem C98_pin_partial :
  forall P,
  made P -> centred P ->
  exists rs, create_pin_cell P = Ok rs /\ length rs = (length (pc_radii P) + 1) * sectors (pc_div P) /\
  (forall p, in_pin_cell P p -> exists k a, in_ring P (px p) (py p) k /\ a < sectors (pc_div P) /\ in_sector (pc_div P) a (rel_x P p) (rel_y P p) /\
     only_region rs p (k * sectors (pc_div P) + a) /\ geo_find rs p = Ok (Some (k * sectors (pc_div P) + a)) /\
     exists r, nth_error rs (k * sectors (pc_div P) + a) = Some r /\ rmat r = nth k (pc_mat P) 0%Z) /\
  (pin_inside P -> flat P -> forall p, ~ in_pin_cell P p -> no_region rs p /\ geo_find rs p = Ok None).
Proof. exact @pin_partition. Qed.
Print Assumptions C98_pin_partial.
Theorem C98_mesh_agrees_partial :
  forall P n,
  made P -> square P -> centred P -> flat P -> 0 < n ->
  exists m reg rs, meshify P n false = Ok (m, reg) /\ create_pin_cell P = Ok rs /\ forall i j, i < n -> j < n -> forall z,
  exists c r, geo_find rs (P3 ((INR i + / 2) * (px (pc_pitch P) / INR n)) ((INR j + / 2) * (py (pc_pitch P) / INR n)) z) = Ok (Some c) /\
    nth_error rs c = Some r /\ nth (Mesh_Model.index n n i j 0) (mat m) 0%Z = rmat r.
Proof. exact @mesh_and_regions. Qed.
Print Assumptions C98_mesh_agrees_partial.
Theorem C98_assembly_partial nx ny pins pmap P0 :
  nth_error pins 0 = Some P0 -> length pmap = nx * ny -> (forall k, In k pmap -> k < length pins) ->
  (forall P, In P pins -> made P /\ centred P /\ pin_inside P /\ flat P /\ same_pitch P P0) ->
  exists rs, create_assembly nx ny pins pmap = Ok rs /\
  (forall i j p, i < nx -> j < ny ->
     let P := nth (nth (i + j * nx) pmap 0) pins P0 in
     let q := psub p (P3 (px (pc_pitch P0) * INR i) (py (pc_pitch P0) * INR j) 0) in
     in_pin_cell P q -> exists c r k a, only_region rs p c /\ geo_find rs p = Ok (Some c) /\ nth_error rs c = Some r /\
       in_ring P (px q) (py q) k /\ in_sector (pc_div P) a (rel_x P q) (rel_y P q) /\ rmat r = nth k (pc_mat P) 0%Z) /\
  (forall p, (forall i j, i < nx -> j < ny -> ~ (px (pc_pitch P0) * INR i <= px p < px (pc_pitch P0) * INR (S i) /\ py (pc_pitch P0) * INR j <= py p < py (pc_pitch P0) * INR (S j))%R) ->
     no_region rs p /\ geo_find rs p = Ok None).
Proof. exact (@assembly_partition nx ny pins pmap P0). Qed.
Print Assumptions C98_assembly_partial.
Theorem C98_height_refuted :
  exists P rs p, made P /\ centred P /\ pin_inside P /\ create_pin_cell P = Ok rs /\ ~ in_pin_cell P p /\ geo_find rs p = Ok (Some 0).
Proof. exact @pin_through_ceiling. Qed.
Print Assumptions C98_height_refuted.
Theorem C98_large_refuted :
  exists P rs p, made P /\ centred P /\ flat P /\ create_pin_cell P = Ok rs /\ ~ in_pin_cell P p /\ geo_find rs p = Ok (Some 0).
Proof. exact @pin_over_edge. Qed.
Print Assumptions C98_large_refuted.
Theorem C98_offset_refuted :
  exists P rs p i j ri rj, made P /\ pin_inside P /\ flat P /\ create_pin_cell P = Ok rs /\ in_pin_cell P p /\
  nth_error rs i = Some ri /\ nth_error rs j = Some rj /\ i <> j /\ region_contains ri p = Ok true /\ region_contains rj p = Ok true.
Proof. exact @offset_overlap. Qed.
Print Assumptions C98_offset_refuted.
(** A case: pins of radius 0.4 and 0.54 in eighths and undivided, pitch 1.26. *)
Example C98_case : let P := gen_pin (126 / 100) (126 / 100) 0 (4 / 10) 3 (P3 0 0 0) in let Q := gen_pin (126 / 100) (126 / 100) 0 (54 / 100) 0 (P3 0 0 0) in
  (forall k, In k [0; 1; 1; 0; 1; 0] -> k < length [P; Q]) /\
  (forall R, In R [P; Q] -> made R /\ centred R /\ pin_inside R /\ flat R /\ same_pitch R P) /\ in_pin_cell P (P3 1 1 7) /\ in_ring P 1 1 1 /\
  in_sector (pc_div P) 0 (rel_x P (P3 1 1 7)) (rel_y P (P3 1 1 7)).
Proof.
  split; [cbn; lia|]. split.
  - intros R [<-|[<-|[]]]; (split; [apply gen_made; lra || lia|]); (split; [split; reflexivity|]); (split; [intros r [<-|[]]; cbn; lra|]); (split; [unfold flat; cbn; lra|split; reflexivity]).
  - split; [unfold in_pin_cell; cbn; lra|]. split; [|cbn; unfold rel_x, rel_y; cbn; lra]. split; [cbn; lia|]. split; [cbn; lia|]. intros [|i] Hi; [|lia]. cbn [gen_pin pc_radii nth].
    apply Rnot_lt_le. intros C. apply sq_lt in C; [|cbn; nra|lra]. cbn in C. lra.
Qed.
