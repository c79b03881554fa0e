(** * Region_Props *)
From Verif Require Import Base BaseR Loop Material_Model Material_Proofs Mesh_Model Mesh_Spec Mesh_Proofs
  Region_Model Region_Spec Region_Proofs Homog_Proofs.
Open Scope nat_scope.

(** C45 *)
Theorem C45_partition_partial :
  forall w level,
  level_ok (length w) level ->
  exists x, coarsen w level = Ok x /\ coarse_ok w x /\ length (c_count x) = length w / level /\
    (forall k, In k (c_count x) -> level <= k).
Proof. exact @coarsen_ok. Qed.
Print Assumptions C45_partition_partial.
Theorem C45_map_partial :
  forall wx wy wz cx cy cz,
  coarse_ok wx cx -> coarse_ok wy cy -> coarse_ok wz cz ->
  exists v, fine_to_coarse_map cx cy cz = Ok v /\ length v = length wx * length wy * length wz /\
    (forall i j k I J K, in_coarse (c_count cx) I i -> in_coarse (c_count cy) J j -> in_coarse (c_count cz) K k ->
       nth (index (length wx) (length wy) i j k) v 0 = index (length (c_count cx)) (length (c_count cy)) I J K) /\
    (forall c, c < length v -> nth c v 0 < length (c_count cx) * length (c_count cy) * length (c_count cz)).
Proof. exact @fine_to_coarse_ok. Qed.
Print Assumptions C45_map_partial.
Theorem C45_width_partial :
  forall w x,
  coarse_ok w x ->
  nth (length (c_count x)) (c_edges x) 0%R = left_edge w (length w) /\ nth 0 (c_edges x) 0%R = 0%R.
Proof. exact @coarse_width. Qed.
Print Assumptions C45_width_partial.
Theorem C45_level_refuted :
  (forall w level, ~ level_ok (length w) level -> coarsen w level = UB) /\
  exists w level, 0 < level /\ level < length w /\ (forall i, i < length w -> (0 < nth i w 0)%R) /\ coarsen w level = UB.
Proof.
  split; [exact coarsen_ub|]. exists (repeat 1%R 11), 4. split; [lia|]. split; [cbn; lia|]. split.
  - intros i Hi. rewrite repeat_length in Hi. rewrite nth_repeat_lt by auto. lra.
  - apply coarse_ub_example.
Qed.
Print Assumptions C45_level_refuted.
(** Ten cells by three: coarse cells of 4, 3 and 3. *)
Example coarse_case : level_ok (length (repeat 1%R 10)) 3 /\ coarse_counts 10 3 = Ok [4; 3; 3].
Proof. split; [split; cbn; lia|reflexivity]. Qed.

(** C46 *)
Theorem C46_rates_partial :
  forall h cgs,
  hom_ready h -> collapse_ok h cgs -> fission_data_ok h ->
  exists cm fl, homogenize h cgs 0 = Ok (cm, fl) /\ ng cm = length cgs /\ nm cm = regions (h_reg h) /\
    forall cg r, cg < length cgs -> r < regions (h_reg h) ->
      (0 < region_rate h cgs (st (h_mat h)) cg r)%R -> (region_flux h cgs cg r <> 0)%R ->
      rates_ok h cgs cm cg r.
Proof. exact @homog_rates. Qed.
Print Assumptions C46_rates_partial.
Theorem C46_spectrum_partial :
  forall h cgs X,
  hom_ready h -> collapse_ok h cgs ->
  exists cm fl, homogenize h cgs 0 = Ok (cm, fl) /\
    forall cg r, cg < length cgs -> r < regions (h_reg h) ->
      (0 < region_rate h cgs (st (h_mat h)) cg r)%R -> (0 < region_rate h cgs (sf (h_mat h)) cg r)%R ->
      (forall g c, g < ng (h_mat h) -> c < h_n h -> nth c (h_reg h) 0 = r -> chi (h_mat h) g (mat_at h c) = X g) ->
      (region_sum (h_n h) (h_reg h) r (fun c => weight (h_w h) (ng (h_mat h) - 1)%nat c
          * nsf (h_mat h) (ng (h_mat h) - 1)%nat (mat_at h c) * vol_at h c) <> 0)%R ->
      chi cm cg r = block_sum cgs cg X /\ spectrum_ok h cgs cm cg r.
Proof. exact @homog_spectrum. Qed.
Print Assumptions C46_spectrum_partial.
Theorem C46_spectrum_refuted :
  exists h cgs, hom_ready h /\ collapse_ok h cgs /\ fission_data_ok h /\
    exists cm fl, homogenize h cgs 0 = Ok (cm, fl) /\
      (0 < region_rate h cgs (st (h_mat h)) 0 0)%R /\ (0 < region_rate h cgs (sf (h_mat h)) 0 0)%R /\
      ~ spectrum_ok h cgs cm 0 0.
Proof. exact @homog_spectrum_wrong. Qed.
Print Assumptions C46_spectrum_refuted.
Theorem C46_spectrum_lost_refuted :
  exists h cgs, hom_ready h /\ collapse_ok h cgs /\ fission_data_ok h /\ h_n h = 1 /\
    exists cm fl, homogenize h cgs 0 = Ok (cm, fl) /\
      (0 < region_rate h cgs (st (h_mat h)) 0 0)%R /\
      chi (h_mat h) 0 0 = 1%R /\ chi cm 0 0 = 0%R /\ ~ spectrum_ok h cgs cm 0 0.
Proof. exact @homog_spectrum_lost. Qed.
Print Assumptions C46_spectrum_lost_refuted.
Theorem C46_flux_partial :
  forall h cgs,
  hom_ready h -> collapse_ok h cgs ->
  exists cm fl, homogenize h cgs 0 = Ok (cm, fl) /\
    forall cg r, cg < length cgs -> r < regions (h_reg h) -> (region_volume h r <> 0)%R ->
      (INR (nth cg cgs 0%nat) * (nth r (nth cg fl []) 0 * region_volume h r) = region_flux h cgs cg r)%R.
Proof. exact @homog_flux. Qed.
Print Assumptions C46_flux_partial.
Theorem C46_flux_refuted :
  exists h cgs, hom_ready h /\ collapse_ok h cgs /\
    exists cm fl, homogenize h cgs 0 = Ok (cm, fl) /\ (region_volume h 0 <> 0)%R /\
      (nth 0 (nth 0 fl []) 0 * region_volume h 0 <> region_flux h cgs 0 0)%R.
Proof. exact @homog_flux_wrong. Qed.
Print Assumptions C46_flux_refuted.
Theorem C46_window_refuted :
  exists h, hom_ready h /\ fission_data_ok h /\
    exists cm fl, homogenize h [1] 1 = Ok (cm, fl) /\ ng cm = 1 /\
      (0 < rsum 2 (fun c => weight (h_w h) 1 c * vol_at h c * st (h_mat h) 1%nat (mat_at h c)))%R /\
      (st cm 0%nat 0%nat * rsum 2 (fun c => weight (h_w h) 1 c * vol_at h c) <>
       rsum 2 (fun c => weight (h_w h) 1 c * vol_at h c * st (h_mat h) 1%nat (mat_at h c)))%R.
Proof. exact @homog_window_wrong. Qed.
Print Assumptions C46_window_refuted.
(** Two different materials in one region, both groups collapsed. *)
Example hom_case : hom_ready (mix_hom flat_phi) /\ collapse_ok (mix_hom flat_phi) [2] /\ fission_data_ok (mix_hom flat_phi) /\
  (0 < region_rate (mix_hom flat_phi) [2]%nat (st (h_mat (mix_hom flat_phi))) 0 0)%R /\
  (region_flux (mix_hom flat_phi) [2]%nat 0 0 <> 0)%R /\ (region_volume (mix_hom flat_phi) 0 <> 0)%R.
Proof.
  split; [apply flat_ready|]. split; [apply mix_collapse|]. split; [apply mix_fission|]. split; [mixc; lra|]. split; mixc; lra.
Qed.
(** One material that fissions in both groups meets the hypotheses of the
    spectrum theorem. *)
Definition fissile_mat : mtl :=
  finalize (run_ops (material_new 1 2)
    [Set_ FT 0 0 1%R; Set_ FT 0 1 1%R; Set_ FCHI 0 0 (1/4)%R; Set_ FCHI 0 1 (3/4)%R; Set_ FSF 0 0 2%R; Set_ FSF 0 1 1%R]).
Definition fissile_hom : hom :=
  {| h_mat := fissile_mat; h_n := 2; h_vol := [1; 2]%R; h_reg := [0; 0]; h_mmap := [0; 0];
     h_w := FineMesh [[1; 2]; [3; 4]]%R None; h_dc := PHI_D |}.
Example spectrum_case : hom_ready fissile_hom /\ collapse_ok fissile_hom [1; 1] /\
  (0 < region_rate fissile_hom [1; 1]%nat (st (h_mat fissile_hom)) 0 0)%R /\
  (0 < region_rate fissile_hom [1; 1]%nat (sf (h_mat fissile_hom)) 0 0)%R /\
  (region_sum 2 [0; 0]%nat 0 (fun c => weight (h_w fissile_hom) 1 c * nsf fissile_mat 1%nat (mat_at fissile_hom c) * vol_at fissile_hom c) <> 0)%R.
Proof.
  split.
  { split; [cbn; lia|]. split; [split; cbn; lia|]. split; [cbn; lia|]. split.
    - intros [|[|c]] Hc; cbn in *; lia.
    - cbn. split; auto. split; auto. intros [|[|g]] Hg; cbn; lia. }
  split; [split; [reflexivity|split; [cbn; intros k H; lia|congruence]]|].
  split; [mixc; lra|]. split; mixc; lra.
Qed.

(** C60 *)
Theorem C60_region_power :
  forall a m mmap phi map scale,
  axes_ok a -> covers map (ax_cells a) -> power_ready (ax_cells a) m mmap phi ->
  let rate c := (cell_volume a c * fission_density m mmap phi c)%R in
  let total := rsum (ax_cells a) rate in
  (0 < scale -> total <> 0)%R ->
  exists p, region_power a m mmap phi map scale = Ok p /\ length p = regions map /\
    ((0 < scale)%R -> sumR p = scale /\
       forall r, r < regions map -> (nth r p 0 * total = scale * region_sum (ax_cells a) map r rate)%R) /\
    (~ (0 < scale)%R -> forall r, r < regions map -> nth r p 0%R = region_sum (ax_cells a) map r rate).
Proof. exact @region_power_ok. Qed.
Print Assumptions C60_region_power.
Theorem C60_edit_sum :
  forall a map f,
  axes_ok a -> covers map (ax_cells a) -> ax_cells a <= length f ->
  exists e, edit a map f false = Ok e /\ length e = regions map /\
    forall r, r < regions map ->
      nth r e 0%R = region_sum (ax_cells a) map r (fun c => cell_volume a c * nth c f 0)%R.
Proof. exact @edit_sum. Qed.
Print Assumptions C60_edit_sum.
Theorem C60_edit_mean_partial :
  forall a map f,
  axes_ok a -> covers map (ax_cells a) -> ax_cells a <= length f ->
  regions map <= ax_cells a ->
  (forall r, r < regions map -> exists c, c < regions map /\ nth c map 0 = r) ->
  exists e, edit a map f true = Ok e /\ length e = regions map /\
    forall r, r < regions map ->
      nth r e 0%R = (region_sum (ax_cells a) map r (fun c => cell_volume a c * nth c f 0) /
                     region_sum (ax_cells a) map r (cell_volume a))%R.
Proof. exact @edit_mean. Qed.
Print Assumptions C60_edit_mean_partial.
Theorem C60_edit_mean_refuted :
  axes_ok mean_axes /\ covers [0; 0; 1] (ax_cells mean_axes) /\
  exists e, edit mean_axes [0; 0; 1] [1; 1; 1]%R true = Ok e /\
    (nth 0 e 0 = / 4)%R /\ (nth 1 e 0 = 2)%R /\
    (region_sum 3 [0; 0; 1]%nat 0 (fun c => cell_volume mean_axes c * nth c [1; 1; 1] 0) /
     region_sum 3 [0; 0; 1]%nat 0 (cell_volume mean_axes) = 1)%R.
Proof. exact @edit_mean_wrong. Qed.
Print Assumptions C60_edit_mean_refuted.
Definition power_axes : axes := {| ax_nx := 2; ax_ny := 2; ax_nz := 1; ax_dx := [1; 2]%R; ax_dy := [1; 3]%R; ax_dz := [1]%R |}.
Example power_case :
  axes_ok power_axes /\ covers [0; 1; 1; 0] (ax_cells power_axes) /\
  power_ready (ax_cells power_axes) fissile_mat [0; 0; 0; 0] [[1; 2; 3; 4]; [1; 1; 1; 1]]%R /\
  (rsum (ax_cells power_axes) (fun c => cell_volume power_axes c *
     fission_density fissile_mat [0; 0; 0; 0]%nat [[1; 2; 3; 4]; [1; 1; 1; 1]] c) <> 0)%R.
Proof.
  split; [repeat split|]. split; [split; cbn; auto; lia|]. split.
  - split; [cbn; lia|]. split; [intros [|[|[|[|c]]]] Hc; cbn in *; lia|]. split; [reflexivity|].
    intros [|[|g]] Hg; cbn in *; lia.
  - unfold fission_density, cell_volume. cbn. unfold set2. cbn. lra.
Qed.
Example mean_case : regions [1; 0; 1; 0] <= 4 /\ forall r, r < regions [1; 0; 1; 0] -> exists c, c < regions [1; 0; 1; 0] /\ nth c [1; 0; 1; 0] 0 = r.
Proof.
  change (regions [1; 0; 1; 0]) with 2. split; [lia|]. intros [|[|r]] Hr; [exists 1|exists 0|lia]; split; auto.
Qed.
