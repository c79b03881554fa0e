(** * Theorems on meshes, assemblies and cores (C13-C16) *)
From Verif Require Import Base BaseR Loop Mesh_Model Mesh_Spec Mesh_Proofs Tiling_Proofs.
Open Scope nat_scope.

(** C13 *)
Theorem C13_index_bijection :
  forall nx ny nz,
  (forall i j k, i < nx -> j < ny -> k < nz ->
     index nx ny i j k < nx * ny * nz /\
     cell_to_i nx (index nx ny i j k) = i /\
     cell_to_j nx ny (index nx ny i j k) = j /\
     cell_to_k nx ny (index nx ny i j k) = k) /\
  (forall c, c < nx * ny * nz ->
     cell_to_i nx c < nx /\ cell_to_j nx ny c < ny /\ cell_to_k nx ny c < nz /\
     index nx ny (cell_to_i nx c) (cell_to_j nx ny c) (cell_to_k nx ny c) = c) /\
  (forall i j k i' j' k', i < nx -> j < ny -> k < nz -> i' < nx -> j' < ny -> k' < nz ->
     index nx ny i j k = index nx ny i' j' k' -> i = i' /\ j = j' /\ k = k').
Proof. exact @mesh_index_bijection. Qed.
Print Assumptions C13_index_bijection.
Example C13_case : index 3 4 2 1 5 = 65 /\ cell_to_i 3 65 = 2 /\ cell_to_j 3 4 65 = 1 /\ cell_to_k 3 4 65 = 5.
Proof. repeat split. Qed.

(** C14 *)
Theorem C14_mesh1D :
  forall xf xc mm,
  axis_ok xf xc -> length mm = length xf ->
  exists m, mesh1D xf xc mm = Ok m /\ mesh_good m /\
    ncx m = list_sum xf /\ ncy m = 1 /\ ncz m = 1 /\ dim m = 1 /\
    axis_widths xf xc (mdx m) /\ mdy m = [1%R] /\ mdz m = [1%R] /\
    coarse_map_ok xf [1] [1] mm (mat m) /\ length (mat m) = ncells m /\
    volumes_total m (nth (length xf) xc 0 - nth 0 xc 0)%R.
Proof. exact @mesh1D_ok. Qed.
Print Assumptions C14_mesh1D.
Theorem C14_mesh2D :
  forall xf yf xc yc mm,
  axis_ok xf xc -> axis_ok yf yc -> length mm = length xf * length yf ->
  exists m, mesh2D xf yf xc yc mm = Ok m /\ mesh_good m /\
    ncx m = list_sum xf /\ ncy m = list_sum yf /\ ncz m = 1 /\ dim m = 2 /\
    axis_widths xf xc (mdx m) /\ axis_widths yf yc (mdy m) /\ mdz m = [1%R] /\
    coarse_map_ok xf yf [1] mm (mat m) /\ length (mat m) = ncells m /\
    volumes_total m ((nth (length xf) xc 0 - nth 0 xc 0) * (nth (length yf) yc 0 - nth 0 yc 0))%R.
Proof. exact @mesh2D_ok. Qed.
Print Assumptions C14_mesh2D.
Theorem C14_mesh3D :
  forall xf yf zf xc yc zc mm,
  axis_ok xf xc -> axis_ok yf yc -> axis_ok zf zc -> length mm = length xf * length yf * length zf ->
  exists m, mesh3D xf yf zf xc yc zc mm = Ok m /\ mesh_good m /\
    ncx m = list_sum xf /\ ncy m = list_sum yf /\ ncz m = list_sum zf /\ dim m = 3 /\
    axis_widths xf xc (mdx m) /\ axis_widths yf yc (mdy m) /\ axis_widths zf zc (mdz m) /\
    coarse_map_ok xf yf zf mm (mat m) /\ length (mat m) = ncells m /\
    volumes_total m ((nth (length xf) xc 0 - nth 0 xc 0) * (nth (length yf) yc 0 - nth 0 yc 0) *
                     (nth (length zf) zc 0 - nth 0 zc 0))%R.
Proof. exact @mesh3D_ok. Qed.
Print Assumptions C14_mesh3D.
Example C14_case : axis_ok [2; 3] [0; 1; 4]%R.
Proof.
  split; [discriminate|]. split; [intros f [<-|[<-|[]]]; lia|]. split; auto.
  intros [|[|i]] Hi; simpl in *; try lra; lia.
Qed.

(** C15 *)
Theorem C15_find_cell_partial :
  forall m x y z,
  mesh_good m ->
  (find_cell m (x, y, z) = None <->
     ~ (0 <= x <= twx m /\ 0 <= y <= twy m /\ 0 <= z <= twz m)%R) /\
  (forall c, find_cell m (x, y, z) = Some c ->
     c < ncells m /\
     in_cell (mdx m) (cell_to_i (ncx m) c) x /\
     in_cell (mdy m) (cell_to_j (ncx m) (ncy m) c) y /\
     in_cell (mdz m) (cell_to_k (ncx m) (ncy m) c) z).
Proof. exact @find_cell_spec. Qed.
Print Assumptions C15_find_cell_partial.
Theorem C15_offset_mesh_refuted :
  exists m p, mesh1D [1; 1] [5; 6; 7]%R [0; 1]%Z = Ok m /\
  (6 < p < 7)%R /\ find_cell m (p, 0%R, 0%R) = None.
Proof. exact @find_cell_offset. Qed.
Print Assumptions C15_offset_mesh_refuted.

(** C16 *)
Theorem C16_assembly_partial :
  forall n p pins pmap,
  pins <> [] -> Forall (pin_ok p) pins -> length pmap = n * n ->
  Forall (fun q => q < length pins) pmap ->
  exists A, assembly_finalize n n pins pmap = Ok A /\ a_nx A = p * n /\
    tiled n p (a_mat A) (fun I J c => nth c (pmat (pin_at pins pmap (I + J * n))) 0%Z) /\
    tiled n p (a_reg A) (fun I J c => nth c (preg (pin_at pins pmap (I + J * n))) 0%Z) /\
    tiled n p (a_pin A) (fun I J _ => Z.of_nat (I + J * n)) /\
    edges_of n p (a_edges A) (fun J => pdy (pin_at pins pmap (J * n))).
Proof. exact @assembly_tiling. Qed.
Print Assumptions C16_assembly_partial.
Theorem C16_core_partial :
  forall n p adim parts amap,
  parts <> [] -> Forall (apart_ok p) parts -> length amap = n * n ->
  Forall (fun q => q < length parts) amap ->
  exists A, core_finalize n adim parts amap = Ok A /\ k_nx A = p * n /\
    tiled n p (k_mat A) (fun I J c => nth c (amat (part_at parts amap (I + J * n))) 0%Z) /\
    tiled n p (k_reg A) (fun I J c => nth c (areg (part_at parts amap (I + J * n))) 0%Z) /\
    tiled n p (k_pin A) (fun I J c => (nth c (apin (part_at parts amap (I + J * n))) 0 +
                                      Z.of_nat ((I + J * n) * (adim * adim)))%Z) /\
    tiled n p (k_ass A) (fun I J _ => Z.of_nat (I + J * n)) /\
    edges_of n p (k_edges A) (fun J => ady (part_at parts amap (J * n))).
Proof. exact @core_tiling. Qed.
Print Assumptions C16_core_partial.
Theorem C16_rectangular_refuted :
  exists A, assembly_finalize 4 1 [pin1 0; pin1 1] [0; 1; 0; 1] = Ok A /\
  a_nx A = 2 /\ a_mat A = [0; 1; 0; 1]%Z /\ length (a_edges A) = 3.
Proof. exact @assembly_rectangular. Qed.
Print Assumptions C16_rectangular_refuted.
Theorem C16_tall_pin_refuted :
  assembly_finalize 1 1 [Build_pin 1 2 [1%R; 1%R] [0; 0]%Z [0; 0]%Z] [0] = UB.
Proof. exact @assembly_tall_pin. Qed.
Print Assumptions C16_tall_pin_refuted.
Example C16_case : pin_ok 2 {| pnx := 2; pny := 2; pdy := [1; 1]%R; pmat := [1; 2; 3; 4]%Z; preg := [0; 1; 0; 1]%Z |}.
Proof. repeat split. Qed.
