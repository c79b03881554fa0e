(** * Specification vocabulary for region edits *)
From Verif Require Import Base BaseR Loop Material_Model Mesh_Model Mesh_Spec Region_Model.
Open Scope nat_scope.

Definition axes_ok (a : axes) : Prop :=
  length (ax_dx a) = ax_nx a /\ length (ax_dy a) = ax_ny a /\ length (ax_dz a) = ax_nz a.
(** Volume of a cell. *)
Definition cell_volume (a : axes) (c : nat) : R :=
  (nth (cell_to_i (ax_nx a) c) (ax_dx a) 0 * nth (cell_to_j (ax_nx a) (ax_ny a) c) (ax_dy a) 0 *
   nth (cell_to_k (ax_nx a) (ax_ny a) c) (ax_dz a) 0)%R.
(** Sum of f over the cells of region r. *)
Definition region_sum (n : nat) (map : list nat) (r : nat) (f : nat -> R) : R :=
  rsum n (fun c => if nth c map 0 =? r then f c else 0%R).
(** A map covering the n cells. *)
Definition covers (map : list nat) (n : nat) : Prop := length map = n /\ 0 < n.
(** Number of regions: one more than the largest index. *)
Definition regions (map : list nat) : nat := S (list_max map).

(** Fission rate density of a cell. *)
Definition fission_density (m : mtl) (mmap : list nat) (phi : list (list R)) (c : nat) : R :=
  rsum (ng m) (fun g => nth c (nth g phi []) 0 * sf m g (nth c mmap 0%nat))%R.
Definition power_ready (n : nat) (m : mtl) (mmap : list nat) (phi : list (list R)) : Prop :=
  n <= length mmap /\ (forall c, c < n -> nth c mmap 0 < nm m) /\
  length phi = ng m /\ (forall g, g < ng m -> n <= length (nth g phi [])).

(** ** Homogenisation *)
(** Fine groups of coarse group cg: the cg-th block. *)
Definition block_sum (cgs : list nat) (cg : nat) (f : nat -> R) : R :=
  rsum (nth cg cgs 0) (fun i => f (psum cgs cg + i)).
(** Weight of a cell, group. *)
Definition weight (w : weighting) (g c : nat) : R :=
  match w with
  | FineMesh phi _ => nth c (nth g phi []) 0%R
  | RegionSpectrum s smap => nth (nth c smap 0%nat) (nth g s []) 0%R
  end.
Definition weighting_ok (n ngroups : nat) (w : weighting) : Prop :=
  match w with
  | FineMesh phi cur =>
      length phi = ngroups /\ (forall g, g < ngroups -> n <= length (nth g phi [])) /\
      match cur with
      | Some j => length j = ngroups /\ (forall g, g < ngroups -> n <= length (nth g j []))
      | None => True
      end
  | RegionSpectrum s smap =>
      length s = ngroups /\ n <= length smap /\
      forall g c, g < ngroups -> c < n -> nth c smap 0 < length (nth g s [])
  end.
Definition hom_ready (h : hom) : Prop :=
  h_n h <= length (h_vol h) /\ covers (h_reg h) (h_n h) /\ h_n h <= length (h_mmap h) /\
  (forall c, c < h_n h -> nth c (h_mmap h) 0 < nm (h_mat h)) /\
  weighting_ok (h_n h) (ng (h_mat h)) (h_w h).
Definition mat_at (h : hom) (c : nat) : nat := nth c (h_mmap h) 0.
Definition vol_at (h : hom) (c : nat) : R := nth c (h_vol h) 0%R.
(** Integrated flux of coarse group cg in region r, and the reaction rate for
    the cross section f. *)
Definition region_flux (h : hom) (cgs : list nat) (cg r : nat) : R :=
  block_sum cgs cg (fun g => region_sum (h_n h) (h_reg h) r (fun c => weight (h_w h) g c * vol_at h c)%R).
Definition region_rate (h : hom) (cgs : list nat) (f : nat -> nat -> R) (cg r : nat) : R :=
  block_sum cgs cg (fun g => region_sum (h_n h) (h_reg h) r
    (fun c => weight (h_w h) g c * vol_at h c * f g (mat_at h c))%R).
(** Total fission production in a cell, all groups. *)
Definition production (h : hom) (c : nat) : R :=
  rsum (ng (h_mat h)) (fun g => weight (h_w h) g c * nsf (h_mat h) g (mat_at h c) * vol_at h c)%R.
(** Spectrum weighted by production. *)
Definition spectrum_ok (h : hom) (cgs : list nat) (cm : mtl) (cg r : nat) : Prop :=
  (chi cm cg r * region_sum (h_n h) (h_reg h) r (production h) =
   block_sum cgs cg (fun g => region_sum (h_n h) (h_reg h) r
     (fun c => production h c * chi (h_mat h) g (mat_at h c))))%R.

(** ** Coarse meshes *)
(** The coarsening level leaves room for the remainder. *)
Definition level_ok (n level : nat) : Prop :=
  0 < level /\ (n / level = 1 \/ n mod level <= n / level).
(** Consecutive non-empty groups of fine cells covering n cells. *)
Definition partition (cnt : list nat) (n : nat) : Prop :=
  list_sum cnt = n /\ (forall k, In k cnt -> 0 < k).
Definition coarse_ok (w : list R) (x : coarse1) : Prop :=
  partition (c_count x) (length w) /\
  length (c_map x) = length w /\ (forall C f, in_coarse (c_count x) C f -> nth f (c_map x) 0 = C) /\
  length (c_edges x) = S (length (c_count x)) /\
  (forall C, C <= length (c_count x) -> nth C (c_edges x) 0%R = left_edge w (psum (c_count x) C)) /\
  length (c_flag x) = S (length w) /\
  (forall C, C <= length (c_count x) -> nth (psum (c_count x) C) (c_flag x) 0%Z = Z.of_nat C) /\
  (forall f, f <= length w -> (forall C, C <= length (c_count x) -> f <> psum (c_count x) C) ->
     nth f (c_flag x) 0%Z = (-1)%Z).

(** ** Homogenised rates *)
(** Fission data of a finalized material, non-negative weights. *)
Definition fission_data_ok (h : hom) : Prop :=
  forall g c, g < ng (h_mat h) -> c < h_n h ->
    (0 <= weight (h_w h) g c * vol_at h c)%R /\ (0 <= sf (h_mat h) g (mat_at h c))%R /\
    nsf (h_mat h) g (mat_at h c) = (nu (h_mat h) g (mat_at h c) * sf (h_mat h) g (mat_at h c))%R.
(** Scattering from coarse group cg to coarse group q. *)
Definition scatter_rate (h : hom) (cgs : list nat) (q cg r : nat) : R :=
  block_sum cgs cg (fun g => region_sum (h_n h) (h_reg h) r
    (fun c => weight (h_w h) g c * vol_at h c * block_sum cgs q (fun gp => ss (h_mat h) gp g (mat_at h c)))%R).
(** The homogenised constants reproduce the rates of the fine problem. *)
Definition rates_ok (h : hom) (cgs : list nat) (cm : mtl) (cg r : nat) : Prop :=
  let F := region_flux h cgs cg r in
  let rate f := region_rate h cgs f cg r in
  (st cm cg r * F = rate (st (h_mat h)))%R /\ (sa cm cg r * F = rate (sa (h_mat h)))%R /\
  (sf cm cg r * F = rate (sf (h_mat h)))%R /\ (nsf cm cg r * F = rate (nsf (h_mat h)))%R /\
  (forall q, q < length cgs -> (ss cm q cg r * F = scatter_rate h cgs q cg r)%R) /\
  (h_dc h = PHI_D -> (dc cm cg r * F = rate (dc (h_mat h)))%R) /\
  (h_dc h = PHI_SIGMA_TR -> (dc cm cg r * (3 * st cm cg r) = 1)%R).
(** Volume of a region. *)
Definition region_volume (h : hom) (r : nat) : R := region_sum (h_n h) (h_reg h) r (vol_at h).
(** Every group of the fine problem is collapsed. *)
Definition collapse_ok (h : hom) (cgs : list nat) : Prop :=
  list_sum cgs = ng (h_mat h) /\ (forall k, In k cgs -> 0 < k) /\ cgs <> [].
