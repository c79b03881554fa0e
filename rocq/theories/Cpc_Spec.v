(** * Cpc_Spec: what the transfer between fine and coarse meshes must preserve. *)
From Verif Require Import Base BaseR Loop Mesh_Model Mesh_Spec Material_Model Matrix_Model Matrix_Spec Region_Model Region_Spec Diffusion_Spec.
Open Scope nat_scope.

(** Positive widths, one in the dimensions the mesh does not have. *)
Definition fine_mesh (m : mesh) : Prop :=
  mesh_good m /\ (dim m < 2 -> mdy m = [1%R]) /\ (dim m < 3 -> mdz m = [1%R]).
(** The active groups are divided into consecutive nonempty coarse groups. *)
Definition grouping (fpc : list nat) (act : nat) : Prop :=
  list_sum fpc = act /\ (forall k, In k fpc -> 0 < k) /\ fpc <> [].
(** Number of fine cells in the coarse cell c. *)
Definition cells_in (cmap : list nat) (c : nat) : nat := count_occ Nat.eq_dec cmap c.
(** Entry of a vector stored group by group. *)
Definition entry (x : list R) (n g i : nat) : R := nth (i + g * n) x 0%R.
(** y is the volume average of x over the coarse cells, added over the fine groups of the
    coarse groups: the integral of x over each coarse cell and group is kept. *)
Definition averaged (m : mesh) (cmap : list nat) (nc : nat) (fpc : list nat) (x y : list R) : Prop :=
  forall G c, G < length fpc -> c < nc ->
  (entry y nc G c * region_sum (ncells m) cmap c (vol m) =
   block_sum fpc G (fun g => region_sum (ncells m) cmap c (fun i => vol m i * entry x (ncells m) g i)))%R.
(** x distributes y over the fine cells with the spectrum s of the active groups. *)
Definition distributed (m : mesh) (cmap : list nat) (nc : nat) (fpc : list nat) (s : nat -> nat -> R) (y x : list R) : Prop :=
  forall G g i, G < length fpc -> psum fpc G <= g < psum fpc (S G) -> i < ncells m ->
  (entry x (ncells m) g i * block_sum fpc G (fun h => s h i) = s g i * entry y nc G (nth i cmap 0%nat))%R.
(** A level that divides the number of cells of every axis the mesh has. *)
Definition divides_axes (m : mesh) (level : nat) : Prop :=
  forall a, a < dim m -> nth a [ncx m; ncy m; ncz m] 0 mod level = 0.
(** The level leaves room for the remainder on every axis. *)
Definition level_fits (m : mesh) (level : nat) : Prop :=
  forall a, a < dim m -> level_ok (nth a [ncx m; ncy m; ncz m] 0) level.
(** No coarse cell has more fine cells than their average, rounded down, plus one. *)
Definition even_cells (nf nc : nat) (cmap : list nat) : Prop := forall c, c < nc -> cells_in cmap c <= nf / nc + 1.
(** A spectrum for every group and region, and its value for active group g in cell i. *)
Definition spectrum_table (spec : list (list R)) (ngroups nreg : nat) : Prop :=
  length spec = ngroups /\ forall g, g < ngroups -> length (nth g spec []) = nreg.
Definition at_cell (spec : list (list R)) (reg : list nat) (cut g i : nat) : R := nth (nth i reg 0) (nth (g + cut) spec []) 0%R.
(** Every cell is in a region of the table. *)
Definition region_map (m : mesh) (reg : list nat) (nreg : nat) : Prop :=
  ncells m <= length reg /\ forall i, i < ncells m -> nth i reg 0 < nreg.
(** No coarse group without flux. *)
Definition no_empty_group (m : mesh) (fpc : list nat) (s : nat -> nat -> R) : Prop :=
  forall G i, G < length fpc -> i < ncells m -> block_sum fpc G (fun g => s g i) <> 0%R.
