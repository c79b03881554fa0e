(** * Cpc_Model: transfer between the fine and the coarse mesh of the multigroup
    coarse mesh preconditioners.
    Source: /repo/src/solvers/mg/MGCoarseMeshPreconditioner.cc and MGCMDSA.cc (apply),
    with the coarse mesh of CoarseMesh.cc (Tally_Model, Cmfd_Model) and callow's matrix
    (Matrix_Model).
    Simplifications: double is R; the values looked up in the input are arguments; the
    vectors do not wrap around.  The flat and the user-defined spectrum are modelled; for
    the computed ones (SpectrumGS, SpectrumFS, SpectrumPinCell) the table is an argument.
    The scattering operator and the linear solver of MGCMDSA are parameters.  Not modelled:
    condensation with a state (the code throws), the smoother, printing. *)
From Verif Require Import Base BaseR Loop Mesh_Model Material_Model Matrix_Model Sweep_Model Region_Model Tally_Model Diffusion_Model Cmfd_Model.
Open Scope nat_scope.

(** MGPreconditioner.cc 47-49: the number of active groups, for a cutoff in range *)
Definition active_groups (ngroups : nat) (adj : bool) (cut : nat) : nat := if adj then S cut else ngroups - cut.

(** The widths of the mesh, as the coarsening sees them. *)
Definition mesh_grid (m : mesh) : grid :=
  {| g_nx := ncx m; g_ny := ncy m; g_nz := ncz m; g_dx := mdx m; g_dy := mdy m; g_dz := mdz m; g_sig := [] |}.

(** MGCoarseMeshPreconditioner.cc 73-76: the coarse group of every active group *)
Definition f2c_group_map (act : nat) (fpc : list nat) : res (list nat) :=
  do r <- for_ 0 (length fpc) (repeat 0 act, 0) (fun cg s =>
    do k <- rd fpc cg;
    for_ 0 k s (fun _ s => do v <- wr (fst s) (snd s) cg; Ok (v, S (snd s))));
  Ok (fst r).

(** 271-273: places per row of the restriction *)
Definition restrict_room (nf nc : nat) (fpc : list nat) : nat := (nf / nc + 1) * list_max fpc.

(** 268-290: build_restrict.  The result of insert is only looked at by an Assert. *)
Definition build_restrict (srt : list triplet -> list triplet) (m cm : mesh) (cmap gmap fpc : list nat) (act : nat) : res csr :=
  let nf := ncells m in let nc := ncells cm in
  do A <- for_ 0 act (preallocate (repeat (restrict_room nf nc fpc) (length fpc * nc))) (fun g A =>
    for_ 0 nf A (fun i A =>
      do c <- rd cmap i;
      do cg <- rd gmap g;
      do v <- volume m i; do vc <- volume cm c;
      do x <- insert A (cg * nc + c) (Z.of_nat (g * nf + i)) (v / vc)%R INSERT;
      Ok (snd x)));
  assemble srt (act * nf) A.

(** 22-82: the constructor: coarse mesh, map of the cells, map of the groups and
    restriction.  [fpc] is mgpc_fine_per_coarse_group or its default, one fine group
    per coarse group. *)
Record cpc := { z_cm : mesh; z_cmap : list nat; z_gmap : list nat; z_R : csr }.
Definition cpc_new (srt : list triplet -> list triplet) (m : mesh) (ngroups : nat) (adj : bool) (cut level : nat) (fpc : list nat) : res cpc :=
  let act := active_groups ngroups adj cut in
  do C <- coarse_mesh (dim m) (mesh_grid m) level;
  do cm <- coarse_of C;
  do cmap <- coarse_map C;
  do gmap <- f2c_group_map act fpc;
  do R <- build_restrict srt m cm cmap gmap fpc act;
  Ok {| z_cm := cm; z_cmap := cmap; z_gmap := gmap; z_R := R |}.

(** 117-124: the flat spectrum, used with the material map *)
Definition flat_spectrum (ngroups nmat : nat) : list (list R) := repeat (repeat 1%R nmat) ngroups.
(** 125-153: the user's spectrum *)
Definition user_spectrum (ngroups : nat) (s : list R) : res (list (list R)) :=
  let nr := length s / ngroups in
  mapM (fun g => mapM (fun r => rd s (r + g * nr)) (seq 0 nr)) (seq 0 ngroups).

(** 181-193: the spectrum of the coarse groups.  Line 185, 0 ? d_adjoint :
    d_group_cutoff, is the cutoff whatever the problem. *)
Definition coarse_spectrum (spec : list (list R)) (fpc : list nat) (cut nreg : nat) : res (list (list R)) :=
  do s0 <- rd spec 0;
  for_ 0 (length s0) (repeat (repeat 0%R nreg) (length fpc)) (fun r S =>
    do x <- for_ 0 (length fpc) (S, cut) (fun gc s =>
      do k <- rd fpc gc;
      for_ 0 k s (fun _ s =>
        do a <- rd2 spec (snd s) r;
        do row <- rd (fst s) gc;
        do row <- add_at row r a;
        do S <- wr (fst s) gc row;
        Ok (S, Datatypes.S (snd s))));
    Ok (fst x)).

(** 330-350: shape *)
Definition shape_at (spec cspec : list (list R)) (reg : list nat) (adj : bool) (cut i_f g_f g_c : nat) : res R :=
  let g := if adj then g_f else g_f + cut in
  do is <- rd reg i_f;
  do a <- rd2 spec g is;
  do b <- rd2 cspec g_c is;
  Ok (a / b)%R.

(** 305-327: build_prolong *)
Definition build_prolong (srt : list triplet -> list triplet) (m cm : mesh) (cmap gmap fpc : list nat) (act : nat)
    (shape : nat -> nat -> nat -> res R) : res csr :=
  let nf := ncells m in let nc := ncells cm in
  do A <- for_ 0 act (preallocate (repeat 1 (act * nf))) (fun gf A =>
    do gc <- rd gmap gf;
    for_ 0 nf A (fun i A =>
      do c <- rd cmap i;
      do v <- shape i gf gc;
      do x <- insert A (i + gf * nf) (Z.of_nat (c + gc * nc)) v INSERT;
      Ok (snd x)));
  assemble srt (length fpc * nc) A.

(** 91-227, build: the spectrum is [spec] over the regions of the map [reg]; the coarse
    material (Homogenize, Region_Model) does not enter the transfer operators. *)
Definition cpc_build (srt : list triplet -> list triplet) (m : mesh) (ngroups : nat) (adj : bool) (cut : nat) (fpc : list nat)
    (spec : list (list R)) (nreg : nat) (reg : list nat) (Z : cpc) : res csr :=
  do cs <- coarse_spectrum spec fpc cut nreg;
  build_prolong srt m (z_cm Z) (z_cmap Z) (z_gmap Z) fpc (active_groups ngroups adj cut) (fun i gf gc => shape_at spec cs reg adj cut i gf gc).

(** MGCMDSA.cc 115-172: apply without the smoother.  [sf] is d_SF->multiply and [lin] the
    solver of the coarse diffusion equation. *)
Definition cmdsa_apply (sf lin : list R -> res (list R)) (Rm Pm : csr) (n : nat) (V : list R) : res (list R) :=
  do s <- sf V;
  do r <- multiply Rm s;
  do e <- lin r;
  do p <- multiply Pm e;
  for_ 0 n V (fun i o => do x <- rd p i; add_at o i x).
(** MGCMDSA.cc 90-97: the operator of the coarse diffusion equation, with the cutoff of
    the fine problem. *)
Definition cmdsa_operator (cm : mesh) (cmat : mtl) (fis adj : bool) (cut : nat) (keff : R) (bc : nat -> option bool) (zero : bool) : loss :=
  {| l_mesh := cm; l_mat := cmat; l_cut := cut; l_fis := fis; l_adj := adj; l_keff := keff; l_sf := 0; l_bc := bc; l_zero := zero |}.
