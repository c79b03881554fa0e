(** * Spc_Model: the spectra the multigroup coarse mesh preconditioners are
    condensed with, and building such a preconditioner again.
    Source: /repo/src/solvers/mg/SpectrumBase.hh, SpectrumGS.cc, SpectrumFS.cc and
    MGCoarseMeshPreconditioner.cc 91-227 (build), called by MGSolverGMRES.i.hh 33-34 in
    every solve.
    Simplifications: double is R; the values looked up in the input are arguments; the
    cross sections are functions, m before g, and every index is in range; dense matrices
    and vectors are functions of their indices; the eigenvalue solver (Eispack, C112) and
    the linear solver (GMRES, C80) are parameters.  Not modelled: printing; the eigenvalue
    problems of SpectrumPinCell, of whose table only the size is used here. *)
From Verif Require Import Base BaseR Loop Mesh_Model Matrix_Model Cmfd_Model Cpc_Model.
Open Scope nat_scope.

(** Material.hh: the cross sections, with group g <- gp for scattering *)
Record medium := { d_ng : nat; d_nm : nat; d_t : nat -> nat -> R; d_s : nat -> nat -> nat -> R;
                   d_f : nat -> nat -> R; d_nuf : nat -> nat -> R; d_chi : nat -> nat -> R }.

Definition dense := nat -> nat -> R.
Definition put (M : dense) (i j : nat) (v : R) : dense := fun a b => if (a =? i) && (b =? j) then v else M a b.
Definition plus_at (M : dense) (i j : nat) (v : R) : dense := put M i j (M i j + v)%R.

(** SpectrumGS.cc 49-69: the matrices of one material, written over the last ones *)
Definition gs_row (c : medium) (fis : bool) (m g : nat) (UL : dense * dense) : dense * dense :=
  let U := fold_left (fun U gp =>
    let U := put U g gp (d_s c m g gp) in
    if fis then plus_at U g gp (d_chi c m g * d_f c m gp)%R else U) (seq (g + 1) (d_ng c - (g + 1))) (fst UL) in
  let L := put (snd UL) g g (d_t c m g) in
  let L := fold_left (fun L gp =>
    let L := plus_at L g gp (- d_s c m g gp)%R in
    if fis then plus_at L g gp (- (d_chi c m g * d_f c m gp))%R else L) (seq 0 (g + 1)) L in
  (U, L).
Definition gs_matrices (c : medium) (fis : bool) (m : nat) (UL : dense * dense) : dense * dense :=
  fold_left (fun UL g => gs_row c fis m g UL) (seq 0 (d_ng c)) UL.

(** The table of the spectra, by group and material. *)
Definition columns := nat -> nat -> R.
Definition set_column (xi : columns) (m : nat) (x : nat -> R) : columns := fun g r => if r =? m then x g else xi g r.
Definition zero2 : nat -> nat -> R := fun _ _ => 0%R.

(** SpectrumGS.cc 25-77: spectrum.  The loop over the materials (47) ends at 1. *)
Definition gs_spectrum (eig : dense -> dense -> nat -> R) (c : medium) (fis : bool) (keff : R) : columns :=
  snd (fold_left (fun s m =>
    let UL := gs_matrices c fis m (fst s) in
    (UL, set_column (snd s) m (eig (fst UL) (snd UL)))) (seq 0 1) ((zero2, zero2), zero2)).

(** SpectrumFS.cc 53-69: the matrix of one material *)
Definition fs_matrix (c : medium) (fis : bool) (keff : R) (m : nat) (A : dense) : dense :=
  fold_left (fun A g => fold_left (fun A gp =>
    let A := put A g gp (- d_s c m g gp)%R in
    let A := if fis then plus_at A g gp (- (d_chi c m g * d_f c m gp / keff))%R else A in
    if g =? gp then plus_at A g gp (d_t c m g) else A) (seq 0 (d_ng c)) A) (seq 0 (d_ng c)) A.
(** callow Vector.i.hh 72-: norm(L2), scale *)
Definition norm2 (n : nat) (x : nat -> R) : R := sqrt (rsum n (fun g => x g * x g))%R.
Definition unit_of (n : nat) (x : nat -> R) : nat -> R := fun g => (1 / norm2 n x * x g)%R.
(** SpectrumFS.cc 24-82: spectrum; [src] is mgpc_spectrum_fixed_source.  The starting
    vector of each solve is the last spectrum. *)
Definition fs_spectrum (lin : dense -> (nat -> R) -> (nat -> R) -> nat -> R) (c : medium) (fis : bool) (src : option (nat -> R)) (keff : R) : res columns :=
  match src with
  | None => Err
  | Some b =>
      Ok (snd (fold_left (fun s m =>
        let A := fs_matrix c fis keff m (fst (fst s)) in
        let x := unit_of (d_ng c) (lin A b (snd (fst s))) in
        ((A, x), set_column (snd s) m x)) (seq 0 (d_nm c)) ((zero2, fun _ => 0%R), zero2)))
  end.

(** MGCoarseMeshPreconditioner.cc 154-167: the spectrum in build(keff): the default of
    spectrum(), one, is used for the eigenvalue. *)
Definition build_gs (eig : dense -> dense -> nat -> R) (c : medium) (fis : bool) (keff : R) : columns := gs_spectrum eig c fis 1%R.
Definition build_fs (lin : dense -> (nat -> R) -> (nat -> R) -> nat -> R) (c : medium) (fis : bool) (src : option (nat -> R)) (keff : R) : res columns :=
  fs_spectrum lin c fis src 1%R.
Definition table_of (c : medium) (xi : columns) : list (list R) := map (fun g => map (xi g) (seq 0 (d_nm c))) (seq 0 (d_ng c)).

(** 181-193: the spectrum of the coarse groups, when d_coarse_spectrum already has the
    rows [cs0]: resize leaves them alone. *)
Definition coarse_from (cs0 : list (list R)) (spec : list (list R)) (fpc : list nat) (cut : nat) : res (list (list R)) :=
  do s0 <- rd spec 0;
  for_ 0 (length s0) cs0 (fun r S =>
    do x <- for_ 0 (length fpc) (S, cut) (fun gc s =>
      do k <- rd fpc gc;
      for_ 0 k s (fun _ s =>
        do a <- rd2 spec (snd s) r;
        do row <- rd (fst s) gc;
        do row <- Cmfd_Model.add_at row r a;
        do S <- wr (fst s) gc row;
        Ok (S, Datatypes.S (snd s))));
    Ok (fst x)).
(** d_coarse_spectrum after [n] calls of build *)
Fixpoint coarse_after (n : nat) (spec : list (list R)) (fpc : list nat) (cut nreg : nat) : res (list (list R)) :=
  match n with
  | 0 => Ok (repeat (repeat 0%R nreg) (length fpc))
  | S n => do cs <- coarse_after n spec fpc cut nreg; coarse_from cs spec fpc cut
  end.
(** The prolongation after [n] calls of build. *)
Definition cpc_rebuild (n : nat) (srt : list triplet -> list triplet) (m : mesh) (ngroups : nat) (adj : bool) (cut : nat) (fpc : list nat)
    (spec : list (list R)) (nreg : nat) (reg : list nat) (Z : cpc) : res csr :=
  do cs <- coarse_after n spec fpc cut nreg;
  build_prolong srt m (z_cm Z) (z_cmap Z) (z_gmap Z) fpc (active_groups ngroups adj cut) (fun i gf gc => shape_at spec cs reg adj cut i gf gc).
