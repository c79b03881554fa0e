(** * Mgk_Model: the multigroup Krylov system.
    Modelled: src/solvers/mg/MGTransportOperator.cc (multiply),
    src/solvers/mg/MGSolverGMRES.{cc,i.hh} (group block, build_rhs, group_sweep,
    solve_wg_reflection and the copy of the solution into the state).
    Simplifications as in Iter_Model; the callow solver in between is not part of
    this model, nor are preconditioners and the optional update of the angular
    fluxes afterwards. *)
From Verif Require Import Base BaseR Loop Util_Model Angle_Model Boundary_Model Mesh_Model Material_Model
  Source_Model Cell_Model Sweep_Model Iter_Model.
Open Scope nat_scope.

(** MGTransportOperator.cc 60-69, MGSolverGMRES.cc 65-72 *)
Definition mg_upper (ngroups : nat) (adjoint : bool) : Z := if adjoint then (-1)%Z else Z.of_nat ngroups.
Definition mg_groups (ngroups : nat) (adjoint : bool) (cutoff : nat) : list nat :=
  gs_groups (Z.of_nat cutoff) (mg_upper ngroups adjoint).
Definition mg_active (ngroups : nat) (adjoint : bool) (cutoff : nat) : nat :=
  Z.to_nat (Z.abs (mg_upper ngroups adjoint - Z.of_nat cutoff)).
(** MGTransportOperator.cc 108, 120; MGSolverGMRES.i.hh 90, 157 *)
Definition mg_slot (adjoint : bool) (cutoff g : nat) : nat := if adjoint then g else g - cutoff.
(** MGTransportOperator.cc 44-53, MGSolverGMRES.cc 73-84: unknowns per group on
    the boundary; [half s] is half the number of boundary fluxes of side s *)
Definition mg_bsize (half : nat -> nat) (b : bsn) : nat :=
  list_sum (map (fun s => if is_reflective b s then half s else 0) (seq 0 (2 * q_dim (b_q b)))).
(** Reading and writing n consecutive entries of a Vector. *)
Definition seg (x : list R) (off n : nat) : res (list R) := if off + n <=? length x then Ok (firstn n (skipn off x)) else UB.
Definition put_seg (y : list R) (off : nat) (l : list R) : res (list R) :=
  if off + length l <=? length y then Ok (firstn off y ++ l ++ skipn (off + length l) y) else UB.
(** set_discrete_external_source_flag(false), SweepSource.i.hh 151: the
    directional sources are not added while the flag is off. *)
Definition quiet (x : swp) : swp :=
  {| ssrc := ssrc x; ext := ext x; dext := []; fiss := fiss x; implicit := implicit x; fixed := fixed x; scat := scat x |}.

(** MGTransportOperator.cc 102-113 *)
Definition mg_fluxes (t : tstate) (cutoff : nat) (x : list R) : res (list (list R)) :=
  let n := cells (ssrc (t_x t)) in let ad := adj (ssrc (t_x t)) in
  foldM (fun phi g => do f <- seg x (mg_slot ad cutoff g * n) n; wr phi g f)
    (mg_groups (ng (mat (ssrc (t_x t)))) ad cutoff) (phis t).
(** MGTransportOperator.cc 116-167: one group; [bsize] is d_boundary_size *)
Definition mg_group (w : sweeper) (bsize cutoff : nat) (phi : list (list R)) (x : list R) (ty : tstate * list R) (g : nat)
    : res (tstate * list R) :=
  let (t, y) := ty in
  let n := cells (ssrc (t_x t)) in let ad := adj (ssrc (t_x t)) in
  let na := mg_active (ng (mat (ssrc (t_x t)))) ad cutoff in
  let m_offset := mg_slot ad cutoff g * n in
  let b_offset := na * n + mg_slot ad cutoff g * bsize in
  do b <- bsn_clear (t_b t) g;
  do b <- (if has_reflective b then do v <- seg x b_offset bsize; do r <- psi_set b g v false true; Ok (fst r) else Ok b);
  do s <- sweep_reset (t_x t);
  do s <- build_total_scatter s g cutoff phi;
  do phi_g <- rd phi g;
  do r <- do_sweep w false g (with_x (with_b t b) (quiet s)) phi_g;
  let (t, phi_g) := r in
  let t := with_x t s in
  do xg <- seg x m_offset n;
  do y <- put_seg y m_offset (map (fun p => (fst p - snd p)%R) (combine xg phi_g));
  if has_reflective (t_b t) then
    do b <- bsn_update (t_b t) g;
    do u <- psi_get b g false true;
    do xb <- seg x b_offset bsize;
    do y <- put_seg y b_offset (map (fun p => (fst p - snd p)%R) (combine xb u));
    Ok (with_b t b, y)
  else Ok (t, y).
(** MGTransportOperator.cc 93-170; [y] is the vector written to *)
Definition mg_multiply (w : sweeper) (bsize cutoff : nat) (t : tstate) (x y : list R) : res (tstate * list R) :=
  do phi <- mg_fluxes t cutoff x;
  foldM (mg_group w bsize cutoff phi x) (mg_groups (ng (mat (ssrc (t_x t)))) (adj (ssrc (t_x t))) cutoff) (t, y).

(** MGSolverGMRES.i.hh 148-180 (group_sweep): one group; lines 185-219 are
    [reflect_loop] with 2000 iterations *)
Definition rhs_group (w : sweeper) (tol : R) (cutoff : nat) (tB : tstate * list (list R)) (g : nat) : res (tstate * list (list R)) :=
  let (t, B) := tB in
  let i := mg_slot (adj (ssrc (t_x t))) cutoff g in
  do b <- bsn_clear (t_b t) g;
  do b <- bsn_set b g;
  do s <- sweep_reset (t_x t);
  do s <- build_fixed_with_downscatter s g cutoff;
  let t := with_x (with_b t b) s in
  do f <- rd B i;
  do r <- (if has_reflective b then reflect_loop w g tol 2000 t f (repeat 0%R (length f)) else do_sweep w false g t f);
  let (t, f) := r in
  do B <- wr B i f;
  Ok (t, B).
(** MGSolverGMRES.i.hh 66-69, 131-144: the part of the vector for boundary fluxes stays zero *)
Definition mg_rhs (w : sweeper) (tol : R) (bsize cutoff : nat) (t : tstate) : res (tstate * list R) :=
  let n := cells (ssrc (t_x t)) in
  let na := mg_active (ng (mat (ssrc (t_x t)))) (adj (ssrc (t_x t))) cutoff in
  do r <- foldM (rhs_group w tol cutoff) (mg_groups (ng (mat (ssrc (t_x t)))) (adj (ssrc (t_x t))) cutoff)
            (t, repeat (repeat 0%R n) na);
  let (t, B) := r in
  Ok (t, concat B ++ repeat 0%R (na * bsize)).
(** MGSolverGMRES.i.hh 84-96: the solution copied into the state *)
Definition mg_copy (cutoff : nat) (t : tstate) (x : list R) : res tstate :=
  do phi <- mg_fluxes t cutoff x; Ok (with_x t (with_phis (t_x t) phi)).
