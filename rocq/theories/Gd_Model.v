(** * Gd_Model: the operators of the generalised eigenproblem for all groups.
    Modelled: src/solvers/mg/MGScatterFissionOperator.cc (fission only),
    src/solvers/mg/MGSweepOperator.cc and
    src/solvers/eigen/EnergyDependentEigenLHS.cc, as src/solvers/eigen/EigenGD.cc
    puts them together: it looks for F x = k A x with F the operator below and A
    the operator of the multigroup Krylov solver ([mg_multiply] in Mgk_Model).
    Simplifications as in Iter_Model.  The eigensolver itself is in
    Davidson_Model. *)
From Verif Require Import Base BaseR Loop Util_Model Angle_Model Boundary_Model Mesh_Model Material_Model
  Source_Model Cell_Model Sweep_Model Iter_Model Mgk_Model.
Open Scope nat_scope.

(** EnergyDependentEigenLHS.cc 36, 45: the cutoff both operators are made with *)
Definition gd_cutoff : nat := 0.
(** MGScatterFissionOperator.cc 45-51: the groups *)
Definition gd_groups (t : tstate) : list nat := mg_groups (ng (mat (ssrc (t_x t)))) (adj (ssrc (t_x t))) gd_cutoff.
(** MGScatterFissionOperator.cc 67-73: the fluxes of the block, zero elsewhere.
    [V] is a view of the first entries of another vector made without its size
    (EnergyDependentEigenLHS.cc 73): reading behind its end is undefined. *)
Definition gd_fluxes (t : tstate) (V : list R) : res (list (list R)) :=
  let n := cells (ssrc (t_x t)) in
  foldM (fun phi g => do f <- seg V ((g - gd_cutoff) * n) n; wr phi g f) (gd_groups t) (repeat (repeat 0%R n) (ng (mat (ssrc (t_x t))))).
(** MGScatterFissionOperator.cc 60-89 with FISSIONONLY; [out] is V_out *)
Definition gd_fission (t : tstate) (V out : list R) : res (list R) :=
  let n := cells (ssrc (t_x t)) in
  do phi <- gd_fluxes t V;
  foldM (fun out g =>
    match fiss (t_x t) with
    | Some q => do s <- fis_total q g phi (repeat 0%R n); put_seg out ((g - gd_cutoff) * n) s
    | None => UB
    end) (gd_groups t) out.
(** MGSweepOperator.cc 89-142: one group.  Lines 110-113 replace the first entries
    of the fixed source, which is the same as writing all entries the sweep reads;
    the sweep starts by clearing the flux it is given (lines 116-120), so what is
    copied there does not matter as long as it has the size of the mesh. *)
Definition gd_group (w : sweeper) (bsize : nat) (x : list R) (ty : tstate * list R) (g : nat) : res (tstate * list R) :=
  let (t, y) := ty in
  let n := cells (ssrc (t_x t)) in let ad := adj (ssrc (t_x t)) in
  let i := mg_slot ad gd_cutoff g in
  let b_offset := length (gd_groups t) * n + i * bsize in
  do b <- bsn_clear (t_b t) g;
  do b <- (if has_reflective b then do v <- seg x b_offset bsize; do r <- psi_set b g v false true; Ok (fst r) else Ok b);
  do s <- sweep_reset (t_x t);
  do xg <- seg x (i * n) n;
  do f <- put_seg (fixed s) 0 xg;
  do r <- do_sweep w false g (with_x (with_b t b) (with_fixed s f)) xg;
  let (t, phi_g) := r in
  do y <- put_seg y (i * n) phi_g;
  if has_reflective (t_b t) then
    do b <- bsn_update (t_b t) g;
    do u <- psi_get b g false true;
    do y <- put_seg y b_offset u;
    Ok (with_b t b, y)
  else Ok (t, y).
Definition gd_sweep (w : sweeper) (bsize : nat) (t : tstate) (x y : list R) : res (tstate * list R) :=
  foldM (gd_group w bsize x) (gd_groups t) (t, y).
(** EnergyDependentEigenLHS.cc 66-79 *)
Definition gd_lhs (w : sweeper) (bsize : nat) (t : tstate) (x y : list R) : res (tstate * list R) :=
  do z <- gd_fission t x (repeat 0%R (length x));
  gd_sweep w bsize t z y.
