(** * Iter_Model: the within-group, multigroup and eigenvalue iterations.
    Modelled: src/solvers/wg/WGSolverSI.i.hh, WGTransportOperator.cc,
    WGSolverGMRES.i.hh (build_rhs), src/solvers/mg/MGSolverGS.{cc,i.hh},
    MGTransportOperator.cc, src/solvers/eigen/EigenPI.i.hh,
    EnergyIndependentEigenOperator.cc, on top of the sweep of Sweep_Model, the
    sources of Source_Model and the boundary of Boundary_Model.
    Simplifications: double is R; printing, warnings, preconditioners and the
    current tally are dropped; one flux moment per cell (WGSolver.cc 52: "limited
    to 1 moment"); a shared_ptr'd object changed by several solvers is one record
    passed through; int is Z without overflow. *)
From Verif Require Import Base BaseR Loop Util_Model Angle_Model Boundary_Model Mesh_Model Material_Model
  Source_Model Cell_Model Sweep_Model.
Open Scope nat_scope.

(** ** The sweeper *)

(** WGSolver.cc 100-190 (set_sweep): the equations available per dimension. *)
Inductive eqn := Eq1 (E : scheme1) | Eq2 (E : scheme2) | Eq3.
Definition kernel_of (E : eqn) (G : grid) (ds : list dir) (keep : bool) (src : nat -> nat -> list R) : kernel :=
  match E with
  | Eq1 e => kernel1 e G ds keep src
  | Eq2 e => kernel2 e G ds keep src
  | Eq3 => kernel3 G ds keep src
  end.
(** The parts of a Sweeper fixed after construction; [w_keep] is
    store_angular_flux; the cross sections in [w_grid] are not used. *)
Record sweeper := { w_eq : eqn; w_grid : grid; w_dirs : list dir; w_keep : bool; w_ord : list nat }.

(** Boundary, sweep source (with the state's fluxes), angular fluxes by group,
    octant and angle, and Sweeper::d_number_sweeps. *)
Record tstate := { t_b : bsn; t_x : swp; t_psi : nat -> nat -> nat -> list R; t_sweeps : nat }.
Definition with_b (t : tstate) (b : bsn) : tstate :=
  {| t_b := b; t_x := t_x t; t_psi := t_psi t; t_sweeps := t_sweeps t |}.
Definition with_x (t : tstate) (x : swp) : tstate :=
  {| t_b := t_b t; t_x := x; t_psi := t_psi t; t_sweeps := t_sweeps t |}.
Definition src_flux (x : src) (f : list (list R)) : src :=
  {| cells := cells x; mat := mat x; mmap := mmap x; adj := adj x; flux := f |}.
Definition fis_flux (q : fis) (f : list (list R)) : fis :=
  {| fsrc := src_flux (fsrc q) f; dens := dens q; fsource := fsource q; fscale := fscale q |}.
(** The state's fluxes are shared by the sweep source and the fission source. *)
Definition with_phis (x : swp) (f : list (list R)) : swp :=
  {| ssrc := src_flux (ssrc x) f; ext := ext x; dext := dext x;
     fiss := option_map (fun q => fis_flux q f) (fiss x); implicit := implicit x; fixed := fixed x; scat := scat x |}.
Definition phis (t : tstate) : list (list R) := flux (ssrc (t_x t)).
(** d_state->phi(g) = phi *)
Definition set_phi (t : tstate) (g : nat) (phi : list R) : res tstate :=
  do f <- wr (phis t) g phi; Ok (with_x t (with_phis (t_x t) f)).

(** MomentToDiscrete.i.hh 60-112: the row entry of moment (0, 0); Y_00 is 1
    (SphericalHarmonics.cc 83-84), inv_four_pi is 1 / (4 pi). *)
Definition mtod (dim : nat) : R := if dim =? 1 then (1 / 2)%R else (1 / (4 * PI))%R.
(** sigma_t(mat_map[cell], g), e.g. Equation_DD_1D.i.hh 32 *)
Definition sigmas (x : src) (g : nat) : res (list R) :=
  mapM (fun c => do k <- rd (mmap x) c; if (g <? ng (mat x)) && (k <? nm (mat x)) then Ok (st (mat x) g k) else UB)
    (seq 0 (cells x)).
Definition with_sig (G : grid) (s : list R) : grid :=
  {| g_nx := g_nx G; g_ny := g_ny G; g_nz := g_nz G; g_dx := g_dx G; g_dy := g_dy G; g_dz := g_dz G; g_sig := s |}.
(** Sweeper1D.i.hh 76, Sweeper2D.i.hh 80, Sweeper3D.i.hh 75: the source of one
    angle; an access out of range there makes the kernel read an empty table,
    which is UB. *)
Definition src_table (x : swp) (q : quad) (g : nat) : nat -> nat -> list R := fun o a =>
  match sweep_source x (mtod (q_dim q)) g (Angle_Model.index q o a) (repeat 0%R (cells (ssrc x))) with
  | Ok s => s | _ => [] end.
(** d_sweeper->setup_group(g); d_sweeper->sweep(phi), with d_update_boundary = upd *)
Definition do_sweep (w : sweeper) (upd : bool) (g : nat) (t : tstate) (phi : list R) : res (tstate * list R) :=
  do s <- sigmas (ssrc (t_x t)) g;
  do r <- sweep (kernel_of (w_eq w) (with_sig (w_grid w) s) (w_dirs w) (w_keep w) (src_table (t_x t) (b_q (t_b t)) g))
            upd g (w_ord w) (t_b t, phi, t_psi t g);
  let '(b, phi, psi) := r in
  Ok ({| t_b := b; t_x := t_x t; t_psi := put1 (t_psi t) g psi; t_sweeps := S (t_sweeps t) |}, phi).

(** ** Source iteration *)

(** WGSolverSI.i.hh 47-74: n iterations left; WGSolverSI.cc 25 turns the
    boundary update on.  Returns the iterations done as well. *)
Fixpoint si_loop (w : sweeper) (g : nat) (tol : R) (n : nat) (t : tstate) (phi phi_old : list R) : res (tstate * list R) :=
  match n with
  | O => Ok (t, phi)
  | S n =>
    let (phi, phi_old) := (phi_old, phi) in
    do r <- do_sweep w true g t phi;
    let (t, phi) := r in
    do error <- norm_residual phi_old phi Linf;
    if Rlt_dec error tol then Ok (t, phi) else
    do x <- build_within_group_scatter (t_x t) g phi;
    si_loop w g tol n (with_x t x) phi phi_old
  end.
(** WGSolverSI.i.hh 21-88 *)
Definition si_solve (w : sweeper) (tol : R) (max : nat) (g : nat) (t : tstate) : res tstate :=
  do b <- bsn_set (t_b t) g;
  do x <- build_fixed_with_scatter (t_x t) g;
  do phi <- rd (flux (ssrc x)) g;
  do x <- build_within_group_scatter x g phi;
  do r <- si_loop w g tol max (with_x (with_b t b) x) phi (repeat 0%R (length phi));
  let (t, phi) := r in
  set_phi t g phi.

(** ** Multigroup Gauss-Seidel; [wg g] is d_wg_solver->solve(g). *)

(** MGSolverGS.cc 18-56 *)
Record gs := { gs_lower : Z; gs_lower_up : Z; gs_upper : Z; gs_iterate : bool; gs_norm : nflag; gs_max : nat; gs_tol : R;
  gs_multiply : bool }.
Definition gs_new (m : mtl) (adjoint multiply downscatter : bool) (norm_type : nflag) (max : nat) (tol : R) : gs :=
  let it := (negb downscatter && (0 <? max) && (1 <? ng m)) || multiply in
  let lower := if adjoint then (Z.of_nat (ng m) - 1)%Z else 0%Z in
  {| gs_lower := lower;
     gs_lower_up := if multiply then lower else Z.of_nat (upscatter_cutoff m adjoint);
     gs_upper := if adjoint then (-1)%Z else Z.of_nat (ng m);
     gs_iterate := it; gs_norm := norm_type; gs_max := max; gs_tol := tol; gs_multiply := multiply |}.
Definition gs_groups (lo hi : Z) : list nat := map Z.to_nat (range lo hi false).
(** MGSolverGS.i.hh 43-48, also 97-106 (sweep) *)
Definition gs_pass (wg : nat -> tstate -> res tstate) (gs : list nat) (t : tstate) : res tstate :=
  foldM (fun t g => wg g t) gs t.
(** MGSolverGS.i.hh 57-84: n iterations left *)
Fixpoint gs_loop (wg : nat -> tstate -> res tstate) (p : gs) (ngroups : nat) (n : nat) (t : tstate) : res tstate :=
  match n with
  | O => Ok t
  | S n =>
    let phi_old := phis t in
    do r <- foldM (fun (st : tstate * list R) g =>
               let (t, nres) := st in
               do t <- wg g t;
               do p1 <- rd (phis t) g; do p0 <- rd phi_old g;
               do e <- norm_residual p1 p0 (gs_norm p);
               do nres <- wr nres g e;
               Ok (t, nres)) (gs_groups (gs_lower_up p) (gs_upper p)) (t, repeat 0%R ngroups);
    let (t, nres) := r in
    do tot <- norm nres (gs_norm p);
    if Rlt_dec tot (gs_tol p) then Ok t else gs_loop wg p ngroups n t
  end.
(** MGSolverGS.i.hh 23-94 *)
Definition with_fiss (x : swp) (q : option fis) : swp :=
  {| ssrc := ssrc x; ext := ext x; dext := dext x; fiss := q; implicit := implicit x; fixed := fixed x; scat := scat x |}.
Definition gs_solve (wg : nat -> tstate -> res tstate) (p : gs) (keff : R) (t : tstate) : res tstate :=
  let ngroups := ng (mat (ssrc (t_x t))) in
  do t <- (if gs_multiply p then
             match fiss (t_x t) with
             | Some q => do q <- fis_setup_outer q (1 / keff)%R; Ok (with_x t (with_fiss (t_x t) (Some q)))
             | None => UB
             end
           else Ok t);
  do t <- gs_pass wg (gs_groups (gs_lower p) (gs_upper p)) t;
  if gs_iterate p then gs_loop wg p ngroups (gs_max p) t else Ok t.

(** ** Power iteration; [mg] is d_mg_solver->solve() *)

(** The state of the loop: problem, keff and (set once an iteration ran) error. *)
Definition pi_fission (t : tstate) : res fis := match fiss (t_x t) with Some q => Ok q | None => UB end.
Definition put_fission (t : tstate) (q : fis) : tstate := with_x t (with_fiss (t_x t) (Some q)).
(** EigenPI.i.hh 49-98: n iterations left *)
Fixpoint pi_loop (mg : tstate -> res tstate) (omega tol : R) (n : nat) (t : tstate) (keff : R) (error : option R)
    : res (tstate * R * option R) :=
  match n with
  | O => Ok (t, keff, error)
  | S n =>
    do q <- pi_fission t;
    let fd_old := dens q in
    do q <- fis_setup_outer q (1 / keff)%R;
    do t <- mg (put_fission t q);
    do q <- pi_fission t;
    do q <- fis_update q;
    let t := put_fission t q in
    let fd := if Req_EM_T omega 1 then dens q
              else map (fun p => (omega * fst p + (1 - omega) * snd p)%R) (combine (dens q) fd_old) in
    do n1 <- norm fd L1; do n0 <- norm fd_old L1;
    let keff' := (keff * n1 / n0)%R in
    do e <- norm_residual fd fd_old L1;
    if Rlt_dec e tol then Ok (t, keff', Some e) else pi_loop mg omega tol n t keff' (Some e)
  end.
(** EigenPI.i.hh 21-116; lines 102-114 read [error], uninitialised when no
    iteration was made.  Returns the eigenvalue given to the state. *)
Definition pi_solve (mg : tstate -> res tstate) (omega tol : R) (max : nat) (t : tstate) : res (tstate * R) :=
  do q <- pi_fission t;
  do q <- fis_initialize q;
  do r <- pi_loop mg omega tol max (put_fission t q) 1 None;
  let '(t, keff, error) := r in
  match error with Some _ => Ok (t, keff) | None => UB end.

(** EnergyIndependentEigenOperator.cc 44-61; setup_outer() has scale 1 by
    default (FissionSource.hh 63). *)
Definition eigen_multiply (mg : tstate -> res tstate) (t : tstate) (x : list R) : res (tstate * list R) :=
  do q <- pi_fission t;
  do q <- fis_setup_outer (with_dens q x) 1;
  do t <- mg (put_fission t q);
  do q <- pi_fission t;
  do q <- fis_update q;
  Ok (put_fission t q, dens q).

(** ** Krylov operators *)

(** WGTransportOperator.cc 73-112 *)
Definition has_reflective (b : bsn) : bool := existsb (is_reflective b) (seq 0 (2 * q_dim (b_q b))).
Definition wg_multiply (w : sweeper) (g : nat) (t : tstate) (x : list R) : res (tstate * list R) :=
  let n := cells (ssrc (t_x t)) in
  let phi := firstn n x in
  do b <- bsn_clear (t_b t) g;
  do b <- (if has_reflective b then do r <- psi_set b g (skipn n x) false true; Ok (fst r) else Ok b);
  do s <- sweep_reset (t_x t);
  do s <- build_within_group_scatter s g phi;
  do r <- do_sweep w false g (with_x (with_b t b) s) phi;
  let (t, phi) := r in
  let y := map (fun p => (fst p - snd p)%R) (combine x phi) in
  if has_reflective (t_b t) then
    do b <- bsn_update (t_b t) g;
    do u <- psi_get b g false true;
    Ok (with_b t b, y ++ map (fun p => (fst p - snd p)%R) (combine (skipn n x) u))
  else Ok (t, y).
(** WGSolverGMRES.i.hh 110-171 (build_rhs): the loop over reflective conditions *)
Fixpoint reflect_loop (w : sweeper) (g : nat) (tol : R) (n : nat) (t : tstate) (B B_old : list R) : res (tstate * list R) :=
  match n with
  | O => Ok (t, B)
  | S n =>
    do b <- bsn_update (t_b t) g;
    let (B, B_old) := (B_old, B) in
    do r <- do_sweep w true g (with_b t b) B;
    let (t, B) := r in
    do error <- norm_residual B_old B Linf;
    if Rlt_dec error tol then Ok (t, B) else reflect_loop w g tol n t B B_old
  end.
Definition build_rhs (w : sweeper) (tol : R) (g : nat) (t : tstate) : res (tstate * list R) :=
  let B := repeat 0%R (cells (ssrc (t_x t))) in
  do b <- bsn_clear (t_b t) g;
  do b <- bsn_set b g;
  do x <- sweep_reset (t_x t);
  do x <- build_fixed_with_scatter x g;
  let t := with_x (with_b t b) x in
  if has_reflective b then reflect_loop w g tol 1000 t B (repeat 0%R (length B))
  else do_sweep w false g t B.
