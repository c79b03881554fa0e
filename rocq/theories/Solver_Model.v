(** * Model of the callow linear solvers and preconditioners
    Source: /repo/src/callow/solver/LinearSolver.cc, Jacobi.i.hh,
    GaussSeidel.i.hh, Richardson.i.hh and
    /repo/src/callow/preconditioner/PCJacobi.{cc,i.hh}, PCILU0.{cc,i.hh},
    PCILUT.cc (apply only).
    Simplifications: [double] is [R]; iteration counts are [nat]; printing is
    not modelled; the explicit matrix is the CSR model of Matrix_Model; the
    pointer swap of two buffers is the exchange of two list variables. *)
From Verif Require Import Base BaseR Loop Matrix_Model Vector_Model.
Open Scope R_scope.

(** ** Status and monitors *)

(** CallowDefinitions.hh 20-23 *)
Inductive status := RUNNING | SUCCESS | MAXIT | DIVERGE.

(** d_absolute_tolerance, d_relative_tolerance, d_maximum_iterations,
    d_monitor_diverge, d_norm_type *)
Record params := { p_atol : R; p_rtol : R; p_maxit : nat; p_diverge : bool; p_norm : norm_type }.
(** d_status, d_number_iterations, d_residual *)
Record mon := { m_status : status; m_iters : nat; m_res : list R }.

Definition ltb (a b : R) : bool := if Rlt_dec a b then true else false.

(** LinearSolver.cc 115-131 *)
Definition monitor_init (p : params) (r : R) (m : mon) : res (bool * mon) :=
  do h <- wr (m_res m) 0 r;
  if ltb r (p_atol p) then Ok (true, {| m_status := SUCCESS; m_iters := m_iters m; m_res := h |})
  else Ok (false, {| m_status := m_status m; m_iters := m_iters m; m_res := h |}).

(** LinearSolver.cc 134-170; the test it == d_maximum_iterations - 1 is written
    without subtraction. *)
Definition monitor (p : params) (it : nat) (r : R) (m : mon) : res (bool * mon) :=
  do h <- wr (m_res m) it r;
  do r0 <- rd h 0;
  let out b s := Ok (b, {| m_status := s; m_iters := it; m_res := h |}) in
  if ltb r (Rmax (p_rtol p * r0) (p_atol p)) then out true SUCCESS
  else
    do grow <- (if (p_diverge p && (1 <? it)%nat)%bool then do q <- rd h (it - 1); Ok (ltb 0 (r - q)) else Ok false);
    if grow then out true DIVERGE
    else if (S it =? p_maxit p)%nat then out true MAXIT
    else out false RUNNING.

(** std::vector::resize with value 0. *)
Definition resize (l : list R) (n : nat) : list R := firstn n l ++ repeat 0 (n - length l).

(** LinearSolver.cc 95-111; [impl] is solve_impl, [prev] the monitor data left by
    an earlier call. *)
Definition solve {X} (p : params) (impl : mon -> res (X * mon)) (prev : mon) : res (X * mon) :=
  do (x, m) <- impl {| m_status := RUNNING; m_iters := m_iters prev; m_res := resize (m_res prev) (p_maxit p + 1) |};
  Ok (x, {| m_status := m_status m; m_iters := m_iters m; m_res := resize (m_res m) (m_iters m + 1) |}).

(** The loops "for (iteration = 1; iteration <= d_maximum_iterations;
    ++iteration) { body; if (monitor(iteration, r)) break; }" shared by the
    stationary solvers: Jacobi.i.hh 50-105, GaussSeidel.i.hh 46-110,
    Richardson.i.hh 52-99. The Boolean tells whether the loop ended by break. *)
Fixpoint iterate {X} (p : params) (body : X -> res (X * R)) (fuel it : nat) (x : X) (m : mon) : res (bool * X * mon) :=
  match fuel with
  | O => Ok (false, x, m)
  | S f =>
      do (x', r) <- body x;
      do (b, m') <- monitor p it r m;
      if b then Ok (true, x', m') else iterate p body f (S it) x' m'
  end.

(** ** Stationary iterations *)

(** Sum over stored positions [a, b): v += a[p] * x[column(p)]. *)
Definition csr_sum (C : csr) (x : list R) (a b : nat) (v : R) : res R :=
  for_ a b v (fun p v => do j <- rd (c_cols C) p; do w <- rd (c_vals C) p; do xj <- rdz x j; Ok (v + w * xj)).
(** diagonal(i): uninitialised if the row has no diagonal entry. *)
Definition csr_diag_at (C : csr) (i : nat) : res nat :=
  do o <- rd (c_diag C) i; match o with Some d => Ok d | None => UB end.
Definition csr_n (C : csr) : nat := length (c_rows C) - 1.

(** Jacobi.i.hh 59-73 *)
Definition jacobi_row (C : csr) (omega : R) (b x0 : list R) (i : nat) : res R :=
  do s <- rd (c_rows C) i; do e <- rd (c_rows C) (S i); do d <- csr_diag_at C i;
  do v <- csr_sum C x0 s d 0;
  do v <- csr_sum C x0 (S d) e v;
  do bi <- rd b i; do ad <- rd (c_vals C) d; do xi <- rd x0 i;
  Ok (omega * (bi - v) / ad + (1 - omega) * xi).
Definition jacobi_step (C : csr) (omega : R) (b x0 : list R) : res (list R) :=
  mapM (jacobi_row C omega b x0) (seq 0 (csr_n C)).

(** Jacobi.i.hh 42-105: one pass; the residual is that of the new iterate, or
    the difference of iterates. *)
Definition jacobi_body (p : params) (succ : bool) (C : csr) (omega : R) (b : list R) (x0 : list R) : res (list R * R) :=
  do x1 <- jacobi_step C omega b x0;
  do r <- (if succ then norm_residual (p_norm p) x1 x0
           else do y <- multiply C x1; norm_residual (p_norm p) y b);
  Ok (x1, r).
(** Jacobi.i.hh 26-110.  d_number_iterations is the loop variable itself (line
    39), so it is maxit+1 if the loop runs out. *)
Definition jacobi_impl (p : params) (succ : bool) (C : csr) (omega : R) (b x : list R) (m : mon) : res (list R * mon) :=
  do y <- multiply C x;
  do r <- norm_residual L2 y b;
  do (_, m) <- monitor_init p r m;
  do (brk, x', m') <- iterate p (jacobi_body p succ C omega b) (p_maxit p) 1 x m;
  Ok (x', if brk : bool then m' else {| m_status := m_status m'; m_iters := S (p_maxit p); m_res := m_res m' |}).
Definition jacobi (p : params) (succ : bool) (C : csr) (omega : R) (b x : list R) :=
  solve p (jacobi_impl p succ C omega b x).

(** GaussSeidel.i.hh 54-67: x1 is overwritten row by row. *)
Definition gs_row (C : csr) (b x0 : list R) (i : nat) (x1 : list R) : res (list R) :=
  do s <- rd (c_rows C) i; do e <- rd (c_rows C) (S i); do d <- csr_diag_at C i;
  do v <- csr_sum C x1 s d 0;
  do v <- csr_sum C x0 (S d) e v;
  do bi <- rd b i; do ad <- rd (c_vals C) d;
  wr x1 i ((bi - v) / ad).
Definition gs_sweep (C : csr) (b x0 x1 : list R) : res (list R) := for_ 0 (csr_n C) x1 (gs_row C b x0).
(** GaussSeidel.i.hh 74-79 *)
Definition gs_step (C : csr) (omega : R) (b x0 x1 : list R) : res (list R) :=
  do x1 <- gs_sweep C b x0 x1;
  if Req_EM_T omega 1 then Ok x1 else vaxpy (vscale x1 omega) (1 - omega) x0.
(** GaussSeidel.i.hh 85-102: state (x0, x1). *)
Definition gs_body (p : params) (succ : bool) (C : csr) (omega : R) (b : list R) (s : list R * list R)
  : res (list R * list R * R) :=
  let '(x0, x1) := s in
  do x1 <- gs_step C omega b x0 x1;
  do r <- (if succ then norm_residual (p_norm p) x1 x0
           else do y <- multiply C x1; norm_residual (p_norm p) y b);
  Ok (x1, x0, r).
(** GaussSeidel.i.hh 24-115 *)
Definition gs_impl (p : params) (succ : bool) (C : csr) (omega : R) (b x : list R) (m : mon) : res (list R * mon) :=
  do y <- multiply C x;
  do r <- norm_residual L2 y b;
  do (_, m) <- monitor_init p r m;
  do (_, s, m') <- iterate p (gs_body p succ C omega b) (p_maxit p) 1 (x, y) m;
  Ok (fst s, m').
Definition gauss_seidel (p : params) (succ : bool) (C : csr) (omega : R) (b x : list R) :=
  solve p (gs_impl p succ C omega b x).

(** Richardson.i.hh: [mul] is the operator, [pc] the left preconditioner if there
    is one and the side is LEFT. *)
Definition rich_rhs (pc : option (list R -> res (list R))) (omega : R) (b : list R) : res (list R) :=
  match pc with Some ap => ap b | None => Ok (vscale b omega) end.
(** Richardson.i.hh 60-78 *)
Definition rich_step (mul : list R -> res (list R)) (pc : option (list R -> res (list R))) (omega : R) (B x0 : list R)
  : res (list R) :=
  do x1 <- mul x0;
  do x1 <- (match pc with Some ap => ap x1 | None => Ok (vscale x1 omega) end);
  do x1 <- vsub x1 x0;
  do x1 <- vsub x1 B;
  Ok (vscale x1 (-1)).
Definition rich_body (p : params) mul pc (omega : R) (B x0 : list R) : res (list R * R) :=
  do x1 <- rich_step mul pc omega B x0;
  do r <- norm_residual (p_norm p) x1 x0;
  Ok (x1, r).
(** Richardson.i.hh 23-105 *)
Definition rich_impl (p : params) mul pc (omega : R) (b x : list R) (m : mon) : res (list R * mon) :=
  do B <- rich_rhs pc omega b;
  do y <- mul x;
  do r <- norm_residual L2 (vscale y omega) B;
  do (done, m) <- monitor_init p r m;
  if done : bool then Ok (x, m)
  else
    do (_, x', m') <- iterate p (rich_body p mul pc omega B) (p_maxit p) 1 x m;
    Ok (x', m').
Definition richardson (p : params) mul pc (omega : R) (b x : list R) := solve p (rich_impl p mul pc omega b x).

(** ** Preconditioners *)

(** PCJacobi.cc 31-39 *)
Definition pcjacobi_new (C : csr) : res (list R) :=
  mapM (fun i => do d <- csr_diag_at C i; do a <- rd (c_vals C) d;
                 Ok (if Req_EM_T a 0 then 1 else 1 / a)) (seq 0 (csr_n C)).
(** PCJacobi.i.hh 15-22 *)
Definition pcjacobi_apply (P b x : list R) : res (list R) := do x <- vcopy x b; vmul x P.

(** PCILU0.cc 60-61 and 87-88: set iw on the stored columns before the diagonal. *)
Definition mark (C : csr) (s d : nat) (val : nat -> Z) (iw : list Z) : res (list Z) :=
  for_ s d iw (fun p iw => do k <- rd (c_cols C) p; if (k <? 0)%Z then UB else wr iw (Z.to_nat k) (val p)).
(** PCILU0.cc 64-79 *)
Definition ilu_row (C : csr) (s d : nat) (iw : list Z) (lu : list R) : res (list R) :=
  for_ s d lu (fun p lu =>
    do kz <- rd (c_cols C) p; if (kz <? 0)%Z then UB else
    let k := Z.to_nat kz in
    do dk <- csr_diag_at C k;
    do a <- rd lu p; do akk <- rd lu dk;
    let val := a / akk in
    do lu <- wr lu p val;
    do e <- rd (c_rows C) (S k);
    for_ (S dk) e lu (fun q lu =>
      do j <- rd (c_cols C) q; if (j <? 0)%Z then UB else
      do pp <- rd iw (Z.to_nat j);
      if (pp =? -1)%Z then Ok lu
      else do u <- rd lu q; do t <- rd lu (Z.to_nat pp); wr lu (Z.to_nat pp) (t - val * u))).
(** PCILU0.cc 15-96: the factored values; a zero pivot throws. *)
Definition ilu0 (C : csr) : res csr :=
  let n := csr_n C in
  do (lu, _) <- for_ 1 n (c_vals C, repeat (-1)%Z n) (fun i st =>
    let '(lu, iw) := st in
    do s <- rd (c_rows C) i; do d <- csr_diag_at C i;
    do iw <- mark C s d Z.of_nat iw;
    do lu <- ilu_row C s d iw lu;
    do u <- rd lu d;
    if Req_EM_T u 0 then Err
    else do iw <- mark C s d (fun _ => (-1)%Z) iw; Ok (lu, iw));
  Ok {| c_rows := c_rows C; c_cols := c_cols C; c_vals := lu; c_diag := c_diag C |}.

(** Sum subtracted from a start value: x[i] -= a[p] * x[c] over [a, b). *)
Definition csr_take (C : csr) (x : list R) (a b : nat) (i : nat) : res (list R) :=
  for_ a b x (fun p x => do j <- rd (c_cols C) p; do w <- rd (c_vals C) p; do xj <- rdz x j; do xi <- rd x i;
                         wr x i (xi - w * xj)).
(** PCILU0.i.hh 28-42, PCILUT.cc 170-184 *)
Definition forward (C : csr) (b y : list R) : res (list R) :=
  for_ 0 (csr_n C) y (fun i y =>
    do s <- rd (c_rows C) i; do d <- csr_diag_at C i; do bi <- rd b i; do y <- wr y i bi; csr_take C y s d i).
(** PCILU0.i.hh 47-62 ([incl] = true: the loop starts at the diagonal),
    PCILUT.cc 189-204 ([incl] = false: it starts after it). *)
Definition backward (incl : bool) (C : csr) (y x : list R) : res (list R) :=
  for_ 0 (csr_n C) x (fun k x =>
    let i := (csr_n C - 1 - k)%nat in
    do d <- csr_diag_at C i; do e <- rd (c_rows C) (S i);
    do yi <- rd y i; do x <- wr x i yi;
    do x <- csr_take C x (if incl then d else S d) e i;
    do ad <- rd (c_vals C) d; do xi <- rd x i; wr x i (xi / ad)).
(** PCILU0.i.hh 19-64; y is a member, its old contents are overwritten. *)
Definition ilu0_apply (P : csr) (b x y : list R) : res (list R) := do y <- forward P b y; backward true P y x.
(** PCILUT.cc 159-205 *)
Definition ilut_apply (P : csr) (b x : list R) : res (list R) :=
  do y <- forward P b (repeat 0 (length b)); backward false P y x.

(** LinearSolver.cc 41-80: the preconditioner is created, but the side requested
    in the database stays in a local variable. *)
Inductive pcside := NONE | LEFT | RIGHT.
Record lsolver (P : Type) := { ls_pc : option P; ls_side : pcside }.
Arguments ls_pc {P}. Arguments ls_side {P}.
Definition ls_new (P : Type) : lsolver P := {| ls_pc := None; ls_side := NONE |}.
Definition set_operators {P} (req : option P) (side : pcside) (s : lsolver P) : lsolver P :=
  {| ls_pc := match req with Some q => Some q | None => ls_pc s end; ls_side := ls_side s |}.
(** LinearSolver.hh 123-127 *)
Definition set_preconditioner {P} (q : P) (side : pcside) (s : lsolver P) : lsolver P :=
  {| ls_pc := Some q; ls_side := side |}.
(** What solve_impl applies on the left (Richardson.i.hh 28, GMRES.cc 93). *)
Definition left_pc {P} (s : lsolver P) : option P :=
  match ls_pc s, ls_side s with Some q, LEFT => Some q | _, _ => None end.
