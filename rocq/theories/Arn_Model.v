(** * Model of EigenArnoldi
    Sources: /repo/src/solvers/eigen/EigenArnoldi.i.hh, EigenArnoldi.cc, and
    /repo/src/callow/solver/PowerIteration.i.hh (the eigensolver
    EigenSolverCreator.cc 34 makes by default).
    Simplifications: [double] is [R]; the multigroup solver is a function on the
    state; the callow eigensolver is a function of the state the operator's
    multiplications change, the vector for the result and the initial guess, and
    returns the state, the eigenvector and the eigenvalue; number_rows() is the
    number of cells; printing is not modelled; dividing by a norm that is zero
    gives no numbers, modelled as [Err]. *)
From Verif Require Import Base BaseR Vector_Model Cpow_Model Source_Model Sweep_Model Iter_Model.
Open Scope R_scope.

Definition eigen_solver := tstate -> list R -> list R -> res (tstate * list R * R).

(** EigenArnoldi.i.hh 24-54: the state and the eigenvalue given to it; d_x holds
    [dx] before the call.  setup_outer() has scale 1 (FissionSource.hh 63). *)
Definition arn_solve (mg : tstate -> res tstate) (es : eigen_solver) (dx : list R) (t : tstate) : res (tstate * R) :=
  do q <- pi_fission t;
  do q <- fis_initialize q;
  let n := Vector_Model.norm L2 (dens q) in
  if Req_EM_T n 0 then Err else
  let x0 := vscale (dens q) (1 / n) in
  do r <- es (put_fission t q) dx x0;
  let '(t, x, k) := r in
  do q <- pi_fission t;
  do q <- fis_setup_outer (with_dens q x) 1;
  do t <- mg (put_fission t q);
  Ok (t, k).

(** ** The default eigensolver *)

(** PowerIteration.i.hh 42-75 with monitor (EigenSolver.cc 77-106), as [piter] of
    Cpow_Model without B; the operator changes the state. *)
Section Power.
Variables (mul : tstate -> list R -> res (tstate * list R)) (s : psolver).
Fixpoint spiter (fuel i : nat) (t : tstate) (x x0 : list R) (lambda : R) (it : nat) (hist : list R) : res (tstate * presult) :=
  match fuel with
  | O => Ok (t, {| pr_x := x; pr_x0 := x0; pr_lambda := lambda; pr_status := MAXIT; pr_it := it; pr_hist := hist |})
  | S fuel =>
    let lambda_0 := lambda in
    do tx <- mul t x0;
    let (t, x) := tx in
    let lambda := Vector_Model.norm L1 x in
    do r <- vadd (vscale x0 (- lambda_0)) x;
    let x_err := Vector_Model.norm L1 r in
    if Req_EM_T lambda 0 then Err else
    let x := vscale x (1 / lambda) in
    do x0 <- vcopy r x;
    do hist <- wr hist i x_err;
    if (i =? ps_maxit s)%nat then
      Ok (t, {| pr_x := x; pr_x0 := x0; pr_lambda := lambda; pr_status := MAXIT; pr_it := i; pr_hist := hist |})
    else if Rlt_dec x_err (ps_tol s) then
      Ok (t, {| pr_x := x; pr_x0 := x0; pr_lambda := lambda; pr_status := SUCCESS; pr_it := i; pr_hist := hist |})
    else spiter fuel (S i) t x x0 lambda i hist
  end.
(** PowerIteration.i.hh 19-41, EigenSolver.cc 58-74 *)
Definition spower (t : tstate) (x x0 : list R) : res (tstate * presult) :=
  let x0 := if (length x0 =? 0)%nat then repeat 1 (length x) else x0 in
  let lambda := Vector_Model.norm L1 x0 in
  if Req_EM_T lambda 0 then Err else
  spiter (ps_maxit s) 0 t x (vscale x0 (1 / lambda)) lambda 0 (ps_hist s).
End Power.
(** EigenArnoldi.cc 24-39: the power method applied to the fission operator. *)
Definition power_es (mg : tstate -> res tstate) (s : psolver) : eigen_solver := fun t x x0 =>
  do r <- spower (eigen_multiply mg) s t x x0; Ok (fst r, pr_x (snd r), pr_lambda (snd r)).
