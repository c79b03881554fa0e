(** * Model of callow::EigenSolver and callow::PowerIteration
    Sources: /repo/src/callow/solver/EigenSolver.cc, EigenSolver.hh,
    /repo/src/callow/solver/PowerIteration.i.hh, PowerIteration.cc.
    Simplifications: [double] is [R]; iteration counts are [nat]; the operators are
    functions on vectors (d_A->multiply and d_solver->solve, the latter with the
    right-hand side and the initial guess); printing is not modelled; dividing by
    a norm that is zero gives no numbers, modelled as [Err]. *)
From Verif Require Import Base BaseR Vector_Model.
Open Scope R_scope.

(** CallowDefinitions.hh: the codes EigenSolver::solve returns. *)
Inductive pstatus := SUCCESS | MAXIT.
(** EigenSolver.hh: d_tolerance, d_maximum_iterations, d_residual_norm. *)
Record psolver := { ps_tol : R; ps_maxit : nat; ps_hist : list R }.
(** EigenSolver.cc 16-30, PowerIteration.cc 14-19 *)
Definition power_new (tol : R) (maxit : nat) : psolver := {| ps_tol := tol; ps_maxit := maxit; ps_hist := repeat 0 (maxit + 1) |}.
(** EigenSolver.hh 123-129: the storage for the residuals is not resized. *)
Definition set_tolerances (s : psolver) (tol : R) (maxit : nat) : psolver :=
  {| ps_tol := tol; ps_maxit := maxit; ps_hist := ps_hist s |}.

(** x, x0, eigenvalue, status, d_number_iterations and d_residual_norm after solve. *)
Record presult := { pr_x : list R; pr_x0 : list R; pr_lambda : R; pr_status : pstatus; pr_it : nat; pr_hist : list R }.

Section Power.
Variables (mul : list R -> res (list R)) (slv : option (list R -> list R -> res (list R))) (s : psolver).

(** PowerIteration.i.hh 49-58: x <- A*x0, and if B exists solve B*x = A*x0 starting
    from temp, which keeps the solution. *)
Definition apply_op (x0 temp : list R) : res (list R * list R) :=
  do x <- mul x0;
  match slv with
  | None => Ok (x, temp)
  | Some f => do t <- f x temp; do x <- vcopy x t; Ok (x, t)
  end.

(** 42-75 with monitor (EigenSolver.cc 77-106) *)
Fixpoint piter (fuel i : nat) (x x0 temp : list R) (lambda : R) (it : nat) (hist : list R) : res presult :=
  match fuel with
  | O => Ok {| pr_x := x; pr_x0 := x0; pr_lambda := lambda; pr_status := MAXIT; pr_it := it; pr_hist := hist |}
  | S fuel =>
    let lambda_0 := lambda in
    do xt <- apply_op x0 temp;
    let x := fst xt in let temp := snd xt in
    let lambda := norm L1 x in
    do r <- vadd (vscale x0 (- lambda_0)) x;
    let x_err := norm L1 r in
    if Req_EM_T lambda 0 then Err else
    let x := vscale x (1 / lambda) in
    do x0 <- vcopy r x;
    do hist <- wr hist i x_err;
    if (i =? ps_maxit s)%nat then
      Ok {| pr_x := x; pr_x0 := x0; pr_lambda := lambda; pr_status := MAXIT; pr_it := i; pr_hist := hist |}
    else if Rlt_dec x_err (ps_tol s) then
      Ok {| pr_x := x; pr_x0 := x0; pr_lambda := lambda; pr_status := SUCCESS; pr_it := i; pr_hist := hist |}
    else piter fuel (S i) x x0 temp lambda i hist
  end.

(** EigenSolver.cc 58-74, PowerIteration.i.hh 19-41 *)
Definition power_solve (x x0 : list R) : res presult :=
  let x0 := if (length x0 =? 0)%nat then repeat 1 (length x) else x0 in
  let temp := x0 in
  let lambda := norm L1 x0 in
  if Req_EM_T lambda 0 then Err else
  piter (ps_maxit s) 0 x (vscale x0 (1 / lambda)) temp lambda 0 (ps_hist s).
End Power.
