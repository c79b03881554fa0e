(** * Davidson_Model: the generalized Davidson eigensolver and the dense eigensolver below it.
    Source: /repo/src/callow/solver/Davidson.cc, Davidson.hh (DavidsonDefaultP),
    EigenSolver.cc (solve, monitor), Eispack.cc (set_operators, solve_impl).
    Simplifications: double is R; the arrays V, V_a, V_b are total functions of their index
    (every index used is below the subspace size they are allocated with); a division by a
    norm that is zero, whose IEEE result is NaN, is the outcome UB; operators and the
    preconditioner are functions that may fail, the preconditioner gets the current
    eigenvalue, the residual and the old contents of its result; EISPACK's rg and rgg are
    functions of the matrices; the number of projected problems solved is counted (the code
    has no such counter).
    Not modelled: printing, the creation of the projected solver from a database. *)
From Verif Require Import Base BaseR Loop Vector_Model Matrix_Model Dense_Model Gmres_Model.
Open Scope R_scope.

(** ** Eispack *)
(** Eispack.cc 32-47: set_operators; without a right operator the old one stays *)
Definition eis_set (old : option dense * option dense) (A : dense) (B : option dense) : option dense * option dense :=
  (Some A, match B with Some B => Some B | None => snd old end).
(** What solve_complete gives: columns of eigenvectors, real and imaginary parts *)
Record eis_out := { eo_V : dense; eo_R : list R; eo_I : list R }.
(** Eispack.cc 111-122: index of the wanted eigenvalue; which = 1 is the largest real part *)
Definition eis_pick (which : nat) (ER : list R) (m : nat) : res (R * nat) :=
  do e0 <- rd ER 0;
  for_ 1 m (e0, 0%nat) (fun i st =>
    do e <- rd ER i;
    Ok (if (if Rlt_dec (fst st) e then (which =? 1)%nat else if Rlt_dec e (fst st) then (which =? 0)%nat else false) then (e, i) else st)).
(** Eispack.cc 95-131: solve_impl *)
Definition eis_solve (which m : nat) (out : eis_out) (x : list R) : res (R * list R) :=
  do ei <- eis_pick which (eo_R out) m;
  do x <- for_ 0 m x (fun i x => do v <- dget (eo_V out) i (snd ei); wr x i v);
  let nu := norm L2 x in
  if Req_EM_T nu 0 then UB else Ok (fst ei, vscale x (1 / nu)).

(** ** Davidson *)
Inductive dstat := DMAXIT | DSUCCESS.
Record dresult := { dr_u : list R; dr_lambda : R; dr_status : dstat; dr_it : nat; dr_hist : list R; dr_solves : nat }.
Record dbase := { db_V : nat -> list R; db_A : nat -> list R; db_B : nat -> list R }.
Inductive dnext := Stop (r : dresult) | Again (it : nat) (u t : list R) (lambda : R) (hist : list R) (k : nat).

(** Davidson.cc 112-121: the projected matrices *)
Definition dav_gram (i : nat) (V W : nat -> list R) : res dense :=
  for_ 0 (S i) (dense_new (S i) (S i) 0) (fun row A =>
    for_ 0 (S i) A (fun col A => do d <- vdot (V row) (W col); dinsert A row col d INSERT)).
(** Davidson.cc 135-137: u = V y *)
Definition dav_ritz (i : nat) (y : list R) (V : nat -> list R) (u : list R) : res (list R) :=
  for_ 0 (S i) (vscale u 0) (fun j u => do yj <- rd y j; vaxpy u yj (V j)).
(** Davidson.cc 140-145: r = V_a y - lambda V_b y *)
Definition dav_residual (i : nat) (y : list R) (lambda : R) (VA VB : nat -> list R) (r : list R) : res (list R) :=
  for_ 0 (S i) (vscale r 0) (fun j r => do yj <- rd y j; do r <- vaxpy r yj (VA j); vaxpy r (- lambda * yj) (VB j)).
(** Davidson.cc 162-165: make u orthogonal to V *)
Definition dav_orth (i : nat) (y : list R) (V : nat -> list R) (u : list R) : res (list R) :=
  do y <- for_ 0 (S i) y (fun j y => do d <- vdot (V j) u; wr y j d);
  for_ 0 (S i) u (fun j u => do yj <- rd y j; vaxpy u (- yj) (V j)).

Section Dav.
  Variables (mulA mulB : vop) (P : R -> list R -> list R -> res (list R)) (psolve : dense -> dense -> res (R * list R)).
  Variables (s maxit : nat) (tol : R).

  (** Davidson.cc 108-172, with monitor (EigenSolver.cc 77-105); fuel = s - i *)
  Fixpoint dav_inner (fuel i it : nat) (st : dbase) (u t r : list R) (lambda : R) (hist : list R) (k : nat) : res dnext :=
    match fuel with
    | O => Ok (Again it u t lambda hist k)
    | S fuel =>
      do A <- dav_gram i (db_V st) (db_A st);
      do B <- dav_gram i (db_V st) (db_B st);
      do ly <- psolve A B;
      let lambda := fst ly in
      let y := snd ly in
      do u <- dav_ritz i y (db_V st) u;
      do r <- dav_residual i y lambda (db_A st) (db_B st) r;
      do hist <- wr hist it (norm L2 r);
      let k := S k in
      if (it =? maxit)%nat then Ok (Stop {| dr_u := u; dr_lambda := lambda; dr_status := DMAXIT; dr_it := it; dr_hist := hist; dr_solves := k |})
      else if Rlt_dec (norm L2 r) tol then Ok (Stop {| dr_u := u; dr_lambda := lambda; dr_status := DSUCCESS; dr_it := it; dr_hist := hist; dr_solves := k |})
      else
        do t <- vcopy t u;
        if (i =? s - 1)%nat then Ok (Again it u t lambda hist k)
        else
          do w <- P lambda r u;
          do w <- dav_orth i y (db_V st) w;
          let nu := norm L2 w in
          if Req_EM_T nu 0 then UB
          else
            let w := vscale w (1 / nu) in
            do a <- mulA w;
            do b <- mulB w;
            dav_inner fuel (S i) (S it) {| db_V := setf (db_V st) (S i) w; db_A := setf (db_A st) (S i) a; db_B := setf (db_B st) (S i) b |} w t r lambda hist k
    end.

  (** Davidson.cc 106-188: outer iterations *)
  Fixpoint dav_outer (fuel it : nat) (st : dbase) (u t r : list R) (lambda : R) (hist : list R) (k : nat) : res dresult :=
    match fuel with
    | O => Ok {| dr_u := u; dr_lambda := lambda; dr_status := DMAXIT; dr_it := it; dr_hist := hist; dr_solves := k |}
    | S fuel =>
      do x <- dav_inner s 0 it st u t r lambda hist k;
      match x with
      | Stop res => Ok res
      | Again it u t lambda hist k =>
          do a <- mulA t;
          do b <- mulB t;
          dav_outer fuel it {| db_V := setf (fun _ => vscale t 0) 0 t; db_A := setf (fun _ => vscale t 0) 0 a; db_B := setf (fun _ => vscale t 0) 0 b |} u t r lambda hist k
      end
    end.

  (** Davidson.cc 78-105, EigenSolver.cc 59-74 *)
  Definition davidson (u x0 hist : list R) : res dresult :=
    do lambda <- rd u 0;
    let z := repeat 0 (length u) in
    do v <- vcopy z x0;
    let nu := norm L2 v in
    if Req_EM_T nu 0 then UB
    else
      let v := vscale v (1 / nu) in
      do a <- mulA v;
      do b <- mulB v;
      if (s =? 0)%nat then UB
      else dav_outer (maxit / s + 1) 1 {| db_V := setf (fun _ => z) 0 v; db_A := setf (fun _ => z) 0 a; db_B := setf (fun _ => z) 0 b |} u z z lambda hist 0.
End Dav.
