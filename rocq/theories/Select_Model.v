(** * Model of the factories: angular quadratures and callow solvers
    Source: /repo/src/angle/QuadratureFactory.cc, UserQuadrature.hh, BaseGC.hh,
    /repo/src/callow/solver/LinearSolverCreator.cc, EigenSolverCreator.cc.
    Simplifications: an object is identified by its class and the arguments
    of its constructor (what the constructors compute is modelled in
    Angle_Model.v, Tables_Model.v, Lin_Model.v and others); int is Z; double
    is R; an else-if chain comparing one string is a table searched from the
    front.  PETSc and SLEPc are taken as not available. *)
From Coq Require Import String.
From Verif Require Import Base BaseR Util_Model Manager_Model Angle_Model.
Open Scope string_scope.
Open Scope nat_scope.
Set Implicit Arguments.

(** The pattern [if (check(k)) x = get<T>(k)] with a default. *)
Definition int_or {Sub} (d : db Sub) (k : string) (dflt : Z) : res Z :=
  if check d k then get_int d k else Ok dflt.
Definition dbl_or {Sub} (d : db Sub) (k : string) (dflt : R) : res R :=
  if check d k then get_dbl d k else Ok dflt.

(** ** QuadratureFactory *)

(** The rules: PolarQuadrature.hh 72-81, AzimuthalQuadrature.hh 73-77. *)
Inductive base := GL | DGL | GC | DGC | Unif | UnifCos | Simpson | TY | ASDR | TG | ASQR.

Inductive rule :=
| Polar (b : base) (np : Z) (normalize : bool)
| Product (dim : nat) (a p : base) (na np : Z) (normalize : bool)
| LevelSym (np : Z) (dim : nat)
| UnifEqual (np : Z) (dim : nat)
| User (dim : nat) (es : list entry).

(** QuadratureFactory.cc 68-85; the flag tells whether cheb_norm is passed. *)
Definition polar_table : smap (base * bool) :=
  [("gl", (GL, false)); ("dgl", (DGL, false)); ("gc", (GC, true)); ("dgc", (DGC, true));
   ("uniform", (Unif, false)); ("uniformcosine", (UnifCos, false)); ("ty", (TY, false));
   ("asdr", (ASDR, false)); ("tg", (TG, false))].

(** QuadratureFactory.cc 93-149; the last entry is as in the source. *)
Definition product_table : smap (base * base) :=
  [("gl-gl", (GL, GL)); ("gl-dgl", (GL, DGL)); ("gl-u", (GL, Unif)); ("gl-ty", (GL, TY));
   ("dgl-gl", (DGL, GL)); ("dgl-dgl", (DGL, DGL)); ("dgl-u", (DGL, Unif)); ("dgl-ty", (DGL, TY));
   ("u-gl", (Unif, GL)); ("u-dgl", (Unif, DGL)); ("u-gc", (Unif, GC)); ("u-dgc", (Unif, DGC));
   ("u-u", (Unif, Unif)); ("u-ty", (Unif, TY)); ("u-asdr", (Unif, ASDR)); ("u-tg", (Unif, TG));
   ("s-gl", (Simpson, GL)); ("s-dgl", (Simpson, DGL)); ("s-u", (Simpson, Unif)); ("s-ty", (Simpson, TY));
   ("asqr-asdr", (ASQR, ASDR)); ("asqr-gl", (ASQR, GL)); ("asqr-dgl", (ASQR, DGL));
   ("asqr-gc", (ASQR, GC)); ("asqr-dgc", (ASQR, DGC)); ("asqr-tg", (ASQR, ASDR))].

(** Quadrature.cc 36-38: every quadrature insists on its dimension. *)
Definition dim_ok (dim : nat) : bool := (0 <? dim) && (dim <? 4).

(** UserQuadrature.hh 36-56: the printed eta_v[i] is read for any dimension. *)
Definition user_rule (dim : nat) (mu eta wt : list R) : res (list entry) :=
  mapM (fun i =>
    do m <- rd mu i; do e <- rd eta i; do w <- rd wt i;
    Ok (if 1 <? dim then user_entry m e w
        else {| e_mu := m; e_eta := 0; e_xi := 0; e_wt := w |}%R)) (seq 0 (List.length mu)).

Section Quadrature.
  Variable Sub : Type.

  (** QuadratureFactory.cc 36-44 *)
  Definition quad_type (d : db Sub) (dim : nat) : res string :=
    str_or d "quad_type" (if dim =? 1 then "gl" else "u-dgl").

  (** QuadratureFactory.cc 62-159: the rule or a null pointer. *)
  Definition quad_pick (dim : nat) (t : string) (na np : Z) (norm : bool) : option rule :=
    if dim =? 1 then
      match mfind t polar_table with
      | Some (b, flag) => Some (Polar b np (if flag then norm else false))
      | None => None
      end
    else
      let q := match mfind t product_table with
               | Some (a, p) => Some (Product dim a p na np false)
               | None => None
               end in
      if String.eqb t "levelsymmetric" then Some (LevelSym np dim)
      else if String.eqb t "uniformequal" then Some (UnifEqual np dim) else q.

  (** QuadratureFactory.cc 161-172 *)
  Definition quad_user (d : db Sub) (dim : nat) : res rule :=
    if negb (check d "quad_mu") then Err
    else if negb (check d "quad_wt") then Err
    else
      do mu <- get_vd d "quad_mu";
      do eta <- (if check d "quad_eta" then get_vd d "quad_eta" else Ok []);
      do wt <- get_vd d "quad_wt";
      do es <- user_rule dim mu eta wt;
      Ok (User dim es).

  (** QuadratureFactory.cc 27-176 *)
  Definition quad_build (d : db Sub) (dim : nat) : res rule :=
    do t <- quad_type d dim;
    do n <- int_or d "quad_chebyshev_normalize" 0%Z;
    do np <- int_or d "quad_number_polar_octant" 1%Z;
    do na <- int_or d "quad_number_azimuth_octant" 1%Z;
    if negb (dim_ok dim) then Err
    else if String.eqb t "user" then quad_user d dim
    else match quad_pick dim t na np (negb (Z.eqb n 0)) with Some r => Ok r | None => Err end.
End Quadrature.

(** QuadratureFactory.cc 178-206 *)
Definition base_table : smap base :=
  [("gl", GL); ("dgl", DGL); ("gc", GC); ("dgc", DGC); ("uniform", Unif);
   ("uniformcosine", UnifCos); ("simpson", Simpson); ("ty", TY)].
Definition build_base (t : string) : res base :=
  match mfind t base_table with Some b => Ok b | None => Err end.

(** BaseGC.hh 48-71: the m points and weights on [-1, 1]. *)
Definition gc_params (m : nat) : list R * list R :=
  let x := map (fun i => - cos ((INR (S i) - 1 / 2) * PI / INR m))%R (seq 0 m) in
  (x, map (fun t => PI / INR m * sqrt (1 - t * t))%R x).
(** BaseGC.hh 75-81 and 99-117 *)
Definition gc_rule (a b : R) (m : nat) : list R * list R := scale_and_shift (-1) 1 a b (gc_params m).
Definition dgc_rule (a b : R) (m : nat) : list R * list R := double_rule a b (gc_params (m / 2)).

(** The rules whose generation is modelled by closed formulas. *)
Definition rule_of (b : base) : option (R -> R -> nat -> list R * list R) :=
  match b with
  | GC => Some gc_rule | DGC => Some dgc_rule | Unif => Some uniform_rule | Simpson => Some simpson_rule
  | _ => None
  end.
(** PolarQuadrature.t.hh 20-54: the weights of the half space. *)
Definition polar_weights (b : base) (np : nat) (normalize : bool) : option (list R) :=
  match rule_of b with Some Q => Some (po_wt (polar_quad Q np normalize)) | None => None end.
(** ProductQuadratureAP.t.hh 20-41 *)
Definition product_entries (dim : nat) (a p : base) (na np : nat) (normalize : bool) : option (res (list entry)) :=
  match rule_of a, rule_of p with
  | Some A, Some P => Some (product_build dim (azimuthal A na normalize) (polar_quad P np normalize) na np)
  | _, _ => None
  end.

(** ** LinearSolverCreator *)
Inductive lkind := Richardson (omega : R) | Jacobi | GaussSeidel (omega : R) | GMRES (restart : Z).
Record lsolver := { l_kind : lkind; l_atol : R; l_rtol : R; l_maxit : Z; l_level : Z; l_diverge : bool }.

(** LinearSolverCreator.cc 22-135; GMRES.cc 25 insists on restart > 2; an
    absent database is [None]. *)
Definition linear_opts {Sub} (d : option (db Sub)) : res (string * R * R * Z * Z * bool * R * Z) :=
  match d with
  | None => Ok ("gmres", 1e-8, 1e-8, 100%Z, 0%Z, false, 1, 30%Z)%R
  | Some d =>
      do t <- str_or d "linear_solver_type" "gmres";
      do atol <- dbl_or d "linear_solver_atol" 1e-8%R;
      do rtol <- dbl_or d "linear_solver_rtol" 1e-8%R;
      do maxit <- int_or d "linear_solver_maxit" 100%Z;
      do level <- int_or d "linear_solver_monitor_level" 0%Z;
      do div <- int_or d "linear_solver_monitor_diverge" 0%Z;
      do om1 <- (if String.eqb t "richardson" then dbl_or d "linear_solver_richardson_omega" 1%R else Ok 1%R);
      do om2 <- (if String.eqb t "sor" then dbl_or d "linear_solver_sor_omega" om1 else Ok om1);
      do rs <- (if String.eqb t "gmres" then int_or d "linear_solver_gmres_restart" 30%Z else Ok 30%Z);
      Ok (t, atol, rtol, maxit, level, negb (Z.eqb div 0), om2, rs)
  end.
Definition linear_create {Sub} (d : option (db Sub)) : res lsolver :=
  do o <- linear_opts d;
  let '(t, atol, rtol, maxit, level, div, omega, restart) := o in
  do k <- (if String.eqb t "richardson" then Ok (Richardson omega)
           else if String.eqb t "jacobi" then Ok Jacobi
           else if String.eqb t "gauss-seidel" then Ok (GaussSeidel 1%R)
           else if String.eqb t "sor" then Ok (GaussSeidel omega)
           else if String.eqb t "gmres" then (if Z.ltb 2 restart then Ok (GMRES restart) else Err)
           else Err);
  Ok {| l_kind := k; l_atol := atol; l_rtol := rtol; l_maxit := maxit; l_level := level; l_diverge := div |}.

(** ** EigenSolverCreator *)
Inductive ekind := Power | Gd (subspace : Z) | Eispack (which : Z).
Record esolver := { e_kind : ekind; e_tol : R; e_maxit : Z; e_level : Z }.

(** EigenSolverCreator.cc 23-82; Eispack.hh: which = 1 unless given. *)
Definition eigen_create {Sub} (d : option (db Sub)) : res esolver :=
  match d with
  | None => Ok {| e_kind := Power; e_tol := 1e-5; e_maxit := 100; e_level := 0 |}
  | Some d =>
      do t <- str_or d "eigen_solver_type" "power";
      do tol <- dbl_or d "eigen_solver_tol" 1e-5%R;
      do maxit <- int_or d "eigen_solver_maxit" 100%Z;
      do level <- int_or d "eigen_solver_monitor_level" 0%Z;
      do _ <- int_or d "eigen_number_values" 1%Z;
      do k <- (if String.eqb t "power" then Ok Power
               else if String.eqb t "slepc" then Err
               else if String.eqb t "gd" then do s <- int_or d "eigen_solver_subspace_size" 20%Z; Ok (Gd s)
               else if String.eqb t "eispack" then do _ <- int_or d "eigen_solver_subspace_size" 20%Z; Ok (Eispack 1)
               else Err);
      Ok {| e_kind := k; e_tol := tol; e_maxit := maxit; e_level := level |}
  end.
