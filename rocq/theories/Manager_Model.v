(** * Model of the problem managers: FixedSourceManager and EigenvalueManager
    Source: /repo/src/solvers/FixedSourceManager.cc, EigenvalueManager.cc,
    mg/MGTransportSolver.cc, wg/WGSolver.cc.
    Simplifications: the content of the input database at the time of a call
    is an argument of the call; the state, boundary and fission source built
    by the n-th setup are identified by n; a throw ends the sequence of calls;
    iterate is not modelled.  What is not modelled of the construction of a
    quadrature, boundary or solver is an arbitrary function that may throw;
    what a solver computes is an arbitrary function of the solver, the scaling
    factor and the flux it starts from. *)
From Coq Require Import String.
From Verif Require Import Base BaseR Util_Model.
Open Scope string_scope.
Open Scope nat_scope.
Set Implicit Arguments.

Section Getters.
  Variable Sub : Type.
  (** InputDB.i.hh 86-121: get<T> for the five types the drivers read. *)
  Definition get_str (d : db Sub) (k : string) : res string :=
    do v <- getv d TStr k; match v with VStr s => Ok s | _ => UB end.
  Definition get_int (d : db Sub) (k : string) : res Z :=
    do v <- getv d TInt k; match v with VInt s => Ok s | _ => UB end.
  Definition get_dbl (d : db Sub) (k : string) : res R :=
    do v <- getv d TDbl k; match v with VDbl s => Ok s | _ => UB end.
  Definition get_vi (d : db Sub) (k : string) : res (list Z) :=
    do v <- getv d TVecInt k; match v with VVecInt s => Ok s | _ => UB end.
  Definition get_vd (d : db Sub) (k : string) : res (list R) :=
    do v <- getv d TVecDbl k; match v with VVecDbl s => Ok s | _ => UB end.
  (** The pattern [if (check(k)) x = get<string>(k)] with a default. *)
  Definition str_or (d : db Sub) (k dflt : string) : res string :=
    if check d k then get_str d k else Ok dflt.
End Getters.

(** FixedSourceManager.hh: the discretisation. *)
Inductive disc := SN | MOC | DIFF.
(** The within-group solvers, the sweeps and the multigroup solvers. *)
Inductive inner := InnerSI | InnerGMRES.
Inductive sweep := SweepDD | SweepSD | SweepSC.
Inductive outer := OuterGS | OuterCMFD | OuterGMRES.
Inductive kind := Diffusion | Transport (o : outer) (i : inner) (s : sweep).

(** FixedSourceManager.cc 87-94. *)
Definition disc_of (eq : string) : disc :=
  if String.eqb eq "scmoc" || String.eqb eq "ddmoc" then MOC
  else if String.eqb eq "diffusion" then DIFF else SN.

(** MGTransportSolver.cc 33-53. *)
Definition inner_of (s : string) : res inner :=
  if String.eqb s "SI" then Ok InnerSI
  else if String.eqb s "GMRES" then Ok InnerGMRES else Err.

(** WGSolver.cc 93-99 and 110-190: set_sweep of each dimension. *)
Definition sweep_of (dim : nat) (eq : string) : res sweep :=
  match dim with
  | 1 | 2 => if String.eqb eq "dd" then Ok SweepDD
             else if String.eqb eq "sd" then Ok SweepSD
             else if String.eqb eq "sc" then Ok SweepSC else Err
  | 3 => if String.eqb eq "dd" then Ok SweepDD else Err
  | _ => Err
  end.

Section Manager.
  Variables Sub Q F : Type.

  Record solver := {
    s_kind : kind;
    s_state : nat;              (* the setup whose state and boundary it uses *)
    s_fission : option nat;     (* the setup whose fission source it uses *)
    s_sources : list Q;         (* Solver.cc: the external sources are copied *)
    s_mult : bool }.

  Record manager := {
    g_dim : nat; g_mult : bool; g_fission : bool;
    g_disc : disc; g_setup : bool; g_ready : bool;
    g_state : nat;              (* number of the setup of d_state; 0: none *)
    g_fsrc : option nat;
    g_sources : list Q;
    g_solver : option solver;
    g_flux : F }.               (* content of d_state *)

  (** The rest of the construction of the quadrature and boundary, and of a
      multigroup solver. *)
  Variable parts : db Sub -> nat -> disc -> res unit.
  Variable details : db Sub -> kind -> res unit.
  (** What a solver makes of a flux; the flux of a new state. *)
  Variable run : solver -> R -> F -> F.
  Variable zero : F.

  (** FixedSourceManager.cc 55-76. *)
  Definition new_manager (dim : nat) (mult fission : bool) : manager :=
    {| g_dim := dim; g_mult := mult; g_fission := mult || fission; g_disc := SN;
       g_setup := false; g_ready := false; g_state := 0; g_fsrc := None;
       g_sources := []; g_solver := None; g_flux := zero |}.

  (** FixedSourceManager.cc 81-157. *)
  Definition setup (d : db Sub) (M : manager) : res manager :=
    do eq <- str_or d "equation" "dd";
    do _ <- parts d (g_dim M) (disc_of eq);
    let n := S (g_state M) in
    Ok {| g_dim := g_dim M; g_mult := g_mult M; g_fission := g_fission M;
          g_disc := disc_of eq; g_setup := true; g_ready := false;
          g_state := n; g_fsrc := (if g_fission M then Some n else g_fsrc M);
          g_sources := g_sources M; g_solver := g_solver M; g_flux := zero |}.

  (** FixedSourceManager.cc 161-170; [None] is a null pointer. *)
  Definition set_source (q : option Q) (M : manager) : manager :=
    match q with
    | None => M
    | Some q =>
        {| g_dim := g_dim M; g_mult := g_mult M; g_fission := g_fission M;
           g_disc := g_disc M; g_setup := g_setup M; g_ready := g_ready M;
           g_state := g_state M; g_fsrc := g_fsrc M;
           g_sources := (g_sources M ++ [q])%list; g_solver := g_solver M; g_flux := g_flux M |}
    end.

  (** The solver pointer and the ready flag after a construction. *)
  Definition install (k : kind) (M : manager) : manager :=
    {| g_dim := g_dim M; g_mult := g_mult M; g_fission := g_fission M;
       g_disc := g_disc M; g_setup := g_setup M; g_ready := true;
       g_state := g_state M; g_fsrc := g_fsrc M; g_sources := g_sources M;
       g_solver := Some {| s_kind := k; s_state := g_state M; s_fission := g_fsrc M;
                           s_sources := g_sources M; s_mult := g_mult M |};
       g_flux := g_flux M |}.

  (** FixedSourceManager.cc 194-218: the outer solver named, if supported. *)
  Definition outer_of (s : string) : option outer :=
    if String.eqb s "GS" then Some OuterGS
    else if String.eqb s "CMFD" then Some OuterCMFD
    else if String.eqb s "GMRES" then Some OuterGMRES else None.

  (** FixedSourceManager.cc 174-222. *)
  Definition set_solver (d : db Sub) (M : manager) : res (bool * manager) :=
    if negb (g_setup M) then Ok (false, M)
    else match g_disc M with
         | DIFF => do _ <- details d Diffusion; Ok (true, install Diffusion M)
         | _ =>
             do name <- str_or d "outer_solver" "GS";
             match outer_of name with
             | None => Ok (false, M)
             | Some o =>
                 do wg <- str_or d "inner_solver" "SI";
                 do i <- inner_of wg;
                 do eq <- str_or d "equation" "dd";
                 do w <- sweep_of (g_dim M) eq;
                 let k := Transport o i w in
                 do _ <- details d k;
                 Ok (true, install k M)
             end
         end.

  Definition with_flux (M : manager) (f : F) : manager :=
    {| g_dim := g_dim M; g_mult := g_mult M; g_fission := g_fission M;
       g_disc := g_disc M; g_setup := g_setup M; g_ready := g_ready M;
       g_state := g_state M; g_fsrc := g_fsrc M;
       g_sources := g_sources M; g_solver := g_solver M; g_flux := f |}.

  (** FixedSourceManager.cc 226-240.  A solver writes the state it was built
      on; the manager's own flux changes only if that is the current one. *)
  Definition solve (keff : R) (M : manager) : res (bool * manager) :=
    if negb (g_ready M) then Ok (false, M)
    else match g_solver M with
         | None => UB
         | Some s => Ok (true, if s_state s =? g_state M
                               then with_flux M (run s keff (g_flux M)) else M)
         end.

  (** A sequence of calls by a user; each call is recorded with its result. *)
  Inductive call :=
  | Setup (d : db Sub) | SetSource (q : option Q) | SetSolver (d : db Sub) | Solve (keff : R).
  Definition step (c : call) (M : manager) : res (bool * manager) :=
    match c with
    | Setup d => do M <- setup d M; Ok (true, M)
    | SetSource q => Ok (true, set_source q M)
    | SetSolver d => set_solver d M
    | Solve k => solve k M
    end.
  Fixpoint calls (cs : list call) (M : manager) : res (list (call * bool) * manager) :=
    match cs with
    | [] => Ok ([], M)
    | c :: cs => do r <- step c M; do r2 <- calls cs (snd r);
                 Ok ((c, fst r) :: fst r2, snd r2)
    end.

  (** EigenvalueManager.cc 58-76: the constructor ignores the result of
      set_solver. *)
  Definition eigen_manager (d : db Sub) (dim : nat) : res manager :=
    do M <- setup d (new_manager dim false true);
    do r <- set_solver d M;
    Ok (snd r).

  (** EigenvalueManager.cc 80-134 with the constructors of the eigensolvers
      (EigenGD.cc 25-27, EigenCMFD.cc 41-43).  The result is what solve
      returns; [eig], the iteration itself, is any function of the manager. *)
  Variable eig : string -> manager -> F.
  Definition eigen_solve (d : db Sub) (M : manager) : res (bool * manager) :=
    do name <- str_or d "eigen_solver" "PI";
    let go := Ok (true, with_flux M (eig name M)) in
    let need o := match g_solver M with
                  | None => UB
                  | Some s => match s_kind s, o with
                              | Transport OuterCMFD _ _, OuterCMFD => go
                              | Transport OuterGMRES _ _, OuterGMRES => go
                              | _, _ => Err
                              end
                  end in
    if String.eqb name "PI" then go
    else if String.eqb name "diffusion" then
      match g_disc M with DIFF => go | _ => Ok (false, M) end
    else if String.eqb name "arnoldi" then go
    else if String.eqb name "cmfd" then need OuterCMFD
    else if String.eqb name "GD" then
      match g_disc M with DIFF => Ok (false, M) | _ => need OuterGMRES end
    else Ok (false, M).
End Manager.
Arguments Setup {Sub Q}. Arguments SetSource {Sub Q}. Arguments SetSolver {Sub Q}. Arguments Solve {Sub Q}.
