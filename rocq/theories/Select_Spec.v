(** * What the names and options given to the factories mean.
    Everything is said with the words of the input: a quadrature type is the
    name of a polar rule in one dimension, and the name of an azimuthal rule,
    a hyphen and the name of a polar rule otherwise. *)
From Coq Require Import String.
From Verif Require Import Base BaseR Util_Model Manager_Model Driver_Spec Angle_Model Select_Model.
Open Scope string_scope.
Open Scope nat_scope.
Set Implicit Arguments.

Definition has_str {Sub} (d : db Sub) k s : Prop := getv d TStr k = Ok (VStr s).

(** An option is either not given (the default holds) or given with its type. *)
Definition opt_int {Sub} (d : db Sub) k dflt z : Prop := has_int d k z \/ (check d k = false /\ z = dflt).
Definition opt_dbl {Sub} (d : db Sub) k dflt x : Prop := has_dbl d k x \/ (check d k = false /\ x = dflt).
Definition opt_str {Sub} (d : db Sub) k dflt s : Prop := has_str d k s \/ (check d k = false /\ s = dflt).

(** The names of the rules: polar rules alone (1D), azimuthal parts and polar
    parts of products. *)
Inductive polar_name : base -> string -> Prop :=
| pn_gl : polar_name GL "gl" | pn_dgl : polar_name DGL "dgl"
| pn_gc : polar_name GC "gc" | pn_dgc : polar_name DGC "dgc"
| pn_u : polar_name Unif "uniform" | pn_uc : polar_name UnifCos "uniformcosine"
| pn_ty : polar_name TY "ty" | pn_asdr : polar_name ASDR "asdr" | pn_tg : polar_name TG "tg".
Inductive azi_part : base -> string -> Prop :=
| ap_gl : azi_part GL "gl" | ap_dgl : azi_part DGL "dgl" | ap_u : azi_part Unif "u"
| ap_s : azi_part Simpson "s" | ap_asqr : azi_part ASQR "asqr".
Inductive pol_part : base -> string -> Prop :=
| pp_gl : pol_part GL "gl" | pp_dgl : pol_part DGL "dgl" | pp_gc : pol_part GC "gc"
| pp_dgc : pol_part DGC "dgc" | pp_u : pol_part Unif "u" | pp_ty : pol_part TY "ty"
| pp_asdr : pol_part ASDR "asdr" | pp_tg : pol_part TG "tg".

(** [asks dim t na np r]: in [dim] dimensions the type [t] with these numbers
    of azimuths and polar angles per octant asks for the rule [r]. *)
Inductive asks (dim : nat) (na np : Z) : string -> rule -> Prop :=
| ask_polar b t n : dim = 1 -> polar_name b t -> asks dim na np t (Polar b np n)
| ask_product a p s t n : 2 <= dim <= 3 -> azi_part a s -> pol_part p t ->
    asks dim na np (s ++ "-" ++ t) (Product dim a p na np n)
| ask_level : 2 <= dim <= 3 -> asks dim na np "levelsymmetric" (LevelSym np dim)
| ask_equal : 2 <= dim <= 3 -> asks dim na np "uniformequal" (UnifEqual np dim)
| ask_user es : 1 <= dim <= 3 -> asks dim na np "user" (User dim es).

(** The name of the quadrature in use. *)
Definition type_in_use {Sub} (d : db Sub) (dim : nat) (t : string) : Prop :=
  opt_str d "quad_type" (if dim =? 1 then "gl" else "u-dgl") t.
Definition counts_in_use {Sub} (d : db Sub) (na np : Z) : Prop :=
  opt_int d "quad_number_azimuth_octant" 1%Z na /\ opt_int d "quad_number_polar_octant" 1%Z np.

(** The directions and weights a user gives for one octant. *)
Definition user_octant (dim : nat) (mu eta wt : list R) (es : list entry) : Prop :=
  List.length es = List.length mu /\
  forall i, i < List.length mu ->
    e_mu (nth i es entry0) = nth i mu 0%R /\ e_wt (nth i es entry0) = nth i wt 0%R /\
    (2 <= dim -> e_eta (nth i es entry0) = nth i eta 0%R).

(** Weights of the whole sphere: the octants are copies of the first. *)
Definition sphere_weight (dim : nat) (es : list entry) : R := (INR (2 ^ dim) * rsum (List.length es) (fun i => e_wt (nth i es entry0)))%R.

(** The linear solver asked for. *)
Inductive lname {Sub} (d : db Sub) : string -> lkind -> Prop :=
| ln_rich w : opt_dbl d "linear_solver_richardson_omega" 1%R w -> lname d "richardson" (Richardson w)
| ln_jac : lname d "jacobi" Jacobi
| ln_gs : lname d "gauss-seidel" (GaussSeidel 1%R)
| ln_sor w : opt_dbl d "linear_solver_sor_omega" 1%R w -> lname d "sor" (GaussSeidel w)
| ln_gmres n : opt_int d "linear_solver_gmres_restart" 30%Z n -> (2 < n)%Z -> lname d "gmres" (GMRES n).
Definition linear_asked {Sub} (d : db Sub) (s : lsolver) : Prop :=
  exists t, opt_str d "linear_solver_type" "gmres" t /\ lname d t (l_kind s) /\
    opt_dbl d "linear_solver_atol" 1e-8%R (l_atol s) /\ opt_dbl d "linear_solver_rtol" 1e-8%R (l_rtol s) /\
    opt_int d "linear_solver_maxit" 100%Z (l_maxit s) /\ opt_int d "linear_solver_monitor_level" 0%Z (l_level s) /\
    exists v, opt_int d "linear_solver_monitor_diverge" 0%Z v /\ (l_diverge s = true <-> v <> 0%Z).

(** The eigensolver asked for. *)
Inductive ename {Sub} (d : db Sub) : string -> ekind -> Prop :=
| en_power : ename d "power" Power
| en_gd n : opt_int d "eigen_solver_subspace_size" 20%Z n -> ename d "gd" (Gd n)
| en_eispack : ename d "eispack" (Eispack 1).
Definition eigen_asked {Sub} (d : db Sub) (s : esolver) : Prop :=
  exists t, opt_str d "eigen_solver_type" "power" t /\ ename d t (e_kind s) /\
    opt_dbl d "eigen_solver_tol" 1e-5%R (e_tol s) /\
    opt_int d "eigen_solver_maxit" 100%Z (e_maxit s) /\ opt_int d "eigen_solver_monitor_level" 0%Z (e_level s).

(** Every option that is given has the type its documentation says. *)
Definition typed {Sub} (d : db Sub) (ks : list string) (t : tag) : Prop :=
  forall k, In k ks -> check d k = true -> exists v, getv d t k = Ok v.
