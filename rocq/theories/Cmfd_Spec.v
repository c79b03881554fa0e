(** * Cmfd_Spec: what the coarse mesh acceleration must leave alone. *)
From Coquelicot Require Import Coquelicot.
From Verif Require Import Base BaseR Loop Mesh_Model Mesh_Spec Material_Model Matrix_Model Matrix_Spec Angle_Model Angle_Spec Boundary_Model Boundary_Spec
  Cell_Spec Sweep_Model Sweep_Spec Region_Model Region_Spec Tally_Model Tally_Spec Diffusion_Model Diffusion_Spec Cmfd_Model.
Open Scope nat_scope.

(** Value for group g in cell c. *)
Definition val2 (v : list (list R)) (g c : nat) : R := nth c (nth g v []) 0%R.

(** Isotropic source of group g for the flux phi: fixed source, scattering, and
    fission if it is part of the problem. *)
Definition scattering (U : problem) (phi : list (list R)) (g c : nat) : R :=
  rsum (ng (u_mat U)) (fun gp => into (u_adj U) (u_mat U) g gp (mt (u_mesh U) c) * val2 phi gp c)%R.
Definition fission (U : problem) (keff : R) (phi : list (list R)) (g c : nat) : R :=
  (if u_mult U then / keff * rsum (ng (u_mat U)) (fun gp => birth (u_adj U) (u_mat U) g gp (mt (u_mesh U) c) * val2 phi gp c) else 0)%R.
Definition source_of (U : problem) (keff : R) (q phi : list (list R)) (g c : nat) : R :=
  (val2 q g c + scattering U phi g c + fission U keff phi g c)%R.

(** phi and T are the flux and the tally left by a sweep of group g with source src. *)
Inductive swept_by (U : problem) (C : cmesh) (qd : quad) (ds : list dir) (src : nat -> nat -> list R) (g : nat) (phi : list R) (T : tally) : Prop :=
| swept_1 E keep upd gi ord b phi0 psi0 T0 b' psi' :
    q_dim qd = 1 -> dim (u_mesh U) = 1 -> b_q b = qd -> sweep_problem (grid_of U g) ds keep src gi ord b phi0 psi0 ->
    sig_ok (strict1 E) (grid_of U g) -> 1 < ncx (u_mesh U) -> tally_for C T0 ->
    sweep_t (kernel1_t E (grid_of U g) C ds keep src) upd gi ord (b, phi0, psi0) T0 = Ok (b', phi, psi', T) -> swept_by U C qd ds src g phi T
| swept_2 E keep upd gi ord b phi0 psi0 T0 b' psi' :
    q_dim qd = 2 -> dim (u_mesh U) = 2 -> b_q b = qd -> sweep_problem (grid_of U g) ds keep src gi ord b phi0 psi0 ->
    sig_ok (strict2 E) (grid_of U g) -> 1 < ncx (u_mesh U) -> 1 < ncy (u_mesh U) -> tally_for C T0 ->
    sweep_t (kernel2_t E (grid_of U g) C ds keep src) upd gi ord (b, phi0, psi0) T0 = Ok (b', phi, psi', T) -> swept_by U C qd ds src g phi T
| swept_3 keep upd gi ord b phi0 psi0 T0 b' psi' :
    q_dim qd = 3 -> dim (u_mesh U) = 3 -> b_q b = qd -> sweep_problem (grid_of U g) ds keep src gi ord b phi0 psi0 ->
    sig_ok false (grid_of U g) -> tally_for C T0 ->
    sweep_t (kernel3_t (grid_of U g) ds keep src) upd gi ord (b, phi0, psi0) T0 = Ok (b', phi, psi', T) -> swept_by U C qd ds src g phi T.

(** The source of a sweep is isotropic: s over the sum of the weights. *)
Definition isotropic (qd : quad) (ds : list dir) (n : nat) (src : nat -> nat -> list R) (s : nat -> R) : Prop :=
  exists norm, over_angles qd (fun o a => Sweep_Spec.weight ds a * norm)%R = 1%R /\
  forall o a c, o < q_noct qd -> a < q_nao qd -> c < n -> at_ (src o a) c = (norm * s c)%R.

(** Every group was swept, with source s g. *)
Definition swept_all (U : problem) (C : cmesh) (s : nat -> nat -> R) (phi : list (list R)) (T : nat -> tally) : Prop :=
  forall g, g < ng (u_mat U) -> exists qd ds src,
    swept_by U C qd ds src g (nth g phi []) (T g) /\ isotropic qd ds (ncells (u_mesh U)) src (s g).
(** A solution of the transport problem: sweeping with the source that belongs to
    phi gives phi. *)
Definition transport_solution (U : problem) (C : cmesh) (keff : R) (q phi : list (list R)) (T : nat -> tally) : Prop :=
  swept_all U C (source_of U keff q phi) phi T.

(** Data: unit widths in the dimensions the mesh does not have, materials in
    range, positive total cross sections and diffusion coefficients. *)
Definition problem_ok (U : problem) : Prop :=
  let m := u_mesh U in let x := u_mat U in
  mesh_good m /\ (dim m < 2 -> mdy m = [1%R]) /\ (dim m < 3 -> mdz m = [1%R]) /\
  0 < ng x /\ (forall c, c < ncells m -> mt m c < nm x) /\
  forall g k, g < ng x -> k < nm x ->
    (0 < st x g k)%R /\ (0 < dc x g k)%R /\ (0 <= sf x g k)%R /\ nsf x g k = (nu x g k * sf x g k)%R /\
    forall gp, gp < ng x -> (0 <= ss x g gp k)%R.
Definition shape (U : problem) (v : list (list R)) : Prop :=
  length v = ng (u_mat U) /\ forall g, g < ng (u_mat U) -> length (nth g v []) = ncells (u_mesh U).
Definition positive_flux (U : problem) (phi : list (list R)) : Prop :=
  shape U phi /\ forall g c, g < ng (u_mat U) -> c < ncells (u_mesh U) -> (0 < val2 phi g c)%R.
(** The diffusion coefficient is weighted by the flux, or by positive currents. *)
Definition current_ok (U : problem) (cur : option (list (list R))) : Prop :=
  match cur with Some j => positive_flux U j | None => True end.

(** A linear solver that keeps a starting vector that solves the system. *)
Definition keeps_solutions (solve : csr -> list R -> list R -> res (list R)) : Prop :=
  forall A b x, multiply A x = Ok b -> solve A b x = Ok x.
(** A linear solver that only returns solutions. *)
Definition exact_solver (solve : csr -> list R -> list R -> res (list R)) : Prop :=
  forall A b x y, solve A b x = Ok y -> multiply A y = Ok b /\ length y = length x.

(** One fission spectrum, and fission everywhere in every group. *)
Definition one_spectrum (U : problem) : Prop :=
  exists X, forall g k, g < ng (u_mat U) -> k < nm (u_mat U) ->
    chi (u_mat U) g k = X g /\ (0 < sf (u_mat U) g k)%R /\ (0 < nsf (u_mat U) g k)%R.
(** Data for which the homogenised transfer and production conserve rates: not
    the adjoint of several groups; fission only with keff 1 and one spectrum. *)
Definition conserving (U : problem) (keff : R) : Prop :=
  (u_adj U = false \/ ng (u_mat U) = 1) /\ (u_mult U = false \/ keff = 1%R /\ one_spectrum U).

(** The flux is changed: it does not solve the coarse system, and a solver that
    solves the system changes it. *)
Definition moved (U : problem) (C : cmesh) (keff : R) (q phi : list (list R)) (T : nat -> tally) : Prop :=
  forall srt cur alpha, is_sort srt -> current_ok U cur ->
  (exists cm cmap A b x0, coarse_problem srt U C T q cur keff alpha phi = Ok (cm, cmap, (A, b, x0)) /\ multiply A x0 <> Ok b) /\
  forall solve phi', exact_solver solve -> update srt solve U C T q cur keff alpha phi = Ok phi' -> phi' <> phi.
