(** * Pi_Spec: what power iteration must do, independent of its loop. *)
From Verif Require Import Base BaseR Util_Model Angle_Model Boundary_Model Boundary_Spec Mesh_Model Material_Model
  Source_Model Source_Spec Cell_Spec Sweep_Model Sweep_Spec Iter_Model Iter_Spec.
Open Scope nat_scope.

(** ** Fission *)

(** The fission density held by the fission source. *)
Definition density (t : tstate) : list R := match fiss (t_x t) with Some q => dens q | None => [] end.
(** Neutrons produced in a cell by the fluxes, and the share a group gets of
    them; the adjoint swaps the two. *)
Definition production (x : src) (phi : list (list R)) (c : nat) : R :=
  rsum (ng (mat x)) (fun g => phi_of phi g c * (if adj x then chi (mat x) g (mat_of x c) else nsf (mat x) g (mat_of x c)))%R.
Definition spectrum (x : src) (g c : nat) : R := if adj x then nsf (mat x) g (mat_of x c) else chi (mat x) g (mat_of x c).
(** Sum of absolute values over all cells. *)
Definition size (f : list R) : R := rsum (length f) (fun c => Rabs (at_ f c)).
Definition distance (f f' : list R) : R := rsum (length f) (fun c => Rabs (at_ f c - at_ f' c)).
(** The mix of two densities. *)
Definition relaxed (omega : R) (f f' : list R) : list R := map (fun c => omega * at_ f c + (1 - omega) * at_ f' c)%R (seq 0 (length f)).

(** A fission source of the right shape that shares the state's fluxes. *)
Definition shared_fission (nc : nat) (x : src) (q : fis) : Prop :=
  fsrc q = x /\ length (dens q) = nc /\ length (fsource q) = ng (mat x) /\
  forall g, g < ng (mat x) -> length (nth g (fsource q) []) = nc.
Definition eigen_ready (nc : nat) (t : tstate) : Prop :=
  problem (ssrc (t_x t)) /\ cells (ssrc (t_x t)) = nc /\
  exists q, fiss (t_x t) = Some q /\ shared_fission nc (ssrc (t_x t)) q.
(** A multigroup solver that never fails on the states in [Inv], whatever their
    fission source. *)
Record mg_solver (nc : nat) (Inv : tstate -> Prop) (mg : tstate -> res tstate) : Prop := {
  ms_ready : forall t, Inv t -> eigen_ready nc t;
  ms_solve : forall t, Inv t -> exists t', mg t = Ok t' /\ Inv t';
  ms_fission : forall t q, Inv t -> shared_fission nc (ssrc (t_x t)) q -> Inv (put_fission t q)
}.

(** ** Power iteration *)

(** The density of a flat flux, scaled to size one. *)
Definition initial (t t0 : tstate) : Prop := let x := ssrc (t_x t) in
  let flat := map (fun c => rsum (ng (mat x)) (fun g => nsf (mat x) g (mat_of x c))) (seq 0 (cells x)) in
  exists q, t0 = put_fission t q /\ density t0 = map (fun v => v / size flat)%R flat.
(** One outer iteration from t to t': s has the fission sources made from the
    density of t and the eigenvalue k, t1 is the solution, and t' has the
    production of its fluxes as density. *)
Record outer (nc : nat) (mg : tstate -> res tstate) (k : R) (t s t1 t' : tstate) : Prop := {
  ou_source : exists q, s = put_fission t q /\ shared_fission nc (ssrc (t_x t)) q /\ dens q = density t /\
    forall g c, g < ng (mat (ssrc (t_x t))) -> c < nc ->
    nth c (nth g (fsource q) []) 0%R = (1 / k * at_ (density t) c * spectrum (ssrc (t_x t)) g c)%R;
  ou_solve : mg s = Ok t1;
  ou_update : exists q, t' = put_fission t1 q /\ density t' = map (production (ssrc (t_x t1)) (phis t1)) (seq 0 nc)
}.
(** n iterations; S i and k i are the state and eigenvalue after i of them.
    Only the eigenvalue and the stopping test use the relaxed density. *)
Record pi_history (nc : nat) (mg : tstate -> res tstate) (omega tol : R) (max : nat) (t t' : tstate) (keff : R)
    (n : nat) (Z : nat -> tstate) (k : nat -> R) : Prop := {
  ph_start : initial t (Z 0) /\ k 0 = 1%R;
  ph_end : Z n = t' /\ k n = keff;
  ph_limit : 0 < n <= max;
  ph_step : forall i, i < n -> exists s t1, outer nc mg (k i) (Z i) s t1 (Z (S i));
  ph_keff : forall i, i < n ->
    k (S i) = (k i * size (relaxed omega (density (Z (S i))) (density (Z i))) / size (density (Z i)))%R;
  ph_go : forall i, S i < n -> (tol <= distance (relaxed omega (density (Z (S i))) (density (Z i))) (density (Z i)))%R;
  ph_stop : n < max -> (distance (relaxed omega (density (Z n)) (density (Z (n - 1)%nat))) (density (Z (n - 1)%nat)) < tol)%R
}.

(** ** The fission operator *)

(** The multigroup solver acts on densities as the matrix a, up to the eigenvalue. *)
Definition acts_as (nc : nat) (Inv : tstate -> Prop) (mg : tstate -> res tstate) (a : nat -> nat -> R) : Prop :=
  forall k t s t1 t', Inv t -> outer nc mg k t s t1 t' ->
  forall c, c < nc -> at_ (density t') c = (1 / k * rsum nc (fun j => a c j * at_ (density t) j))%R.
Definition times (nc : nat) (a : nat -> nat -> R) (f : list R) : list R :=
  map (fun c => rsum nc (fun j => a c j * at_ f j)%R) (seq 0 nc).

(** ** Convergence *)
Definition fissile (x : src) (c : nat) : Prop := (0 < rsum (ng (mat x)) (fun g => nsf (mat x) g (mat_of x c)))%R.
(** Fission in any fissile cell leads to fission in every fissile cell, and to
    none elsewhere. *)
Definition connected (nc : nat) (x : src) (a : nat -> nat -> R) : Prop :=
  (exists c, c < nc /\ fissile x c) /\
  forall c, c < nc -> (fissile x c -> forall j, j < nc -> fissile x j -> (0 < a c j)%R) /\
    (~ fissile x c -> forall j, j < nc -> a c j = 0%R).
(** A nonnegative density that the operator multiplies by l. *)
Definition mode (nc : nat) (a : nat -> nat -> R) (l : R) (V : nat -> R) : Prop :=
  (0 < l)%R /\ (forall c, c < nc -> (0 <= V c)%R) /\ (exists c, c < nc /\ (0 < V c)%R) /\
  forall c, c < nc -> (rsum nc (fun j => a c j * V j) = l * V c)%R.

(** ** Problems whose only source is fission *)

(** phi solves the equations of all groups of t at once. *)
Definition mg_solution (w : sweeper) (t : tstate) (phi : list (list R)) : Prop :=
  length phi = ng (mat (ssrc (t_x t))) /\
  forall g, g < ng (mat (ssrc (t_x t))) ->
  exists b', entering (t_b t) b' g /\ transported w (t_x t) g b' phi (nth g phi []).
(** Nothing enters through any side, and there is no external source. *)
Record homogeneous (t : tstate) : Prop := {
  ho_sides : forall s, s < 2 * q_dim (b_q (t_b t)) -> b_bc (t_b t) s = Vacuum;
  ho_enter : forall s o a g, valid (t_b t) s o a g -> enters (q_dim (b_q (t_b t))) s o ->
    Forall (Forall (fun v => v = 0%R)) (bflux (t_b t) s o a g);
  ho_source : forall g c, external (t_x t) g c = 0%R /\ forall angle, discrete (t_x t) g angle c = 0%R;
  ho_fission : implicit (t_x t) = false
}.
(** t is t0 with other fluxes, another fission source and other leaving fluxes. *)
Record same_case (w : sweeper) (m : mtl) (nc : nat) (t0 t : tstate) : Prop := {
  sc_cells : cells (ssrc (t_x t)) = cells (ssrc (t_x t0)) /\ mat (ssrc (t_x t)) = mat (ssrc (t_x t0)) /\
    mmap (ssrc (t_x t)) = mmap (ssrc (t_x t0)) /\ adj (ssrc (t_x t)) = adj (ssrc (t_x t0));
  sc_source : ext (t_x t) = ext (t_x t0) /\ dext (t_x t) = dext (t_x t0) /\ implicit (t_x t) = implicit (t_x t0);
  sc_enter : forall g, g < ng (mat (ssrc (t_x t0))) -> same_incoming (t_b t0) (t_b t) g;
  sc_posed : all_wellposed w m (ng (mat (ssrc (t_x t0)))) nc t;
  sc_ready : eigen_ready nc t
}.
(** No group takes anything from those solved after it. *)
Definition solve_order (x : swp) (l : list nat) : Prop :=
  (forall g, In g l <-> g < ng (mat (ssrc x))) /\
  forall i j, i < j < length l -> takes_nothing x (nth i l 0) (nth j l 0).
(** In every group some of the collisions remove neutrons. *)
Definition all_damped (w : sweeper) (t : tstate) : Prop := forall g, g < ng (mat (ssrc (t_x t))) ->
  (exists r, damped w (t_x t) g (b_q (t_b t)) r) /\
  (eq_positive (w_eq w) = true \/ sig_ok true (group_grid (w_grid w) (ssrc (t_x t)) g)).
(** The multigroup solver finds the solution. *)
Definition exact (w : sweeper) (Inv : tstate -> Prop) (mg : tstate -> res tstate) : Prop :=
  forall t t', Inv t -> mg t = Ok t' -> mg_solution w t (phis t').

(** ** Where fission neutrons get to *)

(** Schemes that carry a positive flux into every cell downstream. *)
Definition eq_spreads (E : eqn) : bool := match E with Eq1 SD_1 => true | Eq1 SC_1 => true | Eq2 SD_2 => true | _ => false end.
(** Neutrons born in cell j get to group g, perhaps after scattering somewhere. *)
Inductive fed (x : src) (j : nat) : nat -> Prop :=
| fed_born g : g < ng (mat x) -> (0 < spectrum x g j)%R -> fed x j g
| fed_scattered g gp c : g < ng (mat x) -> gp < ng (mat x) -> c < cells x -> fed x j gp -> (0 < transfer_xs x c g gp)%R -> fed x j g.
(** A physical fission problem: nonnegative data, and the neutrons born in a
    fissile cell get to every group that causes fission. *)
Record chain (w : sweeper) (t : tstate) (x : src) : Prop := {
  ch_here : x = ssrc (t_x t);
  ch_forward : adj x = false;
  ch_scatter : forall c g gp, (0 <= transfer_xs x c g gp)%R;
  ch_chi : forall g k, (0 <= chi (mat x) g k)%R;
  ch_nsf : forall g k, (0 <= nsf (mat x) g k)%R;
  ch_weights : 0 < q_nao (b_q (t_b t)) /\ forall a, a < q_nao (b_q (t_b t)) -> (0 < weight (w_dirs w) a)%R;
  ch_fissile : exists c, c < cells x /\ fissile x c;
  ch_fed : forall j c g, j < cells x -> c < cells x -> g < ng (mat x) -> fissile x j -> (0 < nsf (mat x) g (mat_of x c))%R -> fed x j g
}.
(** k is an eigenvalue of the transport problem, with the nonnegative fission
    density V: the fluxes that solve the equations with the source V/k produce V. *)
Definition eigenpair (w : sweeper) (nc : nat) (t : tstate) (k : R) (V : nat -> R) : Prop :=
  (0 < k)%R /\ (forall c, c < nc -> (0 <= V c)%R) /\ (exists c, c < nc /\ (0 < V c)%R) /\
  exists q phi, shared_fission nc (ssrc (t_x t)) q /\
    (forall g c, g < ng (mat (ssrc (t_x t))) -> c < nc -> nth c (nth g (fsource q) []) 0%R = (1 / k * V c * spectrum (ssrc (t_x t)) g c)%R) /\
    mg_solution w (put_fission t q) phi /\ forall c, c < nc -> production (ssrc (t_x t)) phi c = V c.
