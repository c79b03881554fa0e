(** * Wg_Spec: what the linear system of the within-group Krylov solvers must mean. *)
From Verif Require Import Base BaseR Angle_Model Boundary_Model Boundary_Spec Material_Model Source_Model Source_Spec Sweep_Model Sweep_Spec
  Iter_Model Iter_Spec.
Open Scope nat_scope.

(** b' is b with the entering fluxes of group g those of the conditions: the
    given ones on fixed sides, nothing elsewhere. *)
Definition given_entering (b b' : bsn) (g : nat) : Prop :=
  same_setup b b' /\
  (forall s l io o a psi, s < 2 * q_dim (b_q b) -> b_bc b s = Fixed psi -> incident_octant (b_q b) s = Ok l ->
     nth_error l io = Some o -> a < q_nao (b_q b) -> bflux b' s o a g = psi g io a) /\
  (forall s o a, valid b s o a g -> enters (q_dim (b_q b)) s o -> (forall psi, b_bc b s <> Fixed psi) ->
     bflux b' s o a g = map (map (fun _ => 0%R)) (bflux b s o a g)).
(** F is the flux of group g: it solves the transport equation with the source
    it makes itself through scattering (and fission), the other groups having the
    fluxes phi. *)
Definition group_flux (w : sweeper) (x : swp) (g : nat) (phi : list (list R)) (b : bsn) (F : list R) : Prop :=
  exists b', given_entering b b' g /\ transported w x g b' (with_group phi g F) F.
(** The same problem with every directional source counted twice. *)
Definition twice_directed (x : swp) : swp :=
  {| ssrc := ssrc x; ext := ext x; dext := dext x ++ dext x; fiss := fiss x; implicit := implicit x; fixed := fixed x; scat := scat x |}.
(** No source given per direction in group g. *)
Definition undirected (x : swp) (g : nat) : Prop := forall angle c, c < cells (ssrc x) -> discrete x g angle c = 0%R.
(** The states a Krylov solve of group g started in t goes through: the same
    problem, boundary conditions and fluxes of all groups. *)
Record krylov_state (w : sweeper) (m : mtl) (g : nat) (t u : tstate) : Prop := {
  ks_posed : wellposed w m g u;
  ks_problem : exists f s, t_x u = with_scat (with_fixed (t_x t) f) s;
  ks_boundary : same_setup (t_b t) (t_b u) /\
    (forall s o a g', valid (t_b t) s o a g' -> g' <> g -> bflux (t_b u) s o a g' = bflux (t_b t) s o a g')
}.
