(** * Iter_Spec: what the iterations must reach, independent of their loops. *)
From Verif Require Import Base BaseR Util_Model Angle_Model Angle_Spec Boundary_Model Boundary_Spec Mesh_Model Material_Model
  Source_Model Source_Spec Cell_Spec Sweep_Model Sweep_Spec Iter_Model.
Open Scope nat_scope.
Notation bflux := Boundary_Spec.flux.

(** ** The transport equation of one group *)

(** The solid angle the weights of a quadrature add up to. *)
Definition solid_angle (dim : nat) : R := if dim =? 1 then 2%R else (4 * PI)%R.
(** The source of group g in a cell and direction when the fluxes are [phi]:
    external, fission and scattering sources spread evenly over all directions,
    plus the sources given per direction. *)
Definition emission (x : swp) (phi : list (list R)) (dim g angle c : nat) : R :=
  ((external x g c + explicit_fission x g c +
    (match fiss x with
     | Some q => if implicit x then fscale q * fission_sum (ssrc x) phi all_groups g c else 0
     | None => 0 end) +
    scatter_sum (ssrc x) phi all_groups g c) / solid_angle dim + discrete x g angle c)%R.
Definition emissions (x : swp) (phi : list (list R)) (q : quad) (g : nat) : nat -> nat -> list R := fun o a =>
  map (emission x phi (q_dim q) g (Angle_Model.index q o a)) (seq 0 (cells (ssrc x))).
(** The mesh with the total cross section of each cell's material. *)
Definition group_grid (G : grid) (x : src) (g : nat) : grid :=
  {| g_nx := g_nx G; g_ny := g_ny G; g_nz := g_nz G; g_dx := g_dx G; g_dy := g_dy G; g_dz := g_dz G;
     g_sig := map (fun c => st (mat x) g (mat_of x c)) (seq 0 (cells x)) |}.
(** The discretised equation along one direction. *)
Definition equation (E : eqn) (G : grid) (ds : list dir) (src : nat -> nat -> list R) : relation :=
  match E with Eq1 e => solution1 e G ds src | Eq2 e => solution2 e G ds src | Eq3 => solution3 G ds src end.
Definition eq_dim (E : eqn) : nat := match E with Eq1 _ => 1 | Eq2 _ => 2 | Eq3 => 3 end.
Definition eq_strict (E : eqn) : bool := match E with Eq1 e => strict1 e | Eq2 e => strict2 e | Eq3 => false end.
(** The fluxes [phi] with those of group g replaced. *)
Definition with_group (phi : list (list R)) (g : nat) (f : list R) : list (list R) :=
  map (fun gp => if gp =? g then f else nth gp phi []) (seq 0 (length phi)).

(** f is the flux of group g when the angular fluxes P solve the equations with
    the source made by the fluxes [phi] and the boundary fluxes in b. *)
Definition transported (w : sweeper) (x : swp) (g : nat) (b : bsn) (phi : list (list R)) (f : list R) : Prop :=
  exists P : nat -> nat -> nat -> R,
  (forall o a, o < q_noct (b_q b) -> a < q_nao (b_q b) ->
    equation (w_eq w) (group_grid (w_grid w) (ssrc x) g) (w_dirs w) (emissions x phi (b_q b) g) o a
      (ins_of b o a g) (outs_of b o a g) (P o a)) /\
  length f = cells (ssrc x) /\
  forall c, c < cells (ssrc x) ->
    at_ f c = rsum (q_noct (b_q b)) (fun o => rsum (q_nao (b_q b)) (fun a => weight (w_dirs w) a * P o a c)%R).

(** ** A well-posed group solve *)

(** The fluxes given on fixed boundaries have the shape of the boundary
    (FixedBoundary.i.hh 23-27 copies it). *)
Definition fixed_shaped (b : bsn) (nx ny nz g : nat) : Prop :=
  forall s psi io a, s < 2 * q_dim (b_q b) -> b_bc b s = Fixed psi -> io < 2 ^ (q_dim (b_q b) - 1) -> a < q_nao (b_q b) ->
  map (@length R) (psi g io a) = repeat (face_cols (q_dim (b_q b)) nx ny nz s) (face_rows (q_dim (b_q b)) nx ny nz s).
Record wellposed (w : sweeper) (m : mtl) (g : nat) (t : tstate) : Prop := {
  wp_ready : sweep_ready (t_x t);
  wp_mat : mat (ssrc (t_x t)) = finalize m /\ nonneg_scatter m;
  wp_group : g < ng (mat (ssrc (t_x t))) /\ g < b_ng (t_b t);
  wp_quad : sn_quad (b_q (t_b t)) /\ eq_dim (w_eq w) = q_dim (b_q (t_b t));
  wp_grid : grid_ok (q_dim (b_q (t_b t))) (group_grid (w_grid w) (ssrc (t_x t)) g) /\
    sig_ok (eq_strict (w_eq w)) (group_grid (w_grid w) (ssrc (t_x t)) g) /\
    cells (ssrc (t_x t)) = cells_of (q_dim (b_q (t_b t))) (w_grid w) /\ 0 < cells (ssrc (t_x t));
  wp_dirs : dirs_ok (q_dim (b_q (t_b t))) (q_nao (b_q (t_b t))) (w_dirs w);
  wp_boundary : shaped (t_b t) (g_nx (w_grid w)) (g_ny (w_grid w)) (g_nz (w_grid w)) /\
    fixed_shaped (t_b t) (g_nx (w_grid w)) (g_ny (w_grid w)) (g_nz (w_grid w)) g /\
    (forall s s', s < 2 * q_dim (b_q (t_b t)) -> opposite s s' -> b_bc (t_b t) s = Periodic -> b_bc (t_b t) s' = Periodic);
  wp_order : Permutation (w_ord w) (seq 0 (q_noct (b_q (t_b t))));
  wp_flux : length (nth g (phis t) []) = cells (ssrc (t_x t)) /\
    (forall o a, w_keep w = true -> length (t_psi t g o a) = cells (ssrc (t_x t)))
}.

(** Two fluxes agree to within tol in every cell. *)
Definition within (tol : R) (f f' : list R) : Prop :=
  length f = length f' /\ forall c, c < length f -> (Rabs (at_ f c - at_ f' c) < tol)%R.

(** One transport solve of group g: the source is made by the fluxes [phi], the
    boundary goes from b to b', the new flux is f. *)
Record solved (w : sweeper) (x : swp) (g : nat) (phi : list (list R)) (b b' : bsn) (f : list R) : Prop := {
  so_setup : same_setup b b';
  so_flux : transported w x g b' phi f;
  so_other : forall s o a g', valid b s o a g' -> g' <> g -> bflux b' s o a g' = bflux b s o a g';
  so_plain : forall s o a, valid b s o a g -> enters (q_dim (b_q b)) s o ->
    b_bc b s <> Reflect /\ b_bc b s <> Periodic -> bflux b' s o a g = bflux b s o a g;
  so_reflect : forall s o o' a, valid b s o a g -> enters (q_dim (b_q b)) s o -> b_bc b s = Reflect ->
    mirrored (q_dim (b_q b)) s o o' ->
    (precedes (w_ord w) o' o -> bflux b' s o a g = bflux b' s o' a g) /\
    (precedes (w_ord w) o o' -> bflux b' s o a g = bflux b s o' a g);
  so_periodic : forall s s' o a, valid b s o a g -> leaves (q_dim (b_q b)) s o -> opposite s s' ->
    b_bc b s = Periodic -> bflux b' s' o a g = bflux b s o a g
}.

(** b' is b with the given fluxes set on the fixed sides. *)
Definition fixed_set_to (b b' : bsn) (g : nat) : Prop :=
  same_setup b b' /\
  (forall s l io o a psi, s < 2 * q_dim (b_q b) -> b_bc b s = Fixed psi -> incident_octant (b_q b) s = Ok l ->
     nth_error l io = Some o -> a < q_nao (b_q b) -> bflux b' s o a g = psi g io a) /\
  (forall s o a g', valid b s o a g' -> g' <> g \/ leaves (q_dim (b_q b)) s o \/ (forall psi, b_bc b s <> Fixed psi) ->
     bflux b' s o a g' = bflux b s o a g').

(** ** Source iteration: n solves, the i-th from flux F i and boundary B i *)
Record iterated (w : sweeper) (tol : R) (max g : nat) (t t' : tstate) (n : nat) (B : nat -> bsn) (F : nat -> list R) : Prop := {
  it_start : F 0 = nth g (phis t) [] /\ fixed_set_to (t_b t) (B 0) g;
  it_result : nth g (phis t') [] = F n /\ t_b t' = B n;
  it_others : length (phis t') = length (phis t) /\ forall gp, gp <> g -> nth gp (phis t') [] = nth gp (phis t) [];
  it_problem : exists f s, t_x t' = with_phis (with_scat (with_fixed (t_x t) f) s) (phis t');
  it_sweeps : t_sweeps t' = t_sweeps t + n /\ n <= max;
  (** every iterate solves the transport equation with the scattering source of the one before *)
  it_step : forall i, i < n -> solved w (t_x t) g (with_group (phis t) g (F i)) (B i) (B (S i)) (F (S i));
  (** it stops as soon as two iterates agree *)
  it_stop : forall i, S i < n -> ~ within tol (F i) (F (S i));
  it_early : n < max -> 0 < n /\ within tol (F (n - 1)) (F n)
}.

(** ** Sizes of fluxes *)

(** The sum over all cells, weighted by the cell volumes. *)
Definition total (dim : nat) (G : grid) (f : nat -> R) : R :=
  rsum (g_nx G) (fun i => rsum (if 1 <? dim then g_ny G else 1) (fun j => rsum (if 2 <? dim then g_nz G else 1) (fun k =>
    at_ (g_dx G) i * (if 1 <? dim then at_ (g_dy G) j else 1) * (if 2 <? dim then at_ (g_dz G) k else 1) *
    f (Mesh_Model.index (g_nx G) (g_ny G) i j k))))%R.
(** Every cell within M. *)
Definition bounded (n : nat) (f f' : list R) (M : R) : Prop := forall c, c < n -> (Rabs (at_ f c - at_ f' c) <= M)%R.
(** The square of the distance in the norm weighted by the total cross section. *)
Definition energy (dim : nat) (G : grid) (f f' : list R) : R :=
  total dim G (fun c => at_ (g_sig G) c * (at_ f c - at_ f' c) * (at_ f c - at_ f' c))%R.
(** Schemes that cannot turn nonnegative data into negative fluxes, and schemes
    whose cell balance closes with averages of the face fluxes. *)
Definition eq_positive (E : eqn) : bool :=
  match E with Eq1 DD_1 => false | Eq2 DD_2 => false | Eq3 => false | _ => true end.
Definition eq_averaging (E : eqn) : bool :=
  match E with Eq1 SC_1 => false | Eq2 SC_2 => false | _ => true end.

(** ** Convergence of source iteration *)

(** No side returns what leaves through it. *)
Definition open_boundary (b : bsn) : Prop := forall s, s < 2 * q_dim (b_q b) -> b_bc b s <> Reflect /\ b_bc b s <> Periodic.
Definition same_incoming (b b' : bsn) (g : nat) : Prop :=
  same_setup b b' /\ forall s o a, valid b s o a g -> enters (q_dim (b_q b)) s o -> bflux b' s o a g = bflux b s o a g.
(** F is the flux of group g in the problem x when the other groups have the
    fluxes in phi and b holds the entering fluxes. *)
Definition group_solution (w : sweeper) (x : swp) (g : nat) (phi : list (list R)) (b : bsn) (F : list R) : Prop :=
  exists b', same_incoming b b' g /\ transported w x g b' (with_group phi g F) F.
(** Neutrons a cell returns to the group per flux and volume. *)
Definition self_transfer (x : swp) (g c : nat) : R :=
  (transfer_xs (ssrc x) c g g +
   match fiss x with Some q => if implicit x then fscale q * fission_xs (ssrc x) c g g else 0 | None => 0 end)%R.
(** At most a fraction r of the collisions does, and the quadrature weights are
    nonnegative with the right sum. *)
Record damped (w : sweeper) (x : swp) (g : nat) (q : quad) (r : R) : Prop := {
  da_ratio : (0 <= r < 1)%R;
  da_cells : forall c, c < cells (ssrc x) -> (Rabs (self_transfer x g c) <= r * st (mat (ssrc x)) g (mat_of (ssrc x) c))%R;
  da_weights : forall a, a < q_nao q -> (0 <= weight (w_dirs w) a)%R;
  da_total : rsum (q_noct q) (fun _ => rsum (q_nao q) (weight (w_dirs w))) = solid_angle (q_dim q)
}.

(** ** Multigroup Gauss-Seidel *)

(** Only the flux of group g changed. *)
Definition only_group (g : nat) (t t' : tstate) : Prop :=
  length (phis t') = length (phis t) /\ forall gp, gp <> g -> nth gp (phis t') [] = nth gp (phis t) [].
(** A solver for the groups below n: keeps [Inv], changes only the flux of its
    group, and makes [Sol] hold between the states before and after. *)
Definition group_solver (n : nat) (Inv : tstate -> Prop) (Sol : nat -> tstate -> tstate -> Prop) (wg : nat -> tstate -> res tstate) : Prop :=
  forall g t, Inv t -> g < n -> exists t', wg g t = Ok t' /\ Inv t' /\ only_group g t t' /\ Sol g t t'.
(** The groups gs solved one after the other: the source of each is made from
    the new fluxes of those before it and the old fluxes of those after it. *)
Record in_order (Sol : nat -> tstate -> tstate -> Prop) (gs : list nat) (t t' : tstate) (T : nat -> tstate) : Prop := {
  io_ends : T 0 = t /\ T (length gs) = t';
  io_solve : forall i, i < length gs -> Sol (nth i gs 0) (T i) (T (S i));
  io_mix : forall i gp, i <= length gs -> nth gp (phis (T i)) [] = nth gp (phis (if in_dec Nat.eq_dec gp (firstn i gs) then t' else t)) []
}.
(** k passes over the block after one over all groups. *)
Record gs_history (Sol : nat -> tstate -> tstate -> Prop) (p : gs) (t t' : tstate) (k : nat) (P : nat -> tstate) : Prop := {
  gh_first : exists T, in_order Sol (gs_groups (gs_lower p) (gs_upper p)) t (P 0) T;
  gh_pass : forall i, i < k -> exists T, in_order Sol (gs_groups (gs_lower_up p) (gs_upper p)) (P i) (P (S i)) T;
  gh_last : P k = t';
  gh_limit : k <= gs_max p /\ (gs_iterate p = false -> k = 0);
  gh_early : gs_iterate p = true -> k < gs_max p ->
    0 < k /\ forall g, In g (gs_groups (gs_lower_up p) (gs_upper p)) -> within (gs_tol p) (nth g (phis (P k)) []) (nth g (phis (P (k - 1))) []);
  gh_go : gs_norm p = Linf -> forall i, S i < k ->
    ~ (forall g, In g (gs_groups (gs_lower_up p) (gs_upper p)) -> within (gs_tol p) (nth g (phis (P (S i))) []) (nth g (phis (P i)) []))
}.
(** What enters through the sides of b' in group g: the given fluxes on fixed
    sides, and on the other sides that return nothing what enters in b. *)
Definition entering (b b' : bsn) (g : nat) : Prop :=
  same_setup b b' /\
  (forall s l io o a psi, s < 2 * q_dim (b_q b) -> b_bc b s = Fixed psi -> incident_octant (b_q b) s = Ok l ->
     nth_error l io = Some o -> a < q_nao (b_q b) -> g < b_ng b -> bflux b' s o a g = psi g io a) /\
  (forall s o a, valid b s o a g -> enters (q_dim (b_q b)) s o -> b_bc b s <> Reflect -> b_bc b s <> Periodic ->
     (forall psi, b_bc b s <> Fixed psi) -> bflux b' s o a g = bflux b s o a g).
(** The iterations of a group solve ended before their limit. *)
Definition stopped (w : sweeper) (tol : R) (max g : nat) (t t' : tstate) : Prop :=
  exists n B F, iterated w tol max g t t' n B F /\ n < max.
(** phi agrees with phi' to within tol in group g and tol' in the others. *)
Definition near (tol tol' : R) (g : nat) (phi phi' : list (list R)) : Prop :=
  length phi = length phi' /\ forall gp, gp < length phi -> nth gp phi [] = nth gp phi' [] \/
    within (if gp =? g then tol else tol') (nth gp phi []) (nth gp phi' []).
(** Group g takes nothing from group gp. *)
Definition takes_nothing (x : swp) (g gp : nat) : Prop := forall c, c < cells (ssrc x) ->
  transfer_xs (ssrc x) c g gp = 0%R /\ (implicit x = true -> fission_xs (ssrc x) c g gp = 0%R).
(** The groups iterated on. *)
Definition block (p : gs) : list nat := if gs_iterate p then gs_groups (gs_lower_up p) (gs_upper p) else [].
(** The other groups come first and take nothing from groups solved after them. *)
Definition decoupled (x : swp) (p : gs) : Prop := let l := gs_groups (gs_lower p) (gs_upper p) in
  forall i, i < length l -> ~ In (nth i l 0) (block p) ->
  (forall j, j < i -> ~ In (nth j l 0) (block p)) /\
  forall j, i < j < length l -> takes_nothing x (nth i l 0) (nth j l 0).
(** The groups are those below n, and the block is among them. *)
Definition group_lists (n : nat) (p : gs) : Prop :=
  NoDup (gs_groups (gs_lower p) (gs_upper p)) /\ (forall g, In g (gs_groups (gs_lower p) (gs_upper p)) <-> g < n) /\
  NoDup (gs_groups (gs_lower_up p) (gs_upper p)) /\ Forall (fun g => g < n) (gs_groups (gs_lower_up p) (gs_upper p)).
(** Source iteration on every group of a well-posed problem. *)
Definition all_wellposed (w : sweeper) (m : mtl) (n nc : nat) (t : tstate) : Prop :=
  ng (mat (ssrc (t_x t))) = n /\ cells (ssrc (t_x t)) = nc /\ forall g, g < n -> wellposed w m g t.
(** The problem the multigroup solver works on: a multiplying problem has its
    fission source scaled by 1/keff. *)
Definition started (p : gs) (keff : R) (t t0 : tstate) : Prop :=
  if gs_multiply p then exists q q', fiss (t_x t) = Some q /\ fis_setup_outer q (1 / keff)%R = Ok q' /\ t0 = put_fission t q'
  else t0 = t.
