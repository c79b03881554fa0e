(** * Wg_Props *)
From Verif Require Import Base BaseR Loop Util_Model Mesh_Model Angle_Model Boundary_Model Boundary_Spec Boundary_Proofs Cell_Model Cell_Spec
  Material_Model Material_Spec Material_Proofs Source_Model Source_Spec Source_Proofs Sweep_Model Sweep_Spec Sweep_Proofs
  Iter_Model Iter_Spec Wg_Spec Iter_Proofs Wg_Proofs WgCase_Proofs.
Open Scope nat_scope.

(** C90 *)
Local Open Scope R_scope.
Theorem C90_system_partial :
  forall w m tol g t,
  wellposed w m g t -> open_boundary (t_b t) -> undirected (t_x t) g ->
  exists t1 r, build_rhs w tol g t = Ok (t1, r) /\ krylov_state w m g t t1 /\ length r = cells (ssrc (t_x t)) /\
  forall u x, krylov_state w m g t u -> length x = cells (ssrc (t_x t)) ->
  exists u' y, wg_multiply w g u x = Ok (u', y) /\ krylov_state w m g t u' /\ length y = cells (ssrc (t_x t)) /\
  (y = r <-> group_flux w (t_x t) g (phis t) (t_b t) x).
Proof. exact @krylov_undirected. Qed.
Print Assumptions C90_system_partial.
Theorem C90_directed :
  forall w m tol g t,
  wellposed w m g t -> open_boundary (t_b t) ->
  exists t1 r, build_rhs w tol g t = Ok (t1, r) /\ krylov_state w m g t t1 /\ length r = cells (ssrc (t_x t)) /\
  forall u x, krylov_state w m g t u -> length x = cells (ssrc (t_x t)) ->
  exists u' y, wg_multiply w g u x = Ok (u', y) /\ krylov_state w m g t u' /\ length y = cells (ssrc (t_x t)) /\
  (y = r <-> group_flux w (twice_directed (t_x t)) g (phis t) (t_b t) x).
Proof. exact @krylov_system. Qed.
Print Assumptions C90_directed.
Theorem C90_linear_partial :
  forall w m g t al u1 u2 u3 x1 x2 x3,
  open_boundary (t_b t) -> undirected (t_x t) g ->
  krylov_state w m g t u1 -> krylov_state w m g t u2 -> krylov_state w m g t u3 ->
  length x1 = cells (ssrc (t_x t)) -> length x2 = cells (ssrc (t_x t)) -> length x3 = cells (ssrc (t_x t)) ->
  (forall c, (c < cells (ssrc (t_x t)))%nat -> at_ x3 c = at_ x1 c + al * at_ x2 c) ->
  exists v1 v2 v3 y1 y2 y3, wg_multiply w g u1 x1 = Ok (v1, y1) /\ wg_multiply w g u2 x2 = Ok (v2, y2) /\ wg_multiply w g u3 x3 = Ok (v3, y3) /\
  length y3 = cells (ssrc (t_x t)) /\
  forall c, (c < cells (ssrc (t_x t)))%nat -> at_ y3 c = at_ y1 c + al * at_ y2 c.
Proof. exact @multiply_linear. Qed.
Print Assumptions C90_linear_partial.
Local Close Scope R_scope.
Theorem C90_refuted :
  exists w m g t, wellposed w m g t /\ open_boundary (t_b t) /\
  forall tol, exists t1 r x u y, build_rhs w tol g t = Ok (t1, r) /\ length x = cells (ssrc (t_x t)) /\ wg_multiply w g t1 x = Ok (u, y) /\
  y = r /\ ~ group_flux w (t_x t) g (phis t) (t_b t) x.
Proof. exact @directed_twice. Qed.
Print Assumptions C90_refuted.

(** ** Case: two cells, two groups with scattering both ways, an isotropic
    source, a given flux entering on the left. *)
Definition wg_raw : mtl :=
  run_ops (material_new 1 2) [Set_ FT 0 0 4%R; Set_ FT 0 1 6%R; SetS 0 0 1 1%R; SetS 0 1 0 2%R; SetS 0 0 0 3%R].
Definition wg_x : swp :=
  {| ssrc := {| cells := 2; mat := finalize wg_raw; mmap := [0; 0]; adj := false; flux := [[1; 2]; [3; 4]]%R |};
     ext := [fun c g => INR (c + g)]; dext := []; fiss := None; implicit := false; fixed := [7; 7]%R; scat := [8; 8]%R |}.
Definition wg_w (E : scheme1) : sweeper := {| w_eq := Eq1 E;
  w_grid := {| g_nx := 2; g_ny := 1; g_nz := 1; g_dx := [1; 2]%R; g_dy := []; g_dz := []; g_sig := [] |};
  w_dirs := [{| d_mu := 1/2; d_eta := 0; d_xi := 0; d_w := 1 |}]; w_keep := false; w_ord := [0; 1] |}.
Definition wg_t : tstate := {| t_b := boundary_new one_q 2 2 1 1 (fun s => if s =? 0 then Fixed (fun g _ _ => [[1 + INR g]]%R) else Vacuum);
  t_x := wg_x; t_psi := fun _ _ _ => []; t_sweeps := 0 |}.
Example C90_case E g : g < 2 -> wellposed (wg_w E) wg_raw g wg_t /\ open_boundary (t_b wg_t) /\ undirected (t_x wg_t) g /\
  krylov_state (wg_w E) wg_raw g wg_t wg_t.
Proof.
  intros G2. assert (W : wellposed (wg_w E) wg_raw g wg_t).
  { assert (G : g = 0 \/ g = 1) by lia. clear G2. split.
    - split; [|cbn; repeat split; try lia; try discriminate].
      split; [cbn; lia|]. split; [intros [|[|c]] Hc; cbn in *; lia|].
      split; [reflexivity|]. intros [|[|g0]] Hg; cbn in *; lia.
    - split; [reflexivity|]. cbn. repeat apply set_scatter_nonneg; try lra; try apply new_nonneg.
    - cbn; lia.
    - split; [|reflexivity]. repeat split; cbn; lia.
    - cbn. unfold grid_ok, sig_ok. cbn. repeat split; try lia; try (repeat constructor; lra).
      destruct G as [-> | ->]; repeat constructor; destruct (strict1 E); unfold set2; cbn; lra.
    - split; [reflexivity|]. unfold dir_ok. repeat constructor; cbn; try lra; intros; lia.
    - split; [apply (@new_shaped one_q 2 2 1 1)|]. split.
      + intros s psi io a Hs HB. cbn in HB. destruct s as [|s]; cbn in HB; inversion HB. reflexivity.
      + intros s s' _ _ HB. cbn in HB. destruct (s =? 0); discriminate.
    - apply Permutation_refl.
    - split; [destruct G as [-> | ->]; reflexivity|]. discriminate. }
  split; [exact W|]. split; [|split].
  - intros s _. cbn. destruct (s =? 0); split; discriminate.
  - intros angle c _. reflexivity.
  - apply state_refl. exact W.
Qed.
