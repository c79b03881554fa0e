(** * Mgk_Props *)
From Verif Require Import Base BaseR Loop Util_Model Mesh_Model Angle_Model Boundary_Model Boundary_Spec Boundary_Proofs Cell_Model Cell_Spec
  Material_Model Material_Spec Material_Proofs Source_Model Source_Spec Source_Proofs Sweep_Model Sweep_Spec Sweep_Proofs
  Iter_Model Iter_Spec Wg_Spec Iter_Proofs Wg_Proofs WgCase_Proofs Mgk_Model Mgk_Spec Mgk_Proofs MgkCase_Proofs.
Open Scope nat_scope.

(** C91 *)
Local Open Scope R_scope.
Theorem C91_system_partial :
  forall w m tol cutoff half t,
  cutoff_in (ssrc (t_x t)) cutoff -> (forall g, krylov_group (ssrc (t_x t)) cutoff g -> wellposed w m g t) ->
  open_boundary (t_b t) -> (forall g, (g < ng (mat (ssrc (t_x t))))%nat -> length (nth g (phis t) []) = cells (ssrc (t_x t))) -> length (phis t) = ng (mat (ssrc (t_x t))) ->
  reaches_cutoff (ssrc (t_x t)) cutoff ->
  let k := (block_size (ssrc (t_x t)) cutoff * cells (ssrc (t_x t)))%nat in let nb := mg_bsize half (t_b t) in
  exists t1 r, mg_rhs w tol nb cutoff t = Ok (t1, r) /\ mg_state w m cutoff t t1 /\ length r = k /\
  forall u x y0, mg_state w m cutoff t u -> length x = k -> length y0 = k ->
  exists u' y, mg_multiply w nb cutoff u x y0 = Ok (u', y) /\ mg_state w m cutoff t u' /\ length y = k /\
  (y = r <-> mg_flux w (t_x t) (t_b t) (krylov_group (ssrc (t_x t)) cutoff) (spread (ssrc (t_x t)) cutoff (phis t) x)).
Proof. exact @mg_system. Qed.
Print Assumptions C91_system_partial.
Theorem C91_complete :
  forall w m cutoff t u x,
  let y := ssrc (t_x t) in cutoff_in y cutoff -> length (phis t) = ng (mat y) -> mg_state w m cutoff t u ->
  length x = (block_size y cutoff * cells y)%nat ->
  mg_flux w (t_x t) (t_b t) (fun g => (g < ng (mat y))%nat /\ below y cutoff g = true) (phis t) ->
  (forall g gp, below y cutoff g = true -> krylov_group y cutoff gp -> takes_nothing (t_x t) g gp) ->
  mg_flux w (t_x t) (t_b t) (krylov_group y cutoff) (spread y cutoff (phis t) x) ->
  exists t', mg_copy cutoff u x = Ok t' /\ phis t' = spread y cutoff (phis t) x /\ mg_flux w (t_x t) (t_b t) (fun g => (g < ng (mat y))%nat) (phis t').
Proof. exact @mg_complete. Qed.
Print Assumptions C91_complete.
Local Close Scope R_scope.
Theorem C91_refuted :
  exists w m t cutoff, let y := ssrc (t_x t) in
  cutoff = upscatter_cutoff (mat y) (adj y) /\ cutoff_in y cutoff /\ (forall g, g < ng (mat y) -> wellposed w m g t) /\ open_boundary (t_b t) /\
  (forall g, g < ng (mat y) -> length (nth g (phis t) []) = cells y) /\ length (phis t) = ng (mat y) /\
  forall tol half, exists t1 r x u v, mg_rhs w tol (mg_bsize half (t_b t)) cutoff t = Ok (t1, r) /\ length x = block_size y cutoff * cells y /\
  mg_multiply w (mg_bsize half (t_b t)) cutoff t1 x x = Ok (u, v) /\
  mg_flux w (t_x t) (t_b t) (krylov_group y cutoff) (spread y cutoff (phis t) x) /\ v <> r.
Proof. exact @stale_entry. Qed.
Print Assumptions C91_refuted.

(** ** Case: two cells, three groups, scattering down into group 1 and both ways
    between groups 1 and 2, so the block starts at group 1; isotropic and
    directional sources, a given flux entering on the left. *)
Definition mk_raw : mtl :=
  run_ops (material_new 1 3) [Set_ FT 0 0 4%R; Set_ FT 0 1 6%R; Set_ FT 0 2 5%R; SetS 0 0 0 1%R; SetS 0 1 0 1%R; SetS 0 1 2 1%R; SetS 0 2 1 1%R].
Definition mk_x : swp :=
  {| ssrc := {| cells := 2; mat := finalize mk_raw; mmap := [0; 0]; adj := false; flux := [[1; 2]; [3; 4]; [5; 6]]%R |};
     ext := [fun c g => INR (c + g)]; dext := [fun c g a => INR (c + g + a)]; fiss := None; implicit := false; fixed := [7; 7]%R; scat := [8; 8]%R |}.
Definition mk_w (E : scheme1) : sweeper := {| w_eq := Eq1 E;
  w_grid := {| g_nx := 2; g_ny := 1; g_nz := 1; g_dx := [1; 2]%R; g_dy := []; g_dz := []; g_sig := [] |};
  w_dirs := [{| d_mu := 1/2; d_eta := 0; d_xi := 0; d_w := 1 |}]; w_keep := false; w_ord := [0; 1] |}.
Definition mk_t : tstate := {| t_b := boundary_new one_q 3 2 1 1 (fun s => if s =? 0 then Fixed (fun g _ _ => [[1 + INR g]]%R) else Vacuum);
  t_x := mk_x; t_psi := fun _ _ _ => []; t_sweeps := 0 |}.
Example C91_case E : let y := ssrc (t_x mk_t) in upscatter_cutoff (mat y) (adj y) = 1 /\ cutoff_in y 1 /\
  (forall g, g < 3 -> wellposed (mk_w E) mk_raw g mk_t) /\ open_boundary (t_b mk_t) /\
  (forall g, g < 3 -> length (nth g (phis mk_t) []) = cells y) /\ length (phis mk_t) = 3 /\ reaches_cutoff y 1 /\ block_size y 1 = 2 /\
  (forall g gp, below y 1 g = true -> krylov_group y 1 gp -> takes_nothing (t_x mk_t) g gp).
Proof.
  intros y. split; [unfold y, upscatter_cutoff, mk_t, mk_x, mk_raw; repeat crunch; reflexivity|]. split; [cbn; lia|].
  split; [|split; [|split; [|split; [|split; [|split]]]]].
  - intros g G3. assert (G : g = 0 \/ g = 1 \/ g = 2) by lia. clear G3. split.
    + split; [|cbn; repeat split; try lia; try discriminate].
      split; [cbn; lia|]. split; [intros [|[|c]] Hc; cbn in *; lia|].
      split; [reflexivity|]. intros [|[|[|g0]]] Hg; cbn in *; lia.
    + split; [reflexivity|]. cbn. repeat apply set_scatter_nonneg; try lra; try apply new_nonneg.
    + cbn; lia.
    + split; [|reflexivity]. repeat split; cbn; lia.
    + cbn. unfold grid_ok, sig_ok. cbn. repeat split; try lia; try (repeat constructor; lra).
      destruct G as [-> | [-> | ->]]; repeat constructor; destruct (strict1 E); unfold set2; cbn; lra.
    + split; [reflexivity|]. unfold dir_ok. repeat constructor; cbn; try lra; intros; lia.
    + split; [apply (@new_shaped one_q 3 2 1 1)|]. split.
      * intros s psi io a Hs HB. cbn in HB. destruct s as [|s]; cbn in HB; inversion HB. reflexivity.
      * intros s s' _ _ HB. cbn in HB. destruct (s =? 0); discriminate.
    + apply Permutation_refl.
    + split; [destruct G as [-> | [-> | ->]]; reflexivity|]. discriminate.
  - intros s _. cbn. destruct (s =? 0); split; discriminate.
  - intros [|[|[|g]]] Hg; cbn; lia.
  - reflexivity.
  - intros g (Hg & HB). unfold below in HB. cbn [adj ssrc t_x mk_t mk_x y] in *. apply Nat.ltb_ge in HB. change (ng (mat _)) with 3 in Hg.
    assert (G : g = 1 \/ g = 2) by lia. destruct G as [-> | ->]; unfold lo, y, mk_t, mk_x, mk_raw; repeat crunch; lia.
  - reflexivity.
  - intros g gp HB (Hg & HB'). unfold below in *. cbn [adj ssrc t_x mk_t mk_x y] in *. apply Nat.ltb_ge in HB'. apply Nat.ltb_lt in HB. change (ng (mat _)) with 3 in Hg.
    assert (g = 0) by lia. subst g. intros c Hc. split; [|discriminate]. change (cells _) with 2 in Hc.
    assert (C : c = 0 \/ c = 1) by lia. assert (G : gp = 1 \/ gp = 2) by lia. destruct C as [-> | ->]; destruct G as [-> | ->]; reflexivity.
Qed.
