(** * Iter_Props *)
From Verif Require Import Base BaseR Loop Util_Model Mesh_Model Angle_Model Boundary_Model Boundary_Spec Boundary_Proofs Cell_Model Cell_Spec
  Material_Model Material_Spec Material_Proofs Source_Model Source_Spec Source_Proofs Sweep_Model Sweep_Spec Sweep_Proofs
  Iter_Model Iter_Spec Iter_Proofs IterConv_Proofs Gs_Proofs.
Open Scope nat_scope.

(** C59 *)
Theorem C59_iterates :
  forall w m tol max g t,
  wellposed w m g t ->
  exists t' n B F, si_solve w tol max g t = Ok t' /\ iterated w tol max g t t' n B F.
Proof. exact @si_ok. Qed.
Print Assumptions C59_iterates.
Theorem C59_no_iterations : forall w m tol g t, wellposed w m g t -> exists t', si_solve w tol 0 g t = Ok t' /\
  nth g (phis t') [] = nth g (phis t) [] /\ t_sweeps t' = t_sweeps t.
Proof. exact @si_none. Qed.
Print Assumptions C59_no_iterations.

(** C86 *)
Theorem C86_one_solution : forall w m g t r, wellposed w m g t -> open_boundary (t_b t) -> damped w (t_x t) g (b_q (t_b t)) r ->
  forall b0, eq_positive (w_eq w) = true \/ sig_ok true (group_grid (w_grid w) (ssrc (t_x t)) g) -> fixed_set_to (t_b t) b0 g ->
  exists F, group_solution w (t_x t) g (phis t) b0 F /\ forall F', group_solution w (t_x t) g (phis t) b0 F' -> F' = F.
Proof. exact @one_solution. Qed.
Print Assumptions C86_one_solution.
Theorem C86_error_max : forall w m g t r, wellposed w m g t -> open_boundary (t_b t) -> damped w (t_x t) g (b_q (t_b t)) r ->
  forall tol max t' k B F Fs M, eq_positive (w_eq w) = true -> iterated w tol max g t t' k B F ->
  group_solution w (t_x t) g (phis t) (B 0) Fs -> bounded (cells (ssrc (t_x t))) (F 0) Fs M ->
  (forall i, i <= k -> bounded (cells (ssrc (t_x t))) (F i) Fs (r ^ i * M)%R) /\
  (k < max -> bounded (cells (ssrc (t_x t))) (nth g (phis t') []) Fs (r / (1 - r) * tol)%R).
Proof. exact @si_error_max. Qed.
Print Assumptions C86_error_max.
Theorem C86_error_energy : forall w m g t r, wellposed w m g t -> open_boundary (t_b t) -> damped w (t_x t) g (b_q (t_b t)) r ->
  forall tol max t' k B F Fs, eq_averaging (w_eq w) = true -> sig_ok true (group_grid (w_grid w) (ssrc (t_x t)) g) ->
  iterated w tol max g t t' k B F -> group_solution w (t_x t) g (phis t) (B 0) Fs ->
  let E := energy (q_dim (b_q (t_b t))) (group_grid (w_grid w) (ssrc (t_x t)) g) in
  (forall i, i <= k -> (E (F i) Fs <= (r * r) ^ i * E (F 0%nat) Fs)%R) /\
  (k < max -> (E (nth g (phis t') []) Fs <= (r / (1 - r) * tol) * (r / (1 - r) * tol) *
     total (q_dim (b_q (t_b t))) (group_grid (w_grid w) (ssrc (t_x t)) g) (at_ (g_sig (group_grid (w_grid w) (ssrc (t_x t)) g))))%R).
Proof. exact @si_error_energy. Qed.
Print Assumptions C86_error_energy.
Theorem C86_stops : forall w m g t r, wellposed w m g t -> open_boundary (t_b t) -> damped w (t_x t) g (b_q (t_b t)) r ->
  forall tol, eq_positive (w_eq w) = true \/ sig_ok true (group_grid (w_grid w) (ssrc (t_x t)) g) -> (0 < tol)%R ->
  exists K, forall max, K <= max ->
  exists t' k B F, si_solve w tol max g t = Ok t' /\ iterated w tol max g t t' k B F /\ k <= K.
Proof. exact @si_stops. Qed.
Print Assumptions C86_stops.

(** C87 *)
Theorem C87_order : forall n nc Inv Sol wg, group_solver n Inv Sol wg -> 0 < nc ->
  (forall t, Inv t -> length (phis t) = n /\ forall g, g < n -> length (nth g (phis t) []) = nc) ->
  forall p keff ts t, started p keff ts t -> gs_norm p <> BadFlag -> 0 < n -> group_lists n p ->
  (gs_norm p = Linf -> (0 < gs_tol p)%R) -> ng (mat (ssrc (t_x t))) = n -> Inv t ->
  exists t' k P, gs_solve wg p keff ts = Ok t' /\ gs_history Sol p t t' k P /\ forall i, i <= k -> Inv (P i).
Proof. exact @gs_generic. Qed.
Print Assumptions C87_order.
Theorem C87_solution :
  forall w m tol max p keff ts t nc,
  started p keff ts t -> gs_norm p <> BadFlag -> 0 < ng (mat (ssrc (t_x t))) ->
  group_lists (ng (mat (ssrc (t_x t)))) p -> (gs_norm p = Linf -> (0 < gs_tol p)%R) ->
  all_wellposed w m (ng (mat (ssrc (t_x t)))) nc t -> decoupled (t_x t) p ->
  exists t' k P, gs_solve (si_solve w tol max) p keff ts = Ok t' /\ gs_history (si_sol w tol max) p t t' k P /\
    (gs_history (stopped w tol max) p t t' k P -> (gs_iterate p = true -> k < gs_max p) -> forall g, g < ng (mat (ssrc (t_x t))) ->
     exists phi b', near tol (gs_tol p) g phi (phis t') /\ entering (t_b t) b' g /\ transported w (t_x t) g b' phi (nth g (phis t') [])).
Proof. exact @gs_converged. Qed.
Print Assumptions C87_solution.
Theorem C87_groups :
  forall m adjoint multiply down f max tol,
  0 < ng m ->
  upscatter_cutoff m adjoint <= ng m -> (adjoint = true -> upscatter_cutoff m adjoint < ng m) ->
  let p := gs_new m adjoint multiply down f max tol in
  gs_groups (gs_lower p) (gs_upper p) = (if adjoint then rev (seq 0 (ng m)) else seq 0 (ng m)) /\
  (multiply = false -> gs_groups (gs_lower_up p) (gs_upper p) =
     if adjoint then rev (seq 0 (S (upscatter_cutoff m adjoint)))
     else seq (upscatter_cutoff m adjoint) (ng m - upscatter_cutoff m adjoint)) /\
  (multiply = true -> gs_lower_up p = gs_lower p) /\
  group_lists (ng m) p.
Proof. exact @new_groups. Qed.
Print Assumptions C87_groups.
Theorem C87_decoupled :
  forall nmat ngrp l x f max tol,
  forallb plain l = true ->
  mat (ssrc x) = finalize (run_ops (material_new nmat ngrp) l) -> nonneg_scatter (run_ops (material_new nmat ngrp) l) ->
  problem (ssrc x) -> implicit x = false -> 0 < ngrp -> 0 < max ->
  let m := mat (ssrc x) in let p := gs_new m (adj (ssrc x)) false (downscatter m false) f max tol in
  ng m = ngrp /\ group_lists ngrp p /\ decoupled x p.
Proof. exact @fresh_decoupled. Qed.
Print Assumptions C87_decoupled.

(** ** Cases *)
(** Two cells, two groups with upscatter, an isotropic and a directional source, one direction per half space. *)
Definition case_raw : mtl :=
  run_ops (material_new 1 2) [Set_ FT 0 0 4%R; Set_ FT 0 1 6%R; SetS 0 0 1 1%R; SetS 0 1 0 2%R; SetS 0 0 0 3%R].
Definition case_x : swp :=
  {| ssrc := {| cells := 2; mat := finalize case_raw; mmap := [0; 0]; adj := false; flux := [[1; 2]; [3; 4]]%R |};
     ext := [fun c g => INR (c + g)]; dext := [fun c g a => INR a]; fiss := None; implicit := false; fixed := [7; 7]%R; scat := [8; 8]%R |}.
Definition case_q : quad :=
  match quad_new 1 2 with Ok q => q | _ => {| q_dim := 0; q_nang := 0; q_noct := 0; q_nao := 0; q_wt := []; q_mu := []; q_eta := [];
    q_xi := []; q_sign := []; q_inc := []; q_out := []; q_adj := false |} end.
Definition case_w (E : scheme1) : sweeper := {| w_eq := Eq1 E;
  w_grid := {| g_nx := 2; g_ny := 1; g_nz := 1; g_dx := [1; 2]%R; g_dy := []; g_dz := []; g_sig := [] |};
  w_dirs := [{| d_mu := 1/2; d_eta := 0; d_xi := 0; d_w := 1 |}]; w_keep := false; w_ord := [0; 1] |}.
(** A given flux enters on the left, nothing returns on the right. *)
Definition case_t : tstate := {| t_b := boundary_new case_q 2 2 1 1 (fun s => if s =? 0 then Fixed (fun g _ _ => [[1 + INR g]]%R) else Vacuum);
  t_x := case_x; t_psi := fun _ _ _ => []; t_sweeps := 0 |}.
Lemma case_wellposed E g : g < 2 -> wellposed (case_w E) case_raw g case_t.
Proof.
  intros G2. assert (G : g = 0 \/ g = 1) by lia. clear G2. split.
  - split; [|cbn; repeat split; try lia; try discriminate].
    split; [cbn; lia|]. split; [intros [|[|c]] Hc; cbn in *; lia|].
    split; [reflexivity|]. intros [|[|g0]] Hg; cbn in *; lia.
  - split; [reflexivity|]. cbn. repeat apply set_scatter_nonneg; try lra; try apply new_nonneg.
  - cbn; lia.
  - split; [|reflexivity]. repeat split; cbn; lia.
  - cbn. unfold grid_ok, sig_ok. cbn. repeat split; try lia; try (repeat constructor; lra).
    destruct G as [-> | ->]; repeat constructor; destruct (strict1 E); unfold set2; cbn; lra.
  - split; [reflexivity|]. unfold dir_ok. repeat constructor; cbn; try lra; intros; lia.
  - split; [apply (@new_shaped case_q 2 2 1 1)|]. split.
    + intros s psi io a Hs HB. cbn in HB. destruct s as [|s]; cbn in HB; inversion HB. reflexivity.
    + intros s s' _ _ HB. cbn in HB. destruct (s =? 0); discriminate.
  - apply Permutation_refl.
  - split; [destruct G as [-> | ->]; reflexivity|]. discriminate.
Qed.
Example C59_case E : wellposed (case_w E) case_raw 0 case_t.
Proof. apply case_wellposed. lia. Qed.
Example C86_case E : open_boundary (t_b case_t) /\ damped (case_w E) (t_x case_t) 0 (b_q (t_b case_t)) (3/4) /\
  sig_ok true (group_grid (w_grid (case_w E)) (ssrc (t_x case_t)) 0).
Proof.
  split; [|split].
  - intros s _. cbn. destruct (s =? 0); split; discriminate.
  - split.
    + lra.
    + intros [|[|c]] Hc; try (cbn in Hc; lia); unfold self_transfer, transfer_xs, mat_of; cbn; unfold set3, set2; cbn;
        rewrite Rabs_right; lra.
    + intros [|a] Ha; cbn in *; [lra|lia].
    + cbn. unfold rsum, solid_angle. cbn. unfold weight. cbn. lra.
  - unfold sig_ok. cbn. repeat constructor; unfold set2; cbn; lra.
Qed.

(** Both groups are iterated on, as there is upscatter. *)
Definition case_p : gs := gs_new (finalize case_raw) false false (downscatter (finalize case_raw) false) Linf 10 (1/100).
Example C87_case E : all_wellposed (case_w E) case_raw 2 2 case_t /\ group_lists 2 case_p /\ decoupled case_x case_p /\
  gs_iterate case_p = true /\ started case_p 1 case_t case_t.
Proof.
  assert (W : all_wellposed (case_w E) case_raw 2 2 case_t) by (split; [reflexivity|]; split; [reflexivity|]; intros; apply case_wellposed; auto).
  split; [exact W|].
  destruct (@fresh_decoupled 1 2 [Set_ FT 0 0 4%R; Set_ FT 0 1 6%R; SetS 0 0 1 1%R; SetS 0 1 0 2%R; SetS 0 0 0 3%R] case_x Linf 10 (1/100)%R) as (_ & A & B);
    try reflexivity; try lia.
  - apply (proj2 (wp_mat _ _ _ _ (case_wellposed E 0 (Nat.lt_0_succ 1)))).
  - apply (wp_ready _ _ _ _ (case_wellposed E 0 (Nat.lt_0_succ 1))).
  - split; [exact A|]. split; [exact B|]. split; [|reflexivity].
    destruct (@fresh_finalized 1 2 [Set_ FT 0 0 4%R; Set_ FT 0 1 6%R; SetS 0 0 1 1%R; SetS 0 1 0 2%R; SetS 0 0 0 3%R] eq_refl) as (_ & _ & D).
    assert (ND : downscatter (finalize case_raw) false = false).
    { destruct (downscatter (finalize case_raw) false) eqn:ED; auto. exfalso. apply (proj1 D ED 0); [lia|].
      exists 1. split; [cbn; lia|]. exists 0. cbn. split; [lia|]. unfold set3. cbn. lra. }
    unfold case_p. rewrite ND. reflexivity.
Qed.
