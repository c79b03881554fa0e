(** * Pi_Props *)
From Verif Require Import Base BaseR Loop Util_Model Mesh_Model Angle_Model Boundary_Model Boundary_Spec Boundary_Proofs Cell_Model Cell_Spec
  Material_Model Material_Spec Material_Proofs Source_Model Source_Spec Source_Proofs Sweep_Model Sweep_Spec Sweep_Proofs
  Iter_Model Iter_Spec Pi_Spec Iter_Proofs IterConv_Proofs Gs_Proofs Pi_Proofs PiConv_Proofs PiLinear_Proofs PiGs_Proofs PiPos_Proofs PiEig_Proofs.
Open Scope nat_scope.

(** C58 *)
Theorem C58_iterates : forall nc Inv mg, mg_solver nc Inv mg ->
  forall omega tol max t, Inv t -> 0 < max -> exists t' keff n Z k, pi_solve mg omega tol max t = Ok (t', keff) /\
  pi_history nc mg omega tol max t t' keff n Z k /\ forall i, i <= n -> Inv (Z i).
Proof. exact @pi_ok. Qed.
Print Assumptions C58_iterates.
Theorem C58_no_iterations : forall nc Inv mg, mg_solver nc Inv mg -> forall omega tol t, Inv t -> pi_solve mg omega tol 0 t = UB.
Proof. exact @pi_none. Qed.
Print Assumptions C58_no_iterations.
Theorem C58_ratio : forall nc mg tol max t t' keff n Z k, pi_history nc mg 1 tol max t t' keff n Z k ->
  (forall i, i < n -> size (density (Z i)) <> 0%R) ->
  (keff * size (density (Z 0%nat)) = size (density t'))%R /\ (keff * size (density (Z (n - 1)%nat)) = k (n - 1)%nat * size (density t'))%R.
Proof. exact @pi_ratio. Qed.
Print Assumptions C58_ratio.
Theorem C58_production : forall nc Inv mg, mg_solver nc Inv mg -> forall a, acts_as nc Inv mg a ->
  forall tol max t t' keff n Z k, pi_history nc mg 1 tol max t t' keff n Z k -> (forall i, i <= n -> Inv (Z i)) ->
  (forall i, i < n -> size (times nc a (density (Z i))) <> 0%R /\ size (density (Z i)) <> 0%R) ->
  forall i, i < n -> (0 < k i)%R /\ k (S i) = (size (times nc a (density (Z i))) / size (density (Z i)))%R.
Proof. exact @pi_production. Qed.
Print Assumptions C58_production.
Theorem C58_fixed : forall nc Inv mg, mg_solver nc Inv mg -> forall a, acts_as nc Inv mg a ->
  forall tol max t t' keff n Z k l, pi_history nc mg 1 tol max t t' keff n Z k -> (forall i, i <= n -> Inv (Z i)) ->
  times nc a (density (Z 0%nat)) = map (fun v => l * v)%R (density (Z 0%nat)) -> (0 < l)%R -> size (density (Z 0%nat)) <> 0%R ->
  keff = l /\ density t' = map (fun v => l * v)%R (density (Z 0%nat)) /\ ((0 < tol)%R -> n <= 2).
Proof. exact @pi_fixed. Qed.
Print Assumptions C58_fixed.
Theorem C58_residual : forall nc Inv mg, mg_solver nc Inv mg -> forall a, acts_as nc Inv mg a ->
  forall tol max t t' keff n Z k, pi_history nc mg 1 tol max t t' keff n Z k -> (forall i, i <= n -> Inv (Z i)) ->
  (forall i, i < n -> size (times nc a (density (Z i))) <> 0%R /\ size (density (Z i)) <> 0%R) -> n < max ->
  (distance (times nc a (density (Z (n - 1)%nat))) (map (fun v => k (n - 1)%nat * v)%R (density (Z (n - 1)%nat))) < k (n - 1)%nat * tol)%R.
Proof. exact @pi_residual. Qed.
Print Assumptions C58_residual.
Theorem C58_operator : forall w m nc t0, homogeneous t0 -> 0 < ng (mat (ssrc (t_x t0))) ->
  forall l, solve_order (t_x t0) l -> all_damped w t0 ->
  forall mg, same_case w m nc t0 t0 -> mg_solver nc (same_case w m nc t0) mg -> exact w (same_case w m nc t0) mg ->
  exists a, acts_as nc (same_case w m nc t0) mg a.
Proof. exact @fission_linear. Qed.
Print Assumptions C58_operator.
Local Open Scope R_scope.
Theorem C58_gauss_seidel :
  forall w m nc t0 tol max p keff,
  homogeneous t0 -> (0 < ng (mat (ssrc (t_x t0))))%nat ->
  solve_order (t_x t0) (gs_groups (gs_lower p) (gs_upper p)) -> all_damped w t0 -> same_case w m nc t0 t0 ->
  gs_multiply p = false -> gs_norm p <> BadFlag -> group_lists (ng (mat (ssrc (t_x t0)))) p -> (gs_norm p = Linf -> 0 < gs_tol p) ->
  gs_iterate p = false -> (0 < max)%nat -> (forall g, (g < ng (mat (ssrc (t_x t0))))%nat -> takes_nothing (t_x t0) g g) ->
  mg_solver nc (same_case w m nc t0) (gs_solve (si_solve w tol max) p keff) /\
  exact w (same_case w m nc t0) (gs_solve (si_solve w tol max) p keff).
Proof. exact @eigen_gs. Qed.
Print Assumptions C58_gauss_seidel.
Local Close Scope R_scope.

(** C88 *)
Theorem C88_converges : forall w m nc t0 l mg, homogeneous t0 -> 0 < ng (mat (ssrc (t_x t0))) -> solve_order (t_x t0) l -> all_damped w t0 ->
  same_case w m nc t0 t0 -> mg_solver nc (same_case w m nc t0) mg -> exact w (same_case w m nc t0) mg ->
  eq_spreads (w_eq w) = true -> chain w t0 (ssrc (t_x t0)) ->
  exists k V C q, (0 < q < 1)%R /\ eigenpair w nc t0 k V /\
  (forall k' V', eigenpair w nc t0 k' V' -> k' = k) /\
  (forall tol max, 0 < max -> exists t' keff i Z K, pi_solve mg 1 tol max t0 = Ok (t', keff) /\
    pi_history nc mg 1 tol max t0 t' keff i Z K /\ (Rabs (keff - k) <= C * q ^ i)%R /\
    forall c, c < nc -> (Rabs (at_ (density t') c - V c) <= C * q ^ i)%R) /\
  (forall tol, (0 < tol)%R -> exists N, forall max, N <= max -> exists t' keff i Z K, pi_solve mg 1 tol max t0 = Ok (t', keff) /\
    pi_history nc mg 1 tol max t0 t' keff i Z K /\ i <= N).
Proof. exact @eigen_converges. Qed.
Print Assumptions C88_converges.
Local Open Scope R_scope.
Theorem C88_any_operator :
  forall nc Inv mg a t,
  mg_solver nc Inv mg -> acts_as nc Inv mg a -> Inv t -> connected nc (ssrc (t_x t)) a ->
  (forall g k, 0 <= nsf (mat (ssrc (t_x t))) g k) ->
  exists l V C q, 0 < q < 1 /\ mode nc a l V /\ (forall l' V', mode nc a l' V' -> l' = l) /\
  (forall tol max, (0 < max)%nat -> exists t' keff n Z k, pi_solve mg 1 tol max t = Ok (t', keff) /\
    pi_history nc mg 1 tol max t t' keff n Z k /\ Rabs (keff - l) <= C * q ^ n /\
    forall c, (c < nc)%nat -> Rabs (at_ (density t') c - V c) <= C * q ^ n) /\
  (forall tol, 0 < tol -> exists N, forall max, (N <= max)%nat -> exists t' keff n Z k, pi_solve mg 1 tol max t = Ok (t', keff) /\
    pi_history nc mg 1 tol max t t' keff n Z k /\ (n <= N)%nat).
Proof. exact @pi_converges. Qed.
Print Assumptions C88_any_operator.
Local Close Scope R_scope.

(** C89 *)
Local Open Scope R_scope.
Theorem C89_multiply :
  forall nc Inv mg a t x,
  mg_solver nc Inv mg -> acts_as nc Inv mg a -> Inv t -> length x = nc ->
  exists t', eigen_multiply mg t x = Ok (t', times nc a x) /\ Inv t'.
Proof. exact @eigen_multiply_times. Qed.
Print Assumptions C89_multiply.
Local Close Scope R_scope.
Theorem C89_pairs : forall w m nc t0 l mg, homogeneous t0 -> 0 < ng (mat (ssrc (t_x t0))) -> solve_order (t_x t0) l -> all_damped w t0 ->
  same_case w m nc t0 t0 -> mg_solver nc (same_case w m nc t0) mg -> exact w (same_case w m nc t0) mg ->
  forall k V t, same_case w m nc t0 t -> (0 < k)%R -> (forall c, c < nc -> (0 <= V c)%R) -> (exists c, c < nc /\ (0 < V c)%R) ->
  (exists t', eigen_multiply mg t (map V (seq 0 nc)) = Ok (t', map (fun c => (k * V c)%R) (seq 0 nc))) <-> eigenpair w nc t0 k V.
Proof. exact @eigen_multiply_pairs. Qed.
Print Assumptions C89_pairs.

(** ** Case *)
(** A fuel cell beside a moderator cell; neutrons are born in group 0, slow down
    in either cell, and cause fission in group 1. *)
Definition pi_ops : list mop := [Set_ FT 0 0 4%R; Set_ FT 0 1 6%R; Set_ FT 1 0 3%R; Set_ FT 1 1 5%R; SetS 0 1 0 2%R; SetS 1 1 0 1%R;
  Set_ FSF 0 1 1%R; Set_ FNU 0 1 2%R; Set_ FCHI 0 0 1%R].
Definition pi_raw : mtl := run_ops (material_new 2 2) pi_ops.
Definition pi_s : src := {| cells := 2; mat := finalize pi_raw; mmap := [0; 1]; adj := false; flux := [[1; 2]; [3; 4]]%R |}.
Definition pi_x : swp :=
  {| ssrc := pi_s; ext := []; dext := []; fiss := Some {| fsrc := pi_s; dens := [5; 6]%R; fsource := [[1; 1]; [1; 1]]%R; fscale := 1 |};
     implicit := false; fixed := [7; 7]%R; scat := [8; 8]%R |}.
Definition pi_q : quad :=
  match quad_new 1 2 with Ok q => q | _ => {| q_dim := 0; q_nang := 0; q_noct := 0; q_nao := 0; q_wt := []; q_mu := []; q_eta := [];
    q_xi := []; q_sign := []; q_inc := []; q_out := []; q_adj := false |} end.
Definition pi_w (E : scheme1) : sweeper := {| w_eq := Eq1 E;
  w_grid := {| g_nx := 2; g_ny := 1; g_nz := 1; g_dx := [1; 2]%R; g_dy := []; g_dz := []; g_sig := [] |};
  w_dirs := [{| d_mu := 1/2; d_eta := 0; d_xi := 0; d_w := 1 |}]; w_keep := false; w_ord := [0; 1] |}.
Definition pi_t : tstate := {| t_b := boundary_new pi_q 2 2 1 1 (fun s => Vacuum); t_x := pi_x; t_psi := fun _ _ _ => []; t_sweeps := 0 |}.
Definition pi_p : gs := gs_new (finalize pi_raw) false false true Linf 10 (1/100).
Lemma two c : c < 2 -> c = 0 \/ c = 1. Proof. lia. Qed.
Lemma pi_nonneg : nonneg_scatter pi_raw.
Proof. unfold pi_raw, pi_ops, run_ops. cbn [fold_left]. repeat apply set_scatter_nonneg; try lra; try apply new_nonneg. Qed.
Lemma pi_wellposed E g : g < 2 -> wellposed (pi_w E) pi_raw g pi_t.
Proof.
  intros G2. apply two in G2. rename G2 into G. split.
  - split; [|split; [reflexivity|split; [reflexivity|split; [|discriminate]]]].
    + split; [cbn; lia|]. split; [intros [|[|c]] Hc; cbn in *; lia|].
      split; [reflexivity|]. intros [|[|g0]] Hg; cbn in *; lia.
    + intros q Hq. injection Hq as <-. split; [reflexivity|]. split; [cbn; lia|]. intros [|[|g0]] Hg; cbn in *; lia.
  - split; [reflexivity|]. apply pi_nonneg.
  - cbn; lia.
  - split; [|reflexivity]. repeat split; cbn; lia.
  - cbn. unfold grid_ok, sig_ok. cbn. repeat split; try lia; try (repeat constructor; lra).
    destruct G as [-> | ->]; repeat constructor; destruct (strict1 E); unfold set2; cbn; lra.
  - split; [reflexivity|]. unfold dir_ok. repeat constructor; cbn; try lra; intros; lia.
  - split; [apply (@new_shaped pi_q 2 2 1 1)|]. split.
    + intros s psi io a Hs HB. discriminate.
    + intros s s' _ _ HB. discriminate.
  - apply Permutation_refl.
  - split; [destruct G as [-> | ->]; reflexivity|]. discriminate.
Qed.
Lemma pi_same E : same_case (pi_w E) pi_raw 2 pi_t pi_t.
Proof.
  constructor; auto.
  - intros g Hg. split; [repeat split|]. auto.
  - split; [reflexivity|]. split; [reflexivity|]. intros. apply pi_wellposed. auto.
  - split; [apply (wp_ready _ _ _ _ (pi_wellposed E 0 (Nat.lt_0_succ 1)))|]. split; [reflexivity|]. eexists. split; [reflexivity|].
    split; [reflexivity|]. split; [reflexivity|]. split; [reflexivity|]. intros [|[|g0]] Hg; cbn in *; lia.
Qed.
Lemma pi_homogeneous : homogeneous pi_t.
Proof.
  constructor; auto.
  - intros s o a g _ _. cbn. repeat constructor.
Qed.
Lemma pi_order : solve_order pi_x (gs_groups (gs_lower pi_p) (gs_upper pi_p)).
Proof.
  assert (E : gs_groups (gs_lower pi_p) (gs_upper pi_p) = [0; 1]) by reflexivity. rewrite E.
  split; [intros g; change (ng (mat (ssrc pi_x))) with 2; cbn [In]; lia|]. intros i j H. cbn [length] in H. assert (i = 0 /\ j = 1) as (-> & ->) by lia. cbn.
  intros c Hc. cbn in Hc. destruct (two _ Hc) as [-> | ->]; (split; [|discriminate]); unfold transfer_xs, mat_of; cbn; unfold set3, set2; cbn; lra.
Qed.
Lemma pi_no_self g : g < 2 -> takes_nothing pi_x g g.
Proof.
  intros Hg c Hc. cbn in Hc. destruct (two _ Hg) as [-> | ->]; destruct (two _ Hc) as [-> | ->]; (split; [|discriminate]);
    unfold transfer_xs, mat_of; cbn; unfold set3, set2; cbn; lra.
Qed.
Lemma pi_damped E : all_damped (pi_w E) pi_t.
Proof.
  intros g Hg. cbn in Hg. split.
  - exists (1/2)%R. constructor.
    + lra.
    + intros c Hc. cbn in Hc. destruct (pi_no_self g Hg c Hc) as (Z & _). unfold self_transfer. cbn [pi_t t_x]. rewrite Z. cbn [pi_x fiss implicit].
      rewrite Rplus_0_r, Rabs_R0. destruct (two _ Hg) as [-> | ->]; destruct (two _ Hc) as [-> | ->]; cbn; unfold set2; cbn; lra.
    + intros [|a] Ha; cbn in *; [lra|lia].
    + cbn. unfold rsum, solid_angle. cbn. unfold weight. cbn. lra.
  - right. unfold sig_ok. cbn. destruct (two _ Hg) as [-> | ->]; repeat constructor; unfold set2; cbn; lra.
Qed.
Lemma pi_lists : group_lists 2 pi_p.
Proof.
  destruct (@fresh_finalized 2 2 pi_ops eq_refl) as (CO & _). apply (@new_groups (finalize pi_raw) false false true Linf 10 (1/100)%R); [cbn; lia| |discriminate].
  apply CO.
Qed.
Lemma pi_chain E : chain (pi_w E) pi_t pi_s.
Proof.
  constructor; auto.
  - intros c g gp. apply pi_nonneg.
  - intros g k. cbn. unfold set2. repeat match goal with |- context [if ?b then _ else _] => destruct b end; lra.
  - intros g k. cbn. unfold set2. repeat match goal with |- context [if ?b then _ else _] => destruct b end; lra.
  - split; [cbn; lia|]. intros [|a] Ha; cbn in *; [lra|lia].
  - exists 0. split; [cbn; lia|]. unfold fissile. cbn. unfold set2. cbn. lra.
  - intros j c g Hj Hc Hg Fj Pg. cbn in Hj, Hc, Hg.
    assert (j = 0) as ->.
    { destruct (two _ Hj) as [-> | ->]; auto. exfalso. revert Fj. unfold fissile. cbn. unfold set2. cbn. lra. }
    assert (B : fed pi_s 0 0) by (apply fed_born; [cbn; lia|]; unfold spectrum; cbn; unfold set2; cbn; lra).
    destruct (two _ Hg) as [-> | ->]; [exact B|]. apply (@fed_scattered pi_s 0 1 0 1); try (cbn; lia); auto.
    unfold transfer_xs, mat_of. cbn. unfold set3. cbn. lra.
Qed.
Definition pi_mg (E : scheme1) : tstate -> res tstate := gs_solve (si_solve (pi_w E) (1/100) 5) pi_p 1.
Example C58_case E : let I := same_case (pi_w E) pi_raw 2 pi_t in
  mg_solver 2 I (pi_mg E) /\ exact (pi_w E) I (pi_mg E) /\ I pi_t /\ exists a, acts_as 2 I (pi_mg E) a.
Proof.
  assert (B : mg_solver 2 (same_case (pi_w E) pi_raw 2 pi_t) (pi_mg E) /\ exact (pi_w E) (same_case (pi_w E) pi_raw 2 pi_t) (pi_mg E)).
  { apply eigen_gs; try reflexivity; try (cbn; lia).
    - apply pi_homogeneous.
    - apply pi_order.
    - apply pi_damped.
    - apply pi_same.
    - discriminate.
    - apply pi_lists.
    - cbn. lra.
    - intros g Hg. apply pi_no_self. auto. }
  destruct B as (B1 & B2). split; auto. split; auto. split; [apply pi_same|].
  apply (@fission_linear (pi_w E) pi_raw 2 pi_t pi_homogeneous (Nat.lt_0_succ 1) _ pi_order (pi_damped E)); auto. apply pi_same.
Qed.
Example C88_case : exists k V C q, (0 < q < 1)%R /\ eigenpair (pi_w SC_1) 2 pi_t k V /\
  forall max, 0 < max -> exists t' keff i Z K, pi_solve (pi_mg SC_1) 1 0 max pi_t = Ok (t', keff) /\
    pi_history 2 (pi_mg SC_1) 1 0 max pi_t t' keff i Z K /\ (Rabs (keff - k) <= C * q ^ i)%R.
Proof.
  destruct (C58_case SC_1) as (B1 & B2 & B3 & _).
  destruct (@eigen_converges (pi_w SC_1) pi_raw 2 pi_t _ (pi_mg SC_1) pi_homogeneous (Nat.lt_0_succ 1) pi_order (pi_damped _) B3 B1 B2 eq_refl (pi_chain _))
    as (k & V & C & q & A1 & A2 & _ & A3 & _).
  exists k, V, C, q. split; auto. split; auto. intros max Hm. destruct (A3 0%R max Hm) as (t' & keff & i & Z & K & D1 & D2 & D3 & _).
  exists t', keff, i, Z, K. auto.
Qed.
