(** * A directional source enters the within-group linear system twice *)
From Verif Require Import Base BaseR Loop Util_Model Mesh_Model Angle_Model Boundary_Model Boundary_Spec Boundary_Proofs Cell_Model Cell_Spec
  Material_Model Material_Spec Material_Proofs Source_Model Source_Spec Source_Proofs Sweep_Model Sweep_Spec Sweep_Proofs SweepAll_Proofs
  Iter_Model Iter_Spec Iter_Proofs IterConv_Proofs Pi_Proofs PiLinear_Proofs Wg_Spec Wg_Proofs.
Open Scope nat_scope.

(** One absorbing cell between vacua, one group, one direction per half space, a
    unit source in each direction. *)
Definition one_raw : mtl := run_ops (material_new 1 1) [Set_ FT 0 0 1%R].
Definition one_x : swp :=
  {| ssrc := {| cells := 1; mat := finalize one_raw; mmap := [0]; adj := false; flux := [[0]]%R |};
     ext := []; dext := [fun _ _ _ => 1%R]; fiss := None; implicit := false; fixed := [0]%R; scat := [0]%R |}.
Definition one_q : quad :=
  match quad_new 1 2 with Ok q => q | _ => {| q_dim := 0; q_nang := 0; q_noct := 0; q_nao := 0; q_wt := []; q_mu := []; q_eta := [];
    q_xi := []; q_sign := []; q_inc := []; q_out := []; q_adj := false |} end.
Definition one_w : sweeper := {| w_eq := Eq1 SD_1;
  w_grid := {| g_nx := 1; g_ny := 1; g_nz := 1; g_dx := [1]%R; g_dy := []; g_dz := []; g_sig := [] |};
  w_dirs := [{| d_mu := 1; d_eta := 0; d_xi := 0; d_w := 1 |}]; w_keep := false; w_ord := [0; 1] |}.
Definition one_t : tstate := {| t_b := boundary_new one_q 1 1 1 1 (fun _ => Vacuum); t_x := one_x; t_psi := fun _ _ _ => []; t_sweeps := 0 |}.
Lemma one_wellposed : wellposed one_w one_raw 0 one_t.
Proof.
  split.
  - split; [|cbn; repeat split; try lia; try discriminate].
    split; [cbn; lia|]. split; [intros [|c] Hc; cbn in *; lia|].
    split; [reflexivity|]. intros [|g0] Hg; cbn in *; lia.
  - split; [reflexivity|]. cbn. repeat apply set_scatter_nonneg; try lra; try apply new_nonneg.
  - cbn; lia.
  - split; [|reflexivity]. repeat split; cbn; lia.
  - cbn. unfold grid_ok, sig_ok. cbn. repeat split; try lia; try (repeat constructor; lra).
  - split; [reflexivity|]. unfold dir_ok. repeat constructor; cbn; try lra; intros; lia.
  - split; [apply (@new_shaped one_q 1 1 1 1)|]. split.
    + intros s psi io a Hs HB. discriminate.
    + discriminate.
  - apply Permutation_refl.
  - split; [reflexivity|]. discriminate.
Qed.
Lemma one_open : open_boundary (t_b one_t).
Proof. intros s _. split; discriminate. Qed.

(** The flux of a source of strength v. *)
Lemma one_flux b s F v : given_entering (t_b one_t) b 0 -> (forall o a, at_ (s o a) 0 = v) ->
  flows one_w (ssrc (t_x one_t)) 0 b s F -> F = [v].
Proof.
  intros ((S1 & S2 & S3) & _ & GZ) HS (P & A & L & V). rewrite S1 in *.
  assert (K : forall o, o < 2 -> P o 0 0 = (v / 2)%R).
  { intros o Ho. destruct (A o 0 Ho (Nat.lt_0_1)) as (d & x & y & Hd & HI & _ & X & X0 & _ & HX).
    cbn in Hd. injection Hd as <-. specialize (HX 0 Nat.lt_0_1). cbn in HX. unfold balanced1 in HX.
    assert (HB : bflux b (in_side o 0) o 0 0 = [[0%R]]).
    { rewrite GZ.
      - assert (O : o = 0 \/ o = 1) by lia. destruct O as [-> | ->]; reflexivity.
      - split; [apply in_side_lt; cbn; lia|]. cbn. lia.
      - apply in_side_enters. exact Ho.
      - discriminate. }
    unfold ins_of in HI. rewrite S1 in HI. change (q_dim (b_q (t_b one_t))) with 1 in HI. cbn [seq map] in HI. rewrite HB in HI. injection HI as <-.
    assert (Z : X (from (positive o 0) 0) = 0%R).
    { rewrite <- X0. reflexivity. }
    destruct HX as (HX & HO). rewrite Z in HX. rewrite HO, HS in HX.
    change (st (mat (ssrc (t_x one_t))) 0 (mat_of (ssrc (t_x one_t)) 0)) with 1%R in HX. unfold set2 in HX. cbn in HX. unfold leak in HX. lra. }
  destruct F as [|f0 [|]]; try discriminate. specialize (V 0 Nat.lt_0_1). f_equal. change f0 with (at_ [f0] 0). rewrite V.
  change (q_noct (b_q (t_b one_t))) with 2. change (q_nao (b_q (t_b one_t))) with 1. cbn [rsum]. rewrite !K by lia. unfold weight. cbn. lra.
Qed.
Lemma one_emission f q o a : at_ (emissions (t_x one_t) (with_group (phis one_t) 0 f) q 0 o a) 0 = 1%R.
Proof.
  unfold emissions. cbn [cells ssrc t_x one_t one_x seq map]. unfold at_. cbn [nth]. unfold emission, external, explicit_fission, discrete, scatter_sum, transfer_xs.
  cbn. unfold set3. cbn. unfold Rdiv. ring.
Qed.
Lemma twice_emission f q o a : at_ (emissions (twice_directed (t_x one_t)) (with_group (phis one_t) 0 f) q 0 o a) 0 = 2%R.
Proof.
  unfold emissions. cbn [cells ssrc t_x one_t one_x twice_directed seq map]. unfold at_. cbn [nth]. unfold emission, external, explicit_fission, discrete, scatter_sum, transfer_xs.
  cbn. unfold set3. cbn. unfold Rdiv. ring.
Qed.

Theorem directed_twice : exists w m g t, wellposed w m g t /\ open_boundary (t_b t) /\
  forall tol, exists t1 r x u y, build_rhs w tol g t = Ok (t1, r) /\ length x = cells (ssrc (t_x t)) /\ wg_multiply w g t1 x = Ok (u, y) /\
  y = r /\ ~ group_flux w (t_x t) g (phis t) (t_b t) x.
Proof.
  exists one_w, one_raw, 0, one_t. split; [apply one_wellposed|]. split; [apply one_open|]. intros tol.
  destruct (krylov_system tol one_wellposed one_open) as (t1 & r & E & K & L & H).
  destruct (H t1 [2%R] K eq_refl) as (u & y & E' & _ & _ & IFF).
  exists t1, r, [2%R], u, y. split; auto. split; auto. split; auto. split.
  - apply IFF. destruct (rhs_ok tol one_wellposed one_open) as (t2 & r2 & E2 & _ & _ & _ & GE & SW & _).
    pose proof GE as ((G1 & G2 & G3) & GF & GZ).
    destruct (@full_flows one_w one_raw 0 one_t (t_b t2) (twice_directed (t_x one_t)) [2%R] one_wellposed SW G1) as (b & F & (S1 & S2 & S3) & _ & IN & FL); auto.
    { apply ready_twice. apply one_wellposed. }
    assert (GB : given_entering (t_b one_t) b 0).
    { split; [repeat split; congruence|]. split; [discriminate|]. intros s o a V EN _. rewrite IN; [apply GZ; auto; discriminate| |].
      - unfold valid in *. rewrite G1, G2. auto.
      - rewrite G1. auto. }
    assert (FE : F = [2%R]) by (eapply one_flux; [exact GB| |exact FL]; intros; apply twice_emission).
    exists b. split; auto. subst F. unfold transported. unfold flows in FL. rewrite S1, G1 in FL |- *. exact FL.
  - intros (b & GE & TR). assert (FE : [2%R] = [1%R]).
    { eapply one_flux with (v := 1%R); [exact GE| |exact TR]. intros. apply one_emission. }
    injection FE. lra.
Qed.
