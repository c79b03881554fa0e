(** * GenCase_Proofs: a fuel cell with a source between vacua *)
From Verif Require Import Base BaseR Loop Util_Model Mesh_Model Angle_Model Boundary_Model Boundary_Spec Boundary_Proofs Cell_Model Cell_Spec
  Material_Model Material_Spec Material_Proofs Source_Model Source_Spec Source_Proofs Sweep_Model Sweep_Spec Sweep_Proofs SweepAll_Proofs
  Iter_Model Iter_Spec Iter_Proofs IterConv_Proofs Gs_Proofs Pi_Spec Pi_Proofs PiLinear_Proofs PiGs_Proofs Wg_Spec Wg_Proofs Gen_Model Gen_Spec Gen_Proofs Gen_Proofs2 Gen_Proofs3.
Open Scope nat_scope.

(** One group, one direction per half space; every collision is a fission that
    yields one neutron. *)
Definition gen_ops : list mop := [Set_ FT 0 0 1%R; Set_ FSF 0 0 1%R; Set_ FNU 0 0 1%R; Set_ FCHI 0 0 1%R].
Definition gen_raw : mtl := run_ops (material_new 1 1) gen_ops.
Definition gen_s : src := {| cells := 1; mat := finalize gen_raw; mmap := [0]; adj := false; flux := [[0]]%R |}.
Definition gen_x : swp :=
  {| ssrc := gen_s; ext := [fun _ _ => 4%R]; dext := []; fiss := Some (fis_new gen_s); implicit := false; fixed := [0]%R; scat := [0]%R |}.
Definition gen_q : quad :=
  match quad_new 1 2 with Ok q => q | _ => {| q_dim := 0; q_nang := 0; q_noct := 0; q_nao := 0; q_wt := []; q_mu := []; q_eta := [];
    q_xi := []; q_sign := []; q_inc := []; q_out := []; q_adj := false |} end.
Definition gen_w : sweeper := {| w_eq := Eq1 SD_1;
  w_grid := {| g_nx := 1; g_ny := 1; g_nz := 1; g_dx := [1]%R; g_dy := []; g_dz := []; g_sig := [] |};
  w_dirs := [{| d_mu := 1; d_eta := 0; d_xi := 0; d_w := 1 |}]; w_keep := false; w_ord := [0; 1] |}.
Definition gen_t : tstate := {| t_b := boundary_new gen_q 1 1 1 1 (fun _ => Vacuum); t_x := gen_x; t_psi := fun _ _ _ => []; t_sweeps := 0 |}.
Definition gen_p : gs := gs_new (finalize gen_raw) false false true Linf 10 (1/100).
Definition gen_mg : tstate -> res tstate := gs_solve (si_solve gen_w (1/100) 5) gen_p 1.
Lemma gen_nonneg : nonneg_scatter gen_raw.
Proof. unfold gen_raw, gen_ops, run_ops. cbn [fold_left]. repeat apply set_scatter_nonneg; try lra; try apply new_nonneg. Qed.
Lemma gen_wellposed : wellposed gen_w gen_raw 0 gen_t.
Proof.
  split.
  - split; [|split; [cbn; lia|split; [cbn; lia|split; [|discriminate]]]].
    + split; [cbn; lia|]. split; [intros [|c] Hc; cbn in *; lia|]. split; [reflexivity|]. intros [|g0] Hg; cbn in *; lia.
    + intros q Hq. injection Hq as <-. split; [reflexivity|]. split; [cbn; lia|]. intros [|g0] Hg; cbn in *; lia.
  - split; [reflexivity|]. apply gen_nonneg.
  - cbn; lia.
  - split; [|reflexivity]. repeat split; cbn; lia.
  - cbn. unfold grid_ok, sig_ok. cbn. repeat split; try lia; try (repeat constructor; lra).
  - split; [reflexivity|]. unfold dir_ok. repeat constructor; cbn; try lra; intros; lia.
  - split; [apply (@new_shaped gen_q 1 1 1 1)|]. split.
    + intros s psi io a Hs HB. discriminate.
    + discriminate.
  - apply Permutation_refl.
  - split; [reflexivity|]. discriminate.
Qed.
Lemma gen_all : all_wellposed gen_w gen_raw 1 1 gen_t.
Proof. split; [reflexivity|]. split; [reflexivity|]. intros [|g] Hg; [|lia]. apply gen_wellposed. Qed.
Lemma gen_ready : eigen_ready 1 gen_t.
Proof.
  split; [apply (wp_ready _ _ _ _ gen_wellposed)|]. split; [reflexivity|]. eexists. split; [reflexivity|].
  split; [reflexivity|]. split; [reflexivity|]. split; [reflexivity|]. intros [|g] Hg; [reflexivity|cbn in Hg; lia].
Qed.
Lemma gen_dark : no_fission_source gen_t.
Proof. intros [|[|g]] [|[|c]]; reflexivity. Qed.
Lemma gen_vacuum s : s < 2 * q_dim (b_q (t_b gen_t)) -> b_bc (t_b gen_t) s = Vacuum. Proof. reflexivity. Qed.
Lemma gen_enter s o a g : Forall (Forall (fun v => v = 0%R)) (bflux (t_b gen_t) s o a g).
Proof. cbn. repeat constructor. Qed.
Lemma gen_lists : group_lists 1 gen_p.
Proof.
  destruct (@fresh_finalized 1 1 gen_ops eq_refl) as (CO & _). apply (@new_groups (finalize gen_raw) false false true Linf 10 (1/100)%R); [cbn; lia| |discriminate].
  apply CO.
Qed.

(** The flux of a source of strength v in each direction. *)
Lemma gen_flux x b phi F v : ssrc x = gen_s \/ ssrc x = src_flux gen_s (flux (ssrc x)) -> same_setup (t_b gen_t) b -> (forall o, o < 2 -> bflux b (in_side o 0) o 0 0 = [[0%R]]) ->
  (forall o a, at_ (emissions x phi (b_q b) 0 o a) 0 = v) -> transported gen_w x 0 b phi F -> F = [v].
Proof.
  intros ES (S1 & S2 & S3) HB HS (P & A & L & V). rewrite S1 in *.
  assert (EC : cells (ssrc x) = 1) by (destruct ES as [-> | ->]; reflexivity).
  assert (EG : group_grid (w_grid gen_w) (ssrc x) 0 = group_grid (w_grid gen_w) gen_s 0) by (destruct ES as [-> | ->]; reflexivity).
  rewrite EC in *. rewrite EG in A.
  assert (K : forall o, o < 2 -> P o 0 0 = (v / 2)%R).
  { intros o Ho. destruct (A o 0 Ho (Nat.lt_0_1)) as (d & y & z & Hd & HI & _ & X & X0 & _ & HX).
    cbn in Hd. injection Hd as <-. specialize (HX 0 Nat.lt_0_1). cbn in HX. unfold balanced1 in HX.
    unfold ins_of in HI. rewrite S1 in HI. change (q_dim (b_q (t_b gen_t))) with 1 in HI. cbn [seq map] in HI. rewrite HB in HI by auto. injection HI as <-.
    assert (Z : X (from (positive o 0) 0) = 0%R) by (rewrite <- X0; reflexivity).
    destruct HX as (HX & HO). rewrite Z in HX. rewrite HO, HS in HX. unfold set2 in HX. cbn in HX. unfold leak in HX. lra. }
  destruct F as [|f0 [|]]; try discriminate. specialize (V 0 Nat.lt_0_1). f_equal. change f0 with (at_ [f0] 0). rewrite V.
  change (q_noct (b_q (t_b gen_t))) with 2. change (q_nao (b_q (t_b gen_t))) with 1. cbn [rsum]. rewrite !K by lia. unfold weight. cbn. lra.
Qed.
Lemma gen_entering b b' : same_setup (t_b gen_t) b -> (forall s o a, valid b s o a 0 -> enters 1 s o -> bflux b s o a 0 = [[0%R]]) ->
  entering b b' 0 -> forall o, o < 2 -> bflux b' (in_side o 0) o 0 0 = [[0%R]].
Proof.
  intros (S1 & S2 & S3) Z (_ & _ & EN) o Ho.
  assert (V : valid b (in_side o 0) o 0 0). { unfold valid. rewrite S1, S2. split; [apply in_side_lt; cbn; lia|]. cbn. lia. }
  assert (E : enters 1 (in_side o 0) o) by (apply in_side_enters; exact Ho).
  rewrite EN; auto; rewrite ?S1, ?S3; try discriminate; auto.
Qed.

Theorem generations_lost : exists w m nc t, all_wellposed w m (ng (mat (ssrc (t_x t)))) nc t /\ homogeneous (drop_sources t) /\
  exists mg t1 t2 e1 e2, iterate mg 0 t = Ok (t1, e1) /\ iterate mg 1 t1 = Ok (t2, e2) /\
  (0 < production (ssrc (t_x t)) (phis t1) 0)%R /\ phis t1 = [[2%R]] /\ no_flux t2 /\ ~ next_generation w nc t1 (phis t1) (phis t2).
Proof.
  exists gen_w, gen_raw, 1, gen_t. split; [apply gen_all|]. split.
  { constructor; auto. intros s o a g _ _. apply gen_enter. }
  destruct (@gs_all gen_w gen_raw 1 1 (1/100)%R 5 gen_p 1%R) with (t := gen_t) as (t1 & T & e & M & (k & P & HI) & T0 & T1 & TS); auto using gen_all, gen_ready, gen_dark, gen_vacuum, gen_enter, gen_lists.
  { discriminate. }
  { intros _. cbn. lra. }
  assert (F1 : phis t1 = [[2%R]] /\ ssrc (t_x t1) = src_flux gen_s (phis t1)).
  { pose proof HI as [ (TT & IO) _ EK (LK & LK0) _ _ ]. specialize (LK0 eq_refl). subst k. rewrite EK in IO.
    change (gs_groups (gs_lower gen_p) (gs_upper gen_p)) with [0] in IO. destruct IO as [ (E0 & E1) SL _ ]. specialize (SL 0 Nat.lt_0_1).
    cbn [nth length] in *. rewrite E0, E1 in SL. destruct SL as (j & B & F & IT).
    assert (J0 : 0 < j).
    { destruct (it_sweeps IT) as (_ & Hj). destruct (Nat.eq_dec j 5) as [->|]; [lia|]. apply (it_early IT). lia. }
    destruct (@si_final gen_w (1/100)%R 5 0 gen_t t1 j B F) as (b' & EB & TR); auto; [repeat split; cbn; lia|].
    destruct (it_others _ _ _ _ _ _ _ _ _ IT) as (LT & _). cbn in LT.
    assert (F0 : nth 0 (phis t1) [] = [2%R]).
    { refine (@gen_flux (t_x gen_t) b' _ _ 2%R _ (proj1 EB) _ _ TR); [left; reflexivity| |].
      - apply (@gen_entering (t_b gen_t)); auto. repeat split.
      - intros o a. unfold emissions. cbn [cells ssrc t_x gen_t gen_x gen_s seq map]. unfold at_. cbn [nth].
        unfold emission, external, explicit_fission, discrete, scatter_sum, transfer_xs. destruct EB as ((Eq & _) & _). rewrite Eq. cbn. unfold set3. cbn. lra. }
    destruct (it_problem IT) as (f1 & s1 & EP). split; [|rewrite EP at 1; reflexivity].
    destruct (phis t1) as [|f [|]]; try discriminate. cbn in F0. congruence. }
  destruct F1 as (F1 & FS).
  exists gen_mg, (T 1), (T 2), (e 0), (e 1). destruct (TS 0) as (I1 & N2 & _). destruct (TS 1) as (I2 & _). rewrite T0 in I1.
  split; [exact I1|]. split; [exact I2|]. rewrite T1, F1.
  split; [unfold production; cbn; unfold set2; cbn; lra|]. split; auto. split; [exact N2|].
  intros (q & (Q1 & Q2 & Q3 & Q4) & FQ & L & MT).
  assert (ET : T 1 = drop_sources t1).
  { unfold iterate in I1. change (Z.eqb 0 0) with true in I1. cbn iota in I1. unfold Nat.add in I1. change (Z.of_nat 0) with 0%Z in I1.
    change (Z.eqb 0 0) with true in I1. cbn iota in I1. rewrite M in I1. cbn [bind] in I1. destruct (change _ _ _); try discriminate. cbn [bind] in I1. congruence. }
  pose proof (history_kept HI (le_n k)) as KP. rewrite (gh_last _ _ _ _ _ _ HI) in KP. destruct KP as ((K1 & K2 & K3) & K4).
  assert (EN : ng (mat (ssrc (t_x (put_fission (T 1) q)))) = 1) by (rewrite ET; cbn; rewrite FS; reflexivity).
  destruct (MT 0 ltac:(rewrite EN; lia)) as (b' & EB & TR).
  assert (BT : t_b (put_fission (T 1) q) = t_b t1) by (rewrite ET; reflexivity). rewrite BT in EB. pose proof EB as ((B1 & B2 & B3) & _).
  assert (X : nth 0 (phis (T 2)) [] = [1%R]).
  { refine (@gen_flux _ b' _ _ 1%R _ _ _ _ TR).
    - right. rewrite ET. cbn. rewrite FS. reflexivity.
    - repeat split; congruence.
    - apply (@gen_entering (t_b t1)); auto; [repeat split; auto|]. intros s o a V E.
      assert (V' : valid (t_b gen_t) s o a 0) by (unfold valid in *; rewrite K1, K2 in V; exact V). rewrite K4; auto; discriminate.
    - intros o a. assert (FQ0 : nth 0 (nth 0 (fsource q) []) 0%R = 2%R).
      { rewrite FQ; [|rewrite ET; cbn; rewrite FS; cbn; lia|lia]. rewrite ET. cbn. rewrite FS. unfold production, spectrum. cbn. unfold set2. cbn. lra. }
      unfold emissions. rewrite at_tab by (rewrite ET; cbn; rewrite FS; cbn; lia). rewrite B1, K1. 
      unfold emission, external, explicit_fission, discrete, scatter_sum, transfer_xs. rewrite ET. cbn [put_fission with_x t_x with_fiss fiss implicit drop_sources ext dext ssrc map].
      rewrite FQ0, FS. assert (IM : implicit (t_x t1) = false) by (pose proof (history_alike HI (le_n k)) as AL; rewrite (gh_last _ _ _ _ _ _ HI) in AL; apply AL).
      rewrite IM. cbn. unfold set3. cbn. lra. }
  specialize (N2 0 0). unfold phi_of in N2. rewrite X in N2. cbn in N2. lra.
Qed.
