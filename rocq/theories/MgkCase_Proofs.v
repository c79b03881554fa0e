(** * A band that ends above the cutoff: old fluxes enter the right hand side *)
From Verif Require Import Base BaseR Loop Util_Model Mesh_Model Angle_Model Boundary_Model Boundary_Spec Boundary_Proofs Cell_Model Cell_Spec
  Material_Model Material_Spec Material_Proofs Source_Model Source_Spec Source_Proofs Sweep_Model Sweep_Spec Sweep_Proofs SweepAll_Proofs
  Iter_Model Iter_Spec Iter_Proofs IterConv_Proofs Pi_Proofs PiLinear_Proofs Wg_Spec Wg_Proofs WgCase_Proofs Mgk_Model Mgk_Spec Mgk_Proofs.
Open Scope nat_scope.

(** One cell between vacua, two groups; neutrons of group 1 scatter into both
    groups, group 0 does not scatter.  A flux left in group 1, no sources. *)
Definition two_raw : mtl := run_ops (material_new 1 2) [Set_ FT 0 0 3%R; Set_ FT 0 1 3%R; SetS 0 0 1 1%R; SetS 0 1 1 1%R].
Definition two_x (f : R) : swp :=
  {| ssrc := {| cells := 1; mat := finalize two_raw; mmap := [0]; adj := false; flux := [[0]; [f]]%R |};
     ext := []; dext := []; fiss := None; implicit := false; fixed := [0]%R; scat := [0]%R |}.
Definition two_t (f : R) : tstate := {| t_b := boundary_new one_q 2 1 1 1 (fun _ => Vacuum); t_x := two_x f; t_psi := fun _ _ _ => []; t_sweeps := 0 |}.
Lemma two_wellposed f g : g < 2 -> wellposed one_w two_raw g (two_t f).
Proof.
  intros Hg. split.
  - split; [|cbn; repeat split; try lia; try discriminate].
    split; [cbn; lia|]. split; [intros [|c] Hc; cbn in *; lia|].
    split; [reflexivity|]. intros [|[|g0]] Hg0; cbn in *; lia.
  - split; [reflexivity|]. cbn. repeat apply set_scatter_nonneg; try lra; try apply new_nonneg.
  - cbn; lia.
  - split; [|reflexivity]. repeat split; cbn; lia.
  - assert (G : g = 0 \/ g = 1) by lia. cbn. unfold grid_ok, sig_ok. cbn.
    destruct G as [-> | ->]; cbn; repeat split; try lia; try (repeat constructor; lra).
  - split; [reflexivity|]. unfold dir_ok. repeat constructor; cbn; try lra; intros; lia.
  - split; [apply (@new_shaped one_q 2 1 1 1)|]. split.
    + intros s psi io a Hs HB. discriminate.
    + discriminate.
  - apply Permutation_refl.
  - assert (G : g = 0 \/ g = 1) by lia. split; [destruct G as [-> | ->]; reflexivity|]. discriminate.
Qed.
Lemma two_open f : open_boundary (t_b (two_t f)).
Proof. intros s _. split; discriminate. Qed.
Lemma two_cutoff f : upscatter_cutoff (mat (ssrc (t_x (two_t f)))) false = 0.
Proof. unfold upscatter_cutoff, two_t, two_x, two_raw. repeat crunch. reflexivity. Qed.
Lemma two_lo f : lo (ssrc (t_x (two_t f))) 0 = 0 /\ lo (ssrc (t_x (two_t f))) 1 = 1.
Proof. unfold lo, two_t, two_x, two_raw. split; repeat crunch; reflexivity. Qed.

Definition nothing_enters (b0 b : bsn) (g : nat) : Prop := same_setup b0 b /\
  forall s o a, valid b0 s o a g -> enters (q_dim (b_q b0)) s o -> no_face (bflux b s o a g).
Lemma two_flux f g b s F v : g < 2 -> nothing_enters (t_b (two_t f)) b g -> (forall o a, at_ (s o a) 0 = v) ->
  flows one_w (ssrc (t_x (two_t f))) g b s F -> F = [(v / 2)%R].
Proof.
  intros Hg ((S1 & S2 & S3) & GZ) HS (P & A & L & V). rewrite S1 in *.
  assert (K : forall o, o < 2 -> P o 0 0 = (v / 4)%R).
  { intros o Ho. destruct (A o 0 Ho (Nat.lt_0_1)) as (d & x & y & Hd & HI & _ & X & X0 & _ & HX).
    cbn in Hd. injection Hd as <-. specialize (HX 0 Nat.lt_0_1). cbn in HX. unfold balanced1 in HX.
    assert (HB : no_face (bflux b (in_side o 0) o 0 g)).
    { apply GZ.
      - split; [apply in_side_lt; cbn; lia|]. cbn. lia.
      - apply in_side_enters. exact Ho. }
    unfold ins_of in HI. rewrite S1 in HI. change (q_dim (b_q (t_b (two_t f)))) with 1 in HI. cbn [seq map] in HI. injection HI as HI. rewrite HI in HB.
    inversion_clear HB as [|? ? Z1 _]. inversion_clear Z1 as [|? ? Z2 _]. cbv beta in Z2. rewrite Z2 in X0.
    assert (Z : X (from (positive o 0) 0) = 0%R).
    { rewrite <- X0. reflexivity. }
    destruct HX as (HX & HO). rewrite Z in HX. rewrite HO, HS in HX.
    assert (SG : st (mat (ssrc (t_x (two_t f)))) g (mat_of (ssrc (t_x (two_t f))) 0) = 3%R) by (assert (G : g = 0 \/ g = 1) by lia; destruct G as [-> | ->]; reflexivity).
    cbn in SG. rewrite SG in HX. unfold set2 in HX. cbn in HX. unfold leak in HX. lra. }
  destruct F as [|f0 [|]]; try discriminate. specialize (V 0 Nat.lt_0_1). f_equal. change f0 with (at_ [f0] 0). rewrite V.
  change (q_noct (b_q (t_b (two_t f)))) with 2. change (q_nao (b_q (t_b (two_t f)))) with 1. cbn [rsum]. rewrite !K by lia. unfold weight. cbn. lra.
Qed.
Lemma two_dark f b g : given_entering (t_b (two_t f)) b g -> nothing_enters (t_b (two_t f)) b g.
Proof. intros (SS & _ & GZ). split; auto. intros s o a V EN. rewrite GZ; auto; [apply dark_no_face|discriminate]. Qed.
Lemma two_groups f g : krylov_group (ssrc (t_x (two_t f))) 0 g <-> g < 2.
Proof. unfold krylov_group, below. cbn [adj ssrc t_x two_t two_x]. rewrite Nat.ltb_ge. cbn. lia. Qed.

Theorem stale_entry : exists w m t cutoff, let y := ssrc (t_x t) in
  cutoff = upscatter_cutoff (mat y) (adj y) /\ cutoff_in y cutoff /\ (forall g, g < ng (mat y) -> wellposed w m g t) /\ open_boundary (t_b t) /\
  (forall g, g < ng (mat y) -> length (nth g (phis t) []) = cells y) /\ length (phis t) = ng (mat y) /\
  forall tol half, exists t1 r x u v, mg_rhs w tol (mg_bsize half (t_b t)) cutoff t = Ok (t1, r) /\ length x = block_size y cutoff * cells y /\
  mg_multiply w (mg_bsize half (t_b t)) cutoff t1 x x = Ok (u, v) /\
  mg_flux w (t_x t) (t_b t) (krylov_group y cutoff) (spread y cutoff (phis t) x) /\ v <> r.
Proof.
  exists one_w, two_raw, (two_t 1), 0. set (t := two_t 1). intros y. assert (WP : forall g, g < 2 -> wellposed one_w two_raw g t) by (apply two_wellposed).
  assert (WK : forall g, krylov_group y 0 g -> wellposed one_w two_raw g t) by (intros g KG; apply WP; apply two_groups in KG; auto).
  assert (HC : cutoff_in y 0) by (cbn; lia). pose proof (two_open 1 : open_boundary (t_b t)) as OB.
  assert (LP : forall g, g < ng (mat y) -> length (nth g (phis t) []) = cells y) by (intros [|[|g]] Hg; cbn in *; lia).
  split; [symmetry; apply (two_cutoff 1)|]. split; auto. split; auto. split; auto. split; auto. split; [reflexivity|]. intros tol half.
  destruct (@mg_rhs_ok one_w two_raw tol 0 half t WK OB HC) as (t1 & r & E & MS1 & Lr & VR).
  destruct (@mg_multiply_ok one_w two_raw 0 half t t1 [0; 0]%R [0; 0]%R WK MS1 OB HC LP eq_refl eq_refl eq_refl) as (u & v & E' & _ & Lv & VY).
  exists t1, r, [0; 0]%R, u, v. split; auto. split; auto. split; auto.
  set (phi := spread (ssrc (t_x t)) 0 (phis t) [0; 0]%R) in *.
  assert (LH : length phi = 2) by reflexivity. assert (LHn : forall gp, gp < 2 -> length (nth gp phi []) = 1) by (intros [|[|gp]] Hg; cbn; lia).
  assert (PH : forall gp, gp < 2 -> nth gp phi [] = [0%R]) by (intros [|[|gp]] Hg; try reflexivity; lia).
  split.
  - intros g KG. pose proof (proj1 (two_groups 1 g) KG) as Hg. destruct (VR g KG) as (b1 & GE & SW & _). pose proof GE as ((G1 & G2 & G3) & GF & GZ).
    destruct (@any_flows one_w two_raw g t b1 phi (WP g Hg) SW G1 LH LHn) as (b3 & F3 & (C1 & C2 & C3) & _ & IN3 & FL3).
    assert (GE3 : given_entering (t_b t) b3 g).
    { split; [repeat split; congruence|]. split; [discriminate|]. intros s o a V EN _. rewrite IN3; [apply GZ; auto; discriminate| |].
      - unfold valid in *. rewrite G1, G2. auto.
      - rewrite G1. auto. }
    assert (FE : F3 = [(0 / 2)%R]).
    { eapply (@two_flux 1 g b3); [auto|apply two_dark; exact GE3| |exact FL3]. intros o a. unfold emissions. cbn [cells ssrc t_x t two_t two_x seq map]. unfold at_. cbn [nth].
      unfold emission, external, explicit_fission, discrete, scatter_sum, all_groups. cbn [fiss two_x t two_t t_x ssrc mat ext dext map sumR fold_right].
      change (ng (finalize two_raw)) with 2. cbn [rsum]. unfold phi_of. rewrite !PH by lia. cbn [nth]. unfold Rdiv. cbn. ring. }
    exists b3. split; auto. rewrite PH by auto. subst F3. replace (0 / 2)%R with 0%R in FL3 by lra. unfold transported. unfold flows in FL3. rewrite C1, G1 in FL3 |- *. exact FL3.
  - intros ->. assert (KG : krylov_group (ssrc (t_x t)) 0 1) by (apply two_groups; lia).
    destruct (VR 1 KG) as (b1 & GE & _ & FL). destruct (VY 1 KG) as (F & (b2 & SS2 & DK & FL2) & VF). specialize (VF 0 Nat.lt_0_1).
    assert (FE : F = [(0 / 2)%R]).
    { eapply (@two_flux 1 1 b2); [lia|split; auto| |exact FL2]. intros o a. unfold block_source. cbn [cells ssrc t_x t two_t two_x seq map]. unfold at_. cbn [nth].
      unfold scatter_sum. cbn [fiss two_x t two_t t_x ssrc mat]. change (ng (finalize two_raw)) with 2. cbn [rsum]. unfold phi_of.
      change (spread _ 0 (phis (two_t 1)) [0; 0]%R) with phi. rewrite !PH by lia. cbn [nth]. unfold Rdiv. cbn. ring. }
    assert (RE : part r 1 1 = [(1 / 2 / 2)%R]).
    { eapply (@two_flux 1 1 b1); [lia|apply two_dark; exact GE| |exact FL]. intros o a. unfold given_source, t. rewrite (proj2 (two_lo 1)). cbn [cells ssrc t_x t two_t two_x seq map]. unfold at_. cbn [nth].
      change (groups 1 0 false) with [1]. unfold external, explicit_fission, discrete, scatter_sum. cbn [fiss two_x t two_t t_x ssrc mat ext dext map sumR fold_right]. change (ng (finalize two_raw)) with 2.
      cbn. unfold phi_of, transfer_xs. cbn. unfold set3. cbn. lra. }
    change (at_ (part r 1 1) 0 = (at_ (part [0; 0]%R 1 1) 0 - at_ F 0)%R) in VF. rewrite RE, FE in VF. cbn in VF. lra.
Qed.
