(** * Cases for the generalised eigenproblem *)
From Verif Require Import Base BaseR Loop Util_Model Mesh_Model Angle_Model Boundary_Model Boundary_Spec Boundary_Proofs Cell_Model Cell_Spec
  Material_Model Material_Spec Material_Proofs Source_Model Source_Spec Source_Proofs Sweep_Model Sweep_Spec Sweep_Proofs
  Iter_Model Iter_Spec Wg_Spec Iter_Proofs Wg_Proofs WgCase_Proofs Mgk_Model Mgk_Spec Mgk_Proofs Gd_Model Gd_Spec Gd_Proofs.
Open Scope nat_scope.

(** Two cells between vacua, three groups: scattering down into group 1 and both
    ways between groups 1 and 2; fission in all groups, neutrons born in group 0. *)
Definition gd_raw : mtl :=
  run_ops (material_new 1 3) [Set_ FT 0 0 4%R; Set_ FT 0 1 6%R; Set_ FT 0 2 5%R; SetS 0 0 0 1%R; SetS 0 1 0 1%R; SetS 0 1 2 1%R; SetS 0 2 1 1%R;
    Set_ FSF 0 0 1%R; Set_ FSF 0 1 2%R; Set_ FSF 0 2 3%R; Set_ FCHI 0 0 1%R].
Definition gd_src (ad : bool) : src := {| cells := 2; mat := finalize gd_raw; mmap := [0; 0]; adj := ad; flux := [[1; 2]; [3; 4]; [5; 6]]%R |}.
Definition gd_x (ad : bool) : swp :=
  {| ssrc := gd_src ad; ext := []; dext := []; fiss := Some (fis_new (gd_src ad)); implicit := false; fixed := [7; 7]%R; scat := [8; 8]%R |}.
Definition gd_w : sweeper := {| w_eq := Eq1 DD_1;
  w_grid := {| g_nx := 2; g_ny := 1; g_nz := 1; g_dx := [1; 2]%R; g_dy := []; g_dz := []; g_sig := [] |};
  w_dirs := [{| d_mu := 1/2; d_eta := 0; d_xi := 0; d_w := 1 |}]; w_keep := false; w_ord := [0; 1] |}.
Definition gd_t (ad : bool) : tstate := {| t_b := boundary_new one_q 3 2 1 1 (fun _ => Vacuum); t_x := gd_x ad; t_psi := fun _ _ _ => []; t_sweeps := 0 |}.
Lemma gd_wellposed ad g : g < 3 -> wellposed gd_w gd_raw g (gd_t ad).
Proof.
  intros G3. assert (G : g = 0 \/ g = 1 \/ g = 2) by lia. clear G3. split.
  - split.
    + split; [cbn; lia|]. split; [intros [|[|c]] Hc; cbn in *; lia|].
      split; [reflexivity|]. intros [|[|[|g0]]] Hg; cbn in *; lia.
    + split; [cbn; lia|]. split; [cbn; lia|]. split; [|discriminate]. intros q Hq. inversion Hq; subst q. split; [reflexivity|]. split; [reflexivity|].
      intros [|[|[|g0]]] Hg; cbn in *; lia.
  - split; [reflexivity|]. cbn. repeat apply set_scatter_nonneg; try lra; try apply new_nonneg.
  - cbn; lia.
  - split; [|reflexivity]. repeat split; cbn; lia.
  - cbn. unfold grid_ok, sig_ok. cbn. repeat split; try lia; try (repeat constructor; lra).
    destruct G as [-> | [-> | ->]]; repeat constructor; unfold set2; cbn; lra.
  - split; [reflexivity|]. unfold dir_ok. repeat constructor; cbn; try lra; intros; lia.
  - split; [apply (@new_shaped one_q 3 2 1 1)|]. split.
    + intros s psi io a Hs HB. discriminate.
    + discriminate.
  - apply Permutation_refl.
  - split; [destruct G as [-> | [-> | ->]]; reflexivity|]. discriminate.
Qed.
Lemma gd_cut : upscatter_cutoff (mat (ssrc (t_x (gd_t false)))) false = 1.
Proof. unfold upscatter_cutoff, gd_t, gd_x, gd_src, gd_raw; repeat crunch; reflexivity. Qed.
Lemma gd_vacuum ad : vacuum_boundary (t_b (gd_t ad)).
Proof. intros s _. reflexivity. Qed.
Lemma gd_state ad cutoff : mg_state gd_w gd_raw cutoff (gd_t ad) (gd_t ad).
Proof. apply state_mg. intros g (Hg & _). apply gd_wellposed. exact Hg. Qed.

Theorem gd_short : forall w bsize t cutoff x y, adj (ssrc (t_x t)) = false -> 0 < cells (ssrc (t_x t)) ->
  0 < cutoff <= ng (mat (ssrc (t_x t))) -> length x = block_size (ssrc (t_x t)) cutoff * cells (ssrc (t_x t)) ->
  gd_lhs w bsize t x y = UB.
Proof.
  intros w bsize t cutoff x y EA Hn HC LX. apply gd_overrun; auto; [lia|]. rewrite LX. unfold block_size. rewrite EA. apply Nat.mul_lt_mono_pos_r; lia.
Qed.
Theorem gd_default : exists w m t q, let y := ssrc (t_x t) in
  adj y = false /\ (forall g, g < ng (mat y) -> wellposed w m g t) /\ vacuum_boundary (t_b t) /\ fiss (t_x t) = Some q /\ fscale q = 1%R /\
  implicit (t_x t) = false /\ dext (t_x t) = [] /\
  let c := upscatter_cutoff (mat y) (adj y) in let k := block_size y c * cells y in 0 < k /\
  forall half x, length x = k ->
    (exists v a, mg_multiply w (mg_bsize half (t_b t)) c t x x = Ok (v, a) /\ length a = k) /\ gd_lhs w (mg_bsize half (t_b t)) t x x = UB.
Proof.
  exists gd_w, gd_raw, (gd_t false), (fis_new (gd_src false)). intros y. split; [reflexivity|]. split; [intros g Hg; apply gd_wellposed; exact Hg|].
  split; [apply gd_vacuum|]. do 4 (split; [reflexivity|]). intros c k.
  assert (EC : c = 1) by (unfold c, y; exact gd_cut). assert (BK : k = 4) by (unfold k; rewrite EC; reflexivity). split; [lia|].
  intros half x LX. split.
  - destruct (@mg_multiply_ok gd_w gd_raw c half (gd_t false) (gd_t false) x x) as (v & a & E & _ & L & _); auto.
    + intros g (Hg & _). apply gd_wellposed. exact Hg.
    + apply gd_state.
    + apply vacuum_open, gd_vacuum.
    + rewrite EC. cbn. lia.
    + intros [|[|[|g]]] Hg; cbn in *; lia.
    + exists v, a. split; auto.
  - apply gd_short with (cutoff := 1); auto; [cbn; lia|cbn; lia|]. rewrite LX, BK. reflexivity.
Qed.
Theorem gd_stale : exists w m t q, let y := ssrc (t_x t) in
  adj y = true /\ (forall g, g < ng (mat y) -> wellposed w m g t) /\ vacuum_boundary (t_b t) /\ fiss (t_x t) = Some q /\ fscale q = 1%R /\
  implicit (t_x t) = false /\ dext (t_x t) = [] /\
  forall half, exists x y1 y2 v1 v2 f1 f2, length x = ng (mat y) * cells y /\ length y1 = ng (mat y) * cells y /\ length y2 = ng (mat y) * cells y /\
    gd_lhs w (mg_bsize half (t_b t)) t x y1 = Ok (v1, f1) /\ gd_lhs w (mg_bsize half (t_b t)) t x y2 = Ok (v2, f2) /\ f1 <> f2.
Proof.
  exists gd_w, gd_raw, (gd_t true), (fis_new (gd_src true)). intros y. split; [reflexivity|]. split; [intros g Hg; apply gd_wellposed; exact Hg|].
  split; [apply gd_vacuum|]. do 4 (split; [reflexivity|]). intros half.
  destruct (@gd_adjoint gd_w gd_raw half (gd_t true) (fis_new (gd_src true)) (gd_t true) (repeat 1%R 6) (repeat 0%R 6)) as (v1 & f1 & E1 & _ & O1); try reflexivity;
    [cbn; lia|apply vacuum_open, gd_vacuum|apply gd_state|].
  destruct (@gd_adjoint gd_w gd_raw half (gd_t true) (fis_new (gd_src true)) (gd_t true) (repeat 1%R 6) (repeat 1%R 6)) as (v2 & f2 & E2 & _ & O2); try reflexivity;
    [cbn; lia|apply vacuum_open, gd_vacuum|apply gd_state|].
  exists (repeat 1%R 6), (repeat 0%R 6), (repeat 1%R 6), v1, v2, f1, f2. do 3 (split; [reflexivity|]). split; [exact E1|]. split; [exact E2|].
  intros EF. specialize (O1 2 (le_n 2)). specialize (O2 2 (le_n 2)). rewrite EF, O2 in O1. cbn in O1. lra.
Qed.
Theorem gd_case : let t := gd_t false in let y := ssrc (t_x t) in
  adj y = false /\ ng (mat y) = 3 /\ cells y = 2 /\ (forall g, g < 3 -> wellposed gd_w gd_raw g t) /\ vacuum_boundary (t_b t) /\
  length (phis t) = 3 /\ (forall g, g < 3 -> length (nth g (phis t) []) = 2) /\
  fiss (t_x t) = Some (fis_new (ssrc (t_x t))) /\ fscale (fis_new (ssrc (t_x t))) = 1%R /\ mg_state gd_w gd_raw 0 t t /\
  upscatter_cutoff (mat y) (adj y) = 1 /\ (0 < fission_xs y 0 0 2)%R.
Proof.
  intros t y. do 3 (split; [reflexivity|]). split; [intros g Hg; apply gd_wellposed; auto|]. split; [apply gd_vacuum|]. split; [reflexivity|].
  split; [intros [|[|[|g]]] Hg; cbn; lia|]. split; [reflexivity|]. split; [reflexivity|]. split; [apply gd_state|]. split; [exact gd_cut|].
  unfold y, t, fission_xs, mat_of. cbn [adj ssrc t_x gd_t gd_x gd_src mmap mat nth]. cbn. lra.
Qed.
