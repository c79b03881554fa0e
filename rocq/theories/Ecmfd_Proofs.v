(** * Ecmfd_Proofs: modes are left alone by the coarse mesh eigenvalue update. *)
From Coquelicot Require Import Coquelicot.
From Coq Require Import FunctionalExtensionality.
From Verif Require Import Base BaseR Loop Mesh_Model Mesh_Spec Mesh_Proofs Material_Model Material_Spec Material_Proofs Matrix_Model Matrix_Spec Angle_Model Angle_Spec
  Boundary_Model Boundary_Spec Cell_Spec Sweep_Model Sweep_Spec Region_Model Region_Spec Region_Proofs Homog_Proofs Tally_Model Tally_Spec Tally_Proofs
  Diffusion_Model Diffusion_Spec Diffusion_Proofs Cmfd_Model Cmfd_Spec Cmfd_Proofs Cmfd_Proofs2 Cmfd_Proofs3 Cmfd_Proofs4 Cmfd_Proofs5 Ecmfd_Model Ecmfd_Spec.
Open Scope nat_scope.
Set Implicit Arguments. Unset Strict Implicit.

(** Scaled vectors. *)
Lemma nth_scaled a (v : list R) i : nth i (map (Rmult a) v) 0%R = (a * nth i v 0)%R.
Proof. destruct (Nat.lt_ge_cases i (length v)); [rewrite (nth_indep _ 0%R (a * 0)%R) by (rewrite map_length; auto); apply map_nth|]. rewrite !nth_overflow by (rewrite ?map_length; auto). ring. Qed.
Lemma rd_scaled a (v : list R) i y : rd v i = Ok y -> rd (map (Rmult a) v) i = Ok (a * y)%R.
Proof.
  unfold rd. rewrite nth_error_map. destruct (nth_error v i); cbn; intros H; [|discriminate]. injection H as <-. reflexivity.
Qed.
Lemma multiply_scaled M a v y : multiply M v = Ok y -> multiply M (map (Rmult a) v) = Ok (map (Rmult a) y).
Proof.
  unfold multiply. generalize (seq 0 (length (c_rows M) - 1)). intros l. revert y. induction l as [|i l IH]; cbn [mapM]; intros y H.
  - injection H as <-. reflexivity.
  - destruct (rd (c_rows M) i) as [p| |]; cbn [bind] in *; try discriminate.
    destruct (rd (c_rows M) (S i)) as [q| |]; cbn [bind] in *; try discriminate.
    assert (MR : forall r, mult_row M v p q = Ok r -> mult_row M (map (Rmult a) v) p q = Ok (a * r)%R).
    { unfold mult_row. generalize (seq p (q - p)). intros w r Hr.
      assert (GEN : forall w t r, foldM (fun temp p => do j <- rd (c_cols M) p; do u <- rd (c_vals M) p; do xj <- rdz v j; Ok (temp + xj * u)%R) w t = Ok r ->
        foldM (fun temp p => do j <- rd (c_cols M) p; do u <- rd (c_vals M) p; do xj <- rdz (map (Rmult a) v) j; Ok (temp + xj * u)%R) w (a * t)%R = Ok (a * r)%R).
      { clear. induction w as [|p w IH]; cbn [foldM]; intros t r H; [injection H as <-; reflexivity|].
        destruct (rd (c_cols M) p) as [j| |]; cbn [bind] in *; try discriminate. destruct (rd (c_vals M) p) as [u| |]; cbn [bind] in *; try discriminate.
        unfold rdz in *. destruct (j <? 0)%Z; [discriminate|]. destruct (rd v (Z.to_nat j)) as [xj| |] eqn:E; cbn [bind] in *; try discriminate.
        rewrite (rd_scaled a E). cbn [bind]. replace (a * t + a * xj * u)%R with (a * (t + xj * u))%R by ring. apply IH. exact H. }
      apply GEN in Hr. rewrite Rmult_0_r in Hr. exact Hr. }
    destruct (mult_row M v p q) as [r| |]; cbn [bind] in *; try discriminate. rewrite (MR r eq_refl). cbn [bind].
    destruct (mapM _ l) as [ys| |] eqn:EL in H; cbn [bind] in *; try discriminate. injection H as <-. rewrite (IH ys EL). reflexivity.
Qed.
Lemma l2norm_scaled a v : (0 < a)%R -> l2norm (map (Rmult a) v) = (a * l2norm v)%R.
Proof.
  intros Ha. unfold l2norm. rewrite map_length.
  replace (rsum (length v) (fun i => nth i (map (Rmult a) v) 0 * nth i (map (Rmult a) v) 0)%R) with (a * a * rsum (length v) (fun i => nth i v 0 * nth i v 0))%R.
  - rewrite sqrt_mult_alt by nra. rewrite sqrt_square by lra. reflexivity.
  - rewrite <- rsum_scal. apply rsum_ext. intros i _. rewrite nth_scaled. ring.
Qed.
Lemma l2norm_pos v : nonzero v -> (0 < l2norm v)%R.
Proof.
  intros (i & Hi & N). apply sqrt_lt_R0.
  assert (H : forall n (f : nat -> R) i, i < n -> (forall j, j < n -> (0 <= f j)%R) -> (f i <= rsum n f)%R).
  { clear. induction n as [|n IH]; intros f i Hi H; [lia|]. cbn [rsum]. destruct (Nat.eq_dec i n) as [->|].
    - assert (0 <= rsum n f)%R by (apply rsum_nonneg; intros; apply H; lia). lra.
    - specialize (IH f i ltac:(lia) ltac:(intros; apply H; lia)). specialize (H n ltac:(lia)). lra. }
  apply Rlt_le_trans with (nth i v 0 * nth i v 0)%R; [nra|]. apply (H _ (fun i => nth i v 0 * nth i v 0)%R); auto. intros j _. cbn beta. nra.
Qed.
Lemma unit_scaled a v : (0 < a)%R -> nonzero v -> unit_of (map (Rmult a) v) = unit_of v.
Proof.
  intros Ha Nz. unfold unit_of. rewrite l2norm_scaled, map_map by auto. apply map_ext. intros y. pose proof (l2norm_pos Nz). field. lra.
Qed.
Lemma l2norm_unit v : nonzero v -> l2norm (unit_of v) = 1%R.
Proof. intros Nz. pose proof (l2norm_pos Nz). unfold unit_of. rewrite l2norm_scaled; [field; lra|]. apply Rdiv_lt_0_compat; lra. Qed.
Lemma unit_unit v : nonzero v -> unit_of (unit_of v) = unit_of v.
Proof. intros Nz. unfold unit_of at 1. rewrite l2norm_unit by auto. rewrite <- (map_id (unit_of v)) at 2. apply map_ext. intros y. field. Qed.

(** ** Production of the homogenised material *)
Section Production.
Variables (U : problem) (C : cmesh) (level : nat).
Let m := u_mesh U.
Let D := Mesh_Model.dim m.
Let n := ncells m.
Let x := u_mat U.
Let G := ng x.
Hypothesis HP : problem_ok U.
Hypothesis HC : coarse_mesh D (grid_of U 0) level = Ok C.
Variables (phi : list (list R)) (cur : option (list (list R))).
Hypothesis HF : positive_flux U phi.
Hypothesis HCU : current_ok U cur.
Variables (cm : mesh) (cmap : list nat) (cmat : mtl) (fl : list (list R)).
Hypothesis GC : coarse_good U C cm.
Hypothesis EM : coarse_map C = Ok cmap.
Hypothesis GM : good_mat U cm cmap phi cur cmat fl.

Lemma search k (P : nat -> Prop) : (forall i, {P i} + {~ P i}) -> (exists i, i < k /\ P i) \/ forall i, i < k -> ~ P i.
Proof.
  intros H. induction k as [|k [(i & Hi & Pi)|N]].
  - right. intros; lia.
  - left. exists i. split; auto.
  - destruct (H k) as [Pk|Nk]; [left; exists k; auto|]. right. intros i Hi. destruct (Nat.eq_dec i k) as [->|]; auto. apply N. lia.
Qed.
Lemma RS_zero r f : (forall i, i < n -> nth i cmap 0 = r -> f i = 0%R) -> RS U cmap r f = 0%R.
Proof. intros H. unfold RS, region_sum. apply rsum_zero. intros i Hi. destruct (Nat.eqb_spec (nth i cmap 0) r); auto. rewrite H by auto. ring. Qed.
Lemma RS_some r f i : i < n -> nth i cmap 0 = r -> (0 < f i)%R -> (forall j, j < n -> nth j cmap 0 = r -> (0 <= f j)%R) -> (0 < RS U cmap r f)%R.
Proof.
  intros Hi Ei Fi NN. unfold RS, region_sum.
  assert (H : forall k (h : nat -> R) i, i < k -> (0 < h i)%R -> (forall j, j < k -> (0 <= h j)%R) -> (0 < rsum k h)%R).
  { clear. induction k as [|k IH]; intros h i Hi Hp H; [lia|]. cbn [rsum]. destruct (Nat.eq_dec i k) as [->|].
    - assert (0 <= rsum k h)%R by (apply rsum_nonneg; intros; apply H; lia). lra.
    - specialize (IH h i ltac:(lia) Hp ltac:(intros; apply H; lia)). specialize (H k ltac:(lia)). lra. }
  eapply (H n _ i); auto; cbn beta.
  - rewrite Ei, Nat.eqb_refl. apply Rmult_lt_0_compat; auto. apply (cvol_pos HP); auto.
  - intros j Hj. destruct (Nat.eqb_spec (nth j cmap 0) r); [|lra]. apply Rmult_le_pos; auto. apply Rlt_le, (cvol_pos HP); auto.
Qed.

Variable X : nat -> R.
Hypothesis HX : forall k, k < nm x -> fissile_in x X k \/ barren_in x k.
Lemma region_kind r : (exists i, i < n /\ nth i cmap 0 = r /\ fissile_in x X (mt m i)) \/ forall i, i < n -> nth i cmap 0 = r -> barren_in x (mt m i).
Proof.
  pose proof HP as (_ & _ & _ & HG & HM & _). fold m n x G in HG, HM.
  destruct (@search n (fun i => nth i cmap 0 = r /\ (0 < sf x 0 (mt m i))%R)) as [(i & Hi & Ei & Pi)|N].
  - intros i. destruct (Nat.eq_dec (nth i cmap 0) r) as [E|]; [|right; tauto]. destruct (Rlt_dec 0 (sf x 0 (mt m i))); [left; auto|right; tauto].
  - left. exists i. split; auto. split; auto. destruct (HX (HM i Hi)) as [Y|Y]; auto. destruct (Y 0 HG) as (Z & _). lra.
  - right. intros i Hi Ei. destruct (HX (HM i Hi)) as [Y|Y]; auto. exfalso. apply (N i Hi). split; auto. apply Y. exact HG.
Qed.
Lemma nsf_nonneg g i : g < G -> i < n -> (0 <= nsf x g (mt m i))%R.
Proof.
  intros Hg Hi. pose proof HP as (_ & _ & _ & HG & HM & _). fold m n x G in HG, HM.
  destruct (HX (HM i Hi)) as [Y|Y]; destruct (Y g Hg) as (A & B); [destruct B as (B & _)|]; lra.
Qed.
Lemma region_spectrum g r : g < G -> r < ncells cm -> (exists i, i < n /\ nth i cmap 0 = r /\ fissile_in x X (mt m i)) -> chi cmat g r = X g.
Proof.
  intros Hg Hr (i0 & Hi0 & Ei0 & FI). pose proof HP as HP'. destruct HP' as (_ & _ & _ & HG & HM & HY). fold m n x G in HG, HM, HY.
  destruct GM as (EH & _). fold x G in EH.
  destruct (homog_run (hom_is_ready HP HC EM HF HCU) (collapse_ones HP cmap phi cur)) as (c0 & fl' & E' & _ & _ & V).
  fold x G in E', V. assert (EC : cmat = finalize c0) by congruence. rewrite repeat_length in V.
  destruct (V g r Hg) as (_ & V1). { cbn [h_reg hom_of]. rewrite (map_regions HP HC EM GC). auto. }
  cbv zeta in V1. destruct V1 as (_ & _ & V3 & _).
  { cbn [h_mat hom_of]. rewrite rate_region by auto. apply (RS_pos HP HC GC EM); auto. intros i Hi. apply Rmult_lt_0_compat; [apply HY; auto|apply HF; auto]. }
  destruct V3 as (_ & _ & V3).
  { cbn [h_mat hom_of]. rewrite rate_region by auto. apply (@RS_some r _ i0); auto.
    - apply Rmult_lt_0_compat; [apply FI; auto|apply HF; auto].
    - intros j Hj _. apply Rmult_le_pos; [apply HY; auto|apply Rlt_le, HF; auto]. }
  rewrite EC. cbn [finalize chi]. rewrite V3. clear V3 V E'.
  assert (LP : forall i, i < n -> last_production (hom_of U cmap phi cur) i = (cvol U i * (nsf x (G - 1) (mt m i) * val2 phi (G - 1) i))%R).
  { intros i Hi. unfold last_production. cbn [h_mat hom_of]. fold x G. rewrite weight_phi, vol_at_c, mat_at_c by auto. fold m. ring. }
  assert (SP : (0 < RS U cmap r (fun i => nsf x (G - 1) (mt m i) * val2 phi (G - 1) i))%R).
  { apply (@RS_some r _ i0); auto.
    - apply Rmult_lt_0_compat; [apply FI; lia|apply HF; auto; fold x G; lia].
    - intros j Hj _. apply Rmult_le_pos; [apply nsf_nonneg; auto; lia|apply Rlt_le, HF; auto; fold x G; lia]. }
  replace (region_sum (h_n (hom_of U cmap phi cur)) (h_reg (hom_of U cmap phi cur)) r (last_production (hom_of U cmap phi cur)))
    with (RS U cmap r (fun i => nsf x (G - 1) (mt m i) * val2 phi (G - 1) i)%R).
  2:{ apply region_sum_ext. intros i Hi. rewrite LP by auto. reflexivity. }
  unfold last_chi. match goal with |- (block_sum _ _ ?f / _ = _)%R => rewrite (@block_ones G g f) by auto end.
  replace (region_sum (h_n (hom_of U cmap phi cur)) (h_reg (hom_of U cmap phi cur)) r
     (fun c => (last_production (hom_of U cmap phi cur) c * chi (h_mat (hom_of U cmap phi cur)) (g + 0) (mat_at (hom_of U cmap phi cur) c))%R))
    with (X g * RS U cmap r (fun i => nsf x (G - 1) (mt m i) * val2 phi (G - 1) i))%R.
  - field. lra.
  - unfold RS. rewrite <- region_scal. apply region_sum_ext. intros i Hi. rewrite LP, mat_at_c, Nat.add_0_r by auto. cbn [h_mat hom_of]. fold x m.
    destruct (HX (HM i Hi)) as [Y|Y].
    + destruct (Y g Hg) as (_ & _ & ->). ring.
    + destruct (Y (G - 1) ltac:(fold G; lia)) as (_ & ->). ring.
Qed.
Lemma produced_f g c : u_adj U = false \/ G = 1 -> g < G -> c < ncells cm ->
  rsum G (fun gp => birth (u_adj U) cmat g gp c * RS U cmap c (val2 phi gp))%R = RS U cmap c (born U phi g).
Proof.
  intros HA Hg Hc. pose proof HP as HP'. destruct HP' as (_ & _ & _ & HG & HM & HY). fold m n x G in HG, HM, HY.
  unfold born. fold x G. rewrite RS_rsum. apply rsum_ext. intros gp Hgp.
  assert (EB : forall y k, birth (u_adj U) y g gp k = (chi y g k * nsf y gp k)%R).
  { intros. destruct HA as [->|E]; auto. unfold birth. assert (g = 0) by lia. assert (gp = 0) by lia. subst. destruct (u_adj U); auto. }
  rewrite EB. pose proof GM as (_ & _ & _ & _ & _ & V). fold x G in V. destruct (V gp c Hgp Hc) as (_ & _ & VN & _). unfold F in VN. fold m x in VN.
  rewrite Rmult_assoc, VN. destruct (region_kind c) as [FI|BA].
  - rewrite (region_spectrum Hg Hc FI), <- RS_scal. apply RS_eq. intros i Hi. rewrite EB. fold m.
    destruct (HX (HM i Hi)) as [Y|Y]; [destruct (Y g Hg) as (_ & _ & ->); ring|destruct (Y gp Hgp) as (_ & ->); ring].
  - rewrite (@RS_zero c (fun c0 => nsf x gp (mt m c0) * val2 phi gp c0)%R). 2:{ intros i Hi Ei. destruct (BA i Hi Ei gp Hgp) as (_ & ->). ring. }
    symmetry. rewrite Rmult_0_r. apply RS_zero. intros i Hi Ei. rewrite EB. fold m. destruct (BA i Hi Ei gp Hgp) as (_ & ->). ring.
Qed.
Lemma born_nonneg g i : u_adj U = false \/ G = 1 -> (forall g, g < G -> (0 <= X g)%R) -> g < G -> i < n -> (0 <= born U phi g i)%R.
Proof.
  intros HA X0 Hg Hi. pose proof HP as HP'. destruct HP' as (_ & _ & _ & HG & HM & HY). fold m n x G in HG, HM, HY.
  apply rsum_nonneg. intros gp Hgp. fold x G in Hgp. apply Rmult_le_pos; [|apply Rlt_le, HF; auto]. fold x m.
  assert (EB : birth (u_adj U) x g gp (mt m i) = (chi x g (mt m i) * nsf x gp (mt m i))%R).
  { destruct HA as [->|E]; auto. unfold birth. assert (g = 0) by lia. assert (gp = 0) by lia. subst. destruct (u_adj U); auto. }
  rewrite EB. destruct (HX (HM i Hi)) as [Y|Y].
  - destruct (Y g Hg) as (_ & _ & ->). apply Rmult_le_pos; auto. apply nsf_nonneg; auto.
  - destruct (Y gp Hgp) as (_ & ->). lra.
Qed.
Lemma born_pos g i : u_adj U = false \/ G = 1 -> fissile_in x X (mt m i) -> (0 < X g)%R -> g < G -> i < n -> (0 < born U phi g i)%R.
Proof.
  intros HA Y Xg Hg Hi. pose proof HP as HP'. destruct HP' as (_ & _ & _ & HG & HM & HY). fold m n x G in HG, HM, HY.
  apply block_pos; auto. intros gp Hgp. apply Rmult_lt_0_compat; [|apply HF; auto]. fold x m.
  assert (EB : birth (u_adj U) x g gp (mt m i) = (chi x g (mt m i) * nsf x gp (mt m i))%R).
  { destruct HA as [->|E]; auto. unfold birth. fold x G in Hgp. assert (g = 0) by lia. assert (gp = 0) by lia. subst. destruct (u_adj U); auto. }
  rewrite EB. destruct (Y g Hg) as (_ & _ & ->). apply Rmult_lt_0_compat; auto. apply Y. auto.
Qed.
End Production.
