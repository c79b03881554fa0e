(** * Cmfd_Proofs2: the homogenised data, the averages and the coarse system. *)
From Coquelicot Require Import Coquelicot.
From Verif Require Import Base BaseR Loop Mesh_Model Mesh_Spec Mesh_Proofs Material_Model Material_Spec Material_Proofs Matrix_Model Matrix_Spec Angle_Model Angle_Spec
  Boundary_Model Boundary_Spec Cell_Spec Sweep_Model Sweep_Spec Region_Model Region_Spec Region_Proofs Homog_Proofs Tally_Model Tally_Spec Tally_Proofs
  Diffusion_Model Diffusion_Spec Diffusion_Proofs Cmfd_Model Cmfd_Spec Cmfd_Proofs.
Open Scope nat_scope.
Set Implicit Arguments. Unset Strict Implicit.

Lemma psum1 G g : g <= G -> psum (repeat 1%nat G) g = g. Proof. apply psum_ones. Qed.
Lemma block_ones G g f : g < G -> block_sum (repeat 1%nat G) g f = f g.
Proof. intros H. unfold block_sum. rewrite psum1, nth_repeat_lt by lia. cbn [rsum]. rewrite Nat.add_0_r. ring. Qed.
Lemma region_pos n cmap r f c : c < n -> nth c cmap 0 = r -> (forall c, c < n -> (0 < f c)%R) -> (0 < region_sum n cmap r f)%R.
Proof.
  intros Hc E H. unfold region_sum. replace n with (c + S (n - S c)) by lia. rewrite rsum_split.
  assert (0 <= rsum c (fun i => if nth i cmap 0%nat =? r then f i else 0))%R.
  { apply rsum_nonneg. intros i Hi. destruct (_ =? r); [apply Rlt_le, H; lia|lra]. }
  assert (0 < rsum (S (n - S c)) (fun i => if nth (c + i) cmap 0%nat =? r then f (c + i)%nat else 0))%R; [|lra].
  change (S (n - S c)) with (1 + (n - S c)). rewrite rsum_split.
  assert (0 <= rsum (n - S c) (fun i => if nth (c + (1 + i)) cmap 0%nat =? r then f (c + (1 + i))%nat else 0))%R.
  { apply rsum_nonneg. intros i Hi. destruct (_ =? r); [apply Rlt_le, H; lia|lra]. }
  cbn [rsum]. rewrite Nat.add_0_r, E, Nat.eqb_refl. specialize (H c Hc). lra.
Qed.
Lemma region_scal n cmap r c f : region_sum n cmap r (fun i => c * f i)%R = (c * region_sum n cmap r f)%R.
Proof. apply region_sum_scal. Qed.
Lemma region_rsum n cmap r k f : region_sum n cmap r (fun i => rsum k (fun j => f j i)) = rsum k (fun j => region_sum n cmap r (f j)).
Proof.
  unfold region_sum. rewrite rsum_swap. apply rsum_ext. intros c Hc. destruct (_ =? r); auto. symmetry. apply rsum_zero. auto.
Qed.
Lemma region_plus n cmap r f g : region_sum n cmap r (fun i => f i + g i)%R = (region_sum n cmap r f + region_sum n cmap r g)%R.
Proof. unfold region_sum. rewrite <- rsum_plus. apply rsum_ext. intros c Hc. destruct (_ =? r); ring. Qed.
Lemma region_minus n cmap r f g : region_sum n cmap r (fun i => f i - g i)%R = (region_sum n cmap r f - region_sum n cmap r g)%R.
Proof. unfold region_sum. rewrite <- rsum_minus. apply rsum_ext. intros c Hc. destruct (_ =? r); ring. Qed.

Section System.
Variables (U : problem) (C : cmesh) (level : nat).
Let m := u_mesh U.
Let D := Mesh_Model.dim m.
Let n := ncells m.
Let x := u_mat U.
Let G := ng x.
Hypothesis HP : problem_ok U.
Hypothesis HC : coarse_mesh D (grid_of U 0) level = Ok C.
Variables (cm : mesh) (cmap : list nat).
Hypothesis GC : coarse_good U C cm.
Hypothesis EM : coarse_map C = Ok cmap.
Variables (phi : list (list R)) (cur : option (list (list R))).
Hypothesis HF : positive_flux U phi.
Hypothesis HCU : current_ok U cur.

Definition hom_of : hom :=
  {| h_mat := x; h_n := n; h_vol := map (cvol U) (seq 0 n); h_reg := cmap; h_mmap := map (mt m) (seq 0 n); h_w := FineMesh phi cur; h_dc := u_dc U |}.
Lemma vols_ok : mapM (volume m) (seq 0 n) = Ok (map (cvol U) (seq 0 n)).
Proof. apply mapM_ok. intros c Hc. apply in_seq in Hc. apply (volume_ok HP). exact (proj2 Hc). Qed.
Lemma cmap_len : length cmap = n.
Proof. destruct (map_exists HP HC) as (v & E & L & _). rewrite EM in E. assert (v = cmap) by congruence. subst v. exact L. Qed.
Lemma n_positive : 0 < n.
Proof. destruct HP as ((_ & _ & _ & _ & _ & _ & _ & P1 & P2 & P3 & _) & _). unfold n, ncells, m. nia. Qed.
Lemma hom_is_ready : hom_ready hom_of.
Proof.
  unfold hom_ready, hom_of. cbn. rewrite !map_length, seq_length. split; auto. split; [split; [apply cmap_len|apply n_positive]|]. split; auto.
  split.
  - intros c Hc. rewrite (@nth_map_seq _ (mt m)) by auto. destruct HP as (_ & _ & _ & _ & H & _). apply H. auto.
  - destruct HF as ((L & LL) & _). split; [exact L|]. split; [intros g Hg; rewrite LL by auto; auto|].
    destruct cur as [j|]; auto. destruct HCU as ((L' & LL') & _). split; [exact L'|]. intros g Hg. rewrite LL' by auto. auto.
Qed.
Lemma collapse_ones : collapse_ok hom_of (repeat 1%nat G).
Proof.
  destruct HP as (_ & _ & _ & HG & _). fold x G in HG. split; [apply sum_ones|]. split; [intros k Hk; apply repeat_spec in Hk; lia|].
  intros E. apply (f_equal (@length nat)) in E. rewrite repeat_length in E. cbn in E. lia.
Qed.
Lemma weight_phi g c : weight (h_w hom_of) g c = val2 phi g c. Proof. reflexivity. Qed.
Lemma vol_at_c c : c < n -> vol_at hom_of c = cvol U c.
Proof. intros Hc. unfold vol_at, hom_of. cbn [h_vol]. rewrite (@nth_map_seq _ (cvol U)) by auto. reflexivity. Qed.
Lemma mat_at_c c : c < n -> mat_at hom_of c = mt m c.
Proof. intros Hc. unfold mat_at, hom_of. cbn [h_mmap]. rewrite (@nth_map_seq _ (mt m)) by auto. reflexivity. Qed.
Lemma fission_is_ok : fission_data_ok hom_of.
Proof.
  intros g c Hg Hc. cbn [h_mat h_n hom_of] in *. rewrite weight_phi, vol_at_c, mat_at_c by auto.
  destruct HP as (_ & _ & _ & _ & HM & HX). destruct HF as (_ & HFp). fold m n in HM, HFp.
  destruct (HX g (mt m c) Hg (HM c Hc)) as (_ & _ & X1 & X2 & _). split; [|split; auto].
  apply Rmult_le_pos; apply Rlt_le; [apply HFp; auto|apply (cvol_pos HP); auto].
Qed.

(** Region sums of the fine data. *)
Definition RS (r : nat) (f : nat -> R) : R := region_sum n cmap r (fun c => cvol U c * f c)%R.
Lemma RS_ext r f g : (forall c, c < n -> f c = g c) -> RS r f = RS r g.
Proof. intros H. apply region_sum_ext. intros c Hc. rewrite H; auto. Qed.
Lemma RS_pos r f : r < ncells cm -> (forall c, c < n -> (0 < f c)%R) -> (0 < RS r f)%R.
Proof.
  intros Hr H. destruct (map_onto HP HC EM GC Hr) as (i & Hi & Ei). apply (@region_pos n cmap r _ i); auto.
  intros c Hc. apply Rmult_lt_0_compat; auto. apply (cvol_pos HP). auto.
Qed.
Lemma RS_nonneg r f : (forall c, c < n -> (0 <= f c)%R) -> (0 <= RS r f)%R.
Proof.
  intros H. apply rsum_nonneg. intros c Hc. destruct (_ =? r); [|lra]. apply Rmult_le_pos; auto. apply Rlt_le, (cvol_pos HP). auto.
Qed.
Definition F (g r : nat) : R := RS r (val2 phi g).
Lemma F_pos g r : g < G -> r < ncells cm -> (0 < F g r)%R.
Proof. intros Hg Hr. apply RS_pos; auto. intros c Hc. apply HF; auto. Qed.
Lemma flux_region g r : g < G -> region_flux hom_of (repeat 1%nat G) g r = F g r.
Proof.
  intros Hg. unfold region_flux. rewrite (@block_ones G g (fun g => region_sum (h_n hom_of) (h_reg hom_of) r (fun c => weight (h_w hom_of) g c * vol_at hom_of c)%R)) by auto.
  apply region_sum_ext. intros c Hc. rewrite weight_phi, vol_at_c by auto. ring.
Qed.
Lemma rate_region f g r : g < G -> region_rate hom_of (repeat 1%nat G) f g r = RS r (fun c => f g (mt m c) * val2 phi g c)%R.
Proof.
  intros Hg. unfold region_rate.
  rewrite (@block_ones G g (fun g => region_sum (h_n hom_of) (h_reg hom_of) r (fun c => weight (h_w hom_of) g c * vol_at hom_of c * f g (mat_at hom_of c))%R)) by auto.
  apply region_sum_ext. intros c Hc. rewrite weight_phi, vol_at_c, mat_at_c by auto. ring.
Qed.
Lemma volume_region r : region_volume hom_of r = RS r (fun _ => 1%R).
Proof. apply region_sum_ext. intros c Hc. rewrite vol_at_c by auto. ring. Qed.
Lemma scatter_region q g r : q < G -> g < G -> scatter_rate hom_of (repeat 1%nat G) q g r = RS r (fun c => ss x q g (mt m c) * val2 phi g c)%R.
Proof.
  intros Hq Hg. unfold scatter_rate.
  match goal with |- block_sum _ _ ?f = _ => rewrite (@block_ones G g f) by auto end.
  apply region_sum_ext. intros c Hc. rewrite (@block_ones G q (fun gp => ss (h_mat hom_of) gp g (mat_at hom_of c))) by auto.
  rewrite weight_phi, vol_at_c, mat_at_c by auto. cbn [h_mat hom_of]. ring.
Qed.
Lemma coarse_vol r : r < ncells cm -> vol cm r = RS r (fun _ => 1%R).
Proof.
  intros Hr. destruct (coarse_ijk GC Hr) as (I & J & K & HI & HJ & HK & ->). rewrite (coarse_volume HP HC EM GC) by auto.
  apply region_sum_ext. intros c Hc. ring.
Qed.
Lemma coarse_vol_pos r : r < ncells cm -> (0 < vol cm r)%R.
Proof. intros Hr. rewrite coarse_vol by auto. apply RS_pos; auto. intros; lra. Qed.

(** The homogenised material. *)
Definition good_mat (cmat : mtl) (fl : list (list R)) : Prop :=
  homogenize hom_of (repeat 1%nat G) 0 = Ok (cmat, fl) /\ ng cmat = G /\ nm cmat = ncells cm /\ bounds_complete cmat /\ bounds_attained cmat /\
  forall g r, g < G -> r < ncells cm ->
    val2 fl g r = (F g r / vol cm r)%R /\
    (st cmat g r * F g r = RS r (fun c => st x g (mt m c) * val2 phi g c))%R /\
    (nsf cmat g r * F g r = RS r (fun c => nsf x g (mt m c) * val2 phi g c))%R /\
    (0 < dc cmat g r)%R /\
    forall q, q < G -> (ss cmat q g r * F g r = RS r (fun c => ss x q g (mt m c) * val2 phi g c))%R /\ (0 <= ss cmat q g r)%R.
Lemma cur_positive : match u_dc U, cur with CURRENT_D, Some j => forall g c, g < G -> c < n -> (0 < val2 j g c)%R | _, _ => True end.
Proof. destruct (u_dc U); auto. destruct cur as [j|]; auto. apply HCU. Qed.
Lemma homogenised : exists cmat fl, good_mat cmat fl.
Proof.
  destruct (homog_run hom_is_ready collapse_ones) as (c0 & fl & E & N1 & N2 & V).
  exists (finalize c0), fl. split; auto. rewrite repeat_length in *. split; [exact N1|]. split; [cbn; rewrite N2; apply (map_regions HP HC EM GC)|].
  destruct (finalize_bounds c0) as (B1 & B2). split; auto. split; auto. intros g r Hg Hr.
  destruct HP as (_ & _ & _ & _ & HM & HX). fold m n in HM. fold x G in HX. pose proof (F_pos Hg Hr) as FP.
  assert (ST : (0 < region_rate hom_of (repeat 1%nat G) (st x) g r)%R).
  { rewrite rate_region by auto. apply RS_pos; auto. intros c Hc. destruct (HX g (mt m c) Hg (HM c Hc)) as (X & _). apply Rmult_lt_0_compat; auto. apply HF; auto. }
  destruct (V g r Hg ltac:(cbn [h_reg hom_of]; rewrite (map_regions HP HC EM GC); auto)) as (V1 & V2). specialize (V2 ST). cbn [h_mat hom_of h_dc] in V2.
  rewrite flux_region in V1 by auto. rewrite nth_repeat_lt, volume_region in V1 by auto.
  destruct V2 as (S1 & _ & S3 & S4 & S5 & S6). rewrite flux_region in * by auto.
  split. { unfold val2. rewrite V1, coarse_vol by auto. cbn [INR]. f_equal. ring. }
  split. { cbn [finalize st]. rewrite S1, rate_region by auto. field. lra. }
  split.
  { cbn [finalize nsf nu]. destruct (@sf_rate_nonneg hom_of (repeat 1%nat G) g r fission_is_ok) as (NN & NZ); [cbn; rewrite sum_ones; auto|rewrite repeat_length; auto|].
    cbn [h_mat hom_of] in NN, NZ. destruct (Rlt_dec 0 (region_rate hom_of (repeat 1%nat G) (sf x) g r)) as [H|H].
    - destruct (S3 H) as (Q1 & Q2 & _). rewrite Q1, Q2, <- rate_region by auto. field. split; lra.
    - destruct (NZ H) as (Z1 & Z2). destruct (S4 H) as (Q1 & _). rewrite Q1, <- rate_region, Z2 by auto. ring. }
  split.
  { cbn [finalize dc]. rewrite S5. destruct (u_dc U) eqn:ED.
    - assert (CW : forall g c, cweight hom_of g c = val2 phi g c) by (intros; unfold cweight; cbn [h_dc hom_of h_w]; rewrite ED; destruct cur; auto).
      apply Rdiv_lt_0_compat.
      + unfold cur_rate. match goal with |- (0 < block_sum _ _ ?f)%R => rewrite (@block_ones G g f) by auto end.
        destruct (map_onto HP HC EM GC Hr) as (i & Hi & Ei). apply (@region_pos (h_n hom_of) (h_reg hom_of) r _ i); auto. intros c Hc.
        rewrite CW, vol_at_c, mat_at_c by auto. rewrite Nat.add_0_r. destruct (HX g (mt m c) Hg (HM c Hc)) as (_ & X & _).
        apply Rmult_lt_0_compat; [apply Rmult_lt_0_compat; [apply HF; auto|apply (cvol_pos HP); auto]|exact X].
      + unfold cur_flux. match goal with |- (0 < block_sum _ _ ?f)%R => rewrite (@block_ones G g f) by auto end.
        destruct (map_onto HP HC EM GC Hr) as (i & Hi & Ei). apply (@region_pos (h_n hom_of) (h_reg hom_of) r _ i); auto. intros c Hc.
        rewrite CW, vol_at_c by auto. apply Rmult_lt_0_compat; auto; [apply HF; auto|apply (cvol_pos HP); auto].
    - assert (CW : forall g c, g < G -> c < n -> (0 < cweight hom_of g c)%R).
      { intros g' c' Hg' Hc'. unfold cweight. cbn [h_dc hom_of h_w]. rewrite ED. pose proof cur_positive as CP. rewrite ED in CP. destruct cur as [j|]; [apply CP; auto|apply HF; auto]. }
      apply Rdiv_lt_0_compat.
      + unfold cur_rate. match goal with |- (0 < block_sum _ _ ?f)%R => rewrite (@block_ones G g f) by auto end.
        destruct (map_onto HP HC EM GC Hr) as (i & Hi & Ei). apply (@region_pos (h_n hom_of) (h_reg hom_of) r _ i); auto. intros c Hc.
        rewrite vol_at_c, mat_at_c by auto. rewrite Nat.add_0_r. destruct (HX g (mt m c) Hg (HM c Hc)) as (_ & X & _).
        apply Rmult_lt_0_compat; [apply Rmult_lt_0_compat; [apply CW; auto|apply (cvol_pos HP); auto]|exact X].
      + unfold cur_flux. match goal with |- (0 < block_sum _ _ ?f)%R => rewrite (@block_ones G g f) by auto end.
        destruct (map_onto HP HC EM GC Hr) as (i & Hi & Ei). apply (@region_pos (h_n hom_of) (h_reg hom_of) r _ i); auto. intros c Hc.
        rewrite vol_at_c by auto. apply Rmult_lt_0_compat; [apply CW; auto|apply (cvol_pos HP); auto].
    - apply Rdiv_lt_0_compat; [lra|]. apply Rmult_lt_0_compat; [lra|]. apply Rdiv_lt_0_compat; auto. }
  intros q Hq. cbn [finalize ss]. rewrite S6 by (rewrite ?repeat_length; auto). rewrite scatter_region by auto. split.
  - field. lra.
  - apply Rmult_le_pos; [|apply Rlt_le, Rinv_0_lt_compat; auto]. apply RS_nonneg. intros c Hc.
    destruct (HX q (mt m c) Hq (HM c Hc)) as (_ & _ & _ & _ & X). apply Rmult_le_pos; auto. apply Rlt_le, HF; auto.
Qed.
End System.
