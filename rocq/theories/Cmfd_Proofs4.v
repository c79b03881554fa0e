(** * Cmfd_Proofs4: the residual of the coarse system, and solutions as fixed points. *)
From Coquelicot Require Import Coquelicot.
From Verif Require Import Base BaseR Loop Mesh_Model Mesh_Spec Mesh_Proofs Material_Model Material_Spec Material_Proofs Matrix_Model Matrix_Spec Angle_Model Angle_Spec
  Boundary_Model Boundary_Spec Cell_Spec Sweep_Model Sweep_Spec Region_Model Region_Spec Region_Proofs Homog_Proofs Tally_Model Tally_Spec Tally_Proofs Tally_Proofs2 Tally_Proofs3 Tally_Proofs4 Tally_Proofs5 Tally_Proofs6 Tally_Proofs7
  Diffusion_Model Diffusion_Spec Diffusion_Proofs Cmfd_Model Cmfd_Spec Cmfd_Proofs Cmfd_Proofs2 Cmfd_Proofs3.
Open Scope nat_scope.
Set Implicit Arguments. Unset Strict Implicit.

Lemma coarse_grid D U g level : coarse_mesh D (grid_of U g) level = coarse_mesh D (grid_of U 0) level.
Proof. reflexivity. Qed.
Lemma over_ext q f h : (forall o a, o < q_noct q -> a < q_nao q -> f o a = h o a) -> over_angles q f = over_angles q h.
Proof. intros H. apply rsum_ext. intros o Ho. apply rsum_ext. intros a Ha. auto. Qed.
Lemma over_scal q c f : over_angles q (fun o a => c * f o a)%R = (c * over_angles q f)%R.
Proof. unfold over_angles. rewrite <- rsum_scal. apply rsum_ext. intros o _. apply rsum_scal. Qed.

(** What a sweep leaves: readable tallies, balanced in one and two dimensions. *)
Lemma swept_tally U C level qd ds src g phi T : coarse_mesh (Mesh_Model.dim (u_mesh U)) (grid_of U 0) level = Ok C -> swept_by U C qd ds src g phi T ->
  readable C T /\ (Mesh_Model.dim (u_mesh U) < 3 -> balances C (grid_of U g) qd ds src T phi) /\
  (Mesh_Model.dim (u_mesh U) = 3 -> forall I J K, Tally_Spec.net_leakage C T I J K = 0%R).
Proof.
  intros HC SW. destruct SW as [E keep upd gi ord b phi0 psi0 T0 b' psi' Q1 D Eb PR SG Nx T0F ES|E keep upd gi ord b phi0 psi0 T0 b' psi' Q1 D Eb PR SG Nx Ny T0F ES|keep upd gi ord b phi0 psi0 T0 b' psi' Q1 D Eb PR SG T0F ES];
  rewrite D in HC |- *; subst qd.
  - split; [|split; [|lia]].
    + destruct (@currents_1d E (grid_of U g) C ds keep upd src gi ord b phi0 psi0 T0 level Q1 PR SG HC Nx T0F) as (b1 & p1 & s1 & T1 & E1 & _ & TF & _).
      left. congruence.
    + intros _. destruct (@balance_1d E (grid_of U g) C ds keep upd src gi ord b phi0 psi0 T0 level Q1 PR SG HC Nx T0F) as (b1 & p1 & s1 & T1 & E1 & B).
      rewrite ES in E1. injection E1 as <- <- <- <-. exact B.
  - split; [|split; [|lia]].
    + destruct (@currents_2d E (grid_of U g) C ds keep upd src gi ord b phi0 psi0 T0 level Q1 PR SG HC Nx Ny T0F) as (b1 & p1 & s1 & T1 & E1 & _ & TF & _).
      left. congruence.
    + intros _. destruct (@balance_2d E (grid_of U g) C ds keep upd src gi ord b phi0 psi0 T0 level Q1 PR SG HC Nx Ny T0F) as (b1 & p1 & s1 & T1 & E1 & B).
      rewrite ES in E1. injection E1 as <- <- <- <-. exact B.
  - destruct (@nothing_3d (grid_of U g) C ds keep upd src gi ord b phi0 psi0 T0 Q1 PR SG) as (b1 & p1 & s1 & _ & T1 & E1 & Z & L).
    assert (T1 = T) by congruence. subst T1. split; [right; exact Z|]. split; [lia|]. intros _. exact L.
Qed.

Section Residual.
Variables (U : problem) (C : cmesh) (level : nat).
Let m := u_mesh U.
Let D := Mesh_Model.dim m.
Let n := ncells m.
Let x := u_mat U.
Let G := ng x.
Hypothesis HP : problem_ok U.
Hypothesis HC : coarse_mesh D (grid_of U 0) level = Ok C.
Variables (T : nat -> tally) (q phi : list (list R)) (cur : option (list (list R))) (keff alpha : R).
Hypothesis HF : positive_flux U phi.
Hypothesis HQ : shape U q.
Hypothesis HCU : current_ok U cur.
Hypothesis HT : forall g, g < G -> readable C (T g).
Variable srt : list triplet -> list triplet.
Hypothesis HS : is_sort srt.
Local Notation idx I J L := (Mesh_Model.index (cm_n C 0) (cm_n C 1) I J L).

(** The coarse system at its starting vector. *)
Lemma system : exists cm cmap cmat fl A b x0 y,
  coarse_good U C cm /\ coarse_map C = Ok cmap /\ good_mat U cm cmap phi cur cmat fl /\
  coarse_problem srt U C T q cur keff alpha phi = Ok (cm, cmap, (A, b, x0)) /\
  length b = G * ncells cm /\ length x0 = G * ncells cm /\ length y = G * ncells cm /\ multiply A x0 = Ok y /\
  (forall g c, g < G -> c < ncells cm -> nth (c + g * ncells cm) x0 0%R = (RS U cmap c (val2 phi g) / vol cm c)%R) /\
  forall g I J L, g < G -> I < cm_n C 0 -> J < cm_n C 1 -> L < cm_n C 2 ->
  let c := idx I J L in
  (vol cm c * nth (c + g * ncells cm) b 0 = RS U cmap c (val2 q g))%R /\
  (vol cm c * nth (c + g * ncells cm) y 0 = Tally_Spec.net_leakage C (T g) I J L + RS U cmap c (fun i => st x g (mt m i) * val2 phi g i) -
     rsum G (fun gp => into (u_adj U) cmat g gp c * RS U cmap c (val2 phi gp)) -
     (if u_mult U then rsum G (fun gp => birth (u_adj U) cmat g gp c * RS U cmap c (val2 phi gp)) else 0))%R.
Proof.
  destruct (coarse_exists HP HC) as (cm & GC). destruct (map_exists HP HC) as (cmap & EM & _).
  destruct (homogenised HP HC GC EM HF HCU) as (cmat & fl & GM).
  destruct (averages_ok HP HC GC EM HQ (proj1 HF)) as (b & x0 & EA & Lb & Lx & V).
  destruct (@action U C level HP HC cm cmap GC EM phi cur HF cmat fl GM T keff alpha HT srt HS) as (A & EK & AC).
  destruct (AC x0 Lx) as (y & Ey & Ly & Vy). { intros g c Hg Hc. apply V; auto. }
  exists cm, cmap, cmat, fl, A, b, x0, y. split; auto. split; auto. split; auto. split.
  { unfold coarse_problem. destruct GC as (EC & _). rewrite EC. cbn [bind]. rewrite EM. cbn [bind].
    pose proof (vols_ok HP) as VO. fold m n in VO. fold m n. rewrite VO. cbn [bind].
    destruct GM as (EH & _). unfold hom_of in EH. fold m n x G in EH. fold x G. rewrite EH. cbn [bind fst snd].
    fold x G in EK. rewrite EK. cbn [bind]. fold m x G in EA. rewrite EA. reflexivity. }
  split; auto. split; auto. split; auto. split; auto. split; [intros g c Hg Hc; apply V; auto|].
  intros g I J L Hg HI HJ HL. cbv zeta. split; [|apply Vy; auto].
  assert (Hc : idx I J L < ncells cm) by (rewrite (coarse_index GC); apply cell_lt, (coarse_inside GC); auto).
  destruct (V g _ Hg Hc) as (-> & _). pose proof (coarse_vol_pos HP HC GC EM Hc). field. lra.
Qed.

(** Transfer and production of the homogenised data. *)
Lemma RS_rsum cmap r k f : RS U cmap r (fun i => rsum k (fun j => f j i)) = rsum k (fun j => RS U cmap r (f j)).
Proof.
  unfold RS. rewrite <- region_rsum. apply region_sum_ext. intros c _. rewrite <- rsum_scal. reflexivity.
Qed.
Lemma RS_scal cmap r k f : RS U cmap r (fun i => k * f i)%R = (k * RS U cmap r f)%R.
Proof. unfold RS. rewrite <- region_scal. apply region_sum_ext. intros. ring. Qed.
Lemma RS_plus cmap r f h : RS U cmap r (fun i => f i + h i)%R = (RS U cmap r f + RS U cmap r h)%R.
Proof. unfold RS. rewrite <- region_plus. apply region_sum_ext. intros. ring. Qed.
Lemma RS_minus cmap r f h : RS U cmap r (fun i => f i - h i)%R = (RS U cmap r f - RS U cmap r h)%R.
Proof. unfold RS. rewrite <- region_minus. apply region_sum_ext. intros. ring. Qed.
Lemma RS_eq cmap r f h : (forall c, c < n -> f c = h c) -> RS U cmap r f = RS U cmap r h.
Proof. intros H. unfold RS. apply region_sum_ext. intros c Hc. rewrite H; auto. Qed.
Lemma transfer cm cmap cmat fl g c : coarse_good U C cm -> coarse_map C = Ok cmap -> good_mat U cm cmap phi cur cmat fl ->
  u_adj U = false \/ G = 1 -> g < G -> c < ncells cm ->
  rsum G (fun gp => into (u_adj U) cmat g gp c * RS U cmap c (val2 phi gp))%R = RS U cmap c (scattering U phi g).
Proof.
  intros GC EM (_ & _ & _ & _ & _ & V) HA Hg Hc. fold x G in V. unfold scattering. rewrite RS_rsum. fold x G. apply rsum_ext. intros gp Hgp.
  assert (EI : forall y k, into (u_adj U) y g gp k = ss y g gp k).
  { intros. destruct HA as [->|E]; auto. unfold into. assert (g = 0) by lia. assert (gp = 0) by lia. subst. destruct (u_adj U); auto. }
  rewrite EI. destruct (V gp c Hgp Hc) as (_ & _ & _ & _ & VS). destruct (VS g Hg) as (VS1 & _). unfold F in VS1. rewrite VS1.
  apply RS_eq. intros i _. rewrite EI. reflexivity.
Qed.
Lemma spectrum cm cmap cmat fl X g c : coarse_good U C cm -> coarse_map C = Ok cmap -> good_mat U cm cmap phi cur cmat fl ->
  (forall g k, g < G -> k < nm x -> chi x g k = X g /\ (0 < sf x g k)%R /\ (0 < nsf x g k)%R) -> g < G -> c < ncells cm -> chi cmat g c = X g.
Proof.
  intros GC EM (EH & _) HX Hg Hc. pose proof HP as HP'. destruct HP' as (_ & _ & _ & HG & HM & HY). fold m n x G in HG, HM, HY.
  destruct (@homog_spectrum (hom_of U cmap phi cur) (repeat 1%nat G) X (hom_is_ready HP HC EM HF HCU) (collapse_ones HP cmap phi cur)) as (cm' & fl' & E' & V).
  fold x G in EH. assert (cm' = cmat) by congruence. subst cm'. rewrite repeat_length in V.
  destruct (V g c Hg) as (-> & _).
  - cbn [h_reg hom_of]. rewrite (map_regions HP HC EM GC). auto.
  - cbn [h_mat hom_of]. rewrite rate_region by auto. apply (RS_pos HP HC GC EM); auto. intros i Hi. apply Rmult_lt_0_compat; [apply HY; auto|apply HF; auto].
  - cbn [h_mat hom_of]. rewrite rate_region by auto. apply (RS_pos HP HC GC EM); auto. intros i Hi. apply Rmult_lt_0_compat; [apply HX; auto|apply HF; auto].
  - cbn [h_mat hom_of h_n]. intros g' c' Hg' Hc' _. rewrite mat_at_c by auto. apply HX; auto.
  - cbn [h_mat hom_of h_n h_reg]. apply Rgt_not_eq. fold x G. 
    replace (region_sum (ncells (u_mesh U)) cmap c (fun c0 => (weight (h_w (hom_of U cmap phi cur)) (G - 1) c0 * nsf x (G - 1) (mat_at (hom_of U cmap phi cur) c0) * vol_at (hom_of U cmap phi cur) c0)%R))
      with (RS U cmap c (fun i => nsf x (G - 1) (mt m i) * val2 phi (G - 1) i)%R).
    + apply (RS_pos HP HC GC EM); auto. intros i Hi. apply Rmult_lt_0_compat; [apply HX; auto; lia|apply HF; auto; fold x G; lia].
    + apply region_sum_ext. intros i Hi. rewrite weight_phi, vol_at_c, mat_at_c by auto. fold m. ring.
  - rewrite (@block_ones G g X) by auto. reflexivity.
Qed.
Lemma produced cm cmap cmat fl g c : coarse_good U C cm -> coarse_map C = Ok cmap -> good_mat U cm cmap phi cur cmat fl ->
  u_adj U = false \/ G = 1 -> one_spectrum U -> g < G -> c < ncells cm ->
  rsum G (fun gp => birth (u_adj U) cmat g gp c * RS U cmap c (val2 phi gp))%R =
  RS U cmap c (fun i => rsum G (fun gp => birth (u_adj U) x g gp (mt m i) * val2 phi gp i))%R.
Proof.
  intros GC EM GM HA (X & HX) Hg Hc. pose proof HP as HP'. destruct HP' as (_ & _ & _ & HG & HM & HY). fold m n x G in HG, HM, HY. fold x G in HX.
  rewrite RS_rsum. apply rsum_ext. intros gp Hgp.
  assert (EB : forall y k, birth (u_adj U) y g gp k = (chi y g k * nsf y gp k)%R).
  { intros. destruct HA as [->|E]; auto. unfold birth. assert (g = 0) by lia. assert (gp = 0) by lia. subst. destruct (u_adj U); auto. }
  rewrite EB, (@spectrum cm cmap cmat fl X g c) by auto. destruct GM as (_ & _ & _ & _ & _ & V). fold x G in V.
  destruct (V gp c Hgp Hc) as (_ & _ & VN & _). unfold F in VN. fold m x in VN. rewrite Rmult_assoc, VN, <- RS_scal. apply RS_eq. intros i Hi. rewrite EB.
  destruct (HX g (mt m i) Hg (HM i Hi)) as (-> & _). ring.
Qed.

Lemma coarse_rs cmap g I J L f : coarse_map C = Ok cmap -> I < cm_n C 0 -> J < cm_n C 1 -> L < cm_n C 2 ->
  coarse_total C (grid_of U g) I J L f = RS U cmap (idx I J L) f.
Proof. intros EM HI HJ HL. apply (coarse_total_region HP HC g f EM); auto. Qed.

Variable s : nat -> nat -> R.
Hypothesis HSW : swept_all U C s phi T.
Hypothesis HD : D < 3.

Lemma sweep_balance cmap g I J L : coarse_map C = Ok cmap -> g < G -> I < cm_n C 0 -> J < cm_n C 1 -> L < cm_n C 2 ->
  (Tally_Spec.net_leakage C (T g) I J L + RS U cmap (idx I J L) (fun i => st x g (mt m i) * val2 phi g i) = RS U cmap (idx I J L) (s g))%R.
Proof.
  intros EM Hg HI HJ HL. destruct (HSW Hg) as (qd & ds & src & SW & (norm & NO & IS)).
  destruct (swept_tally HC SW) as (_ & B & _). specialize (B HD I J L HI HJ HL). rewrite !(coarse_rs _ _ EM) in B by auto.
  etransitivity; [|etransitivity; [exact B|]].
  - f_equal. apply RS_eq. intros i Hi. unfold at_. cbn [grid_of g_sig]. rewrite (@nth_map_seq _ (fun c => st (u_mat U) g (mt (u_mesh U) c))) by auto. reflexivity.
  - apply RS_eq. intros i Hi. rewrite (@over_ext qd _ (fun o a => s g i * (Sweep_Spec.weight ds a * norm))%R).
    + rewrite over_scal, NO. ring.
    + intros o a Ho Ha. rewrite IS by auto. ring.
Qed.

(** The residual. *)
Lemma residual : conserving U keff -> exists cm cmap A b x0 y,
  coarse_problem srt U C T q cur keff alpha phi = Ok (cm, cmap, (A, b, x0)) /\
  ncells cm = cm_n C 0 * cm_n C 1 * cm_n C 2 /\
  length b = G * ncells cm /\ length x0 = G * ncells cm /\ length y = G * ncells cm /\ multiply A x0 = Ok y /\
  forall g I J L, g < G -> I < cm_n C 0 -> J < cm_n C 1 -> L < cm_n C 2 ->
  let c := idx I J L in
  (0 < vol cm c)%R /\
  (vol cm c * (nth (c + g * ncells cm) b 0 - nth (c + g * ncells cm) y 0) =
   coarse_total C (grid_of U g) I J L (fun i => source_of U keff q phi g i - s g i))%R.
Proof.
  intros (HA & HM). destruct system as (cm & cmap & cmat & fl & A & b & x0 & y & GC & EM & GM & E & Lb & Lx & Ly & Ey & _ & V).
  exists cm, cmap, A, b, x0, y. split; auto. split.
  { destruct GC as (_ & _ & _ & N & _). unfold ncells. pose proof (N 0 ltac:(lia)) as N0. pose proof (N 1 ltac:(lia)) as N1. pose proof (N 2 ltac:(lia)) as N2. cbn in N0, N1, N2. congruence. }
  split; auto. split; auto. split; auto. split; auto.
  intros g I J L Hg HI HJ HL. cbv zeta. destruct (V g I J L Hg HI HJ HL) as (Vb & Vy).
  assert (Hc : idx I J L < ncells cm) by (rewrite (coarse_index GC); apply cell_lt, (coarse_inside GC); auto).
  split; [apply (coarse_vol_pos HP HC GC EM); auto|].
  rewrite Rmult_minus_distr_l, Vb, Vy, (coarse_rs _ _ EM) by auto. rewrite (sweep_balance EM) by auto.
  rewrite (transfer GC EM GM HA Hg Hc). rewrite RS_minus. unfold source_of. rewrite RS_plus.
  rewrite (@RS_plus cmap _ (val2 q g) (scattering U phi g)).
  replace (RS U cmap (idx I J L) (fission U keff phi g)) with (if u_mult U then rsum G (fun gp => birth (u_adj U) cmat g gp (idx I J L) * RS U cmap (idx I J L) (val2 phi gp))%R else 0%R).
  - ring.
  - unfold fission. destruct HM as [->|(-> & OS)].
    + symmetry. apply rsum_zero. intros i _. destruct (_ =? _); ring.
    + destruct (u_mult U); [|symmetry; apply rsum_zero; intros i _; destruct (_ =? _); ring].
      rewrite (produced GC EM GM HA OS Hg Hc). apply RS_eq. intros i _. rewrite Rinv_1. fold m x G. ring.
Qed.
End Residual.
