(** * Cmfd_Proofs5: the update, its fixed points, and what moves. *)
From Coquelicot Require Import Coquelicot.
From Verif Require Import Base BaseR Loop Mesh_Model Mesh_Spec Mesh_Proofs Material_Model Material_Spec Material_Proofs Matrix_Model Matrix_Spec Angle_Model Angle_Spec
  Boundary_Model Boundary_Spec Cell_Spec Sweep_Model Sweep_Spec Region_Model Region_Spec Region_Proofs Homog_Proofs Tally_Model Tally_Spec Tally_Proofs Tally_Proofs2 Tally_Proofs3 Tally_Proofs4 Tally_Proofs5 Tally_Proofs6 Tally_Proofs7
  Diffusion_Model Diffusion_Spec Diffusion_Proofs Cmfd_Model Cmfd_Spec Cmfd_Proofs Cmfd_Proofs2 Cmfd_Proofs3 Cmfd_Proofs4.
Open Scope nat_scope.
Set Implicit Arguments. Unset Strict Implicit.

Lemma shape_ext U v w : shape U v -> shape U w -> (forall g c, g < ng (u_mat U) -> c < ncells (u_mesh U) -> val2 v g c = val2 w g c) -> v = w.
Proof.
  intros (L1 & R1) (L2 & R2) H. apply (@list_ext_nth _ [] v w); [lia|]. intros g Hg. rewrite L1 in Hg.
  apply (@list_ext_nth _ 0%R _ _); [rewrite R1, R2; auto|]. intros c Hc. rewrite R1 in Hc by auto. apply H; auto.
Qed.

Section Rescale.
Variables (U : problem) (nc : nat) (cmap : list nat) (omega : R) (x x0 : list R).
Let n := ncells (u_mesh U).
Let G := ng (u_mat U).
Hypothesis Hlen : length cmap = n.
Hypothesis Hmap : forall i, i < n -> nth i cmap 0 < nc.
Hypothesis Lx : length x = G * nc.
Hypothesis Lx0 : length x0 = G * nc.
Definition factor (g i : nat) : R :=
  let ci := nth i cmap 0 + g * nc in (omega * nth ci x 0 / nth ci x0 0 + (1 - omega))%R.
Definition touched (g i g' i' : nat) : bool := (g' <? g) || ((g' =? g) && (i' <? i)).
Lemma rescale_ok phi : shape U phi -> exists phi', rescale n nc G cmap omega x x0 phi = Ok phi' /\ shape U phi' /\
  forall g i, g < G -> i < n -> val2 phi' g i = (val2 phi g i * factor g i)%R.
Proof.
  intros SP. unfold rescale.
  pose (Inv := fun g i p => shape U p /\ forall g' i', g' < G -> i' < n ->
    val2 p g' i' = if touched g i g' i' then (val2 phi g' i' * factor g' i')%R else val2 phi g' i').
  pose (body := fun g i (p : list (list R)) =>
      do cc <- rd cmap i; let ci := cc + g * nc in
      do a <- rd x ci; do a0 <- rd x0 ci;
      do row <- rd p g; do pv <- rd row i;
      do row <- wr row i (pv * (omega * a / a0 + (1 - omega)))%R;
      wr p g row).
  destruct (@for_inv _ (fun g p => Inv g 0 p) 0 G phi (fun g p => for_ 0 n p (body g))) as (p' & E & SP' & V).
  - lia.
  - split; auto. intros g' i' _ _. unfold touched. cbn [Nat.ltb Nat.leb]. rewrite andb_false_r. reflexivity.
  - intros g p Hg HI.
    destruct (@for_inv _ (fun i p => Inv g i p) 0 n p (body g)) as (p' & E & SP' & V).
    + lia.
    + exact HI.
    + clear p HI. intros i p Hi ((L & LL) & V). unfold body.
      pose proof (Hmap (proj2 Hi)) as Hc.
      assert (IN : nth i cmap 0 + g * nc < G * nc) by nia.
      rewrite (@rd_ok _ cmap i 0) by lia. cbn [bind]. rewrite (@rd_ok _ x _ 0%R) by lia. cbn [bind]. rewrite (@rd_ok _ x0 _ 0%R) by lia. cbn [bind].
      rewrite (@rd_ok _ p g []) by (rewrite L; apply Hg). cbn [bind].
      assert (Lr : length (nth g p []) = n) by (apply LL; apply Hg).
      rewrite (@rd_ok _ _ i 0%R) by lia. cbn [bind]. unfold wr at 1. rewrite (proj2 (Nat.ltb_lt i (length (nth g p [])))) by lia. cbn [bind].
      unfold wr. rewrite (proj2 (Nat.ltb_lt g (length p))) by (rewrite L; apply Hg). eexists. split; [reflexivity|]. split.
      * split; [rewrite upd_length; auto|]. intros g' Hg'. destruct (Nat.eq_dec g' g) as [->|N].
        -- rewrite nth_upd_eq by (rewrite L; auto). rewrite upd_length. auto.
        -- rewrite nth_upd_neq by auto. auto.
      * intros g' i' Hg' Hi'. unfold val2 at 1. specialize (V g' i' Hg' Hi'). unfold touched in *. destruct (Nat.eq_dec g' g) as [->|N].
        -- rewrite nth_upd_eq by (rewrite L; auto). rewrite Nat.ltb_irrefl, Nat.eqb_refl in *. cbn [orb andb] in *.
           destruct (Nat.eq_dec i' i) as [->|Ni].
           ++ rewrite nth_upd_eq by lia. rewrite Nat.ltb_irrefl in V. rewrite (proj2 (Nat.ltb_lt i (S i))) by lia. unfold val2 in V. rewrite V. reflexivity.
           ++ rewrite nth_upd_neq by auto. unfold val2 in V. rewrite V. destruct (Nat.ltb_spec i' i), (Nat.ltb_spec i' (S i)); auto; lia.
        -- rewrite nth_upd_neq by auto. rewrite (proj2 (Nat.eqb_neq _ _) N) in *. cbn [andb] in *. exact V.
    + exists p'. split; auto. split; auto. intros g' i' Hg' Hi'. rewrite V by auto.
      assert (ET : touched g n g' i' = touched (S g) 0 g' i').
      { unfold touched. rewrite (proj2 (Nat.ltb_lt _ _) Hi'), andb_true_r. change (i' <? 0) with false. rewrite andb_false_r, orb_false_r.
        destruct (Nat.ltb_spec g' g), (Nat.eqb_spec g' g), (Nat.ltb_spec g' (S g)); auto; lia. }
      rewrite ET. reflexivity.
  - exists p'. split; [exact E|]. split; auto. intros g i Hg Hi. rewrite V by auto. unfold touched. rewrite (proj2 (Nat.ltb_lt _ _) Hg). reflexivity.
Qed.
End Rescale.

Section Update.
Variables (U : problem) (C : cmesh) (level : nat).
Let m := u_mesh U.
Let D := Mesh_Model.dim m.
Let n := ncells m.
Let x := u_mat U.
Let G := ng x.
Hypothesis HP : problem_ok U.
Hypothesis HC : coarse_mesh D (grid_of U 0) level = Ok C.
Variables (T : nat -> tally) (q phi : list (list R)) (cur : option (list (list R))) (keff alpha : R).
Hypothesis HF : positive_flux U phi.
Hypothesis HQ : shape U q.
Hypothesis HCU : current_ok U cur.
Variable srt : list triplet -> list triplet.
Hypothesis HS : is_sort srt.
Local Notation idx I J L := (Mesh_Model.index (cm_n C 0) (cm_n C 1) I J L).

Lemma swept_readable s : swept_all U C s phi T -> forall g, g < G -> readable C (T g).
Proof. intros H g Hg. destruct (H g Hg) as (qd & ds & src & SW & _). apply (swept_tally HC SW). Qed.

(** Equality of block vectors. *)
Lemma block_ext cm (v w : list R) : coarse_good U C cm -> length v = G * ncells cm -> length w = G * ncells cm ->
  (forall g I J L, g < G -> I < cm_n C 0 -> J < cm_n C 1 -> L < cm_n C 2 ->
     nth (idx I J L + g * ncells cm) v 0%R = nth (idx I J L + g * ncells cm) w 0%R) -> v = w.
Proof.
  intros GC Lv Lw H. apply (@list_ext_nth _ 0%R v w); [lia|]. intros j Hj. rewrite Lv in Hj.
  assert (0 < ncells cm) by nia. pose proof (Nat.div_mod_eq j (ncells cm)) as DM. pose proof (Nat.mod_upper_bound j (ncells cm) ltac:(lia)) as MB.
  destruct (coarse_ijk GC MB) as (I & J & L & HI & HJ & HL & E).
  replace j with (idx I J L + j / ncells cm * ncells cm) by (rewrite <- E; lia).
  apply H; auto. apply Nat.div_lt_upper_bound; lia.
Qed.

Lemma fixed_point solve : D < 3 -> conserving U keff -> transport_solution U C keff q phi T -> keeps_solutions solve ->
  update srt solve U C T q cur keff alpha phi = Ok phi.
Proof.
  intros HD HK TS KS. pose proof (swept_readable TS) as HR.
  destruct (coarse_exists HP HC) as (cm & GC). destruct (map_exists HP HC) as (cmap & EM & Lm & _). fold m n in Lm.
  destruct (@residual U C level HP HC T q phi cur keff alpha HF HQ HCU HR srt HS _ TS HD HK) as (cm' & cmap' & A & b & x0 & y & E & _ & Lb & Lx & Ly & Ey & V).
  destruct (@system U C level HP HC T q phi cur keff alpha HF HQ HCU HR srt HS) as (cm1 & cmap1 & cmat & fl & A1 & b1 & x1 & y1 & GC1 & EM1 & _ & E1 & _ & _ & _ & _ & VX & _).
  rewrite E in E1. injection E1 as <- <- <- <- <-.
  assert (cmap' = cmap) by congruence. subst cmap'. assert (cm' = cm) by (destruct GC as (X & _), GC1 as (Y & _); congruence). subst cm'.
  assert (b = y).
  { apply (block_ext GC); auto. intros g I J L Hg HI HJ HL. destruct (V g I J L Hg HI HJ HL) as (VP & VE).
    rewrite (coarse_rs HP HC g _ EM) in VE by auto.
    assert (Z : (RS U cmap (idx I J L) (fun i => source_of U keff q phi g i - source_of U keff q phi g i) = 0)%R).
    { apply rsum_zero. intros i _. destruct (_ =? _); [ring|auto]. }
    rewrite Z in VE. apply Rmult_integral in VE. destruct VE as [VE|VE]; lra. }
  subst y. unfold update. rewrite E. cbn [bind]. rewrite (KS _ _ _ Ey). cbn [bind]. fold m n x G.
  destruct (@rescale_ok U (ncells cm) cmap (u_omega U) x0 x0) with (phi := phi) as (p' & EP & SP & VP); auto.
  { intros i Hi. apply (map_lt HP HC EM GC). auto. } { apply HF. }
  fold m n x G in EP. rewrite EP. f_equal. apply (shape_ext SP); [apply HF|]. intros g c Hg Hc. rewrite VP by auto.
  assert (Hcc : nth c cmap 0 < ncells cm) by (apply (map_lt HP HC EM GC); auto).
  assert (X0 : (nth (nth c cmap 0%nat + g * ncells cm)%nat x0 0 <> 0)%R).
  { rewrite VX by auto. apply Rgt_not_eq. apply Rdiv_lt_0_compat; [|apply (coarse_vol_pos HP HC GC EM); auto].
    apply (RS_pos HP HC GC EM); auto. intros i Hi. apply HF; auto. }
  unfold factor. cbv zeta. field. exact X0.
Qed.

(** If the starting vector does not solve the coarse system, a solver that does moves the flux. *)
Lemma moves cm cmap A b x0 y solve phi' : (forall g, g < G -> readable C (T g)) ->
  coarse_problem srt U C T q cur keff alpha phi = Ok (cm, cmap, (A, b, x0)) -> multiply A x0 = Ok y -> y <> b ->
  exact_solver solve -> u_omega U <> 0%R -> update srt solve U C T q cur keff alpha phi = Ok phi' -> phi' <> phi.
Proof.
  intros HR E Ey NE ES HO EU ->. 
  destruct (@system U C level HP HC T q phi cur keff alpha HF HQ HCU HR srt HS) as (cm1 & cmap1 & cmat & fl & A1 & b1 & x1 & y1 & GC & EM & _ & E1 & Lb & Lx & _ & _ & VX & _).
  rewrite E in E1. injection E1 as <- <- <- <- <-.
  unfold update in EU. rewrite E in EU. cbn [bind] in EU. destruct (solve A b x0) as [xs| |] eqn:Ex; try discriminate. cbn [bind] in EU.
  destruct (ES _ _ _ _ Ex) as (Exx & Lxs). rewrite Lx in Lxs.
  destruct (map_exists HP HC) as (cmap' & EM' & Lm & _). assert (cmap' = cmap) by congruence. subst cmap'. fold m n in Lm.
  destruct (@rescale_ok U (ncells cm) cmap (u_omega U) xs x0) with (phi := phi) as (p' & EP & SP & VP); auto.
  { intros i Hi. apply (map_lt HP HC EM GC). auto. } { apply HF. }
  fold m n x G in EP, EU. rewrite EU in EP. injection EP as <-.
  assert (xs = x0); [|subst xs; congruence].
  apply (block_ext GC); auto. intros g I J L Hg HI HJ HL.
  assert (Hc : idx I J L < ncells cm) by (rewrite (coarse_index GC); apply cell_lt, (coarse_inside GC); auto).
  destruct (map_onto HP HC EM GC Hc) as (i & Hi & Ei). specialize (VP g i Hg Hi). unfold factor in VP. rewrite Ei in VP.
  assert (P : (0 < val2 phi g i)%R) by (apply HF; auto).
  assert (X0 : (nth (idx I J L + g * ncells cm)%nat x0 0 <> 0)%R).
  { rewrite VX by auto. apply Rgt_not_eq. apply Rdiv_lt_0_compat; [|apply (coarse_vol_pos HP HC GC EM); auto].
    apply (RS_pos HP HC GC EM); auto. intros i' Hi'. apply HF; auto. }
  set (a := nth _ xs 0%R) in *. set (a0 := nth _ x0 0%R) in *.
  assert (F1 : (u_omega U * a / a0 + (1 - u_omega U) = 1)%R) by (apply (Rmult_eq_reg_l (val2 phi g i)); lra).
  assert (F2 : (u_omega U * (a / a0 - 1) = 0)%R) by (unfold Rdiv in *; lra).
  apply Rmult_integral in F2. destruct F2 as [F2|F2]; [contradiction|].
  apply (Rmult_eq_reg_r (/ a0)); [|apply Rinv_neq_0_compat; auto]. rewrite (Rinv_r a0) by auto. unfold Rdiv in F2. lra.
Qed.
End Update.
