(** * IterConv_Proofs: convergence of source iteration *)
From Verif Require Import Base BaseR Loop Util_Model Angle_Model Angle_Spec Boundary_Model Boundary_Spec
  Mesh_Model Mesh_Proofs Material_Model Source_Model Source_Spec Source_Proofs SourceAll_Proofs Cell_Spec
  Sweep_Model Sweep_Spec Sweep_Proofs SweepBalance_Proofs SweepLinear_Proofs SweepAll_Proofs SweepInst_Proofs Iter_Model Iter_Spec Iter_Proofs Banach_Proofs Vector_Spec Vector_Proofs.
Set Implicit Arguments. Unset Strict Implicit.
Open Scope R_scope.
Local Notation idx := Mesh_Model.index.

(** ** Two solutions with the same entering fluxes *)
Lemma at_tab n f i : (i < n)%nat -> at_ (map f (seq 0 n)) i = f i.
Proof. intros. unfold at_. rewrite nth_map_seq by auto. auto. Qed.
Lemma at2_tab n m f i j : (i < n)%nat -> (j < m)%nat -> at2 (map (fun i => map (f i) (seq 0 m)) (seq 0 n)) i j = f i j.
Proof. intros. unfold at2. rewrite nth_map_seq by auto. rewrite nth_map_seq by auto. auto. Qed.
Lemma at_nil i : at_ [] i = 0. Proof. destruct i; auto. Qed.
Lemma at2_nil i j : at2 [] i j = 0. Proof. unfold at2. destruct i; destruct j; auto. Qed.

Section Diff.
Variables (E : eqn) (G : grid) (ds : list dir) (nq : nat).
Hypotheses (HG : grid_ok (eq_dim E) G) (HS : sig_ok (eq_strict E) G) (HD : dirs_ok (eq_dim E) nq ds).
Local Notation n := (cells_of (eq_dim E) G).

Lemma dir_at a d : nth_error ds a = Some d -> dir_ok (eq_dim E) d.
Proof. intros H. destruct HD as (_ & F). rewrite Forall_forall in F. apply F. eapply nth_error_In; eauto. Qed.

Lemma diff_max s s' o a ins outs outs' p p' M : eq_positive E = true -> 0 <= M ->
  equation E G ds s o a ins outs p -> equation E G ds s' o a ins outs' p' ->
  (forall c, (c < n)%nat -> Rabs (at_ (s o a) c - at_ (s' o a) c) <= at_ (g_sig G) c * M) ->
  forall c, (c < n)%nat -> Rabs (p c - p' c) <= M.
Proof.
  intros PO HM EQ EQ' HQ. pose proof dir_at as DA. destruct E as [e|e|]; cbn [equation eq_dim eq_strict] in *; [| |discriminate].
  - destruct EQ as (d & x & y & Hd & -> & -> & S1), EQ' as (d' & x' & y' & Hd' & Hx & -> & S2).
    rewrite Hd in Hd'. injection Hd' as <-. injection Hx as <-. specialize (DA a d Hd).
    intros c Hc. unfold cells_of in Hc. cbn in Hc. rewrite !Nat.mul_1_r in Hc.
    pose proof (@solves1_lin 1 (-1) e G d _ _ _ _ _ _ _ _ _ (map (fun c => 1 * at_ (s o a) c + -1 * at_ (s' o a) c) (seq 0 (g_nx G))) HG HS DA S1 S2) as L.
    replace (p c - p' c) with (1 * p c + -1 * p' c) by ring.
    refine (@solves1_max e G d _ _ _ _ _ M _ HG HS DA _ _ (L _) c Hc).
    + destruct e; cbn in PO; congruence.
    + replace (1 * x + -1 * x) with 0 by ring. rewrite Rabs_R0. auto.
    + intros i Hi. rewrite at_tab by auto. replace (1 * at_ (s o a) i + -1 * at_ (s' o a) i) with (at_ (s o a) i - at_ (s' o a) i) by ring.
      apply HQ. unfold cells_of. cbn. lia.
    + intros i Hi. rewrite at_tab by auto. auto.
  - destruct EQ as (d & v & h & v1 & h1 & Hd & -> & -> & S1), EQ' as (d' & v' & h' & v1' & h1' & Hd' & Hx & -> & S2).
    rewrite Hd in Hd'. injection Hd' as <-. injection Hx as <- <-. specialize (DA a d Hd).
    intros c Hc. unfold cells_of in *. cbn in *. rewrite !Nat.mul_1_r in *.
    destruct (@index_total (g_nx G) (g_ny G) 1 c) as (Hi & Hj & Hk & EC); [lia|].
    set (i := cell_to_i (g_nx G) c) in *. set (j := cell_to_j (g_nx G) (g_ny G) c) in *.
    assert (K0 : cell_to_k (g_nx G) (g_ny G) c = 0%nat) by lia. rewrite K0 in EC.
    pose proof (@solves2_lin 1 (-1) e G d _ _ _ _ _ _ _ _ _ _ _ _ _ _ 
      (map (fun c => 1 * at_ (s o a) c + -1 * at_ (s' o a) c) (seq 0 (g_nx G * g_ny G)))
      [] [] (map (fun c => 1 * at_ v1 c + -1 * at_ v1' c) (seq 0 (g_ny G))) (map (fun c => 1 * at_ h1 c + -1 * at_ h1' c) (seq 0 (g_nx G))) S1 S2) as L.
    replace (p c - p' c) with (1 * p (idx (g_nx G) (g_ny G) i j 0) + -1 * p' (idx (g_nx G) (g_ny G) i j 0)) by (rewrite EC; ring).
    assert (IL : forall i j, (i < g_nx G)%nat -> (j < g_ny G)%nat -> (idx (g_nx G) (g_ny G) i j 0 < g_nx G * g_ny G)%nat).
    { intros i0 j0 H1 H2. pose proof (index_lt H1 H2 Nat.lt_0_1). lia. }
    refine (@solves2_max e G d _ _ _ _ _ _ _ _ M _ HG HS DA _ _ _ (L _ _ _) i j Hi Hj).
    + destruct e; cbn in PO; congruence.
    + intros. rewrite at_nil, Rabs_R0. auto.
    + intros. rewrite at_nil, Rabs_R0. auto.
    + intros i0 j0 H1 H2 c0. rewrite at_tab by (apply IL; auto).
      replace (1 * at_ (s o a) c0 + -1 * at_ (s' o a) c0) with (at_ (s o a) c0 - at_ (s' o a) c0) by ring. apply HQ. apply IL; auto.
    + intros i0 j0 H1 H2 c0. rewrite at_tab by (apply IL; auto). auto.
    + intros j0 H0. rewrite at_nil, at_tab by auto. split; [ring|auto].
    + intros j0 H0. rewrite at_nil, at_tab by auto. split; [ring|auto].
Qed.

Lemma total_ext dim f f' : (forall c, (c < cells_of dim G)%nat -> f c = f' c) -> total dim G f = total dim G f'.
Proof.
  intros H. unfold total. apply rsum_ext. intros i Hi. apply rsum_ext. intros j Hj. apply rsum_ext. intros k Hk.
  f_equal. apply H. unfold cells_of. destruct (1 <? dim) eqn:E1.
  - apply index_lt; auto.
  - assert (E2 : (2 <? dim) = false) by (apply Nat.ltb_ge in E1; apply Nat.ltb_ge; lia). rewrite E2 in *.
    replace j with 0%nat by lia. replace k with 0%nat by lia. unfold idx. lia.
Qed.

Lemma diff_energy s s' o a ins outs outs' p p' : eq_averaging E = true ->
  equation E G ds s o a ins outs p -> equation E G ds s' o a ins outs' p' ->
  total (eq_dim E) G (fun c => at_ (g_sig G) c * (p c - p' c) * (p c - p' c)) <=
  total (eq_dim E) G (fun c => (at_ (s o a) c - at_ (s' o a) c) * (p c - p' c)).
Proof.
  intros AV EQ EQ'. pose proof dir_at as DA. destruct E as [e|e|]; cbn [equation eq_dim eq_strict] in *.
  - destruct EQ as (d & x & y & Hd & -> & -> & S1), EQ' as (d' & x' & y' & Hd' & Hx & -> & S2).
    rewrite Hd in Hd'. injection Hd' as <-. injection Hx as <-. specialize (DA a d Hd).
    pose proof (@solves1_lin 1 (-1) e G d _ _ _ _ _ _ _ _ _ (map (fun c => 1 * at_ (s o a) c + -1 * at_ (s' o a) c) (seq 0 (g_nx G))) HG HS DA S1 S2) as L.
    replace (1 * x + -1 * x) with 0 in L by ring.
    assert (NE : e <> SC_1) by (destruct e; cbn in AV; congruence).
    specialize (L ltac:(intros i Hi; rewrite at_tab by auto; reflexivity)).
    pose proof (energy1 NE HG DA L) as EN. unfold total. cbn [Nat.ltb Nat.leb rsum].
    eapply Rle_trans; [right|eapply Rle_trans; [exact EN|right]]; apply rsum_ext; intros i Hi; unfold idx; cbn [Nat.mul]; rewrite ?Nat.add_0_r, ?at_tab by auto; ring.
  - destruct EQ as (d & v & h & v1 & h1 & Hd & -> & -> & S1), EQ' as (d' & v' & h' & v1' & h1' & Hd' & Hx & -> & S2).
    rewrite Hd in Hd'. injection Hd' as <-. injection Hx as <- <-. specialize (DA a d Hd).
    pose proof (@solves2_lin 1 (-1) e G d _ _ _ _ _ _ _ _ _ _ _ _ _ _ 
      (map (fun c => 1 * at_ (s o a) c + -1 * at_ (s' o a) c) (seq 0 (g_nx G * g_ny G)))
      [] [] (map (fun c => 1 * at_ v1 c + -1 * at_ v1' c) (seq 0 (g_ny G))) (map (fun c => 1 * at_ h1 c + -1 * at_ h1' c) (seq 0 (g_nx G))) S1 S2) as L.
    assert (IL : forall i j, (i < g_nx G)%nat -> (j < g_ny G)%nat -> (idx (g_nx G) (g_ny G) i j 0 < g_nx G * g_ny G)%nat).
    { intros i0 j0 H1 H2. pose proof (index_lt H1 H2 Nat.lt_0_1). lia. }
    assert (NE : e <> SC_2) by (destruct e; cbn in AV; congruence).
    specialize (L ltac:(intros i j Hi Hj c; unfold c; rewrite at_tab by (apply IL; auto); reflexivity)
      ltac:(intros j Hj; rewrite at_nil, at_tab by auto; split; [ring|reflexivity])
      ltac:(intros j Hj; rewrite at_nil, at_tab by auto; split; [ring|reflexivity])).
    pose proof (energy2 NE HG DA at_nil at_nil L) as EN. cbv zeta in EN. unfold total. cbn [Nat.ltb Nat.leb rsum].
    eapply Rle_trans; [right|eapply Rle_trans; [exact EN|right]]; apply rsum_ext; intros i Hi; apply rsum_ext; intros j Hj;
      rewrite ?at_tab by (apply IL; auto); ring.
  - destruct EQ as (d & x & y & z & x1 & y1 & z1 & Hd & -> & -> & S1), EQ' as (d' & x' & y' & z' & x1' & y1' & z1' & Hd' & Hx & -> & S2).
    rewrite Hd in Hd'. injection Hd' as <-. injection Hx as <- <- <-. specialize (DA a d Hd).
    pose proof (@solves3_lin 1 (-1) G d _ _ _ _ _ _ _ _ _ _ _ _ _ _ _ _ _ _ _
      (map (fun c => 1 * at_ (s o a) c + -1 * at_ (s' o a) c) (seq 0 (g_nx G * g_ny G * g_nz G)))
      [] [] [] (map (fun k => map (fun j => 1 * at2 x1 k j + -1 * at2 x1' k j) (seq 0 (g_ny G))) (seq 0 (g_nz G)))
      (map (fun k => map (fun j => 1 * at2 y1 k j + -1 * at2 y1' k j) (seq 0 (g_nx G))) (seq 0 (g_nz G)))
      (map (fun k => map (fun j => 1 * at2 z1 k j + -1 * at2 z1' k j) (seq 0 (g_nx G))) (seq 0 (g_ny G))) S1 S2) as L.
    specialize (L ltac:(intros i j k Hi Hj Hk c; unfold c; rewrite at_tab by (apply index_lt; auto); reflexivity)
      ltac:(intros j k Hj Hk; rewrite at2_nil, at2_tab by auto; split; [ring|reflexivity])
      ltac:(intros j k Hj Hk; rewrite at2_nil, at2_tab by auto; split; [ring|reflexivity])
      ltac:(intros j k Hj Hk; rewrite at2_nil, at2_tab by auto; split; [ring|reflexivity])).
    pose proof (energy3 HG DA at2_nil at2_nil at2_nil L) as EN. cbv zeta in EN. unfold total. cbn [Nat.ltb Nat.leb].
    eapply Rle_trans; [right|eapply Rle_trans; [exact EN|right]]; apply rsum_ext; intros i Hi; apply rsum_ext; intros j Hj;
      apply rsum_ext; intros k Hk; rewrite ?at_tab by (apply index_lt; auto); ring.
Qed.
End Diff.

(** ** Weighted sums *)
Section Total.
Variables (dim : nat) (G : grid).
Local Notation n := (cells_of dim G).
Lemma total_plus f g : total dim G (fun c => f c + g c) = total dim G f + total dim G g.
Proof.
  unfold total. rewrite <- rsum_plus. apply rsum_ext. intros i Hi. rewrite <- rsum_plus. apply rsum_ext. intros j Hj.
  rewrite <- rsum_plus. apply rsum_ext. intros k Hk. ring.
Qed.
Lemma total_scal a f : total dim G (fun c => a * f c) = a * total dim G f.
Proof.
  unfold total. rewrite <- rsum_scal. apply rsum_ext. intros i Hi. rewrite <- rsum_scal. apply rsum_ext. intros j Hj.
  rewrite <- rsum_scal. apply rsum_ext. intros k Hk. ring.
Qed.
Lemma total_rsum m (f : nat -> nat -> R) : total dim G (fun c => rsum m (fun o => f o c)) = rsum m (fun o => total dim G (f o)).
Proof.
  induction m.
  - cbn [rsum]. transitivity (total dim G (fun c => 0 * 0)); [apply total_ext; intros; ring|rewrite total_scal; ring].
  - cbn [rsum]. rewrite total_plus, IHm. auto.
Qed.
Hypothesis HG : grid_ok dim G.
Definition volume (i j k : nat) : R :=
  at_ (g_dx G) i * (if (1 <? dim)%nat then at_ (g_dy G) j else 1) * (if (2 <? dim)%nat then at_ (g_dz G) k else 1).
Lemma volume_pos i j k : (i < g_nx G)%nat -> (j < (if 1 <? dim then g_ny G else 1))%nat -> (k < (if 2 <? dim then g_nz G else 1))%nat ->
  0 < volume i j k.
Proof.
  intros Hi Hj Hk. destruct HG as (G1 & G2 & G3 & G4 & _). unfold volume.
  assert (0 < at_ (g_dx G) i) by (apply (Forall_at G2); lia).
  apply Rmult_lt_0_compat; [apply Rmult_lt_0_compat; auto|].
  - destruct (Nat.ltb_spec 1 dim); [|lra]. destruct G3 as [A B]; auto. apply (Forall_at B). lia.
  - destruct (Nat.ltb_spec 2 dim); [|lra]. destruct G4 as [A B]; auto. apply (Forall_at B). lia.
Qed.
Lemma cell_of_index i j k : (i < g_nx G)%nat -> (j < (if 1 <? dim then g_ny G else 1))%nat -> (k < (if 2 <? dim then g_nz G else 1))%nat ->
  (idx (g_nx G) (g_ny G) i j k < n)%nat.
Proof.
  intros Hi Hj Hk. unfold cells_of. destruct (1 <? dim) eqn:E1.
  - apply index_lt; auto.
  - assert (E2 : (2 <? dim) = false) by (apply Nat.ltb_ge in E1; apply Nat.ltb_ge; lia). rewrite E2 in *.
    replace j with 0%nat by lia. replace k with 0%nat by lia. unfold idx. lia.
Qed.
Lemma index_of_cell c : (c < n)%nat -> exists i j k, (i < g_nx G)%nat /\ (j < (if 1 <? dim then g_ny G else 1))%nat /\
  (k < (if 2 <? dim then g_nz G else 1))%nat /\ idx (g_nx G) (g_ny G) i j k = c.
Proof.
  unfold cells_of. intros Hc. destruct (1 <? dim) eqn:E1.
  - destruct (@index_total _ _ _ _ Hc) as (A & B & C & D). eauto 10.
  - assert (E2 : (2 <? dim) = false) by (apply Nat.ltb_ge in E1; apply Nat.ltb_ge; lia). rewrite E2 in *.
    exists c, 0%nat, 0%nat. repeat split; try lia. unfold idx. lia.
Qed.
Lemma total_le f g : (forall c, (c < n)%nat -> f c <= g c) -> total dim G f <= total dim G g.
Proof.
  intros H. unfold total. apply rsum_le. intros i Hi. apply rsum_le. intros j Hj. apply rsum_le. intros k Hk.
  pose proof (volume_pos Hi Hj Hk) as V. unfold volume in V. apply Rmult_le_compat_l; [lra|]. apply H, cell_of_index; auto.
Qed.
Lemma total_nonneg f : (forall c, (c < n)%nat -> 0 <= f c) -> 0 <= total dim G f.
Proof.
  intros H. replace 0 with (total dim G (fun c => 0 * f c)) by (rewrite total_scal; ring). apply total_le.
  intros c Hc. specialize (H c Hc). lra.
Qed.
Lemma rsum_term m f i : (i < m)%nat -> (forall i, (i < m)%nat -> 0 <= f i) -> f i <= rsum m f.
Proof.
  intros Hi H. rewrite <- (@rsum_delta m i (f i) Hi). apply rsum_le. intros k Hk.
  destruct (Nat.eqb_spec k i); subst; try lra; auto; try (specialize (H k Hk); destruct (Nat.eq_dec k i); lra).
Qed.
Lemma total_term f i j k : (i < g_nx G)%nat -> (j < (if 1 <? dim then g_ny G else 1))%nat -> (k < (if 2 <? dim then g_nz G else 1))%nat ->
  (forall c, (c < n)%nat -> 0 <= f c) -> volume i j k * f (idx (g_nx G) (g_ny G) i j k) <= total dim G f.
Proof.
  intros Hi Hj Hk H. unfold total.
  assert (T : forall i j k, (i < g_nx G)%nat -> (j < (if 1 <? dim then g_ny G else 1))%nat -> (k < (if 2 <? dim then g_nz G else 1))%nat ->
    0 <= volume i j k * f (idx (g_nx G) (g_ny G) i j k)).
  { intros. apply Rmult_le_pos; [apply Rlt_le, volume_pos; auto|]. apply H, cell_of_index; auto. }
  set (F := fun i j k => volume i j k * f (idx (g_nx G) (g_ny G) i j k)) in *. change (F i j k <= rsum (g_nx G) (fun i => rsum (if 1 <? dim then g_ny G else 1) (fun j => rsum (if 2 <? dim then g_nz G else 1) (fun k => F i j k)))).
  eapply Rle_trans; [apply (@rsum_term _ (fun k => F i j k) k Hk); intros; apply T; auto|].
  eapply Rle_trans; [apply (@rsum_term _ (fun j => rsum (if 2 <? dim then g_nz G else 1) (fun k => F i j k)) j Hj); intros; apply rsum_nonneg; intros; apply T; auto|].
  apply (@rsum_term _ (fun i => rsum (if 1 <? dim then g_ny G else 1) (fun j => rsum (if 2 <? dim then g_nz G else 1) (fun k => F i j k))) i Hi).
  intros. apply rsum_nonneg. intros. apply rsum_nonneg. intros. apply T; auto.
Qed.
End Total.

(** ** The scattering source of two fluxes *)
Lemma pick_group n g (h : nat -> R) : (g < n)%nat ->
  rsum n (fun gp => if gp =? g then h gp else 0) = h g.
Proof.
  intros H. rewrite <- (@rsum_delta n g (h g) H). apply rsum_ext. intros i Hi. destruct (Nat.eqb_spec i g); subst; auto.
Qed.
Lemma group_sum_diff n phi g f f' c (xs : nat -> R) : (g < n)%nat -> length phi = n ->
  rsum n (fun gp => phi_of (with_group phi g f) gp c * xs gp) - rsum n (fun gp => phi_of (with_group phi g f') gp c * xs gp) =
  xs g * (at_ f c - at_ f' c).
Proof.
  intros Hg L. rewrite <- rsum_minus. rewrite <- (@pick_group n g (fun gp => xs gp * (at_ f c - at_ f' c)) Hg).
  apply rsum_ext. intros gp Hgp. unfold phi_of. rewrite !with_group_nth by lia. unfold at_. destruct (gp =? g); ring.
Qed.
Lemma solid_pos dim : 0 < solid_angle dim.
Proof. unfold solid_angle. destruct (dim =? 1)%nat; [lra|]. pose proof PI_RGT_0. lra. Qed.
Lemma emission_diff x phi dim g ang c f f' : sweep_ready x -> (g < ng (mat (ssrc x)))%nat -> length phi = ng (mat (ssrc x)) ->
  emission x (with_group phi g f) dim g ang c - emission x (with_group phi g f') dim g ang c =
  self_transfer x g c * (at_ f c - at_ f' c) / solid_angle dim.
Proof.
  intros RD Hg L. unfold emission, self_transfer, scatter_sum, fission_sum, all_groups.
  pose proof (group_sum_diff f f' c (transfer_xs (ssrc x) c g) Hg L) as A.
  pose proof (group_sum_diff f f' c (fission_xs (ssrc x) c g) Hg L) as B. pose proof (solid_pos dim) as SP.
  destruct (fiss x) as [q|]; [destruct (implicit x)|].
  - set (s1 := rsum _ _) in A. set (s2 := rsum _ _) in A. set (s3 := rsum _ _) in B. set (s4 := rsum _ _) in B. fold s1 s2 s3 s4.
    apply Rmult_eq_reg_r with (solid_angle dim); [|lra]. field_simplify; try lra.
    replace s1 with (s2 + transfer_xs (ssrc x) c g g * (at_ f c - at_ f' c)) by lra.
    replace s3 with (s4 + fission_xs (ssrc x) c g g * (at_ f c - at_ f' c)) by lra. ring.
  - set (s1 := rsum _ _) in A. set (s2 := rsum _ _) in A. fold s1 s2.
    replace s1 with (s2 + transfer_xs (ssrc x) c g g * (at_ f c - at_ f' c)) by lra. field. lra.
  - set (s1 := rsum _ _) in A. set (s2 := rsum _ _) in A. fold s1 s2.
    replace s1 with (s2 + transfer_xs (ssrc x) c g g * (at_ f c - at_ f' c)) by lra. field. lra.
Qed.

(** ** Averages over directions *)
Section Avg.
Variables (no na : nat) (W : nat -> R).
Hypothesis HW : forall a, (a < na)%nat -> 0 <= W a.
Definition avg (h : nat -> nat -> R) : R := rsum no (fun o => rsum na (fun a => W a * h o a)).
Lemma avg_plus h h' : avg (fun o a => h o a + h' o a) = avg h + avg h'.
Proof.
  unfold avg. rewrite <- rsum_plus. apply rsum_ext. intros. rewrite <- rsum_plus. apply rsum_ext. intros. ring.
Qed.
Lemma avg_scal k h : avg (fun o a => k * h o a) = k * avg h.
Proof.
  unfold avg. rewrite <- rsum_scal. apply rsum_ext. intros. rewrite <- rsum_scal. apply rsum_ext. intros. ring.
Qed.
Lemma avg_ext h h' : (forall o a, (o < no)%nat -> (a < na)%nat -> h o a = h' o a) -> avg h = avg h'.
Proof. intros H. unfold avg. apply rsum_ext. intros. apply rsum_ext. intros. rewrite H; auto. Qed.
Lemma avg_le h h' : (forall o a, (o < no)%nat -> (a < na)%nat -> h o a <= h' o a) -> avg h <= avg h'.
Proof. intros H. unfold avg. apply rsum_le. intros. apply rsum_le. intros. apply Rmult_le_compat_l; auto. Qed.
Variable Om : R.
Hypothesis HO : rsum no (fun _ => rsum na W) = Om.
Hypothesis HP : 0 < Om.
Lemma avg_const k : avg (fun _ _ => k) = Om * k.
Proof. unfold avg. rewrite <- HO. rewrite <- rsum_scal_r. apply rsum_ext. intros. rewrite <- rsum_scal_r. auto. Qed.
Lemma avg_bound h M : (forall o a, (o < no)%nat -> (a < na)%nat -> Rabs (h o a) <= M) -> Rabs (avg h) <= Om * M.
Proof.
  intros H. apply Rabs_le_both. rewrite <- avg_const. replace (- avg (fun _ _ => M)) with (avg (fun _ _ => - M)).
  - split; apply avg_le; intros o a Ho Ha; specialize (H o a Ho Ha); apply Rabs_le_both in H; lra.
  - rewrite !avg_const. ring.
Qed.
(** The square of the average is at most the average of the square. *)
Lemma avg_jensen h : avg h * avg h <= Om * avg (fun o a => h o a * h o a).
Proof.
  set (m := avg h / Om).
  assert (P : 0 <= avg (fun o a => (h o a - m) * (h o a - m))).
  { replace 0 with (avg (fun _ _ => 0)) by (rewrite avg_const; ring). apply avg_le. intros. apply Rle_0_sqr. }
  assert (E : avg (fun o a => (h o a - m) * (h o a - m)) = avg (fun o a => h o a * h o a) + (- (2 * m)) * avg h + m * m * Om).
  { transitivity (avg (fun o a => (h o a * h o a + (- (2 * m)) * h o a) + m * m)); [apply avg_ext; intros; ring|].
    rewrite !avg_plus, avg_scal, avg_const. ring. }
  rewrite E in P. unfold m in P.
  assert (F : avg (fun o a => h o a * h o a) + - (2 * (avg h / Om)) * avg h + avg h / Om * (avg h / Om) * Om =
              avg (fun o a => h o a * h o a) - avg h * avg h / Om) by (field; lra).
  rewrite F in P. apply Rmult_le_compat_l with (r := Om) in P; [|lra].
  replace (Om * (avg (fun o a => h o a * h o a) - avg h * avg h / Om)) with (Om * avg (fun o a => h o a * h o a) - avg h * avg h) in P by (field; lra).
  lra.
Qed.
End Avg.

(** ** One solve brings two fluxes closer *)
Section Contract.
Variables (w : sweeper) (x : swp) (g : nat) (b0 : bsn) (r : R) (phi : list (list R)).
Hypotheses (RD : sweep_ready x) (SW : sweepable w g (ssrc x) b0) (DA : damped w x g (b_q b0) r) (LP : length phi = ng (mat (ssrc x))).
Local Notation n := (cells (ssrc x)).
Local Notation G := (group_grid (w_grid w) (ssrc x) g).
Local Notation dim := (q_dim (b_q b0)).
(** F is the flux made by f. *)
Definition makes (f F : list R) : Prop := exists b', same_incoming b0 b' g /\ transported w x g b' (with_group phi g f) F.

Lemma same_ins b b' o a : same_incoming b b' g -> sn_quad (b_q b) -> (g < b_ng b)%nat -> (o < q_noct (b_q b))%nat -> (a < q_nao (b_q b))%nat ->
  ins_of b' o a g = ins_of b o a g.
Proof.
  intros ((S1 & S2 & S3) & H) Q Hg Ho Ha. unfold ins_of. rewrite S1. apply map_ext_in. intros y Hy. apply in_seq in Hy.
  assert (Ho' : (o < 2 ^ q_dim (b_q b))%nat) by (destruct Q as (_ & <- & _); auto).
  apply H; [|apply in_side_enters; auto]. repeat split; auto. apply in_side_lt. lia.
Qed.

Lemma makes_pair f f' F F' : makes f F -> makes f' F' ->
  exists P P', (forall o a, (o < q_noct (b_q b0))%nat -> (a < q_nao (b_q b0))%nat ->
      exists ins outs outs', equation (w_eq w) G (w_dirs w) (emissions x (with_group phi g f) (b_q b0) g) o a ins outs (P o a) /\
        equation (w_eq w) G (w_dirs w) (emissions x (with_group phi g f') (b_q b0) g) o a ins outs' (P' o a)) /\
    length F = n /\ length F' = n /\
    (forall c, (c < n)%nat -> at_ F c - at_ F' c = avg (q_noct (b_q b0)) (q_nao (b_q b0)) (weight (w_dirs w)) (fun o a => P o a c - P' o a c)).
Proof.
  intros (b & I & P & A1 & A2 & A3) (b' & I' & P' & A1' & A2' & A3'). exists P, P'.
  pose proof SW as (_ & _ & Hgb & Q & _). pose proof I as ((E & _) & _). pose proof I' as ((E' & _) & _). rewrite E in *. rewrite E' in *.
  split; [|split; [|split]]; auto.
  - intros o a Ho Ha. pose proof (A1 o a Ho Ha) as X. pose proof (A1' o a Ho Ha) as X'.
    rewrite (same_ins I Q Hgb Ho Ha) in X. rewrite (same_ins I' Q Hgb Ho Ha) in X'. eauto 10.
  - intros c Hc. rewrite A3, A3' by auto. unfold avg. rewrite <- rsum_minus. apply rsum_ext. intros o Ho. rewrite <- rsum_minus.
    apply rsum_ext. intros a Ha. ring.
Qed.

Lemma at_emissions f q o a c : (c < n)%nat -> at_ (emissions x f q g o a) c = emission x f (q_dim q) g (Angle_Model.index q o a) c.
Proof. intros. unfold emissions. apply at_tab. auto. Qed.
Lemma at_sigma c : (c < n)%nat -> at_ (g_sig G) c = st (mat (ssrc x)) g (mat_of (ssrc x) c).
Proof. intros. cbn [group_grid g_sig]. apply (at_tab (fun c => st (mat (ssrc x)) g (mat_of (ssrc x) c))). auto. Qed.
Lemma n_cells : cells_of dim G = n.
Proof. destruct SW as (_ & _ & _ & _ & _ & _ & _ & E & _). rewrite E. reflexivity. Qed.

Lemma contract_max f f' F F' M : eq_positive (w_eq w) = true -> 0 <= M -> makes f F -> makes f' F' ->
  bounded n f f' M -> bounded n F F' (r * M).
Proof.
  intros PO HM H H' BD. destruct (makes_pair H H') as (P & P' & EQ & L & L' & AV). intros c Hc. rewrite AV by auto.
  pose proof SW as (_ & Hg & _ & Q & ED & GO & SO & NC & DO & _). pose proof (solid_pos dim) as SP. destruct DA as [R1 R2 R3 R4].
  replace (r * M) with (solid_angle dim * (r * M / solid_angle dim)) by (field; lra).
  apply avg_bound; auto. intros o a Ho Ha. destruct (EQ o a Ho Ha) as (ins & outs & outs' & X & X').
  assert (HQ : 0 <= r * M / solid_angle dim) by (apply Rmult_le_pos; [apply Rmult_le_pos; lra|apply Rlt_le, Rinv_0_lt_compat; auto]).
  refine (@diff_max (w_eq w) G (w_dirs w) (q_nao (b_q b0)) _ SO _ _ _ o a ins outs outs' _ _ _ PO HQ X X' _ c _); rewrite ?ED; auto.
  - intros c' Hc'. rewrite n_cells in Hc'. rewrite !at_emissions by auto. rewrite emission_diff by auto. rewrite at_sigma by auto.
    specialize (R2 c' Hc'). specialize (BD c' Hc'). unfold Rdiv. rewrite Rabs_mult, (Rabs_pos_eq (/ solid_angle dim)) by (apply Rlt_le, Rinv_0_lt_compat; auto).
    rewrite Rabs_mult. rewrite <- !Rmult_assoc. apply Rmult_le_compat_r; [apply Rlt_le, Rinv_0_lt_compat; auto|].
    rewrite (Rmult_comm _ r). apply Rmult_le_compat; auto; apply Rabs_pos.
  - rewrite n_cells. auto.
Qed.

Lemma contract_energy f f' F F' : eq_averaging (w_eq w) = true -> makes f F -> makes f' F' ->
  energy dim G F F' <= r * r * energy dim G f f'.
Proof.
  intros PO H H'. destruct (makes_pair H H') as (P & P' & EQ & L & L' & AV).
  pose proof SW as (_ & Hg & _ & Q & ED & GO & SO & NC & DO & _). pose proof (solid_pos dim) as SP. destruct DA as [R1 R2 R3 R4].
  set (Om := solid_angle dim) in *. set (A := avg (q_noct (b_q b0)) (q_nao (b_q b0)) (weight (w_dirs w))) in *.
  set (D := fun c => (fun o a => P o a c - P' o a c)). set (e := fun c => at_ f c - at_ f' c).
  set (sig := at_ (g_sig G)) in *. set (sf := self_transfer x g).
  assert (SG : forall c, (c < n)%nat -> 0 <= sig c).
  { intros c Hc. unfold sig. assert (LC : (c < length (g_sig G))%nat) by (cbn [group_grid g_sig]; rewrite map_length, seq_length; auto).
    pose proof (Forall_at SO LC) as Z. cbv beta in Z. destruct (eq_strict (w_eq w)); lra. }
  (** the average over directions of the energies *)
  assert (E1 : A (fun o a => total dim G (fun c => sig c * (D c o a) * (D c o a))) <=
               A (fun o a => total dim G (fun c => sf c * e c / Om * D c o a))).
  { apply avg_le; auto. intros o a Ho Ha. destruct (EQ o a Ho Ha) as (ins & outs & outs' & X & X').
    pose proof (@diff_energy (w_eq w) G (w_dirs w) (q_nao (b_q b0)) ltac:(rewrite ED; auto) SO ltac:(rewrite ED; auto) _ _ o a ins outs outs' _ _ PO X X') as EN.
    rewrite ED in EN. eapply Rle_trans; [exact EN|]. right. apply total_ext. intros c Hc. rewrite n_cells in Hc.
    rewrite !at_emissions by auto. rewrite emission_diff by auto. reflexivity. }
  assert (SWAP : forall h : nat -> nat -> nat -> R, A (fun o a => total dim G (fun c => h c o a)) = total dim G (fun c => A (h c))).
  { intros h. unfold A, avg. rewrite total_rsum. apply rsum_ext. intros o Ho. rewrite total_rsum. apply rsum_ext. intros a Ha.
    rewrite total_scal. auto. }
  rewrite !SWAP in E1.
  assert (E2 : total dim G (fun c => A (fun o a => sf c * e c / Om * D c o a)) = total dim G (fun c => sf c * e c / Om * dif F F' c)).
  { apply total_ext. intros c Hc. rewrite n_cells in Hc. unfold A. rewrite avg_scal. fold A. unfold dif. rewrite AV by auto. reflexivity. }
  rewrite E2 in E1.
  assert (E3 : total dim G (fun c => sig c * dif F F' c * dif F F' c) <= total dim G (fun c => Om * A (fun o a => sig c * D c o a * D c o a))).
  { apply total_le; auto. intros c Hc. rewrite n_cells in Hc.
    assert (E4 : A (fun o a => sig c * D c o a * D c o a) = sig c * A (fun o a => D c o a * D c o a)).
    { unfold A. rewrite <- avg_scal. apply avg_ext. intros. ring. }
    rewrite E4. unfold dif. rewrite AV by auto.
    pose proof (@avg_jensen (q_noct (b_q b0)) (q_nao (b_q b0)) (weight (w_dirs w)) R3 Om R4 SP (D c)) as J. fold A in J.
    replace (Om * (sig c * A (fun o a => D c o a * D c o a))) with (sig c * (Om * A (fun o a => D c o a * D c o a))) by ring.
    rewrite Rmult_assoc. apply Rmult_le_compat_l; auto. }
  rewrite total_scal in E3.
  assert (E5 : Om * total dim G (fun c => sf c * e c / Om * dif F F' c) = total dim G (fun c => sf c * e c * dif F F' c)).
  { rewrite <- total_scal. apply total_ext. intros. field. lra. }
  assert (E6 : total dim G (fun c => sf c * e c * dif F F' c) <=
     total dim G (fun c => /2 * (r * r * (sig c * e c * e c)) + / 2 * (sig c * dif F F' c * dif F F' c))).
  { apply total_le; auto. intros c Hc. rewrite n_cells in Hc. specialize (R2 c Hc). rewrite <- (at_sigma Hc) in R2.
    fold sig in R2. fold sf in R2. set (s := sig c) in *. set (u := e c). set (v := dif F F' c). specialize (SG c Hc). fold s in SG.
    apply Rle_trans with (r * s * (Rabs u * Rabs v)).
    - eapply Rle_trans; [apply Rle_abs|]. rewrite !Rabs_mult, Rmult_assoc. apply Rmult_le_compat_r; [apply Rmult_le_pos; apply Rabs_pos|auto].
    - assert (SQ : 0 <= (r * Rabs u - Rabs v) * (r * Rabs u - Rabs v)) by apply Rle_0_sqr.
      assert (Su : Rabs u * Rabs u = u * u) by (rewrite <- Rabs_mult; apply Rabs_pos_eq; apply Rle_0_sqr).
      assert (Sv : Rabs v * Rabs v = v * v) by (rewrite <- Rabs_mult; apply Rabs_pos_eq; apply Rle_0_sqr).
      apply Rmult_le_compat_l with (r := s) in SQ; auto.
      replace (s * u * u) with (s * (Rabs u * Rabs u)) by (rewrite Su; ring).
      replace (s * v * v) with (s * (Rabs v * Rabs v)) by (rewrite Sv; ring). lra. }
  rewrite total_plus, !total_scal in E6.
  unfold energy. fold sig. change (total dim G (fun c => sig c * (at_ F c - at_ F' c) * (at_ F c - at_ F' c))) with (total dim G (fun c => sig c * dif F F' c * dif F F' c)).
  change (total dim G (fun c => sig c * (at_ f c - at_ f' c) * (at_ f c - at_ f' c))) with (total dim G (fun c => sig c * e c * e c)).
  apply Rmult_le_compat_l with (r := Om) in E1; [|lra]. lra.
Qed.
End Contract.

(** ** The energy norm *)
Lemma finite_min n (f : nat -> R) : (forall c, (c < n)%nat -> 0 < f c) -> exists m, 0 < m /\ forall c, (c < n)%nat -> m <= f c.
Proof.
  induction n; intros H; [exists 1; split; [lra|intros; lia]|].
  destruct IHn as (m & Hm & HM); [auto|]. exists (Rmin m (f n)). split.
  - apply Rmin_glb_lt; auto.
  - intros c Hc. destruct (Nat.eq_dec c n) as [->|]; [apply Rmin_r|]. eapply Rle_trans; [apply Rmin_l|]. apply HM. lia.
Qed.
Section Energy.
Variables (dim : nat) (G : grid).
Hypotheses (HG : grid_ok dim G) (HS : sig_ok true G).
Local Notation n := (cells_of dim G).
Local Notation sig := (at_ (g_sig G)).
Definition Q (u v : nat -> R) : R := total dim G (fun c => sig c * u c * v c).
Definition Ne (u : nat -> R) : R := sqrt (Q u u).
Lemma sig_pos c : (c < n)%nat -> 0 < sig c.
Proof. intros Hc. apply (Forall_at HS). destruct HG as (_ & _ & _ & _ & _ & ->). exact Hc. Qed.
Lemma Q_nonneg u : 0 <= Q u u.
Proof.
  apply total_nonneg; auto. intros c Hc. pose proof (sig_pos Hc). rewrite Rmult_assoc. apply Rmult_le_pos; [lra|apply Rle_0_sqr].
Qed.
Lemma Q_ext u v u' v' : (forall c, (c < n)%nat -> u c = u' c) -> (forall c, (c < n)%nat -> v c = v' c) -> Q u v = Q u' v'.
Proof. intros H H'. apply total_ext. intros c Hc. rewrite H, H' by auto. auto. Qed.
Lemma Q_comb a b u v : Q (fun c => a * u c + b * v c) (fun c => a * u c + b * v c) = a * a * Q u u + 2 * a * b * Q u v + b * b * Q v v.
Proof. unfold Q. rewrite <- !total_scal, <- !total_plus. apply total_ext. intros. ring. Qed.
Lemma Q_cauchy u v : Q u v * Q u v <= Q u u * Q v v.
Proof.
  pose proof (Q_nonneg u) as A0. pose proof (Q_nonneg v) as B0.
  destruct (Req_dec (Q v v) 0) as [Z|Z].
  - destruct (Req_dec (Q u v) 0) as [Y|Y]; [rewrite Y, Z; lra|]. exfalso.
    pose proof (Q_nonneg (fun c => 1 * u c + (- (Q u u + 1) / (2 * Q u v)) * v c)) as P. rewrite Q_comb, Z in P.
    replace (1 * 1 * Q u u + 2 * 1 * (- (Q u u + 1) / (2 * Q u v)) * Q u v + - (Q u u + 1) / (2 * Q u v) * (- (Q u u + 1) / (2 * Q u v)) * 0)
      with (-1) in P by (field; auto). lra.
  - pose proof (Q_nonneg (fun c => Q v v * u c + (- Q u v) * v c)) as P. rewrite Q_comb in P.
    assert (Bp : 0 < Q v v) by lra.
    apply Rmult_le_reg_l with (Q v v); auto. nra.
Qed.
Lemma Ne_nonneg u : 0 <= Ne u. Proof. apply sqrt_pos. Qed.
Lemma Ne_sq u : Ne u * Ne u = Q u u. Proof. apply sqrt_sqrt, Q_nonneg. Qed.
Lemma Ne_tri e e1 e2 : (forall c, (c < n)%nat -> e c = e1 c + e2 c) -> Ne e <= Ne e1 + Ne e2.
Proof.
  intros H. pose proof (Ne_nonneg e1). pose proof (Ne_nonneg e2). apply Rsqr_incr_0_var; [|lra]. unfold Rsqr. rewrite Ne_sq.
  rewrite (@Q_ext e e (fun c => 1 * e1 c + 1 * e2 c) (fun c => 1 * e1 c + 1 * e2 c)) by (intros; rewrite H by auto; ring).
  rewrite Q_comb, <- (Ne_sq e1), <- (Ne_sq e2). pose proof (Q_cauchy e1 e2) as C. rewrite <- (Ne_sq e1), <- (Ne_sq e2) in C.
  assert (Q e1 e2 <= Ne e1 * Ne e2).
  { apply Rsqr_incr_0_var; [unfold Rsqr; nra|]. apply Rmult_le_pos; auto. }
  lra.
Qed.
Lemma Ne_opp e e' : (forall c, (c < n)%nat -> e c = - e' c) -> Ne e = Ne e'.
Proof. intros H. unfold Ne. f_equal. apply total_ext. intros c Hc. rewrite H by auto. ring. Qed.
Lemma Ne_pt : exists k, 0 <= k /\ forall e c, (c < n)%nat -> Rabs (e c) <= k * Ne e.
Proof.
  assert (M : exists m, 0 < m /\ forall c, (c < n)%nat -> forall e, m * (e c * e c) <= Q e e).
  { set (vol := fun c => if (1 <? dim)%nat then volume dim G (cell_to_i (g_nx G) c) (cell_to_j (g_nx G) (g_ny G) c) (cell_to_k (g_nx G) (g_ny G) c)
                    else volume dim G c 0 0).
    assert (VE : forall c, (c < n)%nat -> exists i j k, (i < g_nx G)%nat /\ (j < (if 1 <? dim then g_ny G else 1))%nat /\
       (k < (if 2 <? dim then g_nz G else 1))%nat /\ idx (g_nx G) (g_ny G) i j k = c /\ vol c = volume dim G i j k).
    { unfold cells_of, vol. intros c Hc. destruct (1 <? dim)%nat eqn:E1.
      - destruct (@index_total _ _ _ _ Hc) as (A & B & C & D). eauto 10.
      - assert (E2 : (2 <? dim)%nat = false) by (apply Nat.ltb_ge in E1; apply Nat.ltb_ge; lia). rewrite E2 in *.
        exists c, 0%nat, 0%nat. repeat split; try lia. unfold idx. lia. }
    destruct (@finite_min n (fun c => vol c * sig c)) as (m & Hm & HM).
    { intros c Hc. destruct (VE c Hc) as (i & j & k & Hi & Hj & Hk & _ & ->). apply Rmult_lt_0_compat; [apply volume_pos; auto|apply sig_pos; auto]. }
    exists m. split; auto. intros c Hc e. destruct (VE c Hc) as (i & j & k & Hi & Hj & Hk & Ec & Ev).
    pose proof (@total_term dim G HG (fun c => sig c * e c * e c) i j k Hi Hj Hk) as T. rewrite Ec, <- Ev in T.
    eapply Rle_trans; [|apply T].
    - replace (vol c * (sig c * e c * e c)) with (vol c * sig c * (e c * e c)) by ring. apply Rmult_le_compat_r; [apply Rle_0_sqr|auto].
    - intros c' Hc'. pose proof (sig_pos Hc'). rewrite Rmult_assoc. apply Rmult_le_pos; [lra|apply Rle_0_sqr]. }
  destruct M as (m & Hm & HM). exists (/ sqrt m). assert (Sm : 0 < sqrt m) by (apply sqrt_lt_R0; auto).
  split; [apply Rlt_le, Rinv_0_lt_compat; auto|]. intros e c Hc.
  apply Rmult_le_reg_l with (sqrt m); auto. rewrite <- Rmult_assoc, Rinv_r, Rmult_1_l by lra.
  apply Rsqr_incr_0_var; [|apply Ne_nonneg]. unfold Rsqr. rewrite Ne_sq.
  replace (sqrt m * Rabs (e c) * (sqrt m * Rabs (e c))) with (sqrt m * sqrt m * (Rabs (e c) * Rabs (e c))) by ring.
  rewrite sqrt_sqrt by lra. rewrite <- Rabs_mult, (Rabs_pos_eq (e c * e c)) by apply Rle_0_sqr. apply HM. auto.
Qed.
Lemma Ne_up e m : 0 <= m -> (forall c, (c < n)%nat -> Rabs (e c) <= m) -> Ne e <= sqrt (total dim G sig) * m.
Proof.
  intros Hm H. assert (T0 : 0 <= total dim G sig) by (apply total_nonneg; auto; intros c Hc; apply Rlt_le, sig_pos; auto).
  apply Rsqr_incr_0_var; [|apply Rmult_le_pos; auto; apply sqrt_pos]. unfold Rsqr. rewrite Ne_sq.
  replace (sqrt (total dim G sig) * m * (sqrt (total dim G sig) * m)) with (sqrt (total dim G sig) * sqrt (total dim G sig) * (m * m)) by ring.
  rewrite sqrt_sqrt by auto. rewrite Rmult_comm, <- total_scal. apply total_le; auto. intros c Hc. pose proof (sig_pos Hc).
  rewrite Rmult_assoc, (Rmult_comm (m * m)). apply Rmult_le_compat_l; [lra|].
  specialize (H c Hc). assert (S1 : Rabs (e c) * Rabs (e c) = e c * e c) by (rewrite <- Rabs_mult; apply Rabs_pos_eq; apply Rle_0_sqr).
  rewrite <- S1. apply Rmult_le_compat; auto; apply Rabs_pos.
Qed.
End Energy.

(** ** Source iteration as a repeated contraction *)
Arguments it_start {w tol max g t t' n B F}.
Arguments it_result {w tol max g t t' n B F}.
Arguments it_step {w tol max g t t' n B F}.
Arguments it_stop {w tol max g t t' n B F}.
Arguments it_early {w tol max g t t' n B F}.
Lemma same_incoming_trans b b1 b2 g : same_incoming b b1 g -> same_incoming b1 b2 g -> same_incoming b b2 g.
Proof.
  intros ((S1 & S2 & S3) & H) ((T1 & T2 & T3) & H'). split; [repeat split; congruence|].
  intros s o a V En. rewrite H'; auto; [unfold valid in *; rewrite S1, S2; auto|rewrite S1; auto].
Qed.
Lemma same_incoming_refl b g : same_incoming b b g.
Proof. split; [repeat split|auto]. Qed.
Lemma solved_incoming w x g phi b b' F : solved w x g phi b b' F -> open_boundary b -> same_incoming b b' g.
Proof. intros [A B C D _ _] O. split; auto. intros s o a V En. apply D; auto. apply O. apply V. Qed.

Section Main.
Variables (w : sweeper) (m : mtl) (g : nat) (t : tstate) (r : R).
Hypotheses (WP : wellposed w m g t) (OB : open_boundary (t_b t)) (DA : damped w (t_x t) g (b_q (t_b t)) r).
Local Notation x := (t_x t).
Local Notation n := (cells (ssrc x)).
Local Notation G := (group_grid (w_grid w) (ssrc x) g).
Local Notation dim := (q_dim (b_q (t_b t))).

Lemma start_ok b0 : fixed_set_to (t_b t) b0 g -> shaped b0 (g_nx (w_grid w)) (g_ny (w_grid w)) (g_nz (w_grid w)) /\
  sweepable w g (ssrc x) b0 /\ damped w x g (b_q b0) r /\ open_boundary b0 /\ b_q b0 = b_q (t_b t).
Proof.
  intros FT. destruct (set_ok WP) as (b & _ & FT' & Sh).
  assert (S0 : shaped b0 (g_nx (w_grid w)) (g_ny (w_grid w)) (g_nz (w_grid w))).
  { destruct FT as ((A1 & A2 & A3) & B1 & B2), FT' as ((A1' & A2' & A3') & B1' & B2').
    intros s o a g' V. specialize (Sh s o a g'). unfold valid in *. rewrite A1, A2 in V. rewrite A1', A2' in Sh. specialize (Sh V).
    rewrite A1. rewrite <- Sh. f_equal.
    destruct (Nat.eq_dec g' g) as [->|Ng]; [|rewrite B2, B2' by auto; auto].
    destruct V as (V1 & V2 & V3 & V4). pose proof WP as [_ _ _ (Q & _) _ _ _ _ _]. pose proof Q as (Hd & Hn & Hna & Hi & Ho).
    destruct (Boundary_Proofs.inc_table_spec Hd V1) as (i & u & T1 & _ & _ & _ & T5 & T6 & T7 & _).
    destruct (b_bc (t_b t) s) as [| |psi|] eqn:EB.
    1,2,4: rewrite B2, B2'; auto; try (repeat split; auto; fail); right; right; intros p Hp; congruence.
    destruct (in_dec Nat.eq_dec o i) as [Hi'|Hi'].
    - destruct (In_nth_error _ _ Hi') as (io & Hio).
      assert (IO : incident_octant (b_q (t_b t)) s = Ok i) by (unfold incident_octant; rewrite Hi; exact T1).
      rewrite (B1 s i io o a psi V1 EB IO Hio V3), (B1' s i io o a psi V1 EB IO Hio V3). auto.
    - assert (LV : leaves dim s o).
      { destruct (Boundary_Proofs.octants_spec Hd V1) as (_ & _ & _ & _ & _ & _ & A6).
        destruct (A6 o) as [X|X]; auto; [rewrite <- Hn; auto|]. exfalso. apply Hi'. apply T5. auto. }
      rewrite B2, B2'; auto; repeat split; auto. }
  split; auto. pose proof FT as ((A1 & A2 & A3) & _).
  split; [|split; [|split]].
  - pose proof WP as [RD (EM & NN) (Hg & Hgb) (Q & QE) (G1 & G2 & G3 & G4) D (Sb & FS & PR) OR (LF & LK)].
    apply (@sweepable_same w g (ssrc x) (t_b t) b0); [|repeat split; auto|exact S0].
    unfold sweepable. do 11 (split; [assumption || apply RD|]). assumption.
  - rewrite A1. exact DA.
  - intros s Hs. rewrite A3. apply OB. rewrite <- A1. auto.
  - auto.
Qed.

(** The flux made by any flux. *)
Lemma transport_map b0 : fixed_set_to (t_b t) b0 g -> exists T : list R -> list R, forall f, length f = n -> makes w x g b0 (phis t) f (T f).
Proof.
  intros FT. destruct (start_ok FT) as (S0 & SW & DA0 & OB0 & EQ0).
  pose proof WP as [RD (EM & NN) (Hg & Hgb) (Q & QE) (G1 & G2 & G3 & G4) D (Sb & FS & PR) OR (LF & LK)].
  destruct (fixed_with_scatter_ok RD EM NN Hg) as (f0 & Ef & L1 & V1).
  assert (LS : (n <= length f0)%nat) by (rewrite L1; apply RD).
  exists (fun f => match (do y <- build_within_group_scatter (with_fixed x f0) g f; do_sweep w true g (with_x (with_b t b0) y) f)%nat with
     | Ok (_, F) => F | _ => [] end).
  intros f Lf.
  destruct (@build_within x g f f0 (scat x)) as (y & Ey & SO); auto; [apply RD|].
  change (with_scat (with_fixed x f0) (scat x)) with (with_fixed x f0) in Ey. rewrite Ey. cbn [bind].
  pose proof (sources_ssrc SO) as ES.
  destruct (@do_sweep_ok w true g (with_x (with_b t b0) y) f (emissions x (with_group (phis t) g f) (b_q b0) g))
    as (b' & phi' & psi' & E & X & SW' & LK'); cbn [with_x with_b t_x t_b t_psi]; rewrite ?ES; auto.
  { apply sources_table; auto. }
  { intros. apply emissions_length. }
  rewrite E. cbn [with_x with_b t_x t_b t_psi] in X. rewrite ES in X.
  apply solved_of with (phi0 := with_group (phis t) g f) in X; auto.
  exists b'. split; [eapply solved_incoming; eauto|]. apply X.
Qed.

Lemma phis_len : length (phis t) = ng (mat (ssrc x)).
Proof. apply WP. Qed.
Lemma makes_len b0 f F : makes w x g b0 (phis t) f F -> length F = n.
Proof. intros (b & _ & P & _ & L & _). exact L. Qed.

(** The runs of the solver. *)
Lemma iterated_makes tol max t' k B F i : iterated w tol max g t t' k B F -> (i < k)%nat ->
  fixed_set_to (t_b t) (B 0%nat) g /\ makes w x g (B 0%nat) (phis t) (F i) (F (S i)).
Proof.
  intros IT. pose proof (proj2 (it_start IT)) as FT. destruct (start_ok FT) as (_ & _ & _ & OB0 & _).
  assert (SI : forall j, (j <= k)%nat -> same_incoming (B 0%nat) (B j) g).
  { induction j; intros Hj; [apply same_incoming_refl|]. eapply same_incoming_trans; [apply IHj; lia|].
    specialize (IHj ltac:(lia)). eapply solved_incoming; [apply (it_step IT); lia|].
    destruct IHj as ((A1 & A2 & A3) & _). intros s Hs. rewrite A3. apply OB0. rewrite <- A1. auto. }
  intros Hi. split; auto. exists (B (S i)). split; [apply SI; lia|]. apply (it_step IT i Hi).
Qed.

Lemma bounded_dif f f' M : bounded n f f' M <-> forall c, (c < n)%nat -> Rabs (dif f f' c) <= M.
Proof. reflexivity. Qed.
Lemma n_dim : cells_of dim G = n.
Proof. destruct WP as [_ _ _ _ (_ & _ & -> & _) _ _ _ _]. reflexivity. Qed.

(** *** A norm that one solve shrinks *)
Definition good_scheme : Prop := eq_positive (w_eq w) = true \/ sig_ok true G.
Lemma averaging_or : eq_positive (w_eq w) = true \/ eq_averaging (w_eq w) = true.
Proof. destruct (w_eq w) as [[]|[]|]; cbn; auto. Qed.

Definition shrinks (N : (nat -> R) -> R) (kp km : R) : Prop :=
  (forall e, 0 <= N e) /\ (forall e e1 e2, (forall c, (c < n)%nat -> e c = e1 c + e2 c) -> N e <= N e1 + N e2) /\
  (forall e e', (forall c, (c < n)%nat -> e c = - e' c) -> N e = N e') /\
  (forall e c, (c < n)%nat -> Rabs (e c) <= kp * N e) /\
  (forall e m, 0 <= m -> (forall c, (c < n)%nat -> Rabs (e c) <= m) -> N e <= km * m) /\ 0 <= kp /\ 0 <= km /\
  forall b0 f f' F F', fixed_set_to (t_b t) b0 g -> makes w x g b0 (phis t) f F -> makes w x g b0 (phis t) f' F' ->
    N (dif F F') <= r * N (dif f f').
Definition Nm (e : nat -> R) : R := rmax n (fun c => Rabs (e c)).
Lemma Nm_bounded f f' M : 0 <= M -> (Nm (dif f f') <= M <-> bounded n f f' M).
Proof.
  intros HM. split; intros H.
  - intros c Hc. eapply Rle_trans; [|exact H]. apply (@rmax_ge n (fun c => Rabs (dif f f' c)) c Hc).
  - apply rmax_lub; auto.
Qed.
Lemma shrinks_max : eq_positive (w_eq w) = true -> shrinks Nm 1 1.
Proof.
  intros PO. unfold shrinks.
  split; [intros; apply rmax_nonneg|]. split; [|split; [|split; [|split; [|split; [lra|split; [lra|]]]]]].
  - intros e e1 e2 H. apply rmax_lub; [apply Rplus_le_le_0_compat; apply rmax_nonneg|]. intros c Hc. rewrite H by auto.
    eapply Rle_trans; [apply Rabs_triang|]. apply Rplus_le_compat; apply (@rmax_ge n (fun c => Rabs (_ c)) c Hc).
  - intros e e' H. apply rmax_ext. intros c Hc. rewrite H by auto. apply Rabs_Ropp.
  - intros e c Hc. rewrite Rmult_1_l. apply (@rmax_ge n (fun c => Rabs (e c)) c Hc).
  - intros e k Hk H. rewrite Rmult_1_l. apply rmax_lub; auto.
  - intros b0 f f' F F' FT H H'. destruct (start_ok FT) as (_ & SW & DA0 & _ & _).
    assert (P : 0 <= Nm (dif f f')) by apply rmax_nonneg.
    apply Nm_bounded; [apply Rmult_le_pos; auto; apply DA|].
    apply (@contract_max w x g b0 r (phis t) ltac:(apply WP) SW DA0 phis_len f f' F F' _ PO P H H').
    apply Nm_bounded; auto. lra.
Qed.
Lemma Ne_energy f f' : Q dim G (dif f f') (dif f f') = energy dim G f f'.
Proof. reflexivity. Qed.
Lemma shrinks_energy : eq_averaging (w_eq w) = true -> sig_ok true G -> exists kp km, shrinks (Ne dim G) kp km.
Proof.
  intros AV SG. assert (HG : grid_ok dim G) by apply WP. destruct (Ne_pt HG SG) as (kp & Hkp & PT).
  exists kp, (sqrt (total dim G (at_ (g_sig G)))). unfold shrinks. rewrite n_dim in PT.
  split; [intros; apply Ne_nonneg|]. split; [|split; [|split; [|split; [|split; [auto|split; [apply sqrt_pos|]]]]]].
  - intros e e1 e2 H. apply Ne_tri; auto. rewrite n_dim. auto.
  - intros e e' H. apply Ne_opp; auto. rewrite n_dim. auto.
  - auto.
  - intros e k Hk H. apply Ne_up; auto. rewrite n_dim. auto.
  - intros b0 f f' F F' FT H H'. destruct (start_ok FT) as (_ & SW & DA0 & _ & EQ0).
    pose proof (@contract_energy w x g b0 r (phis t) ltac:(apply WP) SW DA0 phis_len f f' F F' AV H H') as C. rewrite EQ0 in C.
    destruct DA as [(R1 & _) _ _ _].
    apply Rsqr_incr_0_var; [|apply Rmult_le_pos; auto; apply Ne_nonneg]. unfold Rsqr. rewrite (Ne_sq HG SG).
    replace (r * Ne dim G (dif f f') * (r * Ne dim G (dif f f'))) with (r * r * (Ne dim G (dif f f') * Ne dim G (dif f f'))) by ring.
    rewrite (Ne_sq HG SG). exact C.
Qed.
Lemma shrinks_some : good_scheme -> exists N kp km, shrinks N kp km.
Proof.
  intros [P|SG]; [exists Nm, 1, 1; apply shrinks_max; auto|]. destruct averaging_or as [P|A]; [exists Nm, 1, 1; apply shrinks_max; auto|].
  destruct (shrinks_energy A SG) as (kp & km & H). eauto.
Qed.

Lemma makes_det N kp km : shrinks N kp km -> forall b0 f F F', fixed_set_to (t_b t) b0 g -> length f = n ->
  makes w x g b0 (phis t) f F -> makes w x g b0 (phis t) f F' -> F = F'.
Proof.
  intros (H1 & H2 & H3 & H4 & H5 & H6 & H7 & H8) b0 f F F' FT L M M'.
  apply (@N_zero n N kp H1 H4); [eapply makes_len; eauto|eapply makes_len; eauto|].
  eapply Rle_trans; [eapply H8; eauto|]. rewrite (@N_same n N km H1 H5 f f) by auto. lra.
Qed.

(** *** The discretised group problem has exactly one solution *)
Theorem one_solution b0 : good_scheme -> fixed_set_to (t_b t) b0 g ->
  exists F, group_solution w x g (phis t) b0 F /\ forall F', group_solution w x g (phis t) b0 F' -> F' = F.
Proof.
  intros GS FT. destruct (shrinks_some GS) as (N & kp & km & SH). pose proof SH as (H1 & H2 & H3 & H4 & H5 & H6 & H7 & H8).
  destruct (transport_map FT) as (T & HT). assert (HR : 0 <= r < 1) by apply DA.
  assert (TL : forall f, length f = n -> length (T f) = n) by (intros; eapply makes_len; eauto).
  assert (TC : forall f f', length f = n -> length f' = n -> N (dif (T f) (T f')) <= r * N (dif f f')) by (intros; eapply H8; eauto).
  destruct (@fixed_exists n N kp km r T H1 H2 H3 H4 H5 H6 HR TL TC) as (F & LF & EF).
  exists F. split.
  - pose proof (HT F LF) as M. rewrite EF in M. exact M.
  - intros F' M'. pose proof (makes_len M') as L'. apply (@unique_fixed n N kp r T H1 H4 HR TC); auto.
    eapply (makes_det SH); eauto.
Qed.

Lemma iterated_len tol max t' k B F : iterated w tol max g t t' k B F -> forall i, (i <= k)%nat -> length (F i) = n.
Proof.
  intros IT [|i] Hi.
  - rewrite (proj1 (it_start IT)). apply WP.
  - destruct (iterated_makes IT Hi) as (_ & M). eapply makes_len; eauto.
Qed.

(** *** Errors in a norm *)
Lemma iterated_error N kp km : shrinks N kp km -> forall tol max t' k B F Fs, iterated w tol max g t t' k B F ->
  group_solution w x g (phis t) (B 0%nat) Fs ->
  (forall i, (i <= k)%nat -> N (dif (F i) Fs) <= r ^ i * N (dif (F 0%nat) Fs)) /\
  (forall i, (i < k)%nat -> N (dif (F (S i)) Fs) <= r / (1 - r) * N (dif (F (S i)) (F i))).
Proof.
  intros SH tol max t' k B F Fs IT GS. pose proof SH as (H1 & H2 & H3 & H4 & H5 & H6 & H7 & H8).
  assert (HR : 0 <= r < 1) by apply DA.
  assert (FT : fixed_set_to (t_b t) (B 0%nat) g) by apply (it_start IT).
  assert (ST : forall i, (i < k)%nat -> N (dif (F (S i)) Fs) <= r * N (dif (F i) Fs)).
  { intros i Hi. destruct (iterated_makes IT Hi) as (_ & M). eapply H8; eauto. }
  split.
  - induction i; intros Hi; [cbn [pow]; lra|]. specialize (IHi ltac:(lia)). specialize (ST i ltac:(lia)). cbn [pow].
    pose proof (proj1 HR). nra.
  - intros i Hi. specialize (ST i Hi). pose proof (@N_via n N H2 (F i) (F (S i)) Fs) as A. rewrite (@N_sym n N H3 (F i) (F (S i))) in A.
    set (e := N (dif (F (S i)) Fs)) in *. set (d := N (dif (F (S i)) (F i))) in *.
    assert (r * N (dif (F i) Fs) <= r * (d + e)) by (apply Rmult_le_compat_l; lra).
    apply Rmult_le_reg_r with (1 - r); [lra|]. replace (r / (1 - r) * d * (1 - r)) with (r * d) by (field; lra). lra.
Qed.

Theorem si_error_max tol max t' k B F Fs M : eq_positive (w_eq w) = true -> iterated w tol max g t t' k B F ->
  group_solution w x g (phis t) (B 0%nat) Fs -> bounded n (F 0%nat) Fs M ->
  (forall i, (i <= k)%nat -> bounded n (F i) Fs (r ^ i * M)) /\
  ((k < max)%nat -> bounded n (nth g (phis t') []) Fs (r / (1 - r) * tol)).
Proof.
  intros PO IT GS BD. destruct (iterated_error (shrinks_max PO) IT GS) as (A & B'). assert (HR : 0 <= r < 1) by apply DA.
  assert (N0 : (0 < n)%nat) by apply WP.
  assert (HM : 0 <= M) by (specialize (BD 0%nat N0); pose proof (Rabs_pos (at_ (F 0%nat) 0 - at_ Fs 0)); lra).
  split.
  - intros i Hi. assert (0 <= r ^ i) by (apply pow_le; lra). apply Nm_bounded; [apply Rmult_le_pos; auto|].
    eapply Rle_trans; [apply A; auto|]. apply Rmult_le_compat_l; auto. apply Nm_bounded; auto.
  - intros Hk. rewrite (proj1 (it_result IT)). destruct (it_early IT Hk) as (K0 & W).
    specialize (B' (k - 1)%nat ltac:(lia)). replace (S (k - 1)) with k in B' by lia.
    assert (R0 : 0 <= r / (1 - r)) by (apply Rmult_le_pos; [lra|apply Rlt_le, Rinv_0_lt_compat; lra]).
    assert (T0 : 0 <= tol).
    { destruct W as (L & W). rewrite (iterated_len IT) in W by lia. specialize (W 0%nat N0).
      pose proof (Rabs_pos (at_ (F (k - 1)%nat) 0 - at_ (F k) 0)). lra. }
    apply Nm_bounded; [apply Rmult_le_pos; auto|].
    eapply Rle_trans; [exact B'|]. apply Rmult_le_compat_l; auto. apply Nm_bounded; auto.
    intros c Hc. destruct W as (L & W). rewrite (iterated_len IT) in W by lia. specialize (W c Hc). rewrite Rabs_minus_sym. lra.
Qed.

Theorem si_error_energy tol max t' k B F Fs : eq_averaging (w_eq w) = true -> sig_ok true G -> iterated w tol max g t t' k B F ->
  group_solution w x g (phis t) (B 0%nat) Fs ->
  (forall i, (i <= k)%nat -> energy dim G (F i) Fs <= (r * r) ^ i * energy dim G (F 0%nat) Fs) /\
  ((k < max)%nat -> energy dim G (nth g (phis t') []) Fs <= (r / (1 - r) * tol) * (r / (1 - r) * tol) * total dim G (at_ (g_sig G))).
Proof.
  intros AV SG IT GS. destruct (shrinks_energy AV SG) as (kp & km & SH). assert (HR : 0 <= r < 1) by apply DA.
  assert (HG : grid_ok dim G) by apply WP.
  destruct (iterated_error SH IT GS) as (A & B'). split.
  - intros i Hi. specialize (A i Hi). rewrite <- !Ne_energy, <- !(Ne_sq HG SG).
    pose proof (Ne_nonneg dim G (dif (F i) Fs)). pose proof (Ne_nonneg dim G (dif (F 0%nat) Fs)). assert (0 <= r ^ i) by (apply pow_le; lra).
    rewrite Rpow_mult_distr. replace (r ^ i * r ^ i * (Ne dim G (dif (F 0%nat) Fs) * Ne dim G (dif (F 0%nat) Fs)))
      with ((r ^ i * Ne dim G (dif (F 0%nat) Fs)) * (r ^ i * Ne dim G (dif (F 0%nat) Fs))) by ring.
    apply Rmult_le_compat; auto.
  - intros Hk. rewrite (proj1 (it_result IT)). destruct (it_early IT Hk) as (K0 & W).
    specialize (B' (k - 1)%nat ltac:(lia)). replace (S (k - 1)) with k in B' by lia.
    assert (R0 : 0 <= r / (1 - r)) by (apply Rmult_le_pos; [lra|apply Rlt_le, Rinv_0_lt_compat; lra]).
    assert (N0 : (0 < n)%nat) by apply WP.
    assert (T0 : 0 <= tol).
    { destruct W as (L & W). rewrite (iterated_len IT) in W by lia. specialize (W 0%nat N0).
      pose proof (Rabs_pos (at_ (F (k - 1)%nat) 0 - at_ (F k) 0)). lra. }
    assert (T1 : 0 <= total dim G (at_ (g_sig G))).
    { apply total_nonneg; auto. intros c Hc. apply Rlt_le, (sig_pos HG SG Hc). }
    rewrite <- Ne_energy, <- (Ne_sq HG SG).
    assert (U : Ne dim G (dif (F k) (F (k - 1)%nat)) <= sqrt (total dim G (at_ (g_sig G))) * tol).
    { apply Ne_up; auto. intros c Hc. rewrite n_dim in Hc. destruct W as (L & W). rewrite (iterated_len IT) in W by lia. specialize (W c Hc).
      unfold dif. rewrite Rabs_minus_sym. lra. }
    set (e := Ne dim G (dif (F k) Fs)) in *. assert (E0 : 0 <= e) by apply Ne_nonneg.
    assert (LE : e <= r / (1 - r) * (sqrt (total dim G (at_ (g_sig G))) * tol)).
    { eapply Rle_trans; [exact B'|]. apply Rmult_le_compat_l; auto. }
    replace ((r / (1 - r) * tol) * (r / (1 - r) * tol) * total dim G (at_ (g_sig G)))
      with ((r / (1 - r) * (sqrt (total dim G (at_ (g_sig G))) * tol)) * (r / (1 - r) * (sqrt (total dim G (at_ (g_sig G))) * tol))).
    + apply Rmult_le_compat; auto.
    + set (y := r / (1 - r)). transitivity (y * tol * (y * tol) * (sqrt (total dim G (at_ (g_sig G))) * sqrt (total dim G (at_ (g_sig G))))); [ring|].
      rewrite sqrt_sqrt by auto. ring.
Qed.

(** *** It stops by itself *)
Theorem si_stops tol : good_scheme -> 0 < tol -> exists K, forall max, (K <= max)%nat ->
  exists t' k B F, si_solve w tol max g t = Ok t' /\ iterated w tol max g t t' k B F /\ (k <= K)%nat.
Proof.
  intros GS HT. destruct (shrinks_some GS) as (N & kp & km & SH). pose proof SH as (H1 & H2 & H3 & H4 & H5 & H6 & H7 & H8).
  destruct (set_ok WP) as (b0 & Eb & FT & Sb). destruct (transport_map FT) as (T & TM). assert (HR : 0 <= r < 1) by apply DA.
  assert (TL : forall f, length f = n -> length (T f) = n) by (intros; eapply makes_len; eauto).
  assert (TC : forall f f', length f = n -> length f' = n -> N (dif (T f) (T f')) <= r * N (dif f f')) by (intros; eapply H8; eauto).
  assert (L0 : length (nth g (phis t) []) = n) by apply WP.
  destruct (@iter_settles n N kp r T H3 H4 H6 HR TL TC (nth g (phis t) []) tol L0 HT) as (K & HK).
  exists (S (S K)). intros max Hmax. destruct (@si_ok w m tol max g t WP) as (t' & k & B & F & E & IT).
  exists t', k, B, F. split; auto. split; auto.
  destruct (le_lt_dec k (S (S K))) as [|C]; auto. exfalso.
  assert (EI : forall i, (i <= k)%nat -> F i = iter T i (nth g (phis t) [])).
  { induction i; intros Hi; [apply (it_start IT)|]. change (iter T (S i) (nth g (phis t) [])) with (T (iter T i (nth g (phis t) []))). rewrite <- IHi by lia.
    destruct (iterated_makes IT Hi) as (FT' & (b' & I & TR)).
    assert (LI : length (F i) = n) by (eapply iterated_len; eauto; lia).
    (* B 0 and b0 have the same entering fluxes *)
    assert (SI : same_incoming b0 (B 0%nat) g).
    { destruct FT as ((A1 & A2 & A3) & B1 & B2), FT' as ((A1' & A2' & A3') & B1' & B2').
      split; [repeat split; congruence|]. intros s o a V En. unfold valid in V. rewrite A1, A2 in V. rewrite A1 in En.
      destruct V as (V1 & V2 & V3 & V4). pose proof WP as [_ _ _ (Q & _) _ _ _ _ _]. pose proof Q as (Hd & Hn & Hna & Hi2 & Ho).
      destruct (Boundary_Proofs.inc_table_spec Hd V1) as (tb & u & T1 & _ & _ & _ & T5 & T6 & T7 & _).
      destruct (b_bc (t_b t) s) as [| |psi|] eqn:EB2.
      1,2,4: rewrite B2, B2'; auto; try (repeat split; auto; fail); right; right; intros p Hp; congruence.
      apply T5 in En. destruct (In_nth_error _ _ En) as (io & Hio).
      assert (IO : incident_octant (b_q (t_b t)) s = Ok tb) by (unfold incident_octant; rewrite Hi2; exact T1).
      rewrite (B1 s tb io o a psi V1 EB2 IO Hio V3), (B1' s tb io o a psi V1 EB2 IO Hio V3). auto. }
    eapply (makes_det SH); [exact FT|exact LI| |apply TM; auto]. exists b'. split; auto. eapply same_incoming_trans; eauto. }
  apply (it_stop IT K); [lia|]. rewrite !EI by lia. split.
  - rewrite !(iter_len TL) by auto. auto.
  - intros c Hc. rewrite (iter_len TL) in Hc by auto. apply (HK K c); auto.
Qed.
End Main.
