From Verif Require Import Base BaseR Loop Mesh_Model Mesh_Spec Csg_Model Csg_Spec Csg_Proofs Pin_Model Pin_Spec Pin_Proofs Pin_Proofs2 Pin_Proofs6.
Set Implicit Arguments. Unset Strict Implicit.
Open Scope nat_scope.

(** ** Finding points *)
Lemma only_found rs p i : only_region rs p i -> geo_find rs p = Ok (Some i).
Proof.
  intros [L H]. destruct (@geo_find_spec rs p (fun j => j =? i)) as (o & E & S).
  { intros j Hj. destruct (nth_error rs j) as [r|] eqn:E; [|apply nth_error_None in E; lia]. exists r. split; auto. }
  rewrite E. destruct o as [c|]; [destruct S as (_ & B & _); apply Nat.eqb_eq in B; subst; auto|]. specialize (S i L). cbn in S. rewrite Nat.eqb_refl in S. discriminate.
Qed.
Lemma none_found rs p : no_region rs p -> geo_find rs p = Ok None.
Proof.
  intros H. destruct (@geo_find_spec rs p (fun _ => false)) as (o & E & S).
  { intros j Hj. destruct (nth_error rs j) as [r|] eqn:E; [|apply nth_error_None in E; lia]. exists r. split; auto. apply H. eapply nth_error_In; eauto. }
  rewrite E. destruct o; auto. destruct S as (_ & B & _). discriminate.
Qed.

(** ** One pin *)
Definition pin_list (P : pincell) : list region :=
  flat_map (fun r => map (pin_region P (nth r (pc_mat P) 0%Z) r) (seq 0 (sectors (pc_div P)))) (seq 0 (length (pc_radii P) + 1)).
Lemma pin_run P : made P -> create_pin_cell P = Ok (pin_list P).
Proof.
  intros HM. destruct (made_ok HM) as (_ & _ & LM & _). unfold create_pin_cell, pin_list. rewrite (divisions_ok HM).
  rewrite (@mapM_ok _ _ _ (fun r => map (pin_region P (nth r (pc_mat P) 0%Z) r) (seq 0 (sectors (pc_div P))))).
  - cbn. rewrite flat_map_concat_map. auto.
  - intros r Hr. apply in_seq in Hr. rewrite (@rd_ok _ _ _ 0%Z) by lia. reflexivity.
Qed.
Lemma pin_list_nth P : let w := sectors (pc_div P) in let n := length (pc_radii P) in
  length (pin_list P) = (n + 1) * w /\
  forall k a, k <= n -> a < w -> nth_error (pin_list P) (k * w + a) = Some (pin_region P (nth k (pc_mat P) 0%Z) k a).
Proof.
  intros w n. destruct (@flat_map_block _ (fun r => map (pin_region P (nth r (pc_mat P) 0%Z) r) (seq 0 w)) (n + 1) w) as [L N].
  { intros. rewrite map_length, seq_length. auto. }
  split; [unfold pin_list; fold w n; rewrite L; ring|]. intros k a Hk Ha. unfold pin_list. fold w n. rewrite (Nat.add_comm (k * w) a), N by lia.
  apply map_nth_error. rewrite nth_error_nth' with (d := 0) by (rewrite seq_length; auto). rewrite seq_nth; auto.
Qed.
Lemma pin_list_in P j r : 0 < sectors (pc_div P) -> nth_error (pin_list P) j = Some r ->
  exists k a, k <= length (pc_radii P) /\ a < sectors (pc_div P) /\ j = k * sectors (pc_div P) + a /\ r = pin_region P (nth k (pc_mat P) 0%Z) k a.
Proof.
  intros W0 H. destruct (pin_list_nth P) as [L N]. set (w := sectors (pc_div P)) in *. assert (J : j < (length (pc_radii P) + 1) * w) by (rewrite <- L; apply nth_error_Some; congruence).
  assert (j / w < length (pc_radii P) + 1) by (apply Nat.div_lt_upper_bound; lia). assert (j mod w < w) by (apply Nat.mod_upper_bound; lia).
  exists (j / w), (j mod w). split; [lia|]. split; auto. assert (E : j = j / w * w + j mod w) by (rewrite Nat.mul_comm; apply Nat.div_mod; lia). split; auto.
  rewrite E, N in H by lia. injection H as <-. reflexivity.
Qed.
Lemma sectors_pos P : made P -> 0 < sectors (pc_div P).
Proof. intros HM. destruct (made_ok HM) as (_ & _ & _ & D & _). destruct (pc_div P) as [|[|[|[|]]]]; cbn; lia. Qed.
Lemma pin_contains P m k a p : k <= length (pc_radii P) -> region_contains (pin_region P m k a) p = Ok (forallb (fun q => contains q p) (pin_nodes P k a)).
Proof. intros Hk. unfold pin_region. apply region_nodes. apply nodes_nonempty. auto. Qed.
Lemma pin_total P : made P -> forall r p, In r (pin_list P) -> exists b, region_contains r p = Ok b.
Proof.
  intros HM r p H. apply In_nth_error in H. destruct H as [j H]. destruct (@pin_list_in P j r (sectors_pos HM) H) as (k & a & Hk & Ha & _ & ->). rewrite pin_contains by auto. eauto.
Qed.
Lemma ring_in_cell P k p : made P -> centred P -> pin_inside P -> flat P -> k < length (pc_radii P) -> in_ring P (px p) (py p) k -> in_pin_cell P p.
Proof.
  intros HM [C1 C2] HI HF Hk (_ & B & _). specialize (B Hk). destruct (made_ok HM) as (PX & PY & _ & _ & RO).
  destruct (HI (nth k (pc_radii P) 0%R)) as [I1 I2]; [apply nth_In; auto|]. pose proof (radii_pos RO Hk) as R0. set (rr := nth k (pc_radii P) 0%R) in *. clearbody rr.
  unfold off_axis in B. rewrite C1, C2 in B. set (u := (px p - (px (pc_pitch P) / 2 + 0))%R) in *. set (v := (py p - (py (pc_pitch P) / 2 + 0))%R) in *. cbv zeta in B.
  apply sq_lt in B; [|nra|auto].
  assert (U : (- rr < u < rr)%R) by (split; nra). assert (V : (- rr < v < rr)%R) by (split; nra). unfold flat in HF. unfold in_pin_cell. subst u v. repeat split; intros; lra.
Qed.

Theorem pin_partition P : made P -> centred P ->
  exists rs, create_pin_cell P = Ok rs /\ length rs = (length (pc_radii P) + 1) * sectors (pc_div P) /\
  (forall p, in_pin_cell P p -> exists k a, in_ring P (px p) (py p) k /\ a < sectors (pc_div P) /\ in_sector (pc_div P) a (rel_x P p) (rel_y P p) /\
     only_region rs p (k * sectors (pc_div P) + a) /\ geo_find rs p = Ok (Some (k * sectors (pc_div P) + a)) /\
     exists r, nth_error rs (k * sectors (pc_div P) + a) = Some r /\ rmat r = nth k (pc_mat P) 0%Z) /\
  (pin_inside P -> flat P -> forall p, ~ in_pin_cell P p -> no_region rs p /\ geo_find rs p = Ok None).
Proof.
  intros HM HC. exists (pin_list P). split; [apply pin_run; auto|]. destruct (pin_list_nth P) as [L N]. pose proof (sectors_pos HM) as W0. set (w := sectors (pc_div P)) in *. split; auto. split.
  - intros p Hp. destruct (ring_exists P p) as [k HK]. destruct (sector_exists HM (rel_x P p) (rel_y P p)) as (a & Ha & HA). exists k, a.
    split; auto. split; auto. split; auto. assert (Hk : k <= length (pc_radii P)) by (destruct HK; auto).
    assert (O : only_region (pin_list P) p (k * w + a)).
    { split; [rewrite L; nia|]. intros j r Hj. destruct (pin_list_in W0 Hj) as (k' & a' & Hk' & Ha' & E & ->). fold w in E. rewrite pin_contains by auto. f_equal.
      apply eq_true_iff_eq. rewrite (nodes_true HM HC p Hk' Ha'), Nat.eqb_eq. split.
      - intros (R1 & S1 & _). rewrite (ring_unique R1 HK) in *. rewrite (sector_unique HM Ha' Ha S1 HA) in *. auto.
      - intros E2. assert (k' = k /\ a' = a) as [-> ->].
        { rewrite E2 in E. fold w in Ha'. assert (X1 : (k * w + a) / w = k) by (rewrite Nat.div_add_l, Nat.div_small; lia).
          assert (X2 : (k' * w + a') / w = k') by (rewrite Nat.div_add_l, Nat.div_small; lia). rewrite E in X1. assert (k' = k) by congruence. subst. split; lia. }
        auto. }
    split; auto. split; [apply only_found; auto|]. rewrite N by auto. eexists. split; eauto.
  - intros HI HF p Hp. assert (NR : no_region (pin_list P) p).
    { intros r Hr. apply In_nth_error in Hr. destruct Hr as [j Hj]. destruct (pin_list_in W0 Hj) as (k & a & Hk & Ha & _ & ->). rewrite pin_contains by auto. f_equal.
      apply not_true_iff_false. rewrite (nodes_true HM HC p Hk Ha). intros (R1 & _ & C). apply Hp. destruct (Nat.eq_dec k (length (pc_radii P))) as [E|E]; auto.
      eapply ring_in_cell; eauto. lia. }
    split; auto. apply none_found; auto.
Qed.

(** The uniform mesh and the regions give the same material in the middle of every cell. *)
Theorem mesh_and_regions P n : made P -> square P -> centred P -> flat P -> 0 < n ->
  exists m reg rs, meshify P n false = Ok (m, reg) /\ create_pin_cell P = Ok rs /\ forall i j, i < n -> j < n -> forall z,
  exists c r, geo_find rs (P3 ((INR i + / 2) * (px (pc_pitch P) / INR n)) ((INR j + / 2) * (py (pc_pitch P) / INR n)) z) = Ok (Some c) /\
    nth_error rs c = Some r /\ nth (Mesh_Model.index n n i j 0) (mat m) 0%Z = rmat r.
Proof.
  intros HM HS HC HF Hn. destruct (@uniform_mesh P n false HM HS HC Hn eq_refl) as (m & reg & E & (_ & _ & _ & _ & _ & _ & _ & _ & _ & _ & _ & CV) & _ & _ & V).
  destruct (pin_partition HM HC) as (rs & E2 & _ & F & _). exists m, reg, rs. split; auto. split; auto. intros i j Hi Hj z.
  destruct (made_ok HM) as (PX & PY & _). pose proof (lt_0_INR n Hn) as N0.
  set (p := P3 _ _ z). assert (A : forall i q, i < n -> (0 < q)%R -> (0 <= (INR i + / 2) * (q / INR n) < q)%R).
  { intros i' q Hi' Hq. assert (INR i' + 1 <= INR n)%R by (rewrite <- S_INR; apply le_INR; lia). pose proof (pos_INR i'). assert (0 < q / INR n)%R by (apply Rdiv_lt_0_compat; auto).
    replace q with (INR n * (q / INR n))%R at 3 by (field; lra). split; [apply Rmult_le_pos; lra|apply Rmult_lt_compat_r; lra]. }
  destruct (F p) as (k & a & HK & _ & _ & _ & G & r & Hr & Mr).
  { unfold in_pin_cell, p. cbn [px py pz]. unfold flat in HF. split; [apply A; auto|]. split; [apply A; auto|]. lra. }
  exists (k * sectors (pc_div P) + a), r. split; auto. split; auto. destruct (V i j Hi Hj) as (k' & HK' & R').
  assert (k' = k) by (eapply (ring_unique (p := p)); eauto). subst k'.
  destruct (CV (Mesh_Model.index n n i j 0)) as (k2 & _ & R2 & M2). { unfold Mesh_Model.index. nia. }
  rewrite R' in R2. apply Nat2Z.inj in R2. subst k2. congruence.
Qed.
