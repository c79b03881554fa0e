(** * Proofs on the LRA benchmark material: all cells, heating *)
From Verif Require Import Base BaseR Loop Kinetics_Model Kinetics_Spec Kinetics_Proofs Lra_Model Lra_Spec Lra_Proofs.
Open Scope R_scope.
Set Implicit Arguments.
Unset Strict Implicit.

Lemma mapM_seq_inv A (f : nat -> res A) (d : A) n : forall s l, mapM f (seq s n) = Ok l ->
  length l = n /\ forall i, (i < n)%nat -> f (s + i)%nat = Ok (nth i l d).
Proof.
  induction n as [|n IH]; intros s l; simpl.
  - intros [= <-]. split; auto. intros; lia.
  - destruct (f s) as [a| |] eqn:E; simpl; try discriminate.
    destruct (mapM f (seq (S s) n)) as [r| |] eqn:E2; simpl; try discriminate. intros [= <-].
    destruct (IH _ _ E2) as [L N]. split; [simpl; lia|]. intros i Hi. destruct i as [|i].
    + rewrite Nat.add_0_r. auto.
    + simpl. rewrite <- N by lia. f_equal. lia.
Qed.
Lemma mapM_seq_total A (P : nat -> A -> Prop) (d : A) (f : nat -> res A) n : forall s,
  (forall i, (s <= i < s + n)%nat -> exists a, f i = Ok a /\ P i a) ->
  exists l, mapM f (seq s n) = Ok l /\ length l = n /\ forall i, (i < n)%nat -> P (s + i)%nat (nth i l d).
Proof.
  induction n as [|n IH]; intros s H; simpl.
  - exists []. repeat split. intros; lia.
  - destruct (H s ltac:(lia)) as (a & E & Pa). destruct (IH (S s)) as (l & El & Ll & Hl).
    { intros i Hi. apply H. lia. }
    exists (a :: l). rewrite E. cbn [bind]. rewrite El. cbn [bind]. split; auto. split; [simpl; lia|].
    intros i Hi. destruct i as [|i]; [rewrite Nat.add_0_r; auto|]. simpl. replace (s + S i)%nat with (S s + i)%nat by lia. apply Hl. lia.
Qed.

Definition xs0 : xs := {| t1 := 0; t2 := 0; a1 := 0; a2 := 0; s11 := 0; s21 := 0; s22 := 0; f1 := 0; f2 := 0;
  nu := 0; chi1 := 0; chi2 := 0; d1 := 0; d2 := 0 |}.

Lemma update_cells tr st t map T l : length T = length map -> lra_update tr st t map T = Ok l ->
  length l = length map /\ forall i, (i < length map)%nat ->
    update_cell tr st t (nth i map 0%nat) (nth i T 0) = Ok (nth i l xs0).
Proof.
  intros HT H. unfold lra_update in H. apply (@mapM_seq_inv _ _ xs0) in H. destruct H as [L N]. split; auto.
  intros i Hi. specialize (N i Hi). simpl in N. rewrite (@rd_ok _ map i 0%nat), (@rd_ok _ T i 0) in N by lia. exact N.
Qed.

Lemma update_total tr st t map T : length T = length map -> (forall i, (i < length map)%nat -> (nth i map 0 < 6)%nat) ->
  exists l, lra_update tr st t map T = Ok l /\ length l = length map.
Proof.
  intros HT Hm. destruct (@mapM_seq_total _ (fun _ _ => True) xs0
    (fun i => do m <- rd map i; do x <- rd T i; update_cell tr st t m x) (length map) 0) as (l & E & L & _).
  - intros i Hi. rewrite (@rd_ok _ map i 0%nat), (@rd_ok _ T i 0) by lia. cbn [bind].
    destruct (@cell_total tr st t (nth i map 0%nat) (nth i T 0)) as [x Hx]; [apply Hm; lia|]. eauto.
  - eauto.
Qed.

(** ** Heating *)
Lemma heat_ok s t dt order prev sf phi : length (l_P s) = length (l_var s) -> 0 < t -> dt <> 0 -> (1 <= order <= 6)%nat ->
  exists a s', coefs order a /\ heat_step s t dt order prev sf phi = Ok s' /\
    length (l_var s') = length (l_var s) /\ length (l_P s') = length (l_P s) /\
    forall i, (i < length (l_var s))%nat ->
      let F := sf i 0%nat * phi 0%nat i + sf i 1%nat * phi 1%nat i in
      bdf_rate a order dt (nth i (l_var s') 0) (fun k => nth i (prev k) 0) = ALPHA * F /\
      nth i (lra_power s') 0 = KAPPA * F.
Proof.
  intros HL Ht Hd Ho. unfold heat_step, update_P_and_T. cbn [l_var l_T l_P]. destruct (Rlt_dec 0 t); [|contradiction].
  set (n := length (l_P s)) in *.
  set (F := fun i => sf i 0%nat * phi 0%nat i + sf i 1%nat * phi 1%nat i).
  exists (bcoef order).
  rewrite map_length, seq_length.
  destruct (@mapM_seq_total _ (fun j y => bdf_rate (bcoef order) order dt y (fun k => nth j (prev k) 0) = ALPHA * F j) 0
    (fun j => do r0 <- rd (map (fun i => ALPHA * F i) (seq 0 n)) j; update_physics dt order r0 (fun k => nth j (prev k) 0)) n 0)
    as (v & E & L & N).
  { intros j Hj. rewrite (@rd_ok _ _ j 0) by (rewrite map_length, seq_length; lia). cbn [bind].
    rewrite nth_map_seq by lia. simpl Nat.add.
    destruct (@physics_ok dt order (ALPHA * F j) (fun k => nth j (prev k) 0) Ho Hd) as (a & y & Ha & Ey & Hy).
    exists y. split; [exact Ey|].
    rewrite <- (proj2 (Hy y) eq_refl) at 1. unfold bdf_rate.
    assert (EA : forall j, (j <= order)%nat -> a j = bcoef order j).
    { intros k Hk. pose proof (Ha k Hk) as E1. rewrite bdf_ok in E1 by lia. congruence. }
    rewrite EA by lia. f_equal. f_equal. apply rsum_ext. intros k Hk. rewrite EA by lia. reflexivity. }
  match goal with |- context [mapM ?f (seq 0 n)] => replace (mapM f (seq 0 n)) with (Ok v) by (symmetry; exact E) end. cbn [bind].
  eexists. split; [intros j Hj; apply bdf_ok; lia|]. split; [reflexivity|]. cbn [l_var l_P lra_power].
  split; [lia|]. split; [rewrite map_length, seq_length; auto|].
  intros i Hi. split; [apply (N i); lia|]. rewrite nth_map_seq by lia. reflexivity.
Qed.

(** The first order method: the temperature rises by the energy of the step. *)
Lemma heat_first s t dt prev sf phi : length (l_P s) = length (l_var s) -> 0 < t -> dt <> 0 ->
  exists s', heat_step s t dt 1 prev sf phi = Ok s' /\
    forall i, (i < length (l_var s))%nat ->
      nth i (l_var s') 0 = nth i (prev 0%nat) 0 + dt * (ALPHA * (sf i 0%nat * phi 0%nat i + sf i 1%nat * phi 1%nat i)).
Proof.
  intros HL Ht Hd. destruct (@heat_ok s t dt 1 prev sf phi HL Ht Hd ltac:(lia)) as (a & s' & Ha & E & _ & _ & N).
  exists s'. split; auto. intros i Hi. destruct (N i Hi) as [H _]. unfold bdf_rate in H. cbn [rsum] in H.
  assert (A0 : a 0%nat = 1) by (pose proof (Ha 0%nat ltac:(lia)) as X; unfold bdf, bdf_table in X; cbn [rd nth_error bind] in X; congruence).
  assert (A1' : a 1%nat = 1) by (pose proof (Ha 1%nat ltac:(lia)) as X; unfold bdf, bdf_table in X; cbn [rd nth_error bind] in X; congruence).
  rewrite A0, A1' in H. rewrite <- H. field. auto.
Qed.

Lemma reported s t dt order prev sf phi s' : heat_step s t dt order prev sf phi = Ok s' -> lra_temperature s' = lra_temperature s.
Proof.
  unfold heat_step. destruct (mapM _ _); simpl; try discriminate. intros [= <-]. reflexivity.
Qed.

(** A cell with fission heats up; the temperatures reported do not change. *)
Definition hot_sf (i g : nat) : R := 1.
Lemma stale : exists s', heat_step (lra_new 1) 1 1 1 (fun _ => [300]) hot_sf hot_sf = Ok s' /\
  nth 0 (l_var s') 0 = 300 + 2 * ALPHA /\ nth 0 (lra_temperature s') 0 <> nth 0 (l_var s') 0.
Proof.
  destruct (@heat_first (lra_new 1) 1 1 (fun _ => [300]) hot_sf hot_sf) as (s' & E & N); try reflexivity; try lra.
  exists s'. specialize (N 0%nat ltac:(simpl; lia)). cbn [nth] in N. unfold hot_sf in N. split; auto.
  rewrite (reported E). rewrite N. unfold ALPHA. simpl. split; lra.
Qed.

(** ** Area *)
Lemma area_ok volume map : lra_area volume map =
  Ok (rsum (length map) (fun i => if (nth i map 0 =? 4)%nat then 0 else volume i)).
Proof.
  unfold lra_area.
  destruct (@for_inv _ (fun i a => a = rsum i (fun i => if (nth i map 0 =? 4)%nat then 0 else volume i)) 0 (length map) 0
    (fun i a => do m <- rd map i; Ok (if (m =? 4)%nat then a else a + volume i))) as (v & E & H).
  - lia.
  - reflexivity.
  - intros i a Hi ->. rewrite (@rd_ok _ map i 0%nat) by lia. cbn [bind]. eexists. split; [reflexivity|].
    cbn [rsum]. destruct (nth i map 0 =? 4)%nat; ring.
  - rewrite E, H. reflexivity.
Qed.
