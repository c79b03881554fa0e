(** * PiConv_Proofs *)
From Verif Require Import Base BaseR Loop Util_Model Angle_Model Boundary_Model Boundary_Spec Mesh_Model Material_Model Material_Spec
  Source_Model Source_Spec Source_Proofs Cell_Spec Sweep_Model Sweep_Spec Iter_Model Iter_Spec Pi_Spec Iter_Proofs Power_Proofs Banach_Proofs Pi_Proofs.
Set Implicit Arguments. Unset Strict Implicit.
Open Scope R_scope.

(** A positive block has the form Power_Proofs wants. *)
Lemma min_pos n (f : nat -> R) (P : nat -> Prop) : (forall i, (i < n)%nat -> P i -> 0 < f i) ->
  (forall i, P i \/ ~ P i) -> exists m, 0 < m /\ forall i, (i < n)%nat -> P i -> m <= f i.
Proof.
  intros H D. induction n; [exists 1; split; [lra|intros; lia]|].
  destruct IHn as (m & M1 & M2); [intros; apply H; auto|]. destruct (D n) as [Y|N].
  - exists (Rmin m (f n)). split; [apply Rmin_pos; auto|]. intros i Hi Pi. destruct (Nat.eq_dec i n) as [->|].
    + apply Rmin_r.
    + eapply Rle_trans; [apply Rmin_l|apply M2; auto; lia].
  - exists m. split; auto. intros i Hi Pi. destruct (Nat.eq_dec i n) as [->|]; [tauto|]. apply M2; auto. lia.
Qed.
Lemma max_bound n (f : nat -> R) : exists M, 0 < M /\ forall i, (i < n)%nat -> f i <= M.
Proof.
  induction n; [exists 1; split; [lra|intros; lia]|]. destruct IHn as (M & M1 & M2). exists (Rmax M (f n)). split.
  - eapply Rlt_le_trans; [exact M1|apply Rmax_l].
  - intros i Hi. destruct (Nat.eq_dec i n) as [->|]; [apply Rmax_r|]. eapply Rle_trans; [apply M2; lia|apply Rmax_l].
Qed.
Lemma min_pos2 n (f : nat -> nat -> R) (P : nat -> Prop) : (forall i j, (i < n)%nat -> (j < n)%nat -> P i -> P j -> 0 < f i j) ->
  (forall i, P i \/ ~ P i) -> exists m, 0 < m /\ forall i j, (i < n)%nat -> (j < n)%nat -> P i -> P j -> m <= f i j.
Proof.
  intros H D.
  assert (A : forall k, exists m, 0 < m /\ forall i j, (i < k)%nat -> (i < n)%nat -> (j < n)%nat -> P i -> P j -> m <= f i j).
  { induction k as [|k (m & M1 & M2)]; [exists 1; split; [lra|intros; lia]|].
    destruct (le_lt_dec n k) as [G|L]; [exists m; split; auto; intros i j Hi Hn; apply M2; lia|].
    destruct (D k) as [Y|N].
    - destruct (@min_pos n (f k) P) as (m' & M1' & M2'); auto.
      exists (Rmin m m'). split; [apply Rmin_pos; auto|]. intros i j Hi Hn Hj Pi Pj. destruct (Nat.eq_dec i k) as [->|].
      + eapply Rle_trans; [apply Rmin_r|apply M2'; auto].
      + eapply Rle_trans; [apply Rmin_l|apply M2; auto; lia].
    - exists m. split; auto. intros i j Hi Hn Hj Pi Pj. destruct (Nat.eq_dec i k) as [->|]; [tauto|]. apply M2; auto. lia. }
  destruct (A n) as (m & M1 & M2). exists m. split; auto. 
Qed.
Lemma max_bound2 n (f : nat -> nat -> R) : exists M, 0 < M /\ forall i j, (i < n)%nat -> (j < n)%nat -> f i j <= M.
Proof.
  assert (A : forall k, exists M, 0 < M /\ forall i j, (i < k)%nat -> (j < n)%nat -> f i j <= M).
  { induction k as [|k (M & M1 & M2)]; [exists 1; split; [lra|intros; lia]|].
    destruct (max_bound n (f k)) as (M' & M1' & M2'). exists (Rmax M M'). split; [eapply Rlt_le_trans; [exact M1|apply Rmax_l]|].
    intros i j Hi Hj. destruct (Nat.eq_dec i k) as [->|].
    - eapply Rle_trans; [apply M2'; auto|apply Rmax_r].
    - eapply Rle_trans; [apply M2; auto; lia|apply Rmax_l]. }
  destruct (A n) as (M & M1 & M2). exists M. auto.
Qed.

Section Conv.
Variables (nc : nat) (x : src) (a : nat -> nat -> R).
Hypothesis (CN : connected nc x a).
Local Notation P := (fissile x).
Lemma fissile_dec c : {P c} + {~ P c}.
Proof. unfold fissile. destruct (Rlt_dec 0 (rsum (ng (mat x)) (fun g => nsf (mat x) g (mat_of x c)))); auto. Qed.
(** The columns of the other cells do not matter. *)
Definition a' (c j : nat) : R := if fissile_dec j then a c j else 0.
Definition ind (c : nat) : R := if fissile_dec c then 1 else 0.

Lemma structure : exists M d, 0 < M /\ 0 < d <= 1 /\
  (forall c j, (c < nc)%nat -> (j < nc)%nat -> d * (M * ind c * ind j) <= a' c j <= M * ind c * ind j) /\
  0 < rsum nc (fun j => ind j * (M * ind j)).
Proof.
  destruct CN as ((c0 & Hc0 & F0) & CC).
  destruct (@min_pos2 nc a P) as (m & M1 & M2).
  { intros i j Hi Hj Pi Pj. apply (proj1 (CC i Hi)); auto. }
  { intros i. destruct (fissile_dec i); auto. }
  destruct (max_bound2 nc a) as (M & N1 & N2).
  assert (MM : m <= M) by (eapply Rle_trans; [apply M2 with (i := c0) (j := c0); auto|apply N2; auto]).
  exists M, (m / M). split; auto. split.
  { split; [apply Rdiv_lt_0_compat; auto|]. apply Rmult_le_reg_r with M; auto. unfold Rdiv. rewrite Rmult_assoc, Rinv_l by lra. lra. }
  split.
  - intros c j Hc Hj. unfold a', ind. destruct (fissile_dec j) as [Fj|Fj]; [|destruct (fissile_dec c); lra].
    destruct (fissile_dec c) as [Fc|Fc].
    + rewrite !Rmult_1_r. unfold Rdiv. rewrite Rmult_assoc, Rinv_l, Rmult_1_r by lra. auto.
    + rewrite (proj2 (CC c Hc) Fc j Hj). lra.
  - apply Rlt_le_trans with (ind c0 * (M * ind c0)).
    + unfold ind. destruct (fissile_dec c0); [lra|tauto].
    + apply (@term_le nc (fun j => ind j * (M * ind j))); auto. intros j Hj. unfold ind. destruct (fissile_dec j); lra.
Qed.

(** The sequence the iteration follows. *)
Fixpoint seqs (f : nat -> R) (i : nat) : (nat -> R) * R :=
  match i with
  | O => (f, 1)
  | S i => let (f, k) := seqs f i in
           (fun c => / k * rsum nc (fun j => a c j * f j), rsum nc (fun c => rsum nc (fun j => a c j * f j)) / rsum nc f)
  end.
Definition supported (f : nat -> R) : Prop := forall c, (c < nc)%nat -> 0 <= f c /\ (~ P c -> f c = 0).
Lemma same_app f c : (forall c, (c < nc)%nat -> ~ P c -> f c = 0) -> app nc a' f c = rsum nc (fun j => a c j * f j).
Proof. intros H. apply rsum_ext. intros j Hj. unfold a'. destruct (fissile_dec j); auto. rewrite H by auto. ring. Qed.
Lemma outside f c : (c < nc)%nat -> ~ P c -> rsum nc (fun j => a c j * f j) = 0.
Proof. intros Hc N. apply rsum_zero. intros j Hj. rewrite (proj2 (proj2 CN c Hc) N j Hj). ring. Qed.
Lemma supported_step f i : supported f -> forall c, (c < nc)%nat -> ~ P c -> fst (seqs f i) c = 0.
Proof.
  intros S. induction i; intros c Hc N; cbn [seqs]; [apply S; auto|]. destruct (seqs f i) as (fi, ki). cbn [fst]. rewrite outside by auto. ring.
Qed.

Lemma mode_support l V : mode nc a l V -> forall c, (c < nc)%nat -> ~ P c -> V c = 0.
Proof. intros (L & _ & _ & E) c Hc N. specialize (E c Hc). rewrite outside in E by auto. nra. Qed.

Theorem seqs_converge f : supported f -> (exists c, (c < nc)%nat /\ P c /\ 0 < f c) ->
  exists l V C q, 0 < q < 1 /\ 0 <= C /\ mode nc a l V /\ (forall l' V', mode nc a l' V' -> l' = l) /\
  (forall i, 0 < rsum nc (fst (seqs f i)) /\ 0 < snd (seqs f i) /\ forall c, (c < nc)%nat -> 0 <= fst (seqs f i) c) /\
  (forall i, Rabs (snd (seqs f i) - l) <= C * q ^ i) /\
  (forall i c, (c < nc)%nat -> Rabs (fst (seqs f i) c - V c) <= C * q ^ i) /\
  (forall i, rsum nc (fun c => Rabs (fst (seqs f (S i)) c - fst (seqs f i) c)) <= C * q ^ i).
Proof.
  intros SU (c0 & Hc0 & Pc0 & Fc0). destruct structure as (M & d & HM & Hd & Ha & Hue).
  set (e := fun c => M * ind c). set (u := ind).
  assert (I01 : forall c, 0 <= ind c) by (intros c; unfold ind; destruct (fissile_dec c); lra).
  assert (He : forall c, (c < nc)%nat -> 0 <= e c) by (intros c _; unfold e; specialize (I01 c); nra).
  assert (Hu : forall c, (c < nc)%nat -> 0 <= u c) by (intros; apply I01).
  assert (Ha' : forall c j, (c < nc)%nat -> (j < nc)%nat -> d * (e c * u j) <= a' c j <= e c * u j) by (intros c j Hc Hj; apply Ha; auto).
  set (F := fun i => fst (seqs f i)). set (k := fun i => snd (seqs f i)).
  assert (W0 : 0 < wsum nc u (F 0%nat)).
  { apply Rlt_le_trans with (u c0 * f c0).
    - unfold u, ind. destruct (fissile_dec c0); [lra|tauto].
    - apply (@term_le nc (fun j => u j * f j)); auto. intros j Hj. apply Rmult_le_pos; [apply I01|apply SU; auto]. }
  assert (N0 : nonneg nc (F 0%nat)) by (intros c Hc; apply SU; auto).
  assert (FS : forall i c, (c < nc)%nat -> F (S i) c = / k i * app nc a' (F i) c).
  { intros i c Hc. rewrite same_app by (intros; apply supported_step; auto). unfold F, k. cbn [seqs]. destruct (seqs f i). reflexivity. }
  assert (KS : forall i, k (S i) = rsum nc (app nc a' (F i)) / rsum nc (F i)).
  { intros i. unfold F, k. cbn [seqs]. pose proof (supported_step i SU) as SI. destruct (seqs f i) as (fi & ki). cbn [fst snd] in *. f_equal.
    apply rsum_ext. intros c Hc. rewrite same_app; auto. }
  assert (K0 : 0 < k 0%nat) by (unfold k; cbn; lra).
  pose proof (@run nc a' e u d Hd He Hu Ha' Hue F k N0 W0 K0 FS KS) as RU.
  destruct (@power_converges nc a' e u d Hd He Hu Ha' Hue F k N0 W0 K0 FS KS) as (l & V & K & q & Hq & EV & UN & CK & CF & CD).
  assert (EQ : forall l V, mode nc a l V <-> Power_Proofs.eigen nc a' u l V).
  { intros l1 V1. split.
    - intros MO. pose proof MO as (A & B & (c & Hc & D) & E). split; auto. split.
      + apply Rlt_le_trans with (u c * V1 c).
        * unfold u, ind. destruct (fissile_dec c) as [|N]; [lra|]. pose proof (mode_support MO Hc N). lra.
        * apply (@term_le nc (fun j => u j * V1 j)); auto. intros j Hj. apply Rmult_le_pos; auto.
      + intros c' Hc'. rewrite same_app by (apply (mode_support MO)). auto.
    - intros EV1. pose proof (@eigen_pos nc a' e u d Hd Hu Ha' Hue l1 V1 EV1) as L1. pose proof EV1 as (A & B & E).
      assert (SV : forall c, (c < nc)%nat -> ~ P c -> V1 c = 0).
      { intros c Hc N. specialize (E c Hc). assert (app nc a' V1 c = 0); [|nra].
        apply rsum_zero. intros j Hj. unfold a'. destruct (fissile_dec j); [|ring]. rewrite (proj2 (proj2 CN c Hc) N j Hj). ring. }
      split; auto. split; auto. split; [apply (@pos_entry nc u V1 A B)|]. intros c Hc. rewrite <- (same_app c SV). auto. }
  set (q' := Rmax q (1/2)). assert (Hq' : 0 < q' < 1 /\ q <= q').
  { unfold q'. pose proof (Rmax_l q (1/2)). pose proof (Rmax_r q (1/2)). split; [|auto]. split; [lra|]. apply Rmax_lub_lt; lra. }
  destruct Hq' as (Hq' & Qle). assert (K_0 : 0 <= K).
  { specialize (CK 0%nat). cbn [pow] in CK. pose proof (Rabs_pos (k 2%nat - l)). lra. }
  assert (PW : forall i, q ^ i * K <= K / (q' * q') * q' ^ (S (S i))).
  { intros i. replace (K / (q' * q') * q' ^ S (S i)) with (q' ^ i * K) by (cbn [pow]; field; lra).
    apply Rmult_le_compat_r; auto. apply pow_incr. lra. }
  (* the first two iterations *)
  destruct (max_bound nc (fun c => Rabs (F 0%nat c - V c) + Rabs (F 1%nat c - V c))) as (C1 & HC1 & C1b).
  set (D0 := fun i => rsum nc (fun c => Rabs (F (S i) c - F i c))).
  set (C := (K + C1 + Rabs (k 0%nat - l) + Rabs (k 1%nat - l) + D0 0%nat + D0 1%nat) / (q' * q')).
  assert (D0n : forall i, 0 <= D0 i) by (intros i; apply rsum_nonneg; intros; apply Rabs_pos).
  assert (QQ : 0 < q' * q') by nra. assert (IQ : 0 < / (q' * q')) by (apply Rinv_0_lt_compat; auto).
  pose proof (Rabs_pos (k 0%nat - l)) as A0. pose proof (Rabs_pos (k 1%nat - l)) as A1. pose proof (D0n 0%nat) as A2. pose proof (D0n 1%nat) as A3.
  set (Y := K + C1 + Rabs (k 0%nat - l) + Rabs (k 1%nat - l) + D0 0%nat + D0 1%nat) in *.
  assert (CK' : K / (q' * q') <= C) by (unfold C, Rdiv; apply Rmult_le_compat_r; unfold Y; lra).
  assert (CP : 0 <= C) by (unfold C; apply Rmult_le_pos; unfold Y; lra).
  assert (SM : forall y i, y <= Y -> (i < 2)%nat -> y <= C * q' ^ i).
  { intros y i Hy Hi. apply Rle_trans with Y; auto. apply Rle_trans with (C * q' ^ 2).
    - right. unfold C. cbn [pow]. field. lra.
    - apply Rmult_le_compat_l; auto. destruct i as [|[|i]]; [| |lia]; cbn [pow]; nra. }
  assert (LG : forall y i, y <= q ^ i * K -> y <= C * q' ^ (S (S i))).
  { intros y i Hy. eapply Rle_trans; [exact Hy|]. eapply Rle_trans; [apply PW|]. apply Rmult_le_compat_r; auto. apply pow_le. lra. }
  exists l, V, C, q'. split; auto. split; auto. split; [apply EQ; auto|]. split; [intros l' V' E'; apply (UN l' V'); apply EQ; auto|].
  split; [|split; [|split]].
  - intros i. destruct (RU i) as (R1 & R2 & R3). split; [|split; [exact R3|exact R1]]. apply (@tot_pos nc u (F i)); auto.
  - intros i. fold (k i). destruct i as [|[|i]]; [apply SM; [unfold Y; lra|lia]|apply SM; [unfold Y; lra|lia]|]. apply LG, CK.
  - intros i c Hc. fold (F i). destruct i as [|[|i]]; [apply SM; [|lia]|apply SM; [|lia]|apply LG, CF; auto].
    + specialize (C1b c Hc). cbv beta in C1b. pose proof (Rabs_pos (F 1%nat c - V c)). unfold Y. lra.
    + specialize (C1b c Hc). cbv beta in C1b. pose proof (Rabs_pos (F 0%nat c - V c)). unfold Y. lra.
  - intros i. fold (F i). fold (F (S i)). destruct i as [|[|i]]; [apply SM; [fold (D0 0%nat); unfold Y; lra|lia]|apply SM; [fold (D0 1%nat); unfold Y; lra|lia]|]. apply LG, CD.
Qed.
End Conv.

Theorem pi_converges nc Inv mg a t : mg_solver nc Inv mg -> acts_as nc Inv mg a -> Inv t -> connected nc (ssrc (t_x t)) a ->
  (forall g k, 0 <= nsf (mat (ssrc (t_x t))) g k) ->
  exists l V C q, 0 < q < 1 /\ mode nc a l V /\ (forall l' V', mode nc a l' V' -> l' = l) /\
  (forall tol max, (0 < max)%nat -> exists t' keff n Z k, pi_solve mg 1 tol max t = Ok (t', keff) /\
    pi_history nc mg 1 tol max t t' keff n Z k /\ Rabs (keff - l) <= C * q ^ n /\
    forall c, (c < nc)%nat -> Rabs (at_ (density t') c - V c) <= C * q ^ n) /\
  (forall tol, 0 < tol -> exists N, forall max, (N <= max)%nat -> exists t' keff n Z k, pi_solve mg 1 tol max t = Ok (t', keff) /\
    pi_history nc mg 1 tol max t t' keff n Z k /\ (n <= N)%nat).
Proof.
  intros MS AA I CN NN. set (x := ssrc (t_x t)) in *.
  destruct (ms_ready MS I) as (PR & EC & _). fold x in EC, PR.
  set (flat := map (fun c => rsum (ng (mat x)) (fun g => nsf (mat x) g (mat_of x c))) (seq 0 nc)).
  set (f := fun c => at_ flat c / size flat).
  assert (FA : forall c, (c < nc)%nat -> at_ flat c = rsum (ng (mat x)) (fun g => nsf (mat x) g (mat_of x c))) by (intros c Hc; unfold at_, flat; rewrite nth_map_seq; auto).
  assert (FN : forall c, (c < nc)%nat -> 0 <= at_ flat c) by (intros c Hc; rewrite FA by auto; apply rsum_nonneg; intros; apply NN).
  destruct CN as ((c0 & Hc0 & P0) & CC). assert (CN : connected nc x a) by (split; eauto).
  assert (SP : 0 < size flat).
  { apply Rlt_le_trans with (Rabs (at_ flat c0)); [rewrite Rabs_pos_eq by auto; rewrite FA by auto; exact P0|].
    unfold size. assert (LF : length flat = nc) by (unfold flat; rewrite map_length, seq_length; auto). rewrite LF.
    apply (@term_le nc (fun c => Rabs (at_ flat c))); auto. intros c' _. apply Rabs_pos. }
  assert (IS : 0 < / size flat) by (apply Rinv_0_lt_compat; auto).
  assert (SU : supported nc x f).
  { intros c Hc. unfold f. split; [apply Rmult_le_pos; auto; lra|]. intros N. rewrite FA by auto. unfold fissile in N.
    assert (rsum (ng (mat x)) (fun g => nsf (mat x) g (mat_of x c)) = 0).
    { specialize (FN c Hc). rewrite FA in FN by auto. lra. }
    rewrite H. unfold Rdiv. ring. }
  destruct (@seqs_converge nc x a CN f SU) as (l & V & C & q & Hq & HC & MO & UN & PO & CK & CF & CD).
  { exists c0. split; auto. split; auto. unfold f. apply Rdiv_lt_0_compat; auto. rewrite FA by auto. exact P0. }
  assert (TR : forall tol max t' keff n Z k, pi_history nc mg 1 tol max t t' keff n Z k -> (forall i, (i <= n)%nat -> Inv (Z i)) ->
    forall i, (i <= n)%nat -> k i = snd (seqs nc a f i) /\ forall c, (c < nc)%nat -> at_ (density (Z i)) c = fst (seqs nc a f i) c).
  { intros tol max t' keff n Z k H II. pose proof H as [ ((q0 & EZ & ED) & K0) _ _ ST KE _ _ ]. induction i; intros Hi.
    - cbn [seqs fst snd]. split; auto. intros c Hc. rewrite ED. fold x. rewrite EC. fold flat. unfold at_ at 1.
      rewrite nth_map with (d := 0) by (unfold flat; rewrite map_length, seq_length; auto). reflexivity.
    - destruct (IHi ltac:(lia)) as (KI & DI). destruct (ST i ltac:(lia)) as (s & t1 & OU).
      pose proof (AA _ _ _ _ _ (II i ltac:(lia)) OU) as DS. destruct (PO i) as (T0 & KP & NP). destruct (PO (S i)) as (T1 & KP1 & NP1).
      pose proof (inv_density MS (II i ltac:(lia))) as LI. pose proof (inv_density MS (II (S i) ltac:(lia))) as LS.
      assert (DD : forall c, (c < nc)%nat -> at_ (density (Z (S i))) c = fst (seqs nc a f (S i)) c).
      { intros c Hc. rewrite DS by auto. cbn [seqs]. destruct (seqs nc a f i) as (fi & ki) eqn:ES. cbn [fst snd] in *. rewrite KI.
        unfold Rdiv. rewrite Rmult_1_l. f_equal. apply rsum_ext. intros j Hj. rewrite DI; auto. }
      split; auto. rewrite (unit_keff H) by lia.
      assert (S0 : size (density (Z i)) = rsum nc (fst (seqs nc a f i))).
      { unfold size. rewrite LI. apply rsum_ext. intros c Hc. rewrite DI by auto. apply Rabs_pos_eq. auto. }
      assert (S1 : size (density (Z (S i))) = rsum nc (fst (seqs nc a f (S i)))).
      { unfold size. rewrite LS. apply rsum_ext. intros c Hc. rewrite DD by auto. apply Rabs_pos_eq. auto. }
      rewrite S0, S1, KI. cbn [seqs]. destruct (seqs nc a f i) as (fi & ki) eqn:ES. cbn [fst snd] in *.
      rewrite (rsum_scal nc (/ ki)). field. lra. }
  exists l, V, C, q. split; auto. split; auto. split; auto. split.
  - intros tol max Hm. destruct (@pi_ok nc Inv mg MS 1 tol max t I Hm) as (t' & keff & n & Z & k & E & H & II).
    exists t', keff, n, Z, k. split; auto. split; auto. destruct (TR _ _ _ _ _ _ _ H II n (le_n n)) as (T1 & T2).
    pose proof H as [ _ (EZ & EK) _ _ _ _ _ ]. rewrite <- EK, <- EZ, T1. split; auto. intros c Hc. rewrite T2 by auto. auto.
  - intros tol Ht. destruct (pow_small (r := q) ltac:(lra) C Ht) as (N & HN). exists (N + 2)%nat. intros max Hm.
    destruct (@pi_ok nc Inv mg MS 1 tol max t I ltac:(lia)) as (t' & keff & n & Z & k & E & H & II).
    exists t', keff, n, Z, k. split; auto. split; auto. destruct (le_lt_dec n (N + 2)) as [|G]; auto. exfalso.
    pose proof H as [ _ _ _ _ _ GO _ ]. specialize (GO N ltac:(lia)). rewrite relaxed_one in GO.
    destruct (TR _ _ _ _ _ _ _ H II N ltac:(lia)) as (_ & T0). destruct (TR _ _ _ _ _ _ _ H II (S N) ltac:(lia)) as (_ & T1).
    assert (DE : distance (density (Z (S N))) (density (Z N)) = rsum nc (fun c => Rabs (fst (seqs nc a f (S N)) c - fst (seqs nc a f N) c))).
    { unfold distance. rewrite (inv_density MS (II (S N) ltac:(lia))). apply rsum_ext. intros c Hc. rewrite T0, T1 by auto. auto. }
    specialize (CD N). specialize (HN N (Nat.le_refl _)). rewrite DE in GO. lra.
Qed.
