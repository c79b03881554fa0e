(** * SweepBalance_Proofs: conservation over the whole mesh, uniqueness of the
    discretised solution, nonnegativity. *)
From Coquelicot Require Import Coquelicot.
From Verif Require Import Base BaseR Loop Mesh_Model Mesh_Proofs Angle_Model Angle_Spec Boundary_Model Boundary_Spec
  Cell_Model Cell_Spec Cell_Proofs Sweep_Model Sweep_Spec Sweep_Proofs.
Open Scope R_scope.
Set Implicit Arguments. Unset Strict Implicit.
Local Notation idx := Mesh_Model.index.

Lemma telescope pos n (X : nat -> R) :
  rsum n (fun i => X (to pos i) - X (from pos i)) = X (leave pos n) - X (entry pos n).
Proof.
  unfold to, from, leave, entry. destruct pos.
  - induction n; simpl; [ring|rewrite IHn; ring].
  - induction n; simpl; [ring|rewrite IHn; ring].
Qed.

Lemma obeys1_balanced E s mu dx q pin pc po : 0 < mu -> 0 < dx -> (if strict1 E then 0 < s else 0 <= s) ->
  obeys1 E s mu dx q pin pc po -> balanced1 s mu dx q pin pc po.
Proof.
  intros Hm Hd Hs H. destruct E; simpl in *; try apply H.
  assert (Hk : s / mu <> 0) by (apply Rgt_not_eq, div_pos'; auto).
  destruct (H _ (@line_flux_ex (s / mu) (q / mu) pin Hk)) as [E1 E2].
  pose proof (@line_mean (s / mu) (q / mu) pin dx Hk Hd) as M.
  pose proof (is_RInt_unique _ _ _ _ E2) as U1. pose proof (is_RInt_unique _ _ _ _ M) as U2.
  rewrite U1 in U2. unfold balanced1, leak.
  assert (P : pc = (pin * (1 - exp (- (s / mu * dx))) / (s / mu) +
     q / mu / (s / mu) * (dx - (1 - exp (- (s / mu * dx))) / (s / mu))) / dx) by (rewrite <- U2; field; lra).
  rewrite P, E1. field. repeat split; lra.
Qed.

(** Total of a cell quantity, weighted by volume. *)

Lemma balance1 E G d px src pin pout pc : grid_ok 1 G -> sig_ok (strict1 E) G -> dir_ok 1 d ->
  solves1 E G d px src pin pout pc ->
  d_mu d * (pout - pin) + tot1 G (fun i => at_ (g_sig G) i * pc i) = tot1 G (at_ src).
Proof.
  intros HG HS HD (X & X0 & X1 & HX). rewrite <- X0, <- X1, <- telescope, <- rsum_scal.
  unfold tot1. rewrite <- rsum_plus. apply rsum_ext. intros i Hi. specialize (HX i Hi).
  destruct HG as (G1 & G2 & _ & _ & _ & G4). simpl in G4.
  assert (Hd : 0 < at_ (g_dx G) i) by (apply (Forall_at G2); lia).
  apply obeys1_balanced in HX; auto; [|apply HD|apply (Forall_at HS); lia].
  unfold balanced1, leak in HX. rewrite <- HX. field. lra.
Qed.

Lemma balance2 E G d px py src vin hin vout hout pc : grid_ok 2 G -> 
  solves2 E G d px py src vin hin vout hout pc ->
  d_mu d * rsum (g_ny G) (fun j => at_ (g_dy G) j * (at_ vout j - at_ vin j)) +
  d_eta d * rsum (g_nx G) (fun i => at_ (g_dx G) i * (at_ hout i - at_ hin i)) +
  rsum (g_nx G) (fun i => rsum (g_ny G) (fun j => at_ (g_dx G) i * at_ (g_dy G) j *
    (at_ (g_sig G) (idx (g_nx G) (g_ny G) i j 0) * pc i j))) =
  rsum (g_nx G) (fun i => rsum (g_ny G) (fun j => at_ (g_dx G) i * at_ (g_dy G) j * at_ src (idx (g_nx G) (g_ny G) i j 0))).
Proof.
  intros HG (X & Y & HX & HY & H).
  transitivity (rsum (g_nx G) (fun i => rsum (g_ny G) (fun j => d_mu d * at_ (g_dy G) j * (X (to px i) j - X (from px i) j))) +
    rsum (g_nx G) (fun i => rsum (g_ny G) (fun j => d_eta d * at_ (g_dx G) i * (Y i (to py j) - Y i (from py j)))) +
    rsum (g_nx G) (fun i => rsum (g_ny G) (fun j => at_ (g_dx G) i * at_ (g_dy G) j *
    (at_ (g_sig G) (idx (g_nx G) (g_ny G) i j 0) * pc i j)))).
  - f_equal. f_equal.
    + rewrite rsum_swap, <- rsum_scal. apply rsum_ext. intros j Hj.
      destruct (HX j Hj) as [A B]. rewrite <- A, <- B, <- (telescope px (g_nx G) (fun i => X i j)), <- rsum_scal, <- rsum_scal.
      apply rsum_ext. intros. ring.
    + rewrite <- rsum_scal. apply rsum_ext. intros i Hi.
      destruct (HY i Hi) as [A B]. rewrite <- A, <- B, <- (telescope py (g_ny G) (fun j => Y i j)), <- rsum_scal, <- rsum_scal.
      apply rsum_ext. intros. ring.
  - rewrite <- !rsum_plus. apply rsum_ext. intros i Hi. rewrite <- !rsum_plus. apply rsum_ext. intros j Hj.
    destruct HG as (G1 & G2 & G3 & _). destruct (G3 ltac:(lia)) as [G3a G3b].
    assert (Hd : 0 < at_ (g_dx G) i) by (apply (Forall_at G2); lia).
    assert (Hy : 0 < at_ (g_dy G) j) by (apply (Forall_at G3b); lia).
    destruct (H i j Hi Hj) as [B _]. unfold balanced2, leak in B. rewrite <- B. field. lra.
Qed.

Lemma balance3 G d px py pz src a1 a2 a3 b1 b2 b3 pc : grid_ok 3 G -> 
  solves3 G d px py pz src a1 a2 a3 b1 b2 b3 pc ->
  let nx := g_nx G in let ny := g_ny G in let nz := g_nz G in
  let hx := at_ (g_dx G) in let hy := at_ (g_dy G) in let hz := at_ (g_dz G) in
  d_mu d * rsum ny (fun j => rsum nz (fun k => hy j * hz k * (at2 b1 k j - at2 a1 k j))) +
  d_eta d * rsum nx (fun i => rsum nz (fun k => hx i * hz k * (at2 b2 k i - at2 a2 k i))) +
  d_xi d * rsum nx (fun i => rsum ny (fun j => hx i * hy j * (at2 b3 j i - at2 a3 j i))) +
  rsum nx (fun i => rsum ny (fun j => rsum nz (fun k => hx i * hy j * hz k *
    (at_ (g_sig G) (idx nx ny i j k) * pc i j k)))) =
  rsum nx (fun i => rsum ny (fun j => rsum nz (fun k => hx i * hy j * hz k * at_ src (idx nx ny i j k)))).
Proof.
  intros HG (X & Y & Z & HX & HY & HZ & H) nx ny nz hx hy hz.
  transitivity (
    rsum nx (fun i => rsum ny (fun j => rsum nz (fun k => d_mu d * hy j * hz k * (X (to px i) j k - X (from px i) j k)))) +
    rsum nx (fun i => rsum ny (fun j => rsum nz (fun k => d_eta d * hx i * hz k * (Y i (to py j) k - Y i (from py j) k)))) +
    rsum nx (fun i => rsum ny (fun j => rsum nz (fun k => d_xi d * hx i * hy j * (Z i j (to pz k) - Z i j (from pz k))))) +
    rsum nx (fun i => rsum ny (fun j => rsum nz (fun k => hx i * hy j * hz k * (at_ (g_sig G) (idx nx ny i j k) * pc i j k))))).
  - f_equal. f_equal; [f_equal|].
    + rewrite <- rsum_scal. rewrite rsum_swap. apply rsum_ext. intros j Hj.
      rewrite <- rsum_scal, rsum_swap. apply rsum_ext. intros k Hk.
      destruct (HX j k Hj Hk) as [A B]. fold nx ny nz in A, B. rewrite <- A, <- B, <- (telescope px nx (fun i => X i j k)), <- !rsum_scal.
      apply rsum_ext. intros. ring.
    + rewrite <- rsum_scal. apply rsum_ext. intros i Hi.
      rewrite <- rsum_scal, rsum_swap. apply rsum_ext. intros k Hk.
      destruct (HY i k Hi Hk) as [A B]. fold nx ny nz in A, B. rewrite <- A, <- B, <- (telescope py ny (fun j => Y i j k)), <- !rsum_scal.
      apply rsum_ext. intros. ring.
    + rewrite <- rsum_scal. apply rsum_ext. intros i Hi.
      rewrite <- rsum_scal. apply rsum_ext. intros j Hj.
      destruct (HZ i j Hi Hj) as [A B]. fold nx ny nz in A, B. rewrite <- A, <- B, <- (telescope pz nz (fun k => Z i j k)), <- !rsum_scal.
      apply rsum_ext. intros. ring.
  - rewrite <- !rsum_plus. apply rsum_ext. intros i Hi. rewrite <- !rsum_plus. apply rsum_ext. intros j Hj.
    rewrite <- !rsum_plus. apply rsum_ext. intros k Hk.
    destruct HG as (G1 & G2 & G3 & G4 & _). destruct (G3 ltac:(lia)) as [G3a G3b]. destruct (G4 ltac:(lia)) as [G4a G4b].
    assert (Hd : 0 < hx i) by (apply (Forall_at G2); unfold nx in *; lia).
    assert (Hy : 0 < hy j) by (apply (Forall_at G3b); unfold ny in *; lia).
    assert (Hz : 0 < hz k) by (apply (Forall_at G4b); unfold nz in *; lia).
    destruct (H i j k Hi Hj Hk) as [B _]. unfold balanced3, leak in B. fold nx ny hx hy hz in B.
    rewrite <- B. field. lra.
Qed.

(** ** Uniqueness: the discretised equations have one solution. *)
Lemma by_rank pos n (P : nat -> Prop) :
  (forall i, (i < n)%nat -> (forall i', (i' < n)%nat -> (rank pos n i' < rank pos n i)%nat -> P i') -> P i) ->
  forall i, (i < n)%nat -> P i.
Proof.
  intros H. assert (G : forall m i, (i < n)%nat -> (rank pos n i < m)%nat -> P i).
  { induction m; intros i Hi Hm; [lia|]. apply H; auto. intros i' Hi' Hl. apply IHm; auto. lia. }
  intros i Hi. apply (G (S (rank pos n i))); auto.
Qed.
(** The face before a cell is the entry face or the face after its upwind neighbour. *)
Lemma from_cases pos n i : (i < n)%nat ->
  from pos i = entry pos n \/ exists i', (i' < n)%nat /\ from pos i = to pos i' /\ S (rank pos n i') = rank pos n i.
Proof.
  intros Hi. unfold from, entry, to, rank. destruct pos.
  - destruct i; [left; auto|]. right. exists i. lia.
  - destruct (Nat.eq_dec (S i) n); [left; lia|]. right. exists (S i). lia.
Qed.
Lemma leave_cases pos n : (0 < n)%nat -> exists i, (i < n)%nat /\ leave pos n = to pos i.
Proof. intros H. unfold leave, to. destruct pos; [exists (n - 1)%nat|exists 0%nat]; lia. Qed.

Lemma obeys1_det E s mu dx q pin pc po pc' po' : 0 < mu -> 0 < dx -> (if strict1 E then 0 < s else 0 <= s) ->
  obeys1 E s mu dx q pin pc po -> obeys1 E s mu dx q pin pc' po' -> pc = pc' /\ po = po'.
Proof.
  intros Hm Hd Hs H H'. pose proof (div_pos' Hm Hd). destruct E; simpl in *.
  - apply dd1_balance in H; [|lra|unfold Rdiv in *; lra]. apply dd1_balance in H'; [|lra|unfold Rdiv in *; lra].
    rewrite H in H'. injection H'. auto.
  - apply sd1_balance in H; [|lra|unfold Rdiv in *; lra]. apply sd1_balance in H'; [|lra|unfold Rdiv in *; lra].
    rewrite H in H'. injection H'. auto.
  - assert (Hk : s / mu <> 0) by (apply Rgt_not_eq, div_pos'; auto).
    destruct (H _ (@line_flux_ex (s / mu) (q / mu) pin Hk)) as [E1 E2].
    destruct (H' _ (@line_flux_ex (s / mu) (q / mu) pin Hk)) as [E1' E2'].
    split; [|congruence]. pose proof (is_RInt_unique _ _ _ _ E2) as U. pose proof (is_RInt_unique _ _ _ _ E2') as U'.
    rewrite U in U'. apply Rmult_eq_reg_l in U'; auto. lra.
Qed.

Lemma solves1_unique E G d px src pin pout pc pout' pc' : grid_ok 1 G -> sig_ok (strict1 E) G -> dir_ok 1 d ->
  (0 < g_nx G)%nat ->
  solves1 E G d px src pin pout pc -> solves1 E G d px src pin pout' pc' ->
  pout = pout' /\ forall i, (i < g_nx G)%nat -> pc i = pc' i.
Proof.
  intros HG HS HD Hn (X & X0 & X1 & HX) (X' & X0' & X1' & HX').
  destruct HG as (G1 & G2 & _ & _ & _ & G4). simpl in G4.
  assert (K : forall i, (i < g_nx G)%nat -> pc i = pc' i /\ X (to px i) = X' (to px i)).
  { apply (@by_rank px). intros i Hi IH.
    assert (F : X (from px i) = X' (from px i)).
    { destruct (@from_cases px _ i Hi) as [->|(i' & Hi' & -> & R)]; [congruence|]. apply IH; auto. lia. }
    eapply (@obeys1_det E (at_ (g_sig G) i) (d_mu d) (at_ (g_dx G) i) (at_ src i) (X (from px i))).
    - apply HD.
    - apply (Forall_at G2). lia.
    - apply (Forall_at HS). lia.
    - apply HX; auto.
    - rewrite F. apply HX'; auto. }
  split; [|intros i Hi; apply K; auto].
  rewrite <- X1, <- X1'. destruct (@leave_cases px (g_nx G) Hn) as (i & Hi & ->). apply K. auto.
Qed.

(** ** Nonnegativity carries over the mesh for the step schemes. *)
Lemma obeys1_nonneg E s mu dx q pin pc po : E <> DD_1 -> 0 < mu -> 0 < dx -> (if strict1 E then 0 < s else 0 <= s) ->
  0 <= q -> 0 <= pin -> obeys1 E s mu dx q pin pc po -> 0 <= pc /\ 0 <= po.
Proof.
  intros NE Hm Hd Hs Hq Hp H.
  destruct (cell1 E s mu dx q pin) as [pc' po'] eqn:EC.
  pose proof (cell1_obeys Hm Hd Hs EC) as H'.
  destruct (obeys1_det Hm Hd Hs H H') as [-> ->]. destruct E; simpl in *; [congruence| |].
  - apply (@sd1_nonneg s mu dx q pin pc' po'); auto.
  - apply (@sc1_nonneg s mu dx q pin pc' po'); auto.
Qed.
Lemma solves1_nonneg E G d px src pin pout pc : E <> DD_1 -> grid_ok 1 G -> sig_ok (strict1 E) G -> dir_ok 1 d ->
  (0 < g_nx G)%nat -> length src = cells_of 1 G -> nonneg src -> 0 <= pin ->
  solves1 E G d px src pin pout pc -> 0 <= pout /\ forall i, (i < g_nx G)%nat -> 0 <= pc i.
Proof.
  intros NE HG HS HD Hn HL Hq Hp (X & X0 & X1 & HX).
  destruct HG as (G1 & G2 & _ & _ & _ & G4). simpl in G4. unfold cells_of in HL. simpl in HL.
  assert (K : forall i, (i < g_nx G)%nat -> 0 <= pc i /\ 0 <= X (to px i)).
  { apply (@by_rank px). intros i Hi IH.
    assert (F : 0 <= X (from px i)).
    { destruct (@from_cases px _ i Hi) as [->|(i' & Hi' & -> & R)]; [lra|]. apply IH; auto. lia. }
    apply (@obeys1_nonneg E (at_ (g_sig G) i) (d_mu d) (at_ (g_dx G) i) (at_ src i) (X (from px i)) (pc i) (X (to px i))); auto.
    - apply HD.
    - apply (Forall_at G2). lia.
    - apply (Forall_at HS). lia.
    - apply (Forall_at Hq). lia. }
  split; [|intros i Hi; apply K; auto].
  rewrite <- X1. destruct (@leave_cases px (g_nx G) Hn) as (i & Hi & ->). apply K. auto.
Qed.

Lemma obeys2_det E s mu eta dx dy q pv ph pc ov oh pc' ov' oh' :
  0 < mu -> 0 < eta -> 0 < dx -> 0 < dy -> (if strict2 E then 0 < s else 0 <= s) ->
  obeys2 E s mu eta dx dy q pv ph pc ov oh -> obeys2 E s mu eta dx dy q pv ph pc' ov' oh' ->
  pc = pc' /\ ov = ov' /\ oh = oh'.
Proof.
  intros Hm He Hd Hy Hs H H'. pose proof (div_pos' Hm Hd). pose proof (div_pos' He Hy). unfold obeys2 in *. destruct E; simpl in *.
  - apply dd2_balance in H; [|lra|lra|unfold Rdiv in *; lra]. apply dd2_balance in H'; [|lra|lra|unfold Rdiv in *; lra].
    rewrite H in H'. injection H'. auto.
  - apply sd2_balance in H; [|lra|lra|unfold Rdiv in *; lra]. apply sd2_balance in H'; [|lra|lra|unfold Rdiv in *; lra].
    rewrite H in H'. injection H'. auto.
  - destruct H as (B & E1 & E2), H' as (B' & E1' & E2').
    pose proof (is_RInt_unique _ _ _ _ E1) as U1. pose proof (is_RInt_unique _ _ _ _ E1') as U1'. rewrite U1 in U1'.
    pose proof (is_RInt_unique _ _ _ _ E2) as U2. pose proof (is_RInt_unique _ _ _ _ E2') as U2'. rewrite U2 in U2'.
    apply Rmult_eq_reg_l in U1'; [|lra]. apply Rmult_eq_reg_l in U2'; [|lra]. subst ov' oh'.
    unfold balanced2 in *. split; auto. apply Rmult_eq_reg_l with s; lra.
Qed.
Lemma obeys2_nonneg E s mu eta dx dy q pv ph pc ov oh : E <> DD_2 ->
  0 < mu -> 0 < eta -> 0 < dx -> 0 < dy -> (if strict2 E then 0 < s else 0 <= s) ->
  0 <= q -> 0 <= pv -> 0 <= ph -> obeys2 E s mu eta dx dy q pv ph pc ov oh -> 0 <= pc /\ 0 <= ov /\ 0 <= oh.
Proof.
  intros NE Hm He Hd Hy Hs Hq Hv Hh H.
  destruct (cell2 E s mu eta dx dy q pv ph) as [pc' [ov' oh']] eqn:EC.
  pose proof (cell2_obeys Hm He Hd Hy Hs EC) as H'.
  destruct (obeys2_det Hm He Hd Hy Hs H H') as (-> & -> & ->). destruct E; simpl in *; [congruence| |].
  - apply (@sd2_nonneg s mu eta dx dy q pv ph pc' ov' oh'); auto.
  - apply (@sc2_nonneg s mu eta dx dy q pv ph pc' ov' oh'); auto.
Qed.
Lemma obeys3_det s mu eta xi dx dy dz q p1 p2 p3 pc a b c pc' a' b' c' :
  0 < mu -> 0 < eta -> 0 < xi -> 0 < dx -> 0 < dy -> 0 < dz -> 0 <= s ->
  obeys3 s mu eta xi dx dy dz q p1 p2 p3 pc a b c -> obeys3 s mu eta xi dx dy dz q p1 p2 p3 pc' a' b' c' ->
  pc = pc' /\ a = a' /\ b = b' /\ c = c'.
Proof.
  intros Hm He Hx Hd Hy Hz Hs H H'. pose proof (div_pos' Hm Hd). pose proof (div_pos' He Hy). pose proof (div_pos' Hx Hz).
  apply dd3_balance in H; [|lra|lra|lra|unfold Rdiv in *; lra]. apply dd3_balance in H'; [|lra|lra|lra|unfold Rdiv in *; lra].
  rewrite H in H'. injection H'. auto.
Qed.

(** Induction along the sweep in two and three dimensions. *)
Lemma by_rank2 px py nx ny (P : nat -> nat -> Prop) :
  (forall i j, (i < nx)%nat -> (j < ny)%nat ->
    (forall i', (i' < nx)%nat -> S (rank px nx i') = rank px nx i -> P i' j) ->
    (forall j', (j' < ny)%nat -> S (rank py ny j') = rank py ny j -> P i j') -> P i j) ->
  forall i j, (i < nx)%nat -> (j < ny)%nat -> P i j.
Proof.
  intros H. assert (G : forall m i j, (i < nx)%nat -> (j < ny)%nat -> (rank px nx i + rank py ny j < m)%nat -> P i j).
  { induction m; intros i j Hi Hj Hm; [lia|]. apply H; auto; intros; apply IHm; auto; lia. }
  intros i j Hi Hj. apply (G (S (rank px nx i + rank py ny j))); auto.
Qed.
Lemma by_rank3 px py pz nx ny nz (P : nat -> nat -> nat -> Prop) :
  (forall i j k, (i < nx)%nat -> (j < ny)%nat -> (k < nz)%nat ->
    (forall i', (i' < nx)%nat -> S (rank px nx i') = rank px nx i -> P i' j k) ->
    (forall j', (j' < ny)%nat -> S (rank py ny j') = rank py ny j -> P i j' k) ->
    (forall k', (k' < nz)%nat -> S (rank pz nz k') = rank pz nz k -> P i j k') -> P i j k) ->
  forall i j k, (i < nx)%nat -> (j < ny)%nat -> (k < nz)%nat -> P i j k.
Proof.
  intros H. assert (G : forall m i j k, (i < nx)%nat -> (j < ny)%nat -> (k < nz)%nat ->
    (rank px nx i + rank py ny j + rank pz nz k < m)%nat -> P i j k).
  { induction m; intros i j k Hi Hj Hk Hm; [lia|]. apply H; auto; intros; apply IHm; auto; lia. }
  intros i j k Hi Hj Hk. apply (G (S (rank px nx i + rank py ny j + rank pz nz k))); auto.
Qed.

Section U2.
Variables (E : scheme2) (G : grid) (d : dir) (px py : bool) (src : list R).
Hypotheses (HG : grid_ok 2 G) (HS : sig_ok (strict2 E) G) (HD : dir_ok 2 d).
Lemma cell_data2 i j : (i < g_nx G)%nat -> (j < g_ny G)%nat ->
  0 < d_mu d /\ 0 < d_eta d /\ 0 < at_ (g_dx G) i /\ 0 < at_ (g_dy G) j /\
  if strict2 E then 0 < at_ (g_sig G) (idx (g_nx G) (g_ny G) i j 0) else 0 <= at_ (g_sig G) (idx (g_nx G) (g_ny G) i j 0).
Proof.
  intros Hi Hj. destruct HG as (G1 & G2 & G3 & _ & _ & G4). simpl in G4. destruct (G3 ltac:(lia)) as [G3a G3b].
  destruct HD as (D1 & D2 & _). pose proof (index_lt Hi Hj Nat.lt_0_1).
  repeat split; auto; [apply (Forall_at G2)|apply (Forall_at G3b)|apply (Forall_at HS)]; lia.
Qed.
Lemma solves2_unique vin hin vout hout pc vout' hout' pc' : (0 < g_nx G)%nat -> (0 < g_ny G)%nat ->
  solves2 E G d px py src vin hin vout hout pc -> solves2 E G d px py src vin hin vout' hout' pc' ->
  (forall j, (j < g_ny G)%nat -> at_ vout j = at_ vout' j) /\ (forall i, (i < g_nx G)%nat -> at_ hout i = at_ hout' i) /\
  forall i j, (i < g_nx G)%nat -> (j < g_ny G)%nat -> pc i j = pc' i j.
Proof.
  intros Hn Hm (X & Y & HX & HY & H) (X' & Y' & HX' & HY' & H').
  assert (K : forall i j, (i < g_nx G)%nat -> (j < g_ny G)%nat ->
    pc i j = pc' i j /\ X (to px i) j = X' (to px i) j /\ Y i (to py j) = Y' i (to py j)).
  { apply (@by_rank2 px py). intros i j Hi Hj IX IY.
    assert (F : X (from px i) j = X' (from px i) j).
    { destruct (@from_cases px _ i Hi) as [->|(i' & Hi' & -> & R)]; [|apply IX; auto].
      rewrite (proj1 (HX j Hj)), (proj1 (HX' j Hj)). auto. }
    assert (F' : Y i (from py j) = Y' i (from py j)).
    { destruct (@from_cases py _ j Hj) as [->|(j' & Hj' & -> & R)]; [|apply IY; auto].
      rewrite (proj1 (HY i Hi)), (proj1 (HY' i Hi)). auto. }
    destruct (cell_data2 Hi Hj) as (D1 & D2 & D3 & D4 & D5).
    specialize (H i j Hi Hj). specialize (H' i j Hi Hj). cbv zeta in H, H'. rewrite <- F, <- F' in H'.
    apply (obeys2_det D1 D2 D3 D4 D5 H H'). }
  split; [|split]; [intros j Hj|intros i Hi|intros i j Hi Hj; apply K; auto].
  - rewrite <- (proj2 (HX j Hj)), <- (proj2 (HX' j Hj)). destruct (@leave_cases px (g_nx G) Hn) as (i & Hi & ->). apply K; auto.
  - rewrite <- (proj2 (HY i Hi)), <- (proj2 (HY' i Hi)). destruct (@leave_cases py (g_ny G) Hm) as (j & Hj & ->). apply K; auto.
Qed.
Lemma solves2_nonneg vin hin vout hout pc : E <> DD_2 -> (0 < g_nx G)%nat -> (0 < g_ny G)%nat ->
  length src = cells_of 2 G -> nonneg src -> length vin = g_ny G -> length hin = g_nx G -> nonneg vin -> nonneg hin ->
  solves2 E G d px py src vin hin vout hout pc ->
  (forall j, (j < g_ny G)%nat -> 0 <= at_ vout j) /\ (forall i, (i < g_nx G)%nat -> 0 <= at_ hout i) /\
  forall i j, (i < g_nx G)%nat -> (j < g_ny G)%nat -> 0 <= pc i j.
Proof.
  intros NE Hn Hm HL Hq Lv Lh Nv Nh (X & Y & HX & HY & H).
  assert (K : forall i j, (i < g_nx G)%nat -> (j < g_ny G)%nat ->
    0 <= pc i j /\ 0 <= X (to px i) j /\ 0 <= Y i (to py j)).
  { apply (@by_rank2 px py). intros i j Hi Hj IX IY.
    assert (F : 0 <= X (from px i) j).
    { destruct (@from_cases px _ i Hi) as [->|(i' & Hi' & -> & R)]; [|apply IX; auto].
      rewrite (proj1 (HX j Hj)). apply (Forall_at Nv). lia. }
    assert (F' : 0 <= Y i (from py j)).
    { destruct (@from_cases py _ j Hj) as [->|(j' & Hj' & -> & R)]; [|apply IY; auto].
      rewrite (proj1 (HY i Hi)). apply (Forall_at Nh). lia. }
    destruct (cell_data2 Hi Hj) as (D1 & D2 & D3 & D4 & D5). specialize (H i j Hi Hj).
    refine (@obeys2_nonneg E _ _ _ _ _ _ _ _ _ _ _ NE D1 D2 D3 D4 D5 _ F F' H).
    apply (Forall_at Hq). rewrite HL. apply (index_lt Hi Hj Nat.lt_0_1). }
  split; [|split]; [intros j Hj|intros i Hi|intros i j Hi Hj; apply K; auto].
  - rewrite <- (proj2 (HX j Hj)). destruct (@leave_cases px (g_nx G) Hn) as (i & Hi & ->). apply K; auto.
  - rewrite <- (proj2 (HY i Hi)). destruct (@leave_cases py (g_ny G) Hm) as (j & Hj & ->). apply K; auto.
Qed.
End U2.

Lemma solves3_unique G d px py pz src a1 a2 a3 b1 b2 b3 pc b1' b2' b3' pc' :
  grid_ok 3 G -> sig_ok false G -> dir_ok 3 d -> (0 < g_nx G)%nat -> (0 < g_ny G)%nat -> (0 < g_nz G)%nat ->
  solves3 G d px py pz src a1 a2 a3 b1 b2 b3 pc -> solves3 G d px py pz src a1 a2 a3 b1' b2' b3' pc' ->
  (forall j k, (j < g_ny G)%nat -> (k < g_nz G)%nat -> at2 b1 k j = at2 b1' k j) /\
  (forall i k, (i < g_nx G)%nat -> (k < g_nz G)%nat -> at2 b2 k i = at2 b2' k i) /\
  (forall i j, (i < g_nx G)%nat -> (j < g_ny G)%nat -> at2 b3 j i = at2 b3' j i) /\
  forall i j k, (i < g_nx G)%nat -> (j < g_ny G)%nat -> (k < g_nz G)%nat -> pc i j k = pc' i j k.
Proof.
  intros HG HS HD Hn Hm Hl (X & Y & Z & HX & HY & HZ & H) (X' & Y' & Z' & HX' & HY' & HZ' & H').
  assert (K : forall i j k, (i < g_nx G)%nat -> (j < g_ny G)%nat -> (k < g_nz G)%nat ->
    pc i j k = pc' i j k /\ X (to px i) j k = X' (to px i) j k /\ Y i (to py j) k = Y' i (to py j) k /\ Z i j (to pz k) = Z' i j (to pz k)).
  { apply (@by_rank3 px py pz). intros i j k Hi Hj Hk IX IY IZ.
    assert (F : X (from px i) j k = X' (from px i) j k).
    { destruct (@from_cases px _ i Hi) as [->|(i' & Hi' & -> & R)]; [|apply IX; auto].
      rewrite (proj1 (HX j k Hj Hk)), (proj1 (HX' j k Hj Hk)). auto. }
    assert (F' : Y i (from py j) k = Y' i (from py j) k).
    { destruct (@from_cases py _ j Hj) as [->|(j' & Hj' & -> & R)]; [|apply IY; auto].
      rewrite (proj1 (HY i k Hi Hk)), (proj1 (HY' i k Hi Hk)). auto. }
    assert (F'' : Z i j (from pz k) = Z' i j (from pz k)).
    { destruct (@from_cases pz _ k Hk) as [->|(k' & Hk' & -> & R)]; [|apply IZ; auto].
      rewrite (proj1 (HZ i j Hi Hj)), (proj1 (HZ' i j Hi Hj)). auto. }
    specialize (H i j k Hi Hj Hk). specialize (H' i j k Hi Hj Hk). cbv zeta in H, H'. rewrite <- F, <- F', <- F'' in H'.
    destruct HG as (G1 & G2 & G3 & G5 & _ & G4). simpl in G4. destruct (G3 ltac:(lia)) as [G3a G3b]. destruct (G5 ltac:(lia)) as [G5a G5b].
    pose proof (index_lt Hi Hj Hk). destruct HD as (D1 & D2 & D3).
    eapply obeys3_det; [| | | | | | |apply H|apply H']; auto;
      [apply (Forall_at G2)|apply (Forall_at G3b)|apply (Forall_at G5b)|apply (Forall_at HS)]; lia. }
  split; [|split; [|split]]; [intros j k Hj Hk|intros i k Hi Hk|intros i j Hi Hj|intros i j k Hi Hj Hk; apply K; auto].
  - rewrite <- (proj2 (HX j k Hj Hk)), <- (proj2 (HX' j k Hj Hk)). destruct (@leave_cases px (g_nx G) Hn) as (i & Hi & ->). apply K; auto.
  - rewrite <- (proj2 (HY i k Hi Hk)), <- (proj2 (HY' i k Hi Hk)). destruct (@leave_cases py (g_ny G) Hm) as (j & Hj & ->). apply K; auto.
  - rewrite <- (proj2 (HZ i j Hi Hj)), <- (proj2 (HZ' i j Hi Hj)). destruct (@leave_cases pz (g_nz G) Hl) as (k & Hk & ->). apply K; auto.
Qed.
