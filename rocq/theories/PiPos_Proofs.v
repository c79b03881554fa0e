(** * PiPos_Proofs: fission neutrons reach every cell. *)
From Coquelicot Require Import Coquelicot.
From Verif Require Import Base BaseR Loop Util_Model Angle_Model Angle_Spec Boundary_Model Boundary_Spec Mesh_Model Mesh_Proofs
  Material_Model Material_Spec Source_Model Source_Spec Source_Proofs Cell_Model Cell_Spec Cell_Proofs Sweep_Model Sweep_Spec Sweep_Proofs
  SweepBalance_Proofs SweepAll_Proofs SweepLinear_Proofs Banach_Proofs Iter_Model Iter_Spec Pi_Spec Iter_Proofs IterConv_Proofs Gs_Proofs
  Pi_Proofs PiLinear_Proofs.
Set Implicit Arguments. Unset Strict Implicit.
Open Scope R_scope.
Local Notation idx := Mesh_Model.index.

(** ** One cell *)
Lemma obeys1_pos E s mu dx q pin pc po : E <> DD_1 -> 0 < mu -> 0 < dx -> (if strict1 E then 0 < s else 0 <= s) ->
  0 <= q -> 0 <= pin -> 0 < q \/ 0 < pin -> obeys1 E s mu dx q pin pc po -> 0 < pc /\ 0 < po.
Proof.
  intros NE Hm Hd Hs Hq Hp HH H. destruct E; cbn [obeys1 strict1] in *; [congruence| |].
  - destruct H as (B & ->). unfold balanced1, leak in B.
    assert (K : 0 < mu / dx) by (apply div_pos'; auto).
    assert (E : pc * (mu / dx + s) = q + pin * (mu / dx)) by (rewrite <- B; field; lra).
    assert (0 < q + pin * (mu / dx)).
    { destruct HH; [pose proof (Rmult_le_pos _ _ Hp (Rlt_le _ _ K)); lra|]. pose proof (Rmult_lt_0_compat _ _ H K). lra. }
    assert (0 < pc); [|auto]. apply Rmult_lt_reg_r with (mu / dx + s); [lra|]. rewrite E. lra.
  - set (k := s / mu) in *. assert (Hk : 0 < k) by (apply div_pos'; auto). assert (Hk' : k <> 0) by lra.
    destruct (H _ (@line_flux_ex k (q / mu) pin Hk')) as (E1 & E2).
    pose proof (@line_mean k (q / mu) pin dx Hk' Hd) as M.
    pose proof (is_RInt_unique _ _ _ _ E2) as U1. pose proof (is_RInt_unique _ _ _ _ M) as U2. rewrite U1 in U2. clear E2 M U1.
    assert (T0 : 0 < k * dx) by (apply Rmult_lt_0_compat; auto).
    set (e := exp (- (k * dx))) in *. assert (P0 : 0 < e) by apply exp_pos.
    assert (P1 : e < 1) by (unfold e; rewrite <- exp_0; apply exp_increasing; lra).
    assert (P2 : 1 - e < k * dx).
    { pose proof (@exp_ineq1 (- (k * dx)) ltac:(lra)) as X. unfold e. lra. }
    assert (Q0 : 0 <= q / mu / k) by (apply div_pos; auto; apply div_pos; auto).
    assert (Q1 : 0 < q -> 0 < q / mu / k) by (intros; apply div_pos'; auto; apply div_pos'; auto).
    assert (V1 : 0 < (1 - e) / k) by (apply div_pos'; auto; lra).
    assert (V2 : 0 < dx - (1 - e) / k).
    { assert ((1 - e) / k < dx); [|lra]. apply Rmult_lt_reg_r with k; auto. unfold Rdiv. rewrite Rmult_assoc, Rinv_l by lra. lra. }
    assert (D : 0 < dx * pc).
    { rewrite U2. replace (pin * (1 - e) / k) with (pin * ((1 - e) / k)) by (field; lra). destruct HH as [HH|HH].
      - pose proof (Rmult_lt_0_compat _ _ (Q1 HH) V2). pose proof (Rmult_le_pos _ _ Hp (Rlt_le _ _ V1)). lra.
      - pose proof (Rmult_lt_0_compat _ _ HH V1). pose proof (Rmult_le_pos _ _ Q0 (Rlt_le _ _ V2)). lra. }
    assert (V3 : 0 < 1 - e) by lra. pose proof (Rlt_le _ _ V3) as V4. split.
    + apply Rmult_lt_reg_l with dx; auto. lra.
    + rewrite E1. destruct HH as [HH|HH].
      * pose proof (Rmult_lt_0_compat _ _ (Q1 HH) V3). pose proof (Rmult_le_pos _ _ Hp (Rlt_le _ _ P0)). lra.
      * pose proof (Rmult_lt_0_compat _ _ HH P0). pose proof (Rmult_le_pos _ _ Q0 V4). lra.
Qed.
Lemma obeys2_pos s mu eta dx dy q pv ph pc ov oh : 0 < mu -> 0 < eta -> 0 < dx -> 0 < dy -> 0 <= s ->
  0 <= q -> 0 <= pv -> 0 <= ph -> 0 < q \/ 0 < pv \/ 0 < ph -> obeys2 SD_2 s mu eta dx dy q pv ph pc ov oh -> 0 < pc /\ 0 < ov /\ 0 < oh.
Proof.
  intros Hm He Hx Hy Hs Hq Hv Hh HH (B & -> & ->). unfold balanced2, leak in B.
  assert (K : 0 < mu / dx) by (apply div_pos'; auto). assert (K' : 0 < eta / dy) by (apply div_pos'; auto).
  assert (E : pc * (mu / dx + eta / dy + s) = q + pv * (mu / dx) + ph * (eta / dy)) by (rewrite <- B; field; lra).
  pose proof (Rmult_le_pos _ _ Hv (Rlt_le _ _ K)). pose proof (Rmult_le_pos _ _ Hh (Rlt_le _ _ K')).
  assert (0 < q + pv * (mu / dx) + ph * (eta / dy)).
  { destruct HH as [HH|[HH|HH]]; [lra|pose proof (Rmult_lt_0_compat _ _ HH K); lra|pose proof (Rmult_lt_0_compat _ _ HH K'); lra]. }
  assert (0 < pc); [|auto]. apply Rmult_lt_reg_r with (mu / dx + eta / dy + s); [lra|]. rewrite E. lra.
Qed.

Lemma rsum_pos_ex n f : rsum n f <> 0 -> (forall i, 0 <= f i) -> exists i, (i < n)%nat /\ 0 < f i.
Proof.
  intros N P. induction n as [|n IH]; [cbn [rsum] in N; congruence|]. cbn [rsum] in N. destruct (P n) as [L|L].
  - exists n. split; auto.
  - destruct IH as (i & Hi & Hp); [intros E; apply N; rewrite E, <- L; ring|]. exists i. split; auto.
Qed.

(** ** The mesh *)
(** Cell i is at or behind cell j. *)
Definition behind (pos : bool) (j i : nat) : Prop := if pos then (j <= i)%nat else (i <= j)%nat.
Lemma behind_rank pos n i j : (i < n)%nat -> (j < n)%nat -> behind pos j i -> (rank pos n j <= rank pos n i)%nat.
Proof. unfold behind, rank. destruct pos; lia. Qed.
Lemma rank_behind pos n i j : (i < n)%nat -> (j < n)%nat -> (rank pos n j <= rank pos n i)%nat -> behind pos j i.
Proof. unfold behind, rank. destruct pos; lia. Qed.
Lemma from_entry_rank pos n i j : (i < n)%nat -> (j < n)%nat -> from pos i = entry pos n -> behind pos j i -> i = j.
Proof. unfold from, entry, behind. destruct pos; lia. Qed.

Section G.
Variables (G : grid) (d : dir) (src : list R).
Lemma solves1_pos E px pin pout pc j : E <> DD_1 -> grid_ok 1 G -> sig_ok (strict1 E) G -> dir_ok 1 d -> 0 <= pin ->
  (forall i, (i < g_nx G)%nat -> 0 <= at_ src i) -> (j < g_nx G)%nat -> 0 < at_ src j ->
  solves1 E G d px src pin pout pc -> forall i, (i < g_nx G)%nat -> 0 <= pc i /\ (behind px j i -> 0 < pc i).
Proof.
  intros NE HG HS HD Hp Hq Hj Hs (X & X0 & X1 & HX).
  destruct HG as (G1 & G2 & _ & _ & _ & G4). simpl in G4.
  assert (K : forall i, (i < g_nx G)%nat -> (0 <= pc i /\ 0 <= X (to px i)) /\ (behind px j i -> 0 < pc i /\ 0 < X (to px i))).
  { apply (@by_rank px). intros i Hi IH.
    assert (F : 0 <= X (from px i) /\ (behind px j i -> i <> j -> 0 < X (from px i))).
    { destruct (@from_cases px _ i Hi) as [E1|(i' & Hi' & E1 & R1)].
      - rewrite E1, X0. split; auto. intros B N. exfalso. apply N. eapply from_entry_rank; eauto.
      - rewrite E1. destruct (IH i' Hi' ltac:(lia)) as ((A1 & A2) & A3). split; auto. intros B N. apply A3.
        apply (@rank_behind px (g_nx G)); auto. pose proof (behind_rank Hi Hj B). unfold rank in *. destruct px; lia. }
    assert (D1 : 0 < d_mu d) by apply HD. assert (D2 : 0 < at_ (g_dx G) i) by (apply (Forall_at G2); lia).
    assert (D3 : if strict1 E then 0 < at_ (g_sig G) i else 0 <= at_ (g_sig G) i) by (apply (Forall_at HS); lia).
    split.
    - apply (@obeys1_nonneg E (at_ (g_sig G) i) (d_mu d) (at_ (g_dx G) i) (at_ src i) (X (from px i)) (pc i) (X (to px i))); auto. apply F.
    - intros B. apply (@obeys1_pos E (at_ (g_sig G) i) (d_mu d) (at_ (g_dx G) i) (at_ src i) (X (from px i)) (pc i) (X (to px i))); auto; [apply F|].
      destruct (Nat.eq_dec i j) as [->|N]; [left; auto|right; apply F; auto]. }
  intros i Hi. destruct (K i Hi) as ((A1 & A2) & A3). split; auto. intros B. apply A3; auto.
Qed.
Lemma solves2_pos px py vin hin vout hout pc ci cj : grid_ok 2 G -> sig_ok false G -> dir_ok 2 d ->
  (forall j, (j < g_ny G)%nat -> 0 <= at_ vin j) -> (forall i, (i < g_nx G)%nat -> 0 <= at_ hin i) ->
  (forall i j, (i < g_nx G)%nat -> (j < g_ny G)%nat -> 0 <= at_ src (idx (g_nx G) (g_ny G) i j 0)) ->
  (ci < g_nx G)%nat -> (cj < g_ny G)%nat -> 0 < at_ src (idx (g_nx G) (g_ny G) ci cj 0) ->
  solves2 SD_2 G d px py src vin hin vout hout pc -> forall i j, (i < g_nx G)%nat -> (j < g_ny G)%nat ->
  0 <= pc i j /\ (behind px ci i -> behind py cj j -> 0 < pc i j).
Proof.
  intros HG HS HD Hv Hh Hq Hci Hcj Hs (X & Y & HX & HY & H).
  assert (K : forall i j, (i < g_nx G)%nat -> (j < g_ny G)%nat -> (0 <= pc i j /\ 0 <= X (to px i) j /\ 0 <= Y i (to py j)) /\
    (behind px ci i -> behind py cj j -> 0 < pc i j /\ 0 < X (to px i) j /\ 0 < Y i (to py j))).
  { apply (@by_rank2 px py). intros i j Hi Hj IX IY.
    assert (F : 0 <= X (from px i) j /\ (behind px ci i -> behind py cj j -> i <> ci -> 0 < X (from px i) j)).
    { destruct (@from_cases px _ i Hi) as [E1|(i' & Hi' & E1 & R1)].
      - rewrite E1, (proj1 (HX j Hj)). split; auto. intros B _ N. exfalso. apply N. eapply from_entry_rank; eauto.
      - rewrite E1. destruct (IX i' Hi' ltac:(lia)) as ((A1 & A2 & _) & A3). split; auto. intros B B' N. apply A3; auto.
        apply (@rank_behind px (g_nx G)); auto. pose proof (behind_rank Hi Hci B). unfold rank in *. destruct px; lia. }
    assert (F' : 0 <= Y i (from py j) /\ (behind px ci i -> behind py cj j -> j <> cj -> 0 < Y i (from py j))).
    { destruct (@from_cases py _ j Hj) as [E1|(j' & Hj' & E1 & R1)].
      - rewrite E1, (proj1 (HY i Hi)). split; auto. intros _ B N. exfalso. apply N. eapply from_entry_rank; eauto.
      - rewrite E1. destruct (IY j' Hj' ltac:(lia)) as ((A1 & _ & A2) & A3). split; auto. intros B B' N. apply A3; auto.
        apply (@rank_behind py (g_ny G)); auto. pose proof (behind_rank Hj Hcj B'). unfold rank in *. destruct py; lia. }
    destruct (@cell_data2 SD_2 G d HG HS HD i j Hi Hj) as (D1 & D2 & D3 & D4 & D5). specialize (H i j Hi Hj). cbv zeta in H. split.
    - refine (@obeys2_nonneg SD_2 _ _ _ _ _ _ _ _ _ _ _ _ D1 D2 D3 D4 D5 _ (proj1 F) (proj1 F') H); [discriminate|]. auto.
    - intros B B'. refine (@obeys2_pos _ _ _ _ _ _ _ _ _ _ _ D1 D2 D3 D4 D5 _ (proj1 F) (proj1 F') _ H); auto.
      destruct (Nat.eq_dec i ci) as [->|N]; [|right; left; apply F; auto].
      destruct (Nat.eq_dec j cj) as [->|N]; [left; auto|right; right; apply F'; auto]. }
  intros i j Hi Hj. destruct (K i j Hi Hj) as ((A1 & _) & A3). split; auto. intros B B'. apply A3; auto.
Qed.
End G.

Lemma obeys1_min E s mu dx q pin pc po M : E <> DD_1 -> 0 < mu -> 0 < dx -> (if strict1 E then 0 < s else 0 <= s) ->
  obeys1 E s mu dx q pin pc po -> - (s * M) <= q -> - M <= pin -> - M <= pc /\ - M <= po.
Proof.
  intros NE Hm Hd Hs H Hq Hp. pose proof (obeys1_lin 1 1 Hm Hd Hs (obeys1_const M Hm Hd Hs) H) as L.
  apply obeys1_nonneg in L; auto; lra.
Qed.
Lemma obeys2_min E s mu eta dx dy q pv ph pc ov oh M : E <> DD_2 ->
  0 < mu -> 0 < eta -> 0 < dx -> 0 < dy -> (if strict2 E then 0 < s else 0 <= s) ->
  obeys2 E s mu eta dx dy q pv ph pc ov oh -> - (s * M) <= q -> - M <= pv -> - M <= ph -> - M <= pc /\ - M <= ov /\ - M <= oh.
Proof.
  intros NE Hm He Hd Hy Hs H Hq Hp Hp'. pose proof (obeys2_lin 1 1 (@obeys2_const E s mu eta dx dy M Hs) H) as L.
  apply obeys2_nonneg in L; auto; lra.
Qed.
Lemma solves1_min E G d px src pin pout pc M : E <> DD_1 -> grid_ok 1 G -> sig_ok (strict1 E) G -> dir_ok 1 d ->
  - M <= pin -> (forall i, (i < g_nx G)%nat -> - (at_ (g_sig G) i * M) <= at_ src i) ->
  solves1 E G d px src pin pout pc -> forall i, (i < g_nx G)%nat -> - M <= pc i.
Proof.
  intros NE HG HS HD Hp Hq (X & X0 & X1 & HX).
  destruct HG as (G1 & G2 & _ & _ & _ & G4). simpl in G4.
  assert (K : forall i, (i < g_nx G)%nat -> - M <= pc i /\ - M <= X (to px i)).
  { apply (@by_rank px). intros i Hi IH.
    assert (F : - M <= X (from px i)).
    { destruct (@from_cases px _ i Hi) as [->|(i' & Hi' & -> & R1)]; [rewrite X0; auto|]. apply IH; auto. lia. }
    apply (@obeys1_min E (at_ (g_sig G) i) (d_mu d) (at_ (g_dx G) i) (at_ src i) (X (from px i)) (pc i) (X (to px i))); auto.
    - apply HD.
    - apply (Forall_at G2). lia.
    - apply (Forall_at HS). lia. }
  intros i Hi. apply K. auto.
Qed.
Lemma solves2_min E G d px py src vin hin vout hout pc M : E <> DD_2 -> grid_ok 2 G -> sig_ok (strict2 E) G -> dir_ok 2 d ->
  (forall j, (j < g_ny G)%nat -> - M <= at_ vin j) -> (forall i, (i < g_nx G)%nat -> - M <= at_ hin i) ->
  (forall i j, (i < g_nx G)%nat -> (j < g_ny G)%nat -> let c := idx (g_nx G) (g_ny G) i j 0 in - (at_ (g_sig G) c * M) <= at_ src c) ->
  solves2 E G d px py src vin hin vout hout pc -> forall i j, (i < g_nx G)%nat -> (j < g_ny G)%nat -> - M <= pc i j.
Proof.
  intros NE HG HS HD Hv Hh Hq (X & Y & HX & HY & H).
  assert (K : forall i j, (i < g_nx G)%nat -> (j < g_ny G)%nat ->
    - M <= pc i j /\ - M <= X (to px i) j /\ - M <= Y i (to py j)).
  { apply (@by_rank2 px py). intros i j Hi Hj IX IY.
    assert (F : - M <= X (from px i) j).
    { destruct (@from_cases px _ i Hi) as [->|(i' & Hi' & -> & R1)]; [|apply IX; auto].
      rewrite (proj1 (HX j Hj)). auto. }
    assert (F' : - M <= Y i (from py j)).
    { destruct (@from_cases py _ j Hj) as [->|(j' & Hj' & -> & R1)]; [|apply IY; auto].
      rewrite (proj1 (HY i Hi)). auto. }
    destruct (cell_data2 HG HS HD Hi Hj) as (D1 & D2 & D3 & D4 & D5). specialize (H i j Hi Hj).
    refine (@obeys2_min E _ _ _ _ _ _ _ _ _ _ _ M NE D1 D2 D3 D4 D5 H _ F F'). apply Hq; auto. }
  intros i j Hi Hj. apply K; auto.
Qed.

Section Eqn.
Variables (E : eqn) (G : grid) (ds : list dir) (nq : nat).
Hypotheses (HG : grid_ok (eq_dim E) G) (HS : sig_ok (eq_strict E) G) (HD : dirs_ok (eq_dim E) nq ds).
Local Notation n := (cells_of (eq_dim E) G).

(** Sources no lower than -M mean free paths make fluxes no lower than -M. *)
Lemma equation_min s o a ins outs p M : eq_positive E = true -> 0 <= M -> Forall no_face ins -> equation E G ds s o a ins outs p ->
  (forall c, (c < n)%nat -> - (at_ (g_sig G) c * M) <= at_ (s o a) c) -> forall c, (c < n)%nat -> - M <= p c.
Proof.
  intros PO HM Z EQ HQ c Hc. pose proof (@dir_at E ds nq HD) as DA.
  destruct E as [e|e|]; cbn [equation eq_dim eq_strict] in *; [| |discriminate].
  - destruct EQ as (d & x & y & Hd & -> & -> & S1).
    inversion_clear Z as [|? ? Z1 _]. inversion_clear Z1 as [|? ? Z2 _]. inversion_clear Z2 as [|? ? Z3 _]. subst x.
    unfold cells_of in *. cbn in *. rewrite !Nat.mul_1_r in *.
    refine (@solves1_min e G d _ (s o a) 0 y p M _ HG HS (DA a d Hd) _ HQ S1 c Hc); [|lra].
    destruct e; cbn in *; congruence.
  - destruct EQ as (d & v & h & v1 & h1 & Hd & -> & -> & S1).
    inversion_clear Z as [|? ? Z1 Z2]. inversion_clear Z2 as [|? ? Z3 _]. inversion_clear Z1 as [|? ? Z4 _]. inversion_clear Z3 as [|? ? Z5 _].
    unfold cells_of in *. cbn in *. rewrite !Nat.mul_1_r in *.
    destruct (@index_total (g_nx G) (g_ny G) 1 c) as (Hi & Hj' & Hk & EC); [lia|].
    assert (K0 : cell_to_k (g_nx G) (g_ny G) c = 0%nat) by lia. rewrite K0 in EC. rewrite <- EC.
    refine (@solves2_min e G d _ _ (s o a) v h v1 h1 _ M _ HG HS (DA a d Hd) _ _ _ S1 _ _ Hi Hj').
    + destruct e; cbn in *; congruence.
    + intros. rewrite at_zero by auto. lra.
    + intros. rewrite at_zero by auto. lra.
    + intros i0 j0 H1 H2. apply HQ. pose proof (index_lt H1 H2 Nat.lt_0_1). lia.
Qed.

(** A source in cell j makes the flux of cell c positive in some octant. *)
Definition toward (j c : nat) : nat -> Prop := fun o =>
  behind (positive o 0) (cell_to_i (g_nx G) j) (cell_to_i (g_nx G) c) /\
  ((1 < eq_dim E)%nat -> behind (positive o 1) (cell_to_j (g_nx G) (g_ny G) j) (cell_to_j (g_nx G) (g_ny G) c)).
Lemma toward_ex j c : eq_spreads E = true -> exists o, (o < 2 ^ eq_dim E)%nat /\ toward j c o.
Proof.
  intros SPR. assert (P : forall x y, exists b, behind b x y) by (intros x y; destruct (le_lt_dec x y); [exists true|exists false]; cbn; lia).
  unfold toward. destruct (P (cell_to_i (g_nx G) j) (cell_to_i (g_nx G) c)) as (b & Hb).
  destruct (P (cell_to_j (g_nx G) (g_ny G) j) (cell_to_j (g_nx G) (g_ny G) c)) as (b' & Hb').
  clear HG HS HD. destruct E as [e|e|]; cbn [eq_dim]; [| |discriminate].
  - exists (if b then 0%nat else 1%nat). split; [destruct b; cbn; lia|]. split; [destruct b; exact Hb|lia].
  - exists (match b, b' with true, true => 0 | false, true => 1 | false, false => 2 | true, false => 3 end)%nat.
    split; [destruct b, b'; cbn; lia|]. destruct b, b'; split; auto.
Qed.
Lemma equation_pos s o a ins outs p j c : eq_spreads E = true -> Forall no_face ins -> equation E G ds s o a ins outs p ->
  (forall c, (c < n)%nat -> 0 <= at_ (s o a) c) -> (j < n)%nat -> 0 < at_ (s o a) j -> (c < n)%nat -> toward j c o -> 0 < p c.
Proof.
  intros SPR Z EQ HQ Hj Pj Hc (T1 & T2). pose proof (@dir_at E ds nq HD) as DA.
  destruct E as [e|e|]; cbn [equation eq_dim eq_strict] in *; [| |discriminate].
  - destruct EQ as (d & x & y & Hd & -> & -> & S1).
    inversion_clear Z as [|? ? Z1 _]. inversion_clear Z1 as [|? ? Z2 _]. inversion_clear Z2 as [|? ? Z3 _]. subst x.
    unfold cells_of in *. cbn in *. rewrite !Nat.mul_1_r in *.
    refine (proj2 (@solves1_pos G d (s o a) e _ 0 y p j _ HG HS (DA a d Hd) (Rle_refl 0) HQ Hj Pj S1 c Hc) _).
    + destruct e; cbn in *; congruence.
    + unfold cell_to_i in T1. rewrite !Nat.mod_small in T1 by auto. exact T1.
  - destruct EQ as (d & v & h & v1 & h1 & Hd & -> & -> & S1). destruct e; try discriminate.
    inversion_clear Z as [|? ? Z1 Z2]. inversion_clear Z2 as [|? ? Z3 _]. inversion_clear Z1 as [|? ? Z4 _]. inversion_clear Z3 as [|? ? Z5 _].
    unfold cells_of in *. cbn in *. rewrite !Nat.mul_1_r in *.
    destruct (@index_total (g_nx G) (g_ny G) 1 c) as (Hi & Hj' & Hk & EC); [lia|].
    destruct (@index_total (g_nx G) (g_ny G) 1 j) as (Hi2 & Hj2 & Hk2 & EC2); [lia|].
    assert (K0 : cell_to_k (g_nx G) (g_ny G) c = 0%nat) by lia. rewrite K0 in EC.
    assert (K2 : cell_to_k (g_nx G) (g_ny G) j = 0%nat) by lia. rewrite K2 in EC2.
    rewrite <- EC. rewrite <- EC2 in Pj.
    refine (proj2 (@solves2_pos G d (s o a) _ _ v h v1 h1 _ _ _ HG HS (DA a d Hd) _ _ _ Hi2 Hj2 Pj S1 _ _ Hi Hj') _ _); auto.
    + intros. rewrite at_zero by auto. lra.
    + intros. rewrite at_zero by auto. lra.
    + intros i0 j0 H1 H2. apply HQ. pose proof (index_lt H1 H2 Nat.lt_0_1). lia.
Qed.
End Eqn.

(** ** All groups *)
Arguments ch_here {w t x} _.
Arguments ch_forward {w t x} _.
Arguments ch_scatter {w t x} _ c g gp.
Arguments ch_chi {w t x} _ g k.
Arguments ch_nsf {w t x} _ g k.
Arguments ch_weights {w t x} _.
Arguments ch_fissile {w t x} _.
Arguments ch_fed {w t x} _ [j c g] _ _ _ _ _.

Lemma lowest n (f : nat -> R) : (0 < n)%nat -> exists c, (c < n)%nat /\ forall i, (i < n)%nat -> f c <= f i.
Proof.
  induction n as [|n IH]; intros Hn; [lia|]. destruct n as [|n].
  - exists 0%nat. split; auto. intros i Hi. assert (i = 0)%nat by lia. subst. lra.
  - destruct IH as (c & Hc & M); [lia|]. destruct (Rle_dec (f c) (f (S n))) as [L|L].
    + exists c. split; [lia|]. intros i Hi. destruct (Nat.eq_dec i (S n)) as [->|]; auto. apply M. lia.
    + exists (S n). split; [lia|]. intros i Hi. destruct (Nat.eq_dec i (S n)) as [->|]; [lra|]. specialize (M i ltac:(lia)). lra.
Qed.

Section Case.
Variables (w : sweeper) (m : mtl) (nc : nat) (t0 : tstate) (l : list nat).
Local Notation Inv := (same_case w m nc t0).
Local Notation x0 := (ssrc (t_x t0)).
Local Notation n := (ng (mat x0)).
Local Notation q0 := (b_q (t_b t0)).
Local Notation ins0 := (ins0 t0).
Local Notation streams := (streams w x0 q0 ins0).
Local Notation om := (solid_angle (q_dim q0)).
Hypotheses (HO : homogeneous t0) (Hn : (0 < n)%nat) (SO : solve_order (t_x t0) l) (DA : all_damped w t0) (I0 : Inv t0)
  (SPR : eq_spreads (w_eq w) = true) (CH : chain w t0 x0).

Lemma spreads_positive : eq_positive (w_eq w) = true.
Proof. destruct (w_eq w) as [[]|[]|]; cbn in *; auto. Qed.
Lemma case_cells : cells x0 = cells_of (eq_dim (w_eq w)) (w_grid w).
Proof. destruct (case_posed I0 Hn) as [_ _ _ (_ & QE) (_ & _ & G3 & _) _ _ _ _]. rewrite QE. auto. Qed.

Lemma source_at S phi g c : (c < cells x0)%nat ->
  at_ (stream_source x0 q0 S phi g) c = (S g c + rsum n (fun gp => phi gp c * transfer_xs x0 c g gp)) / om.
Proof. intros Hc. unfold stream_source. apply (at_tab (fun c => (S g c + rsum n (fun gp => phi gp c * transfer_xs x0 c g gp)) / om)). auto. Qed.

Lemma streams_nonneg S phi : streams S phi -> (forall g c, (g < n)%nat -> (c < cells x0)%nat -> 0 <= S g c) ->
  forall g c, (g < n)%nat -> (c < cells x0)%nat -> 0 <= phi g c.
Proof.
  intros ST HS. destruct SO as (SO1 & SO2). pose proof (solid_pos (q_dim q0)) as SP. pose proof case_cells as CC.
  assert (KEY : forall k i, (i < k)%nat -> (i < length l)%nat -> forall c, (c < cells x0)%nat -> 0 <= phi (nth i l 0%nat) c).
  { induction k as [|k IH]; intros i Hk Hi; [lia|]. destruct (Nat.eq_dec i k) as [->|]; [|apply IH; lia].
    set (g := nth k l 0%nat). assert (Hg : (g < n)%nat) by (apply SO1, nth_In; auto).
    destruct (DA Hg) as ((r & [R1 R2 R3 R4]) & _).
    destruct (case_posed I0 Hg) as [_ _ _ ((_ & NO & _) & QE) (G1 & G2 & G3 & G4) DI _ _ _].
    destruct (@lowest (cells x0) (phi g) G4) as (c0 & Hc0 & LO).
    destruct (Rle_dec 0 (phi g c0)) as [|NG]; [intros c Hc; specialize (LO c Hc); lra|]. exfalso.
    set (M := - phi g c0). assert (HM : 0 < M) by (unfold M; lra).
    destruct (ST g Hg) as (P & outs & EQ & AV).
    assert (HQ : 0 <= r * M / om) by (apply div_pos; [apply Rmult_le_pos; lra|auto]).
    assert (LB : forall o a, (o < q_noct q0)%nat -> (a < q_nao q0)%nat -> - (r * M / om) <= P o a c0).
    { intros o a Ho Ha. rewrite <- QE in G1, DI. 
      refine (@equation_min (w_eq w) _ (w_dirs w) (q_nao q0) G1 G2 DI _ o a _ (outs o a) _ _ spreads_positive HQ _ (EQ o a Ho Ha) _ c0 _).
      - apply case_zero with (w := w) (m := m) (nc := nc); auto.
      - intros c Hc. change (cells_of (eq_dim (w_eq w)) (group_grid (w_grid w) x0 g)) with (cells_of (eq_dim (w_eq w)) (w_grid w)) in Hc.
        rewrite <- CC in Hc. cbv beta. rewrite source_at by auto. cbn [group_grid g_sig]. rewrite (at_tab (fun c => st (mat x0) g (mat_of x0 c))) by auto.
        replace (- (st (mat x0) g (mat_of x0 c) * (r * M / om))) with (- (r * st (mat x0) g (mat_of x0 c) * M) / om) by (field; lra).
        apply Rmult_le_compat_r; [apply Rlt_le, Rinv_0_lt_compat; auto|].
        specialize (R2 c Hc). specialize (HS g c Hg Hc).
        assert (ES : self_transfer (t_x t0) g c = transfer_xs x0 c g g).
        { unfold self_transfer. rewrite (ho_fission HO). destruct (fiss (t_x t0)); ring. }
        rewrite ES in R2. pose proof (ch_scatter CH c g g) as TP. rewrite Rabs_pos_eq in R2 by auto.
        assert (TG : - (transfer_xs x0 c g g * M) <= rsum n (fun gp => phi gp c * transfer_xs x0 c g gp)).
        { pose proof (@rsum_le n (fun gp => if Nat.eqb gp g then - (transfer_xs x0 c g g * M) else 0) (fun gp => phi gp c * transfer_xs x0 c g gp)) as LE.
          rewrite rsum_delta in LE by auto. apply LE. intros gp Hgp. destruct (Nat.eqb_spec gp g) as [->|Ng].
          - specialize (LO c Hc). replace (- (transfer_xs x0 c g g * M)) with (phi g c0 * transfer_xs x0 c g g) by (unfold M; ring).
            apply Rmult_le_compat_r; auto.
          - destruct (In_nth l gp 0%nat (proj2 (SO1 gp) Hgp)) as (j & Hj & Ej). destruct (Nat.lt_trichotomy j k) as [Lt|[Eq|Gt]].
            + rewrite <- Ej. apply Rmult_le_pos; [apply (IH j Lt Hj); auto|apply (ch_scatter CH)].
            + exfalso. apply Ng. unfold g. subst k. auto.
            + specialize (SO2 k j ltac:(lia)). fold g in SO2. rewrite Ej in SO2. destruct (SO2 c Hc) as (-> & _). lra. }
        assert (transfer_xs x0 c g g * M <= r * st (mat x0) g (mat_of x0 c) * M) by (apply Rmult_le_compat_r; lra). lra.
      - change (cells_of (eq_dim (w_eq w)) (group_grid (w_grid w) x0 g)) with (cells_of (eq_dim (w_eq w)) (w_grid w)). rewrite <- CC. auto. }
    assert (LE : om * - (r * M / om) <= phi g c0).
    { rewrite AV by auto. set (K := - (r * M / om)) in *. rewrite <- R4. rewrite <- rsum_scal_r. apply rsum_le. intros o Ho. rewrite <- rsum_scal_r. apply rsum_le. intros a Ha.
      apply Rmult_le_compat_l; auto. }
    replace (om * - (r * M / om)) with (- (r * M)) in LE by (field; lra).
    assert (r * M < 1 * M) by (apply Rmult_lt_compat_r; lra). unfold M in *. lra. }
  intros g c Hg Hc. destruct (In_nth l g 0%nat (proj2 (SO1 g) Hg)) as (i & Hi & <-). apply (KEY (Datatypes.S i)); auto.
Qed.

(** A source anywhere makes a flux everywhere. *)
Lemma streams_spread S phi g j : streams S phi -> (forall g c, (g < n)%nat -> (c < cells x0)%nat -> 0 <= S g c) ->
  (g < n)%nat -> (j < cells x0)%nat -> 0 < S g j + rsum n (fun gp => phi gp j * transfer_xs x0 j g gp) ->
  forall c, (c < cells x0)%nat -> 0 < phi g c.
Proof.
  intros ST HS Hg Hj PJ c Hc. pose proof (streams_nonneg ST HS) as NN. pose proof (solid_pos (q_dim q0)) as SP. pose proof case_cells as CC.
  destruct (DA Hg) as ((r & [R1 R2 R3 R4]) & _).
  destruct (case_posed I0 Hg) as [_ _ _ ((_ & NO & _) & QE) (G1 & G2 & G3 & G4) DI _ _ _].
  destruct (ST g Hg) as (P & outs & EQ & AV). destruct (ch_weights CH) as (HA & HW).
  destruct (@toward_ex (w_eq w) (w_grid w) j c SPR) as (o1 & Ho1 & TW). rewrite QE in Ho1. rewrite <- QE in G1, DI.
  change (cells_of (eq_dim (w_eq w)) (w_grid w)) with (cells_of (eq_dim (w_eq w)) (group_grid (w_grid w) x0 g)) in CC.
  assert (SRC : forall c, (c < cells x0)%nat -> 0 <= at_ (stream_source x0 q0 S phi g) c).
  { intros c' Hc'. rewrite source_at by auto. apply div_pos; auto. apply Rplus_le_le_0_compat; auto.
    apply rsum_nonneg. intros gp Hgp. apply Rmult_le_pos; auto. apply (ch_scatter CH). }
  assert (NP : forall o a, (o < q_noct q0)%nat -> (a < q_nao q0)%nat -> 0 <= P o a c).
  { intros o a Ho Ha. assert (- 0 <= P o a c); [|lra].
    refine (@equation_min (w_eq w) _ (w_dirs w) (q_nao q0) G1 G2 DI _ o a _ (outs o a) _ _ spreads_positive (Rle_refl 0) _ (EQ o a Ho Ha) _ c _).
    - apply case_zero with (w := w) (m := m) (nc := nc); auto.
    - intros c' Hc'. rewrite Rmult_0_r, Ropp_0. apply SRC. rewrite CC. auto.
    - rewrite <- CC. auto. }
  assert (PP : 0 < P o1 0%nat c).
  { rewrite <- NO in Ho1.
    refine (@equation_pos (w_eq w) _ (w_dirs w) (q_nao q0) G1 G2 DI _ o1 0%nat _ (outs o1 0%nat) _ j c SPR _ (EQ o1 0%nat Ho1 HA) _ _ _ _ TW).
    - apply case_zero with (w := w) (m := m) (nc := nc); auto.
    - intros c' Hc'. apply SRC. rewrite CC. auto.
    - rewrite <- CC. auto.
    - rewrite source_at by auto. apply div_pos'; auto.
    - rewrite <- CC. auto. }
  rewrite AV by auto. rewrite <- NO in Ho1.
  assert (T1 : forall o, (o < q_noct q0)%nat -> 0 <= rsum (q_nao q0) (fun a => weight (w_dirs w) a * P o a c)).
  { intros o Ho. apply rsum_nonneg. intros a Ha. apply Rmult_le_pos; auto. }
  eapply Rlt_le_trans; [|apply (@rsum_term (q_noct q0) (fun o => rsum (q_nao q0) (fun a => weight (w_dirs w) a * P o a c)) o1 Ho1 T1)].
  cbv beta. eapply Rlt_le_trans; [|apply (@rsum_term (q_nao q0) (fun a => weight (w_dirs w) a * P o1 a c) 0%nat HA)].
  - apply Rmult_lt_0_compat; auto.
  - intros a Ha. apply Rmult_le_pos; auto.
Qed.

(** Neutrons born in cell j are everywhere in the groups they get to. *)
Lemma unit_nonneg j g c : (g < n)%nat -> (c < cells x0)%nat -> 0 <= (if c =? j then spectrum x0 g c else 0).
Proof.
  intros _ _. destruct (c =? j); [|lra]. unfold spectrum. rewrite (ch_forward CH). apply (ch_chi CH).
Qed.
Lemma fed_pos j phi g : (j < cells x0)%nat -> streams (fun g c => if c =? j then spectrum x0 g c else 0) phi ->
  fed x0 j g -> forall c, (c < cells x0)%nat -> 0 < phi g c.
Proof.
  intros Hj ST F. pose proof (streams_nonneg ST (@unit_nonneg j)) as NN. induction F as [g Hg Sg|g gp c' Hg Hgp Hc' F IH TR]; intros c Hc.
  - refine (@streams_spread _ _ g j ST (@unit_nonneg j) Hg Hj _ c Hc). rewrite Nat.eqb_refl.
    assert (0 <= rsum n (fun gp => phi gp j * transfer_xs x0 j g gp)); [|lra].
    apply rsum_nonneg. intros gp Hgp. apply Rmult_le_pos; auto. apply (ch_scatter CH).
  - refine (@streams_spread _ _ g c' ST (@unit_nonneg j) Hg Hc' _ c Hc). pose proof (@unit_nonneg j g c' Hg Hc') as U.
    assert (0 < rsum n (fun gp => phi gp c' * transfer_xs x0 c' g gp)); [|lra].
    eapply Rlt_le_trans; [|apply (@rsum_term n (fun gp => phi gp c' * transfer_xs x0 c' g gp) gp Hgp)].
    + apply Rmult_lt_0_compat; auto.
    + intros g' Hg'. apply Rmult_le_pos; auto. apply (ch_scatter CH).
Qed.

Variable mg : tstate -> res tstate.
Hypotheses (MS : mg_solver nc Inv mg) (EX : exact w Inv mg).
Theorem fission_connected q : dens q = density t0 -> connected nc x0 (matrix nc t0 mg q).
Proof.
  intros Eq. pose proof (case_nc I0) as NC. split; [rewrite <- NC; apply (ch_fissile CH)|]. intros c Hc. rewrite <- NC in Hc. split.
  - intros Fc j Hj Fj. rewrite <- NC in Hj. unfold matrix, production. rewrite (ch_forward CH).
    pose proof (@column_ok w m nc t0 HO Hn mg I0 MS EX q j Eq) as ST.
    pose proof (streams_nonneg ST (@unit_nonneg j)) as NN.
    destruct (@rsum_pos_ex n (fun g => nsf (mat x0) g (mat_of x0 c))) as (g & Hg & Pg); [unfold fissile in Fc; lra|intros; apply (ch_nsf CH)|].
    eapply Rlt_le_trans; [|apply (@rsum_term n (fun g => phi_of (column nc t0 mg q j) g c * nsf (mat x0) g (mat_of x0 c)) g Hg)].
    + apply Rmult_lt_0_compat; auto. apply (fed_pos Hj ST); auto. apply (ch_fed CH Hj Hc); auto.
    + intros g' Hg'. apply Rmult_le_pos; auto. apply (ch_nsf CH).
  - intros NF j Hj. unfold matrix, production. rewrite (ch_forward CH).
    apply rsum_zero. intros g Hg.
    pose proof (@rsum_term n (fun g => nsf (mat x0) g (mat_of x0 c)) g Hg ltac:(intros; apply (ch_nsf CH))) as T. cbv beta in T.
    pose proof (ch_nsf CH g (mat_of x0 c)) as P. unfold fissile in NF. assert (nsf (mat x0) g (mat_of x0 c) = 0) by lra. rewrite H. ring.
Qed.
End Case.
