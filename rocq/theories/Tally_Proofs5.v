(** * Tally_Proofs5: the sweeps in one and two dimensions. *)
From Coquelicot Require Import Coquelicot.
From Verif Require Import Base BaseR Loop Mesh_Model Mesh_Proofs Angle_Model Angle_Spec Boundary_Model Boundary_Spec
  Cell_Model Cell_Spec Cell_Proofs Sweep_Model Sweep_Spec Sweep_Proofs SweepBalance_Proofs SweepAll_Proofs SweepInst_Proofs
  Region_Model Region_Spec Region_Proofs Tally_Model Tally_Spec Tally_Proofs Tally_Proofs2 Tally_Proofs3 Tally_Proofs4.
Open Scope nat_scope.
Set Implicit Arguments. Unset Strict Implicit.
Local Notation idx := Mesh_Model.index.

Lemma dir_nth dim nq ds a : dirs_ok dim nq ds -> a < nq ->
  rd ds a = Ok (nth a ds none) /\ dir_ok dim (nth a ds none) /\ Sweep_Spec.weight ds a = d_w (nth a ds none).
Proof.
  intros HD Ha. destruct (dir_at HD Ha) as (d & E1 & E2 & E3 & E4). rewrite (nth_error_nth _ _ _ E2). auto.
Qed.

(** ** One dimension *)
Section One.
Variables (E : scheme1) (G : grid) (C : cmesh) (ds : list dir) (keep : bool) (src : nat -> nat -> list R) (nq : nat).
Hypothesis HG : grid_ok 1 G.
Hypothesis HS : sig_ok (strict1 E) G.
Hypothesis HD : dirs_ok 1 nq ds.
Hypothesis HSrc : src_ok 1 nq G src.
Hypothesis F : coarse_facts 1 G C.
Let nx := g_nx G.
Hypothesis Hn : 1 < nx.
Let d (a : nat) := nth a ds none.
Let px (o : nat) := positive o 0.
Let Ce (o a i : nat) := cell1 E (at_ (g_sig G) i) (d_mu (d a)) (at_ (g_dx G) i) (at_ (src o a) i).
Definition hd1 (ins : list face) : R := match ins with [[[x]]] => x | _ => 0%R end.
Let FW o a ins := fw nx (px o) (Ce o a) (hd1 ins).
Let FC o a ins := fc1 nx (px o) (Ce o a) (hd1 ins).
Let X o a ins f := FW o a ins (frank (px o) nx f).
Let outx o a ins : list face := [[[FW o a ins nx]]].
Let pcx o a ins := by_cell nx 1 (fun i _ _ => fst (FC o a ins (rank (px o) nx i))).
Let gam e o a ins := rsum (S nx) (fun f => contrib C (unitw (d a)) o e 0 f (0, 0, 0) (X o a ins f)).

Lemma shape1 ins : shape_ok (g_nx G) (g_ny G) (g_nz G) 1 ins <-> exists x, ins = [[[x]]].
Proof.
  unfold shape_ok. cbn. split.
  - intros Sh. destruct ins as [|[|[|x [|]] [|]] [|]]; try discriminate. eauto.
  - intros (x & ->). reflexivity.
Qed.
Lemma KT1 o a ins phi psi T : o < 2 ^ 1 -> a < nq -> shape_ok (g_nx G) (g_ny G) (g_nz G) 1 ins -> length phi = cells_of 1 G ->
  (keep = true -> length psi = cells_of 1 G) -> tally_for C T ->
  exists phi' psi' T', kernel1_t E G C ds keep src o a ins phi psi T = Ok (outx o a ins, phi', psi', T') /\
    kernel1 E G ds keep src o a ins phi psi = Ok (outx o a ins, phi', psi') /\
    adds (cells_of 1 G) (Sweep_Spec.weight ds a) (pcx o a ins) phi phi' /\ stores (cells_of 1 G) keep (pcx o a ins) psi psi' /\
    tally_for C T' /\ forall e, val T' e = (val T e + Sweep_Spec.weight ds a * gam e o a ins)%R.
Proof.
  intros Ho Ha Sh Lphi Lpsi HT. cbn in Ho. apply shape1 in Sh. destruct Sh as (x & ->).
  destruct (dir_nth HD Ha) as (Ed & Dd & Wd). rewrite Wd. fold (d a) in *.
  assert (Lsrc : length (src o a) = nx * 1 * 1) by (apply HSrc; auto).
  destruct (@sweep1_t_run E G C (d a) keep o (src o a) x phi psi T ltac:(lia) HG F Hn Lsrc Lphi Lpsi HT)
    as (phi' & psi' & T' & ER & T1 & T2 & T3 & HT' & V).
  destruct (@sweep1_run E G (d a) keep o (src o a) x phi psi ltac:(lia) HG Lsrc Lphi Lpsi) as (phi2 & psi2 & ER2 & U1 & U2 & U3).
  assert (A1 : adds (nx * 1 * 1) (d_w (d a)) (pcx o a [[[x]]]) phi phi') by (apply (@tab3_adds nx 1 1 _ (fun i _ _ => fst (FC o a [[[x]]] (rank (px o) nx i)))); exact T1).
  assert (A2 : adds (nx * 1 * 1) (d_w (d a)) (pcx o a [[[x]]]) phi phi2) by (apply (@tab3_adds nx 1 1 _ (fun i _ _ => fst (FC o a [[[x]]] (rank (px o) nx i)))); exact U1).
  assert (B1 : stores (nx * 1 * 1) keep (pcx o a [[[x]]]) psi psi') by (apply (@tab3_stores nx 1 1 keep (fun i _ _ => fst (FC o a [[[x]]] (rank (px o) nx i)))); auto).
  assert (B2 : stores (nx * 1 * 1) keep (pcx o a [[[x]]]) psi psi2) by (apply (@tab3_stores nx 1 1 keep (fun i _ _ => fst (FC o a [[[x]]] (rank (px o) nx i)))); auto).
  exists phi', psi', T'. split; [|split; [|split; [|split; [|split]]]]; auto.
  - unfold kernel1_t. rewrite Ed. cbn [bind]. fold (d a). rewrite ER. reflexivity.
  - unfold kernel1. rewrite Ed. cbn [bind]. fold (d a). rewrite ER2. cbn [bind].
    rewrite (adds_det A1 A2), (stores_det B1 B2). reflexivity.
  - intros e. rewrite V. f_equal. unfold gam. rewrite <- rsum_scal. apply rsum_ext. intros f Hf. rewrite contrib_unitw. reflexivity.
Qed.
Lemma out1 o a ins : o < 2 ^ 1 -> a < nq -> shape_ok (g_nx G) (g_ny G) (g_nz G) 1 ins -> shape_ok (g_nx G) (g_ny G) (g_nz G) 1 (outx o a ins).
Proof. intros _ _ _. apply shape1. eexists. reflexivity. Qed.
Lemma flux1 o a x : o < 2 -> a < nq ->
  fluxes1 E G (d a) (positive o 0) (src o a) [[[x]]] (outx o a [[[x]]]) (X o a [[[x]]]) (pcx o a [[[x]]]).
Proof.
  intros Ho Ha. destruct (dir_nth HD Ha) as (_ & Dd & _). fold (d a) in Dd.
  unfold fluxes1, outx, X. fold nx (px o). rewrite frank_entry, frank_leave.
  split; [reflexivity|]. split; [reflexivity|]. intros i Hi.
  rewrite frank_from, frank_to by auto. unfold pcx.
  replace (by_cell _ _ _ i) with (fst (FC o a [[[x]]] (rank (px o) nx i)))
    by (replace i with (idx nx 1 i 0 0) at 2 by (unfold idx; lia); rewrite (@by_cell_idx nx 1 1); auto).
  unfold FW, FC. rewrite fwS. destruct HG as (G1 & G2 & _ & _ & _ & G4). simpl in G4.
  apply cell1_obeys.
  - apply Dd.
  - apply (Forall_at G2). unfold nx in Hi. lia.
  - apply (Forall_at HS). unfold nx in Hi. lia.
  - rewrite <- surjective_pairing. unfold fc1, Ce. rewrite rank_inv by auto. reflexivity.
Qed.
Lemma gam1 o a ins s I : o < 8 -> s < 2 -> I <= cm_n C 0 ->
  gam (0, s, fidx C I 0 0 0) o a ins = along 0 s o (d_mu (d a) * X o a ins (edge C 0 I))%R.
Proof.
  intros Ho Hs HI. unfold gam. destruct (@nw1 G HG) as (N0 & N1 & N2). fold nx in N0.
  rewrite (@rsum_ext _ _ (fun f => along 0 s o (if on_edge C 0 f I then d_mu (d a) * X o a ins f else 0)%R)).
  - rewrite along_sum. apply along_ext. rewrite <- N0 at 1.
    apply (@faces_sum 1 G C ltac:(lia) F 0 I (fun f => d_mu (d a) * X o a ins f)%R ltac:(lia) HI).
  - intros f Hf. rewrite (@contrib_x 1 G C ltac:(lia) F) by (auto; rewrite ?(unused_n F) by lia; lia).
    apply along_ext. rewrite !(unused_map F) by lia. cbn [Nat.eqb]. rewrite !(unused_w F) by lia. cbn [unitw d_mu d_w].
    destruct (on_edge C 0 f I); ring.
Qed.

Theorem currents1 upd g ord b phi psi T : q_dim (b_q b) = 1 -> q_nao (b_q b) = nq -> sweep_problem G ds keep src g ord b phi psi ->
  tally_for C T ->
  exists b' phi' psi' T', sweep_t (kernel1_t E G C ds keep src) upd g ord (b, phi, psi) T = Ok (b', phi', psi', T') /\
  sweep (kernel1 E G ds keep src) upd g ord (b, phi, psi) = Ok (b', phi', psi') /\ tally_for C T' /\
  exists X P,
  (forall o a, o < q_noct (b_q b) -> a < q_nao (b_q b) ->
    fluxes1 E G (nth a ds none) (positive o 0) (src o a) (ins_of b' o a g) (outs_of b' o a g) (X o a) (P o a)) /\
  (forall c, c < g_nx G -> at_ phi' c = over_angles (b_q b) (fun o a => Sweep_Spec.weight ds a * P o a c)%R) /\
  forall I s, I <= cm_n C 0 -> s < 2 -> partial_current C T' I 0 0 0 s =
    Ok (over_angles (b_q b) (fun o a => along 0 s o (Sweep_Spec.weight ds a * d_mu (nth a ds none) * X o a (edge C 0 I))%R)).
Proof.
  intros Dm NQ PR HT. destruct (problem_setting PR) as (ST & GO). rewrite Dm, NQ in *.
  destruct PR as (_ & _ & _ & Q & _ & _ & _ & _ & Lphi & Lpsi). rewrite Dm in *.
  pose proof Q as (_ & NO & _). rewrite Dm in NO. cbn in NO.
  destruct (@sweep_tallied _ _ C (Sweep_Spec.weight ds) (cells_of 1 G) keep upd g _ _ _ 1 nq outx pcx gam KT1 out1 ord b phi psi T ST GO Lphi Lpsi HT)
    as (b' & phi' & psi' & T' & E1 & E2 & HT' & SS & LP & SH & VP & VT).
  exists b', phi', psi', T'. split; auto. split; auto. split; auto.
  exists (fun o a => X o a (ins_of b' o a g)), (fun o a => pcx o a (ins_of b' o a g)). rewrite NO. split; [|split].
  - intros o a Ho Ha. destruct (SH o a Ho Ha) as (S1 & ->). apply shape1 in S1. destruct S1 as (x & ->). apply flux1; auto.
  - intros c Hc. apply VP. unfold cells_of. cbn. fold nx in Hc |- *. lia.
  - intros I s HI Hs. rewrite (@partial_current_val 1 C ltac:(lia) T' _ _ _ _ _ HT') by (try lia; apply (fidx_x (dim := 1) (G := G) ltac:(lia) F); rewrite ?(unused_n F) by lia; lia).
    f_equal. rewrite VT. apply over_ext. intros o a Ho Ha. rewrite gam1 by (auto; lia). fold (d a).
    unfold along. destruct (Bool.eqb _ _); ring.
Qed.

Theorem balances1 q phi' T' Xf P :
  q_noct q = 2 -> q_nao q = nq ->
  (forall o a, o < 2 -> a < nq -> exists ins outs, fluxes1 E G (nth a ds none) (positive o 0) (src o a) ins outs (Xf o a) (P o a)) ->
  (forall c, c < g_nx G -> at_ phi' c = over_angles q (fun o a => Sweep_Spec.weight ds a * P o a c)%R) ->
  (forall I s, I <= cm_n C 0 -> s < 2 -> partial_current C T' I 0 0 0 s =
    Ok (over_angles q (fun o a => along 0 s o (Sweep_Spec.weight ds a * d_mu (nth a ds none) * Xf o a (edge C 0 I))%R))) ->
  balances C G q ds src T' phi'.
Proof.
  intros NO NQ HF HP HC I J K HI HJ HK. rewrite !(unused_n F) in HJ, HK by lia.
  assert (J = 0) by lia. assert (K = 0) by lia. subst J K. destruct (@nw1 G HG) as (N0 & N1 & N2). fold nx in N0.
  assert (CT : forall f, coarse_total C G I 0 0 f = across C 0 I (fun i => at_ (g_dx G) i * f i)%R).
  { intros f. unfold coarse_total. apply (@across_ext 1 G C ltac:(lia) F); [lia|auto|]. intros i Hi.
    rewrite !(unused_across F) by lia. unfold at_. rewrite (@unused_w 1 G C F 1 0), (@unused_w 1 G C F 2 0) by lia. rewrite (cf_w F). cbn [fine_widths Nat.ltb Nat.leb nth].
    unfold fine_widths. cbn [Nat.ltb Nat.leb nth]. replace (idx (g_nx G) (g_ny G) i 0 0) with i by (unfold idx; lia). ring. }
  rewrite !CT. unfold net_leakage. rewrite (cf_dim F). cbn [rsum Nat.eqb].
  unfold net_current. rewrite !HC by lia. rewrite <- !over_minus.
  rewrite (@over_ext q _ (fun o a => Sweep_Spec.weight ds a * (sgn o 0 * (d_mu (d a) * (Xf o a (edge C 0 (S I)) - Xf o a (edge C 0 I)))))%R).
  2:{ intros o a Ho Ha. rewrite !along_diff. fold (d a). ring. }
  rewrite (@across_ext 1 G C ltac:(lia) F 0 I (fun i => at_ (g_dx G) i * (at_ (g_sig G) i * at_ phi' i))%R
    (fun i => over_angles q (fun o a => Sweep_Spec.weight ds a * (at_ (g_dx G) i * (at_ (g_sig G) i * P o a i)))%R)) by
    (auto; try lia; intros i Hi; rewrite HP by (fold nx; lia); rewrite <- !over_scal; apply over_ext; intros; ring).
  rewrite (@across_ext 1 G C ltac:(lia) F 0 I (fun i => at_ (g_dx G) i * over_angles q (fun o a => Sweep_Spec.weight ds a * at_ (src o a) i))%R
    (fun i => over_angles q (fun o a => Sweep_Spec.weight ds a * (at_ (g_dx G) i * at_ (src o a) i))%R)) by
    (auto; try lia; intros i Hi; rewrite <- !over_scal; apply over_ext; intros; ring).
  rewrite !across_over, Rplus_0_l, <- over_plus. apply over_ext. intros o a Ho Ha. rewrite NO in Ho. rewrite NQ in Ha.
  rewrite <- across_tele, !across_scal, <- Rmult_plus_distr_l. f_equal.
  rewrite <- (across_scal C 0 I (d_mu (d a))), <- (across_scal C 0 I (sgn o 0)), <- across_plus.
  destruct (HF o a Ho Ha) as (ins & outs & _ & _ & OB). destruct (dir_nth HD Ha) as (_ & Dd & _). fold (d a) in Dd, OB.
  apply (@across_ext 1 G C ltac:(lia) F); auto. intros i Hi. rewrite N0 in Hi. specialize (OB i Hi).
  destruct HG as (G1 & G2 & _ & _ & _ & G4). simpl in G4.
  assert (Hx : (0 < at_ (g_dx G) i)%R) by (apply (Forall_at G2); unfold nx in Hi; lia).
  apply obeys1_balanced in OB; auto; [|apply Dd|apply (Forall_at HS); unfold nx in Hi; lia].
  unfold balanced1, leak in OB. rewrite <- OB. rewrite (@sgn_step o 0 (Xf o a) i). field. lra.
Qed.
End One.
