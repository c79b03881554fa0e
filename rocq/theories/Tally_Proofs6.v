(** * Tally_Proofs6: the sweep in two dimensions. *)
From Coquelicot Require Import Coquelicot.
From Verif Require Import Base BaseR Loop Mesh_Model Mesh_Proofs Angle_Model Angle_Spec Boundary_Model Boundary_Spec
  Cell_Model Cell_Spec Cell_Proofs Sweep_Model Sweep_Spec Sweep_Proofs SweepBalance_Proofs SweepAll_Proofs SweepInst_Proofs
  Region_Model Region_Spec Region_Proofs Tally_Model Tally_Spec Tally_Proofs Tally_Proofs2 Tally_Proofs3 Tally_Proofs4 Tally_Proofs5.
Open Scope nat_scope.
Set Implicit Arguments. Unset Strict Implicit.
Local Notation idx := Mesh_Model.index.

Section Two.
Variables (E : scheme2) (G : grid) (C : cmesh) (ds : list dir) (keep : bool) (src : nat -> nat -> list R) (nq : nat).
Hypothesis HG : grid_ok 2 G.
Hypothesis HS : sig_ok (strict2 E) G.
Hypothesis HD : dirs_ok 2 nq ds.
Hypothesis HSrc : src_ok 2 nq G src.
Hypothesis F : coarse_facts 2 G C.
Let nx := g_nx G.
Let ny := g_ny G.
Hypothesis Hnx : 1 < nx.
Hypothesis Hny : 1 < ny.
Let d (a : nat) := nth a ds none.
Let px (o : nat) := positive o 0.
Let py (o : nat) := positive o 1.
Let Ce (o a i j : nat) := cell2 E (at_ (g_sig G) (idx nx ny i j 0)) (d_mu (d a)) (d_eta (d a))
    (at_ (g_dx G) i) (at_ (g_dy G) j) (at_ (src o a) (idx nx ny i j 0)).
Definition hv (ins : list face) : list R := match ins with [[v]; [h]] => v | _ => [] end.
Definition hh (ins : list face) : list R := match ins with [[v]; [h]] => h | _ => [] end.
Let FV o a ins := fv nx ny (px o) (py o) (Ce o a) (at_ (hv ins)) (at_ (hh ins)).
Let FH o a ins := fh nx ny (px o) (py o) (Ce o a) (at_ (hv ins)) (at_ (hh ins)).
Let FC o a ins := fc2 nx ny (px o) (py o) (Ce o a) (at_ (hv ins)) (at_ (hh ins)).
Let X o a ins f j := FV o a ins (rank (py o) ny j) (frank (px o) nx f).
Let Y o a ins i f := FH o a ins (frank (py o) ny f) (rank (px o) nx i).
Let outx o a ins : list face := [[map (fun j => FV o a ins (rank (py o) ny j) nx) (seq 0 ny)];
  [map (fun i => FH o a ins ny (rank (px o) nx i)) (seq 0 nx)]].
Let pcx o a ins := by_cell nx ny (fun i j _ => fst (FC o a ins (rank (py o) ny j) (rank (px o) nx i))).
Let gam e o a ins :=
  (rsum ny (fun j => rsum (S nx) (fun f => contrib C (unitw (d a)) o e 0%nat f (0%nat, j, 0%nat) (X o a ins f j))) +
   rsum nx (fun i => rsum (S ny) (fun f => contrib C (unitw (d a)) o e 1%nat f (i, 0%nat, 0%nat) (Y o a ins i f))))%R.

Lemma shape2 ins : shape_ok (g_nx G) (g_ny G) (g_nz G) 2 ins <-> exists v h, ins = [[v]; [h]] /\ length v = ny /\ length h = nx.
Proof.
  unfold shape_ok. cbn. split.
  - intros Sh. destruct ins as [|[|v [|]] [|[|h [|]] [|]]]; try discriminate. cbn in Sh. inversion Sh as [[Hv Hh]]. exists v, h. auto.
  - intros (v & h & -> & Lv & Lh). cbn. fold nx ny. rewrite Lv, Lh. auto.
Qed.
Lemma KT2 o a ins phi psi T : o < 2 ^ 2 -> a < nq -> shape_ok (g_nx G) (g_ny G) (g_nz G) 2 ins -> length phi = cells_of 2 G ->
  (keep = true -> length psi = cells_of 2 G) -> tally_for C T ->
  exists phi' psi' T', kernel2_t E G C ds keep src o a ins phi psi T = Ok (outx o a ins, phi', psi', T') /\
    kernel2 E G ds keep src o a ins phi psi = Ok (outx o a ins, phi', psi') /\
    adds (cells_of 2 G) (Sweep_Spec.weight ds a) (pcx o a ins) phi phi' /\ stores (cells_of 2 G) keep (pcx o a ins) psi psi' /\
    tally_for C T' /\ forall e, val T' e = (val T e + Sweep_Spec.weight ds a * gam e o a ins)%R.
Proof.
  intros Ho Ha Sh Lphi Lpsi HT. cbn in Ho. apply shape2 in Sh. destruct Sh as (v & h & -> & Lv & Lh).
  destruct (dir_nth HD Ha) as (Ed & Dd & Wd). rewrite Wd. fold (d a) in *.
  assert (Lsrc : length (src o a) = nx * ny * 1) by (apply HSrc; auto).
  destruct (@sweep2_t_run E G C (d a) keep o (src o a) v h phi psi T ltac:(lia) HG F Hnx Hny Lsrc Lv Lh Lphi Lpsi HT)
    as (pv & ph & phi' & psi' & T' & ER & W1 & W2 & T1 & T2 & T3 & HT' & V).
  destruct (@sweep2_run E G (d a) keep o (src o a) v h phi psi ltac:(lia) HG Lsrc Lv Lh Lphi Lpsi)
    as (pv2 & ph2 & phi2 & psi2 & ER2 & Z1 & Z2 & U1 & U2 & U3).
  set (ins := [[v]; [h]]).
  assert (EV : forall p, tab ny p (fun j => FV o a ins (rank (py o) ny j) nx) -> p = map (fun j => FV o a ins (rank (py o) ny j) nx) (seq 0 ny)).
  { intros p Hp. apply (@list_ext_nth _ 0%R); [rewrite map_length, seq_length; apply Hp|].
    intros m Hm. rewrite (proj1 Hp) in Hm. rewrite (proj2 Hp) by auto. rewrite nth_map_seq; auto. }
  assert (EH : forall p, tab nx p (fun i => FH o a ins ny (rank (px o) nx i)) -> p = map (fun i => FH o a ins ny (rank (px o) nx i)) (seq 0 nx)).
  { intros p Hp. apply (@list_ext_nth _ 0%R); [rewrite map_length, seq_length; apply Hp|].
    intros m Hm. rewrite (proj1 Hp) in Hm. rewrite (proj2 Hp) by auto. rewrite nth_map_seq; auto. }
  assert (A1 : adds (nx * ny * 1) (d_w (d a)) (pcx o a ins) phi phi') by (apply (@tab3_adds nx ny 1 _ (fun i j _ => fst (FC o a ins (rank (py o) ny j) (rank (px o) nx i)))); exact T1).
  assert (A2 : adds (nx * ny * 1) (d_w (d a)) (pcx o a ins) phi phi2) by (apply (@tab3_adds nx ny 1 _ (fun i j _ => fst (FC o a ins (rank (py o) ny j) (rank (px o) nx i)))); exact U1).
  assert (B1 : stores (nx * ny * 1) keep (pcx o a ins) psi psi') by (apply (@tab3_stores nx ny 1 keep (fun i j _ => fst (FC o a ins (rank (py o) ny j) (rank (px o) nx i)))); auto).
  assert (B2 : stores (nx * ny * 1) keep (pcx o a ins) psi psi2) by (apply (@tab3_stores nx ny 1 keep (fun i j _ => fst (FC o a ins (rank (py o) ny j) (rank (px o) nx i)))); auto).
  exists phi', psi', T'. split; [|split; [|split; [|split; [|split]]]]; auto.
  - unfold kernel2_t, ins. rewrite Ed. cbn [bind]. fold (d a). rewrite ER. cbn [bind]. rewrite (EV pv W1), (EH ph W2). reflexivity.
  - unfold kernel2, ins. rewrite Ed. cbn [bind]. fold (d a). rewrite ER2. cbn [bind].
    rewrite (EV pv2 Z1), (EH ph2 Z2), (adds_det A1 A2), (stores_det B1 B2). reflexivity.
  - intros e. rewrite V. f_equal. unfold gam. rewrite Rmult_plus_distr_l, <- !rsum_scal. f_equal.
    + apply rsum_ext. intros j Hj. rewrite <- rsum_scal. apply rsum_ext. intros f Hf. unfold cx. rewrite contrib_unitw. reflexivity.
    + apply rsum_ext. intros j Hj. rewrite <- rsum_scal. apply rsum_ext. intros f Hf. unfold cy. rewrite contrib_unitw. reflexivity.
Qed.
Lemma out2 o a ins : o < 2 ^ 2 -> a < nq -> shape_ok (g_nx G) (g_ny G) (g_nz G) 2 ins -> shape_ok (g_nx G) (g_ny G) (g_nz G) 2 (outx o a ins).
Proof. intros _ _ _. apply shape2. eexists _, _. split; [reflexivity|]. rewrite !map_length, !seq_length. auto. Qed.
Lemma flux2 o a ins : o < 4 -> a < nq -> shape_ok (g_nx G) (g_ny G) (g_nz G) 2 ins ->
  fluxes2 E G (d a) (positive o 0) (positive o 1) (src o a) ins (outx o a ins) (X o a ins) (Y o a ins) (pcx o a ins).
Proof.
  intros Ho Ha Sh. apply shape2 in Sh. destruct Sh as (v & h & -> & Lv & Lh).
  destruct (dir_nth HD Ha) as (_ & Dd & _). fold (d a) in Dd. set (ins := [[v]; [h]]).
  unfold fluxes2. fold nx ny (px o) (py o). split; [|split].
  - unfold X, Y. rewrite !frank_entry. unfold ins at 1. f_equal; [|f_equal]; f_equal; apply (@list_ext_nth _ 0%R);
      rewrite ?map_length, ?seq_length; auto; intros m Hm; [rewrite Lv in Hm|rewrite Lh in Hm]; rewrite nth_map_seq by auto.
    + unfold FV. rewrite fv0, rank_inv; auto.
    + unfold FH. rewrite fh0, rank_inv; auto.
  - unfold outx, X, Y. rewrite !frank_leave. reflexivity.
  - intros i j Hi Hj. unfold X, Y. rewrite !frank_from, !frank_to by auto.
    unfold pcx. rewrite (@by_cell_idx nx ny 1) by auto.
    destruct HG as (G1 & G2 & G3 & _ & _ & G4). simpl in G4. destruct (G3 ltac:(lia)) as [G3a G3b].
    pose proof (index_lt Hi Hj Nat.lt_0_1) as HL. destruct Dd as (D1 & D2 & _).
    apply cell2_obeys; auto.
    + apply (Forall_at G2). unfold nx in Hi. lia.
    + apply (Forall_at G3b). unfold ny in Hj. lia.
    + apply (Forall_at HS). unfold nx, ny in *. lia.
    + unfold FV, FH. rewrite fvS, fhS. rewrite <- !surjective_pairing. unfold FC, fc2.
      unfold Ce. rewrite !rank_inv by auto. reflexivity.
Qed.
Lemma nw2' : length (fine_widths 2 G 0) = nx /\ length (fine_widths 2 G 1) = ny.
Proof. destruct HG as (G1 & G2 & G3 & _). cbn. destruct (G3 ltac:(lia)). auto. Qed.
Lemma gam2x o a ins s I J : o < 8 -> s < 2 -> I <= cm_n C 0 -> J < cm_n C 1 ->
  gam (0, s, fidx C I J 0 0) o a ins = along 0 s o (d_mu (d a) * across C 1 J (fun j => at_ (g_dy G) j * X o a ins (edge C 0 I) j))%R.
Proof.
  intros Ho Hs HI HJ. unfold gam. destruct nw2' as (N0 & N1).
  rewrite (rsum_zero (n := nx)).
  2:{ intros i Hi. apply rsum_zero. intros f Hf. apply contrib_other. lia. }
  rewrite Rplus_0_r.
  rewrite (@rsum_ext _ _ (fun j => along 0 s o (if nth j (c_map (cm_of C 1%nat)) 0%nat =? J then d_mu (d a) * (at_ (g_dy G) j * X o a ins (edge C 0%nat I) j) else 0)%R)).
  - rewrite along_sum. apply along_ext. rewrite <- across_scal. rewrite <- N1. apply (across_sum (dim := 2) (G := G)); auto; lia.
  - intros j Hj.
    rewrite (@rsum_ext _ _ (fun f => along 0 s o (if on_edge C 0 f I then
      if cmap C 1 j =? J then d_mu (d a) * (at_ (g_dy G) j * X o a ins f j) else 0 else 0)%R)).
    + rewrite along_sum. apply along_ext. rewrite <- N0. fold (cmap C 1 j).
      apply (@faces_sum 2 G C ltac:(lia) F 0 I (fun f => if cmap C 1 j =? J then d_mu (d a) * (at_ (g_dy G) j * X o a ins f j) else 0)%R ltac:(lia) HI).
    + intros f Hf. rewrite (@contrib_x 2 G C ltac:(lia) F) by (auto; lia).
      apply along_ext. rewrite (unused_map F) by lia. cbn [Nat.eqb]. rewrite (@unused_w 2 G C F 2 0) by lia. cbn [unitw d_mu d_w].
      replace (nth j (cm_w C 1) 0%R) with (at_ (g_dy G) j) by (rewrite (cf_w F); reflexivity).
      destruct (on_edge C 0 f I); auto. destruct (cmap C 1 j =? J); ring.
Qed.
Lemma gam2y o a ins s I J : o < 8 -> s < 2 -> I < cm_n C 0 -> J <= cm_n C 1 ->
  gam (1, s, fidx C I J 0 1) o a ins = along 1 s o (d_eta (d a) * across C 0 I (fun i => at_ (g_dx G) i * Y o a ins i (edge C 1 J)))%R.
Proof.
  intros Ho Hs HI HJ. unfold gam. destruct nw2' as (N0 & N1).
  rewrite (rsum_zero (n := ny)).
  2:{ intros i Hi. apply rsum_zero. intros f Hf. apply contrib_other. lia. }
  rewrite Rplus_0_l.
  rewrite (@rsum_ext _ _ (fun i => along 1 s o (if nth i (c_map (cm_of C 0%nat)) 0%nat =? I then d_eta (d a) * (at_ (g_dx G) i * Y o a ins i (edge C 1%nat J)) else 0)%R)).
  - rewrite along_sum. apply along_ext. rewrite <- across_scal. rewrite <- N0. apply (across_sum (dim := 2) (G := G)); auto; lia.
  - intros i Hi.
    rewrite (@rsum_ext _ _ (fun f => along 1 s o (if on_edge C 1 f J then
      if cmap C 0 i =? I then d_eta (d a) * (at_ (g_dx G) i * Y o a ins i f) else 0 else 0)%R)).
    + rewrite along_sum. apply along_ext. rewrite <- N1. fold (cmap C 0 i).
      apply (@faces_sum 2 G C ltac:(lia) F 1 J (fun f => if cmap C 0 i =? I then d_eta (d a) * (at_ (g_dx G) i * Y o a ins i f) else 0)%R ltac:(lia) HJ).
    + intros f Hf. rewrite (@contrib_y 2 G C ltac:(lia) F) by (auto; lia).
      apply along_ext. rewrite (unused_map F) by lia. cbn [Nat.eqb]. rewrite (@unused_w 2 G C F 2 0) by lia. cbn [unitw d_eta d_w].
      replace (nth i (cm_w C 0) 0%R) with (at_ (g_dx G) i) by (rewrite (cf_w F); reflexivity).
      destruct (on_edge C 1 f J); auto. destruct (cmap C 0 i =? I); ring.
Qed.

Theorem currents2 upd g ord b phi psi T : q_dim (b_q b) = 2 -> q_nao (b_q b) = nq -> sweep_problem G ds keep src g ord b phi psi ->
  tally_for C T ->
  exists b' phi' psi' T', sweep_t (kernel2_t E G C ds keep src) upd g ord (b, phi, psi) T = Ok (b', phi', psi', T') /\
  sweep (kernel2 E G ds keep src) upd g ord (b, phi, psi) = Ok (b', phi', psi') /\ tally_for C T' /\
  exists X Y P,
  (forall o a, o < q_noct (b_q b) -> a < q_nao (b_q b) ->
    fluxes2 E G (nth a ds none) (positive o 0) (positive o 1) (src o a) (ins_of b' o a g) (outs_of b' o a g) (X o a) (Y o a) (P o a)) /\
  (forall c, c < g_nx G * g_ny G -> at_ phi' c = over_angles (b_q b) (fun o a => Sweep_Spec.weight ds a * P o a c)%R) /\
  (forall I J s, I <= cm_n C 0 -> J < cm_n C 1 -> s < 2 -> partial_current C T' I J 0 0 s =
    Ok (over_angles (b_q b) (fun o a => along 0 s o (Sweep_Spec.weight ds a * d_mu (nth a ds none) *
      across C 1 J (fun j => at_ (g_dy G) j * X o a (edge C 0 I) j))%R))) /\
  (forall I J s, I < cm_n C 0 -> J <= cm_n C 1 -> s < 2 -> partial_current C T' I J 0 1 s =
    Ok (over_angles (b_q b) (fun o a => along 1 s o (Sweep_Spec.weight ds a * d_eta (nth a ds none) *
      across C 0 I (fun i => at_ (g_dx G) i * Y o a i (edge C 1 J)))%R))).
Proof.
  intros Dm NQ PR HT. destruct (problem_setting PR) as (ST & GO). rewrite Dm, NQ in *.
  destruct PR as (_ & _ & _ & Q & _ & _ & _ & _ & Lphi & Lpsi). rewrite Dm in *.
  pose proof Q as (_ & NO & _). rewrite Dm in NO. cbn in NO.
  destruct (@sweep_tallied _ _ C (Sweep_Spec.weight ds) (cells_of 2 G) keep upd g _ _ _ 2 nq outx pcx gam KT2 out2 ord b phi psi T ST GO Lphi Lpsi HT)
    as (b' & phi' & psi' & T' & E1 & E2 & HT' & SS & LP & SH & VP & VT).
  exists b', phi', psi', T'. split; auto. split; auto. split; auto.
  exists (fun o a => X o a (ins_of b' o a g)), (fun o a => Y o a (ins_of b' o a g)), (fun o a => pcx o a (ins_of b' o a g)).
  rewrite NO. split; [|split; [|split]].
  - intros o a Ho Ha. destruct (SH o a Ho Ha) as (S1 & ->). apply flux2; auto.
  - intros c Hc. apply VP. unfold cells_of. cbn. lia.
  - intros I J s HI HJ Hs.
    rewrite (@partial_current_val 2 C ltac:(lia) T' _ _ _ _ _ HT') by (try lia; apply (fidx_x (dim := 2) (G := G) ltac:(lia) F); rewrite ?(@unused_n 2 G C F 2) by lia; lia).
    f_equal. rewrite VT. apply over_ext. intros o a Ho Ha. rewrite gam2x by (auto; lia). fold (d a).
    unfold along. destruct (Bool.eqb _ _); ring.
  - intros I J s HI HJ Hs.
    rewrite (@partial_current_val 2 C ltac:(lia) T' _ _ _ _ _ HT') by (try lia; apply (fidx_y (dim := 2) (G := G) ltac:(lia) F); rewrite ?(@unused_n 2 G C F 2) by lia; lia).
    f_equal. rewrite VT. apply over_ext. intros o a Ho Ha. rewrite gam2y by (auto; lia). fold (d a).
    unfold along. destruct (Bool.eqb _ _); ring.
Qed.

Theorem balances2 q phi' T' Xf Yf P :
  q_noct q = 4 -> q_nao q = nq ->
  (forall o a, o < 4 -> a < nq -> exists ins outs,
    fluxes2 E G (nth a ds none) (positive o 0) (positive o 1) (src o a) ins outs (Xf o a) (Yf o a) (P o a)) ->
  (forall c, c < g_nx G * g_ny G -> at_ phi' c = over_angles q (fun o a => Sweep_Spec.weight ds a * P o a c)%R) ->
  (forall I J s, I <= cm_n C 0 -> J < cm_n C 1 -> s < 2 -> partial_current C T' I J 0 0 s =
    Ok (over_angles q (fun o a => along 0 s o (Sweep_Spec.weight ds a * d_mu (nth a ds none) *
      across C 1 J (fun j => at_ (g_dy G) j * Xf o a (edge C 0 I) j))%R))) ->
  (forall I J s, I < cm_n C 0 -> J <= cm_n C 1 -> s < 2 -> partial_current C T' I J 0 1 s =
    Ok (over_angles q (fun o a => along 1 s o (Sweep_Spec.weight ds a * d_eta (nth a ds none) *
      across C 0 I (fun i => at_ (g_dx G) i * Yf o a i (edge C 1 J)))%R))) ->
  balances C G q ds src T' phi'.
Proof.
  intros NO NQ HF HP HCx HCy I J K HI HJ HK. rewrite (unused_n F) in HK by lia.
  assert (K = 0) by lia. subst K. destruct nw2' as (N0 & N1).
  assert (CT : forall f, coarse_total C G I J 0 f = across C 0 I (fun i => across C 1 J (fun j => at_ (g_dx G) i * at_ (g_dy G) j * f (idx nx ny i j 0)))%R).
  { intros f. unfold coarse_total. apply (@across_ext 2 G C ltac:(lia) F); [lia|auto|]. intros i Hi.
    apply (@across_ext 2 G C ltac:(lia) F); [lia|auto|]. intros j Hj.
    rewrite (unused_across F) by lia. unfold at_. rewrite (@unused_w 2 G C F 2 0) by lia. rewrite (cf_w F).
    unfold fine_widths. cbn [Nat.ltb Nat.leb nth]. fold nx ny. ring. }
  rewrite !CT. unfold net_leakage. rewrite (cf_dim F). cbn [rsum Nat.eqb].
  unfold net_current. rewrite !HCx, !HCy by lia. rewrite <- !over_minus.
  rewrite (@over_ext q _ (fun o a => Sweep_Spec.weight ds a * (sgn o 0 * (d_mu (d a) *
    across C 1 J (fun j => at_ (g_dy G) j * (Xf o a (edge C 0 (S I)) j - Xf o a (edge C 0 I) j)))))%R).
  2:{ intros o a Ho Ha. rewrite !along_diff. fold (d a).
      rewrite (@across_ext 2 G C ltac:(lia) F 1 J (fun j => at_ (g_dy G) j * (Xf o a (edge C 0 (S I)) j - Xf o a (edge C 0 I) j))%R
        (fun j => at_ (g_dy G) j * Xf o a (edge C 0 (S I)) j + (-1) * (at_ (g_dy G) j * Xf o a (edge C 0 I) j))%R) by (auto; try lia; intros; ring).
      rewrite across_plus, across_scal. ring. }
  rewrite (@over_ext q (fun o a => _ - _)%R (fun o a => Sweep_Spec.weight ds a * (sgn o 1 * (d_eta (d a) *
    across C 0 I (fun i => at_ (g_dx G) i * (Yf o a i (edge C 1 (S J)) - Yf o a i (edge C 1 J))))))%R).
  2:{ intros o a Ho Ha. rewrite !along_diff. fold (d a).
      rewrite (@across_ext 2 G C ltac:(lia) F 0 I (fun i => at_ (g_dx G) i * (Yf o a i (edge C 1 (S J)) - Yf o a i (edge C 1 J)))%R
        (fun i => at_ (g_dx G) i * Yf o a i (edge C 1 (S J)) + (-1) * (at_ (g_dx G) i * Yf o a i (edge C 1 J)))%R) by (auto; try lia; intros; ring).
      rewrite across_plus, across_scal. ring. }
  rewrite (@across_ext 2 G C ltac:(lia) F 0 I (fun i => across C 1 J (fun j => at_ (g_dx G) i * at_ (g_dy G) j * (at_ (g_sig G) (idx nx ny i j 0) * at_ phi' (idx nx ny i j 0))))%R
    (fun i => over_angles q (fun o a => across C 1 J (fun j => Sweep_Spec.weight ds a * (at_ (g_dx G) i * at_ (g_dy G) j * (at_ (g_sig G) (idx nx ny i j 0) * P o a (idx nx ny i j 0))))))%R); auto; try lia.
  2:{ intros i Hi. rewrite <- across_over. apply (@across_ext 2 G C ltac:(lia) F); [lia|auto|]. intros j Hj.
      rewrite HP. - rewrite <- !over_scal. apply over_ext. intros. ring.
      - rewrite N0 in Hi. rewrite N1 in Hj. pose proof (index_lt Hi Hj Nat.lt_0_1). unfold nx, ny in *. lia. }
  rewrite (@across_ext 2 G C ltac:(lia) F 0 I (fun i => across C 1 J (fun j => at_ (g_dx G) i * at_ (g_dy G) j * over_angles q (fun o a => Sweep_Spec.weight ds a * at_ (src o a) (idx nx ny i j 0))))%R
    (fun i => over_angles q (fun o a => across C 1 J (fun j => Sweep_Spec.weight ds a * (at_ (g_dx G) i * at_ (g_dy G) j * at_ (src o a) (idx nx ny i j 0)))))%R); auto; try lia.
  2:{ intros i Hi. rewrite <- across_over. apply (@across_ext 2 G C ltac:(lia) F); [lia|auto|]. intros j Hj.
      rewrite <- !over_scal. apply over_ext. intros. ring. }
  rewrite !across_over, Rplus_0_l, <- !over_plus. apply over_ext. intros o a Ho Ha. rewrite NO in Ho. rewrite NQ in Ha.
  destruct (HF o a Ho Ha) as (ins & outs & _ & _ & OB). fold (d a) in OB. fold nx ny in OB.
  assert (LX : (across C 1 J (fun j => at_ (g_dy G) j * (Xf o a (edge C 0 (S I)) j - Xf o a (edge C 0 I) j)) =
    across C 0 I (fun i => across C 1 J (fun j => at_ (g_dy G) j * (Xf o a (S i) j - Xf o a i j))))%R).
  { rewrite across_swap. apply (@across_ext 2 G C ltac:(lia) F); [lia|auto|]. intros j Hj. rewrite across_scal. f_equal. symmetry. apply (across_tele C 0 I (fun f => Xf o a f j)). }
  assert (LY : (across C 0 I (fun i => at_ (g_dx G) i * (Yf o a i (edge C 1 (S J)) - Yf o a i (edge C 1 J))) =
    across C 0 I (fun i => across C 1 J (fun j => at_ (g_dx G) i * (Yf o a i (S j) - Yf o a i j))))%R).
  { apply (@across_ext 2 G C ltac:(lia) F); [lia|auto|]. intros i Hi. rewrite across_scal. f_equal. symmetry. apply (across_tele C 1 J (fun f => Yf o a i f)). }
  rewrite LX, LY. rewrite <- !across_scal, <- !across_plus. apply (@across_ext 2 G C ltac:(lia) F); [lia|auto|]. intros i Hi.
  rewrite <- !across_scal, <- !across_plus. apply (@across_ext 2 G C ltac:(lia) F); [lia|auto|]. intros j Hj.
  rewrite N0 in Hi. rewrite N1 in Hj. destruct HG as (G1 & G2 & G3 & _). destruct (G3 ltac:(lia)) as [G3a G3b].
  assert (Hx : (0 < at_ (g_dx G) i)%R) by (apply (Forall_at G2); unfold nx in Hi; lia).
  assert (Hy : (0 < at_ (g_dy G) j)%R) by (apply (Forall_at G3b); unfold ny in Hj; lia).
  destruct (OB i j Hi Hj) as [B _]. unfold balanced2, leak in B. rewrite <- B.
  rewrite (@sgn_step o 0 (fun f => Xf o a f j) i), (@sgn_step o 1 (fun f => Yf o a i f) j). field. lra.
Qed.
End Two.
