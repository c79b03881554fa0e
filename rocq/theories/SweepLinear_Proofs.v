(** * SweepLinear_Proofs: the discretised equations are linear; how large a
    solution is for a source of a given size. *)
From Coquelicot Require Import Coquelicot.
From Verif Require Import Base BaseR Loop Mesh_Model Mesh_Proofs Angle_Model Angle_Spec Boundary_Model Boundary_Spec
  Cell_Model Cell_Spec Cell_Proofs Sweep_Model Sweep_Spec Sweep_Proofs SweepBalance_Proofs.
Open Scope R_scope.
Set Implicit Arguments. Unset Strict Implicit.
Local Notation idx := Mesh_Model.index.

(** ** Superposition *)
Lemma is_RInt_lin (f g : R -> R) a b u v al be : is_RInt f a b u -> is_RInt g a b v ->
  is_RInt (fun x => al * f x + be * g x) a b (al * u + be * v).
Proof.
  intros H1 H2. apply (is_RInt_plus (fun x => al * f x) (fun x => be * g x) a b (al * u) (be * v)).
  - apply (is_RInt_scal f a b al u). exact H1.
  - apply (is_RInt_scal g a b be v). exact H2.
Qed.

Section Comb.
Variables al be : R.
Local Notation "x ⊕ y" := (al * x + be * y) (at level 50).

Lemma obeys1_lin E s mu dx q pin pc po q' pin' pc' po' : 0 < mu -> 0 < dx -> (if strict1 E then 0 < s else 0 <= s) ->
  obeys1 E s mu dx q pin pc po -> obeys1 E s mu dx q' pin' pc' po' ->
  obeys1 E s mu dx (q ⊕ q') (pin ⊕ pin') (pc ⊕ pc') (po ⊕ po').
Proof.
  intros Hm Hd Hs H H'. destruct E; cbn [obeys1 strict1] in *.
  - unfold balanced1, diamond, leak, Rdiv in *. destruct H as [<- ->], H' as [<- ->]. split; ring.
  - unfold balanced1, leak, Rdiv in *. destruct H as [<- ->], H' as [<- ->]. split; ring.
  - assert (Hk : s / mu <> 0) by (apply Rgt_not_eq, div_pos'; auto).
    intros f Hf. destruct (H _ (@line_flux_ex (s / mu) (q / mu) pin Hk)) as [E1 E2].
    destruct (H' _ (@line_flux_ex (s / mu) (q' / mu) pin' Hk)) as [E1' E2'].
    assert (U : forall x, al * (pin * exp (- (s / mu * x)) + q / mu / (s / mu) * (1 - exp (- (s / mu * x)))) +
                     be * (pin' * exp (- (s / mu * x)) + q' / mu / (s / mu) * (1 - exp (- (s / mu * x)))) = f x).
    { intros x. rewrite (line_flux_unique x Hk Hf). unfold Rdiv. ring. }
    split; [rewrite E1, E1'; apply U|].
    eapply is_RInt_ext; [intros x _; apply U|].
    replace (dx * (pc ⊕ pc')) with ((dx * pc) ⊕ (dx * pc')) by ring. apply is_RInt_lin; auto.
Qed.

Lemma traced_lin s mu eta d q f1 f2 q' f1' f2' y :
  traced s (q ⊕ q') mu eta d (f1 ⊕ f1') (f2 ⊕ f2') y = traced s q mu eta d f1 f2 y ⊕ traced s q' mu eta d f1' f2' y.
Proof. unfold traced, attenuated. destruct (Rle_dec _ _); unfold Rdiv; ring. Qed.

Lemma obeys2_lin E s mu eta dx dy q pv ph pc ov oh q' pv' ph' pc' ov' oh' :
  obeys2 E s mu eta dx dy q pv ph pc ov oh -> obeys2 E s mu eta dx dy q' pv' ph' pc' ov' oh' ->
  obeys2 E s mu eta dx dy (q ⊕ q') (pv ⊕ pv') (ph ⊕ ph') (pc ⊕ pc') (ov ⊕ ov') (oh ⊕ oh').
Proof.
  unfold obeys2. intros (B & H) (B' & H'). split.
  { unfold balanced2, leak, Rdiv in *. rewrite <- B, <- B'. ring. }
  destruct E.
  - unfold diamond, Rdiv in *. destruct H as [E1 E2], H' as [E1' E2']. split; [rewrite E1, E1'|rewrite E2, E2']; ring.
  - destruct H as [-> ->], H' as [-> ->]. auto.
  - destruct H as [E1 E2], H' as [E1' E2']. split.
    + replace (dy * (ov ⊕ ov')) with ((dy * ov) ⊕ (dy * ov')) by ring.
      eapply is_RInt_ext; [intros y _; symmetry; apply traced_lin|]. apply is_RInt_lin; auto.
    + replace (dx * (oh ⊕ oh')) with ((dx * oh) ⊕ (dx * oh')) by ring.
      eapply is_RInt_ext; [intros y _; symmetry; apply traced_lin|]. apply is_RInt_lin; auto.
Qed.

Lemma obeys3_lin s mu eta xi dx dy dz q p1 p2 p3 pc o1 o2 o3 q' p1' p2' p3' pc' o1' o2' o3' :
  obeys3 s mu eta xi dx dy dz q p1 p2 p3 pc o1 o2 o3 -> obeys3 s mu eta xi dx dy dz q' p1' p2' p3' pc' o1' o2' o3' ->
  obeys3 s mu eta xi dx dy dz (q ⊕ q') (p1 ⊕ p1') (p2 ⊕ p2') (p3 ⊕ p3') (pc ⊕ pc') (o1 ⊕ o1') (o2 ⊕ o2') (o3 ⊕ o3').
Proof.
  unfold obeys3, balanced3, diamond, leak, Rdiv. intros (B & A1 & A2 & A3) (B' & A1' & A2' & A3').
  split; [rewrite <- B, <- B'; ring|]. repeat split; [rewrite A1, A1'|rewrite A2, A2'|rewrite A3, A3']; ring.
Qed.

Lemma solves1_lin E G d px src pin pout pc src' pin' pout' pc' src'' : grid_ok 1 G -> sig_ok (strict1 E) G -> dir_ok 1 d ->
  solves1 E G d px src pin pout pc -> solves1 E G d px src' pin' pout' pc' ->
  (forall i, (i < g_nx G)%nat -> at_ src'' i = at_ src i ⊕ at_ src' i) ->
  solves1 E G d px src'' (pin ⊕ pin') (pout ⊕ pout') (fun i => pc i ⊕ pc' i).
Proof.
  intros HG HS HD (X & X0 & X1 & HX) (X' & X0' & X1' & HX') SR. exists (fun i => X i ⊕ X' i).
  rewrite X0, X1, X0', X1'. split; auto. split; auto. intros i Hi. rewrite SR by auto.
  destruct HG as (G1 & G2 & _ & _ & _ & G4). simpl in G4.
  apply obeys1_lin; auto; [apply HD|apply (Forall_at G2); lia|apply (Forall_at HS); lia].
Qed.

Lemma solves2_lin E G d px py src vin hin vout hout pc src' vin' hin' vout' hout' pc' src'' vin'' hin'' vout'' hout'' :
  solves2 E G d px py src vin hin vout hout pc -> solves2 E G d px py src' vin' hin' vout' hout' pc' ->
  (forall i j, (i < g_nx G)%nat -> (j < g_ny G)%nat -> let c := idx (g_nx G) (g_ny G) i j 0 in at_ src'' c = at_ src c ⊕ at_ src' c) ->
  (forall j, (j < g_ny G)%nat -> at_ vin'' j = at_ vin j ⊕ at_ vin' j /\ at_ vout'' j = at_ vout j ⊕ at_ vout' j) ->
  (forall i, (i < g_nx G)%nat -> at_ hin'' i = at_ hin i ⊕ at_ hin' i /\ at_ hout'' i = at_ hout i ⊕ at_ hout' i) ->
  solves2 E G d px py src'' vin'' hin'' vout'' hout'' (fun i j => pc i j ⊕ pc' i j).
Proof.
  intros (X & Y & HX & HY & H) (X' & Y' & HX' & HY' & H') SR SV SH.
  exists (fun i j => X i j ⊕ X' i j), (fun i j => Y i j ⊕ Y' i j). split; [|split].
  - intros j Hj. destruct (HX j Hj) as [A B], (HX' j Hj) as [A' B'], (SV j Hj) as [-> ->]. rewrite A, B, A', B'. auto.
  - intros i Hi. destruct (HY i Hi) as [A B], (HY' i Hi) as [A' B'], (SH i Hi) as [-> ->]. rewrite A, B, A', B'. auto.
  - intros i j Hi Hj c. rewrite (SR i j Hi Hj : at_ src'' c = _). apply obeys2_lin; [apply H|apply H']; auto.
Qed.

Lemma solves3_lin G d px py pz src a1 a2 a3 b1 b2 b3 pc src' a1' a2' a3' b1' b2' b3' pc' src'' a1'' a2'' a3'' b1'' b2'' b3'' :
  solves3 G d px py pz src a1 a2 a3 b1 b2 b3 pc -> solves3 G d px py pz src' a1' a2' a3' b1' b2' b3' pc' ->
  (forall i j k, (i < g_nx G)%nat -> (j < g_ny G)%nat -> (k < g_nz G)%nat ->
     let c := idx (g_nx G) (g_ny G) i j k in at_ src'' c = at_ src c ⊕ at_ src' c) ->
  (forall j k, (j < g_ny G)%nat -> (k < g_nz G)%nat -> at2 a1'' k j = at2 a1 k j ⊕ at2 a1' k j /\ at2 b1'' k j = at2 b1 k j ⊕ at2 b1' k j) ->
  (forall i k, (i < g_nx G)%nat -> (k < g_nz G)%nat -> at2 a2'' k i = at2 a2 k i ⊕ at2 a2' k i /\ at2 b2'' k i = at2 b2 k i ⊕ at2 b2' k i) ->
  (forall i j, (i < g_nx G)%nat -> (j < g_ny G)%nat -> at2 a3'' j i = at2 a3 j i ⊕ at2 a3' j i /\ at2 b3'' j i = at2 b3 j i ⊕ at2 b3' j i) ->
  solves3 G d px py pz src'' a1'' a2'' a3'' b1'' b2'' b3'' (fun i j k => pc i j k ⊕ pc' i j k).
Proof.
  intros (X & Y & Z & HX & HY & HZ & H) (X' & Y' & Z' & HX' & HY' & HZ' & H') SR S1 S2 S3.
  exists (fun i j k => X i j k ⊕ X' i j k), (fun i j k => Y i j k ⊕ Y' i j k), (fun i j k => Z i j k ⊕ Z' i j k).
  split; [|split; [|split]].
  - intros j k Hj Hk. destruct (HX j k Hj Hk) as [A B], (HX' j k Hj Hk) as [A' B'], (S1 j k Hj Hk) as [-> ->]. rewrite A, B, A', B'. auto.
  - intros i k Hi Hk. destruct (HY i k Hi Hk) as [A B], (HY' i k Hi Hk) as [A' B'], (S2 i k Hi Hk) as [-> ->]. rewrite A, B, A', B'. auto.
  - intros i j Hi Hj. destruct (HZ i j Hi Hj) as [A B], (HZ' i j Hi Hj) as [A' B'], (S3 i j Hi Hj) as [-> ->]. rewrite A, B, A', B'. auto.
  - intros i j k Hi Hj Hk c. rewrite (SR i j k Hi Hj Hk : at_ src'' c = _). apply obeys3_lin; [apply H|apply H']; auto.
Qed.
End Comb.

(** ** Maximum principle for the schemes that keep fluxes nonnegative *)
Lemma is_RInt_same (f : R -> R) M h : (forall x, M = f x) -> is_RInt f 0 h (h * M).
Proof.
  intros U. apply (is_RInt_ext (fun _ => M)); [intros x _; apply U|].
  replace (h * M) with (scal (h - 0) M) by (unfold scal; cbn; unfold mult; cbn; ring).
  apply (@is_RInt_const R_NormedModule 0 h M).
Qed.
Lemma obeys1_const E s mu dx M : 0 < mu -> 0 < dx -> (if strict1 E then 0 < s else 0 <= s) -> obeys1 E s mu dx (s * M) M M M.
Proof.
  intros Hm Hd Hs. destruct E; cbn [obeys1 strict1] in *.
  - unfold balanced1, diamond, leak, Rdiv. split; [ring|lra].
  - unfold balanced1, leak, Rdiv. split; [ring|auto].
  - assert (Hk : s / mu <> 0) by (apply Rgt_not_eq, div_pos'; auto). intros f Hf.
    assert (U : forall x, M = f x).
    { intros x. rewrite (line_flux_unique x Hk Hf). field. lra. }
    split; [apply U|]. apply is_RInt_same. auto.
Qed.
Lemma obeys2_const E s mu eta dx dy M : (if strict2 E then 0 < s else 0 <= s) -> obeys2 E s mu eta dx dy (s * M) M M M M M.
Proof.
  intros Hs. unfold obeys2. split; [unfold balanced2, leak, Rdiv; ring|]. destruct E; cbn [strict2] in *.
  - unfold diamond, Rdiv. split; lra.
  - auto.
  - assert (T : forall q mu eta d y, q = s * M -> M = traced s q mu eta d M M y).
    { intros q m e d y ->. unfold traced, attenuated. destruct (Rle_dec _ _); field; lra. }
    split; apply is_RInt_same; intros; apply T; auto.
Qed.

Lemma Rabs_le_both x M : Rabs x <= M <-> - M <= x <= M.
Proof. split; intros H; [|apply Rabs_le; auto]. unfold Rabs in H. destruct (Rcase_abs x); lra. Qed.

Lemma obeys1_max E s mu dx q pin pc po M : E <> DD_1 -> 0 < mu -> 0 < dx -> (if strict1 E then 0 < s else 0 <= s) ->
  obeys1 E s mu dx q pin pc po -> Rabs q <= s * M -> Rabs pin <= M -> Rabs pc <= M /\ Rabs po <= M.
Proof.
  intros NE Hm Hd Hs H Hq Hp. rewrite Rabs_le_both in *. 
  pose proof (obeys1_const M Hm Hd Hs) as C.
  pose proof (obeys1_lin 1 (-1) Hm Hd Hs C H) as L1. pose proof (obeys1_lin 1 1 Hm Hd Hs C H) as L2.
  apply obeys1_nonneg in L1; auto; try lra. apply obeys1_nonneg in L2; auto; try lra.
  rewrite !Rabs_le_both. lra.
Qed.
Lemma obeys2_max E s mu eta dx dy q pv ph pc ov oh M : E <> DD_2 ->
  0 < mu -> 0 < eta -> 0 < dx -> 0 < dy -> (if strict2 E then 0 < s else 0 <= s) ->
  obeys2 E s mu eta dx dy q pv ph pc ov oh -> Rabs q <= s * M -> Rabs pv <= M -> Rabs ph <= M ->
  Rabs pc <= M /\ Rabs ov <= M /\ Rabs oh <= M.
Proof.
  intros NE Hm He Hd Hy Hs H Hq Hp Hp'. rewrite Rabs_le_both in *.
  pose proof (@obeys2_const E s mu eta dx dy M Hs) as C.
  pose proof (obeys2_lin 1 (-1) C H) as L1. pose proof (obeys2_lin 1 1 C H) as L2.
  apply obeys2_nonneg in L1; auto; try lra. apply obeys2_nonneg in L2; auto; try lra.
  rewrite !Rabs_le_both. lra.
Qed.

Lemma solves1_max E G d px src pin pout pc M : E <> DD_1 -> grid_ok 1 G -> sig_ok (strict1 E) G -> dir_ok 1 d ->
  Rabs pin <= M -> (forall i, (i < g_nx G)%nat -> Rabs (at_ src i) <= at_ (g_sig G) i * M) ->
  solves1 E G d px src pin pout pc -> forall i, (i < g_nx G)%nat -> Rabs (pc i) <= M.
Proof.
  intros NE HG HS HD Hp Hq (X & X0 & X1 & HX).
  destruct HG as (G1 & G2 & _ & _ & _ & G4). simpl in G4.
  assert (K : forall i, (i < g_nx G)%nat -> Rabs (pc i) <= M /\ Rabs (X (to px i)) <= M).
  { apply (@by_rank px). intros i Hi IH.
    assert (F : Rabs (X (from px i)) <= M).
    { destruct (@from_cases px _ i Hi) as [->|(i' & Hi' & -> & R)]; [rewrite X0; auto|]. apply IH; auto. lia. }
    apply (@obeys1_max E (at_ (g_sig G) i) (d_mu d) (at_ (g_dx G) i) (at_ src i) (X (from px i)) (pc i) (X (to px i))); auto.
    - apply HD.
    - apply (Forall_at G2). lia.
    - apply (Forall_at HS). lia. }
  intros i Hi. apply K. auto.
Qed.
Lemma solves2_max E G d px py src vin hin vout hout pc M : E <> DD_2 -> grid_ok 2 G -> sig_ok (strict2 E) G -> dir_ok 2 d ->
  (forall j, (j < g_ny G)%nat -> Rabs (at_ vin j) <= M) -> (forall i, (i < g_nx G)%nat -> Rabs (at_ hin i) <= M) ->
  (forall i j, (i < g_nx G)%nat -> (j < g_ny G)%nat -> let c := idx (g_nx G) (g_ny G) i j 0 in Rabs (at_ src c) <= at_ (g_sig G) c * M) ->
  solves2 E G d px py src vin hin vout hout pc -> forall i j, (i < g_nx G)%nat -> (j < g_ny G)%nat -> Rabs (pc i j) <= M.
Proof.
  intros NE HG HS HD Hv Hh Hq (X & Y & HX & HY & H).
  assert (K : forall i j, (i < g_nx G)%nat -> (j < g_ny G)%nat ->
    Rabs (pc i j) <= M /\ Rabs (X (to px i) j) <= M /\ Rabs (Y i (to py j)) <= M).
  { apply (@by_rank2 px py). intros i j Hi Hj IX IY.
    assert (F : Rabs (X (from px i) j) <= M).
    { destruct (@from_cases px _ i Hi) as [->|(i' & Hi' & -> & R)]; [|apply IX; auto].
      rewrite (proj1 (HX j Hj)). auto. }
    assert (F' : Rabs (Y i (from py j)) <= M).
    { destruct (@from_cases py _ j Hj) as [->|(j' & Hj' & -> & R)]; [|apply IY; auto].
      rewrite (proj1 (HY i Hi)). auto. }
    destruct (cell_data2 HG HS HD Hi Hj) as (D1 & D2 & D3 & D4 & D5). specialize (H i j Hi Hj).
    refine (@obeys2_max E _ _ _ _ _ _ _ _ _ _ _ M NE D1 D2 D3 D4 D5 H _ F F'). apply Hq; auto. }
  intros i j Hi Hj. apply K; auto.
Qed.

(** ** Energy estimate for the diamond and step schemes *)
Lemma obeys1_energy E s mu dx q pin pc po : E <> SC_1 -> 0 < mu -> 0 < dx -> obeys1 E s mu dx q pin pc po ->
  dx * (s * pc * pc) <= dx * (q * pc) + mu / 2 * (pin * pin - po * po).
Proof.
  intros NE Hm Hd H.
  assert (B : dx * q = mu * (po - pin) + dx * (s * pc)).
  { destruct E; cbn in H; [destruct H as [<- _]|destruct H as [<- _]|congruence]; unfold leak; field; lra. }
  replace (dx * (q * pc)) with (dx * q * pc) by ring. rewrite B.
  assert ((po * po - pin * pin) / 2 <= (po - pin) * pc).
  { destruct E; cbn in H; [|destruct H as [_ ->]|congruence].
    - destruct H as [_ H]. unfold diamond in H. subst pc. right. field.
    - pose proof (Rle_0_sqr (pc - pin)) as S1. unfold Rsqr in S1. lra. }
  assert (mu * ((po * po - pin * pin) / 2) <= mu * ((po - pin) * pc)) by (apply Rmult_le_compat_l; lra).
  lra.
Qed.
Lemma obeys2_energy E s mu eta dx dy q pv ph pc ov oh : E <> SC_2 -> 0 < mu -> 0 < eta -> 0 < dx -> 0 < dy ->
  obeys2 E s mu eta dx dy q pv ph pc ov oh ->
  dx * dy * (s * pc * pc) <= dx * dy * (q * pc) + mu / 2 * dy * (pv * pv - ov * ov) + eta / 2 * dx * (ph * ph - oh * oh).
Proof.
  intros NE Hm He Hd Hy (B & H).
  assert (B' : dx * dy * q = mu * dy * (ov - pv) + eta * dx * (oh - ph) + dx * dy * (s * pc)).
  { unfold balanced2, leak in B. rewrite <- B. field. lra. }
  replace (dx * dy * (q * pc)) with (dx * dy * q * pc) by ring. rewrite B'.
  assert ((ov * ov - pv * pv) / 2 <= (ov - pv) * pc /\ (oh * oh - ph * ph) / 2 <= (oh - ph) * pc) as [A1 A2].
  { destruct E; [|destruct H as [-> ->]|congruence].
    - destruct H as [H1 H2]. unfold diamond in *. split; right; [rewrite H1|rewrite H2]; field.
    - pose proof (Rle_0_sqr (pc - pv)) as S1. pose proof (Rle_0_sqr (pc - ph)) as S2. unfold Rsqr in S1, S2. split; lra. }
  pose proof (Rmult_lt_0_compat _ _ Hm Hy). pose proof (Rmult_lt_0_compat _ _ He Hd).
  assert (mu * dy * ((ov * ov - pv * pv) / 2) <= mu * dy * ((ov - pv) * pc)) by (apply Rmult_le_compat_l; lra).
  assert (eta * dx * ((oh * oh - ph * ph) / 2) <= eta * dx * ((oh - ph) * pc)) by (apply Rmult_le_compat_l; lra).
  lra.
Qed.
Lemma obeys3_energy s mu eta xi dx dy dz q p1 p2 p3 pc o1 o2 o3 : 0 < dx -> 0 < dy -> 0 < dz ->
  obeys3 s mu eta xi dx dy dz q p1 p2 p3 pc o1 o2 o3 ->
  dx * dy * dz * (s * pc * pc) = dx * dy * dz * (q * pc) + mu / 2 * (dy * dz) * (p1 * p1 - o1 * o1) +
    eta / 2 * (dx * dz) * (p2 * p2 - o2 * o2) + xi / 2 * (dx * dy) * (p3 * p3 - o3 * o3).
Proof.
  intros Hd Hy Hz (B & H1 & H2 & H3). unfold balanced3, leak in B. unfold diamond in *.
  assert (A1 : (o1 - p1) * pc = (o1 * o1 - p1 * p1) / 2) by (rewrite H1; field).
  assert (A2 : (o2 - p2) * pc = (o2 * o2 - p2 * p2) / 2) by (rewrite H2; field).
  assert (A3 : (o3 - p3) * pc = (o3 * o3 - p3 * p3) / 2) by (rewrite H3; field).
  rewrite <- B.
  transitivity (dx * dy * dz * (s * pc * pc) + mu * (dy * dz) * ((o1 - p1) * pc) + eta * (dx * dz) * ((o2 - p2) * pc) +
    xi * (dx * dy) * ((o3 - p3) * pc) + mu / 2 * (dy * dz) * (p1 * p1 - o1 * o1) +
    eta / 2 * (dx * dz) * (p2 * p2 - o2 * o2) + xi / 2 * (dx * dy) * (p3 * p3 - o3 * o3)).
  - rewrite A1, A2, A3. field.
  - field. lra.
Qed.

(** The solution of a problem with nothing entering. *)
Lemma energy1 E G d px src pout pc : E <> SC_1 -> grid_ok 1 G -> dir_ok 1 d -> solves1 E G d px src 0 pout pc ->
  rsum (g_nx G) (fun i => at_ (g_dx G) i * (at_ (g_sig G) i * pc i * pc i)) <=
  rsum (g_nx G) (fun i => at_ (g_dx G) i * (at_ src i * pc i)).
Proof.
  intros NE HG HD (X & X0 & X1 & HX). destruct HG as (G1 & G2 & _). destruct HD as (D1 & _).
  pose proof (telescope px (g_nx G) (fun i => X i * X i)) as T. cbv beta in T. rewrite X0, X1 in T.
  apply Rle_trans with (rsum (g_nx G) (fun i => at_ (g_dx G) i * (at_ src i * pc i) +
    - (d_mu d / 2) * (X (to px i) * X (to px i) - X (from px i) * X (from px i)))).
  - apply rsum_le. intros i Hi. assert (Hd : 0 < at_ (g_dx G) i) by (apply (Forall_at G2); lia).
    pose proof (obeys1_energy NE D1 Hd (HX i Hi)). lra.
  - rewrite rsum_plus, rsum_scal, T. pose proof (Rle_0_sqr pout) as S1. unfold Rsqr in S1. nra.
Qed.
Lemma energy2 E G d px py src vin hin vout hout pc : E <> SC_2 -> grid_ok 2 G -> dir_ok 2 d ->
  (forall j, at_ vin j = 0) -> (forall i, at_ hin i = 0) -> solves2 E G d px py src vin hin vout hout pc ->
  rsum (g_nx G) (fun i => rsum (g_ny G) (fun j => let c := idx (g_nx G) (g_ny G) i j 0 in
    at_ (g_dx G) i * at_ (g_dy G) j * (at_ (g_sig G) c * pc i j * pc i j))) <=
  rsum (g_nx G) (fun i => rsum (g_ny G) (fun j => let c := idx (g_nx G) (g_ny G) i j 0 in
    at_ (g_dx G) i * at_ (g_dy G) j * (at_ src c * pc i j))).
Proof.
  intros NE HG HD Zv Zh (X & Y & HX & HY & H). destruct HG as (G1 & G2 & G3 & _). destruct (G3 ltac:(lia)) as [G3a G3b].
  destruct HD as (D1 & D2 & _). specialize (D2 ltac:(lia)).
  assert (TX : rsum (g_nx G) (fun i => rsum (g_ny G) (fun j => at_ (g_dy G) j * (X (to px i) j * X (to px i) j - X (from px i) j * X (from px i) j))) =
               rsum (g_ny G) (fun j => at_ (g_dy G) j * (at_ vout j * at_ vout j))).
  { rewrite rsum_swap. apply rsum_ext. intros j Hj. rewrite rsum_scal, (telescope px (g_nx G) (fun i => X i j * X i j)).
    cbv beta. destruct (HX j Hj) as [A B]. rewrite A, B, Zv. ring. }
  assert (TY : rsum (g_nx G) (fun i => rsum (g_ny G) (fun j => at_ (g_dx G) i * (Y i (to py j) * Y i (to py j) - Y i (from py j) * Y i (from py j)))) =
               rsum (g_nx G) (fun i => at_ (g_dx G) i * (at_ hout i * at_ hout i))).
  { apply rsum_ext. intros i Hi. rewrite rsum_scal, (telescope py (g_ny G) (fun j => Y i j * Y i j)).
    cbv beta. destruct (HY i Hi) as [A B]. rewrite A, B, Zh. ring. }
  assert (PX : 0 <= rsum (g_ny G) (fun j => at_ (g_dy G) j * (at_ vout j * at_ vout j))).
  { apply rsum_nonneg. intros j Hj. assert (0 < at_ (g_dy G) j) by (apply (Forall_at G3b); lia). nra. }
  assert (PY : 0 <= rsum (g_nx G) (fun i => at_ (g_dx G) i * (at_ hout i * at_ hout i))).
  { apply rsum_nonneg. intros i Hi. assert (0 < at_ (g_dx G) i) by (apply (Forall_at G2); lia). nra. }
  rewrite <- TX in PX. rewrite <- TY in PY.
  cbv zeta.
  apply Rle_trans with (rsum (g_nx G) (fun i => rsum (g_ny G) (fun j => at_ (g_dx G) i * at_ (g_dy G) j * (at_ src (idx (g_nx G) (g_ny G) i j 0) * pc i j)))
    + - (d_mu d / 2) * rsum (g_nx G) (fun i => rsum (g_ny G) (fun j => at_ (g_dy G) j * (X (to px i) j * X (to px i) j - X (from px i) j * X (from px i) j)))
    + - (d_eta d / 2) * rsum (g_nx G) (fun i => rsum (g_ny G) (fun j => at_ (g_dx G) i * (Y i (to py j) * Y i (to py j) - Y i (from py j) * Y i (from py j))))).
  - rewrite <- !rsum_scal, <- !rsum_plus. apply rsum_le. intros i Hi. rewrite <- !rsum_scal, <- !rsum_plus.
    apply rsum_le. intros j Hj.
    assert (Hd : 0 < at_ (g_dx G) i) by (apply (Forall_at G2); lia).
    assert (Hy : 0 < at_ (g_dy G) j) by (apply (Forall_at G3b); lia).
    pose proof (obeys2_energy NE D1 D2 Hd Hy (H i j Hi Hj)). lra.
  - apply Rmult_le_compat_l with (r := d_mu d / 2) in PX; [|lra]. apply Rmult_le_compat_l with (r := d_eta d / 2) in PY; [|lra]. lra.
Qed.
Lemma energy3 G d px py pz src a1 a2 a3 b1 b2 b3 pc : grid_ok 3 G -> dir_ok 3 d ->
  (forall k j, at2 a1 k j = 0) -> (forall k i, at2 a2 k i = 0) -> (forall j i, at2 a3 j i = 0) ->
  solves3 G d px py pz src a1 a2 a3 b1 b2 b3 pc ->
  rsum (g_nx G) (fun i => rsum (g_ny G) (fun j => rsum (g_nz G) (fun k => let c := idx (g_nx G) (g_ny G) i j k in
    at_ (g_dx G) i * at_ (g_dy G) j * at_ (g_dz G) k * (at_ (g_sig G) c * pc i j k * pc i j k)))) <=
  rsum (g_nx G) (fun i => rsum (g_ny G) (fun j => rsum (g_nz G) (fun k => let c := idx (g_nx G) (g_ny G) i j k in
    at_ (g_dx G) i * at_ (g_dy G) j * at_ (g_dz G) k * (at_ src c * pc i j k)))).
Proof.
  intros HG HD Z1 Z2 Z3 (X & Y & Z & HX & HY & HZ & H). destruct HG as (G1 & G2 & G3 & G4 & _).
  destruct (G3 ltac:(lia)) as [G3a G3b]. destruct (G4 ltac:(lia)) as [G4a G4b].
  destruct HD as (D1 & D2 & D3). specialize (D2 ltac:(lia)). specialize (D3 ltac:(lia)).
  set (nx := g_nx G) in *. set (ny := g_ny G) in *. set (nz := g_nz G) in *.
  set (hx := at_ (g_dx G)) in *. set (hy := at_ (g_dy G)) in *. set (hz := at_ (g_dz G)) in *.
  assert (Px : forall i, (i < nx)%nat -> 0 < hx i) by (intros; apply (Forall_at G2); lia).
  assert (Py : forall i, (i < ny)%nat -> 0 < hy i) by (intros; apply (Forall_at G3b); lia).
  assert (Pz : forall i, (i < nz)%nat -> 0 < hz i) by (intros; apply (Forall_at G4b); lia).
  set (QX := fun i j k => hy j * hz k * (X (to px i) j k * X (to px i) j k - X (from px i) j k * X (from px i) j k)).
  set (QY := fun i j k => hx i * hz k * (Y i (to py j) k * Y i (to py j) k - Y i (from py j) k * Y i (from py j) k)).
  set (QZ := fun i j k => hx i * hy j * (Z i j (to pz k) * Z i j (to pz k) - Z i j (from pz k) * Z i j (from pz k))).
  assert (PX : 0 <= rsum nx (fun i => rsum ny (fun j => rsum nz (fun k => QX i j k)))).
  { rewrite rsum_swap. apply rsum_nonneg. intros j Hj. rewrite rsum_swap. apply rsum_nonneg. intros k Hk.
    unfold QX. rewrite rsum_scal, (telescope px nx (fun i => X i j k * X i j k)).
    cbv beta. destruct (HX j k Hj Hk) as [A B]. rewrite A, B, Z1. pose proof (Rmult_lt_0_compat _ _ (Py j Hj) (Pz k Hk)).
    apply Rmult_le_pos; nra. }
  assert (PY : 0 <= rsum nx (fun i => rsum ny (fun j => rsum nz (fun k => QY i j k)))).
  { apply rsum_nonneg. intros i Hi. rewrite rsum_swap. apply rsum_nonneg. intros k Hk.
    unfold QY. rewrite rsum_scal, (telescope py ny (fun j => Y i j k * Y i j k)).
    cbv beta. destruct (HY i k Hi Hk) as [A B]. rewrite A, B, Z2. pose proof (Rmult_lt_0_compat _ _ (Px i Hi) (Pz k Hk)).
    apply Rmult_le_pos; nra. }
  assert (PZ : 0 <= rsum nx (fun i => rsum ny (fun j => rsum nz (fun k => QZ i j k)))).
  { apply rsum_nonneg. intros i Hi. apply rsum_nonneg. intros j Hj.
    unfold QZ. rewrite rsum_scal, (telescope pz nz (fun k => Z i j k * Z i j k)).
    cbv beta. destruct (HZ i j Hi Hj) as [A B]. rewrite A, B, Z3. pose proof (Rmult_lt_0_compat _ _ (Px i Hi) (Py j Hj)).
    apply Rmult_le_pos; nra. }
  cbv zeta.
  apply Rle_trans with (rsum nx (fun i => rsum ny (fun j => rsum nz (fun k => hx i * hy j * hz k * (at_ src (idx nx ny i j k) * pc i j k))))
    + - (d_mu d / 2) * rsum nx (fun i => rsum ny (fun j => rsum nz (fun k => QX i j k)))
    + - (d_eta d / 2) * rsum nx (fun i => rsum ny (fun j => rsum nz (fun k => QY i j k)))
    + - (d_xi d / 2) * rsum nx (fun i => rsum ny (fun j => rsum nz (fun k => QZ i j k)))).
  - right. rewrite <- !rsum_scal, <- !rsum_plus. apply rsum_ext. intros i Hi. rewrite <- !rsum_scal, <- !rsum_plus.
    apply rsum_ext. intros j Hj. rewrite <- !rsum_scal, <- !rsum_plus. apply rsum_ext. intros k Hk.
    pose proof (obeys3_energy (Px i Hi) (Py j Hj) (Pz k Hk) (H i j k Hi Hj Hk)) as EN. fold nx ny hx hy hz in EN.
    rewrite EN. unfold QX, QY, QZ. ring.
  - apply Rmult_le_compat_l with (r := d_mu d / 2) in PX; [|lra]. apply Rmult_le_compat_l with (r := d_eta d / 2) in PY; [|lra].
    apply Rmult_le_compat_l with (r := d_xi d / 2) in PZ; [|lra]. lra.
Qed.
