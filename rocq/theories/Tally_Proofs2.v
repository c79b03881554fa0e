(** * Tally_Proofs2: one angle, one and two dimensions. *)
From Coquelicot Require Import Coquelicot.
From Verif Require Import Base BaseR Loop Mesh_Model Mesh_Proofs Angle_Model Angle_Spec Boundary_Model Boundary_Spec
  Cell_Model Cell_Spec Cell_Proofs Sweep_Model Sweep_Spec Sweep_Proofs Region_Model Region_Spec Region_Proofs Tally_Model Tally_Spec
  Tally_Proofs.
Open Scope nat_scope.
Set Implicit Arguments. Unset Strict Implicit.
Local Notation idx := Mesh_Model.index.

Lemma rsum_rank pos n (f : nat -> R) : rsum n (fun ii => f (rank pos n ii)) = rsum n f.
Proof. destruct pos; cbn [rank]; auto. rewrite (rsum_rev n f). reflexivity. Qed.
(** Every face is met once: the one entered, and the one left in each cell. *)
Lemma faces_met pos n (f : nat -> R) :
  (f (entry pos n) + rsum n (fun i => f (to pos i)))%R = rsum (S n) f.
Proof.
  destruct pos; unfold entry, to.
  - change (S n) with (1 + n). rewrite rsum_split. cbn [rsum]. rewrite Rplus_0_l. reflexivity.
  - cbn [rsum]. apply Rplus_comm.
Qed.

(** ** One dimension *)
Section T1.
Variables (E : scheme1) (G : grid) (C : cmesh) (d : dir) (keep : bool) (o : nat) (src : list R).
Variables (pin : R) (phi0 psi0 : list R) (T0 : tally).
Hypothesis Ho : o < 8.
Hypothesis HG : grid_ok 1 G.
Hypothesis F : coarse_facts 1 G C.
Let nx := g_nx G.
Hypothesis Hn : 1 < nx.
Hypothesis Hsrc : length src = nx * 1 * 1.
Hypothesis Hphi : length phi0 = nx * 1 * 1.
Hypothesis Hpsi : keep = true -> length psi0 = nx * 1 * 1.
Hypothesis HT : tally_for C T0.
Let px := positive o 0.
Let Ce (i : nat) := cell1 E (at_ (g_sig G) i) (d_mu d) (at_ (g_dx G) i) (at_ src i).
Let FW := fw nx px Ce pin.
Let FC := fc1 nx px Ce pin.
Let rx := rank px nx.

Lemma nw1 : length (fine_widths 1 G 0) = nx /\ length (fine_widths 1 G 1) = 1 /\ length (fine_widths 1 G 2) = 1.
Proof. split; [|split; reflexivity]. cbn. apply HG. Qed.
Lemma tally_out1_ok i psi T : tally_for C T -> i < nx ->
  exists T', tally_out1 C d o (Z.of_nat i) psi T = Ok T' /\ tally_for C T' /\
  forall e, val T' e = (val T e + contrib C d o e 0%nat (to px i) (i, 0%nat, 0%nat) psi)%R.
Proof.
  intros HT' Hi. destruct nw1 as (N0 & N1 & N2). unfold tally_out1.
  replace (Z.of_nat i + Z.of_nat (shift 0 o))%Z with (Z.of_nat (to px i))
    by (rewrite shift_positive by lia; unfold to; fold px; destruct px; lia).
  set (f := to px i). assert (Hf : f <= nx) by (unfold f, to; destruct px; lia).
  rewrite (@rdz_nat _ (c_flag (cm_of C 0)) f 0%Z) by (rewrite (flag_len F) by lia; lia). cbn [bind].
  fold (flag C 0 f). destruct (flag C 0 f >=? 0)%Z eqn:EF.
  - destruct (@flag_nonneg 1 G C F 0 f ltac:(lia) ltac:(lia) EF) as (I & HI & EI).
    assert (EFa : face_of C 0 I (i, 0, 0) = I).
    { unfold face_of, cmap. cbn [Nat.eqb co]. rewrite !(cf_unused F) by lia. cbn. lia. }
    assert (EA : area C 0 (i, 0, 0) = 1%R).
    { unfold area. cbn [perp fst snd co]. rewrite (cf_w F). unfold fine_widths. cbn. lra. }
    rewrite EI. destruct (@bump_ok C T 0 (shift 0 o) I (psi * d_mu d * d_w d)%R HT') as (T' & E' & HT2 & V).
    + lia.
    + apply shift_lt; lia.
    + rewrite <- EFa. apply (@face_of_lt 1 G C ltac:(lia) F o Ho); auto. intros d' Hd' N. destruct d' as [|[|[|d']]]; cbn [co]; lia.
    + exists T'. split; auto. split; auto. intros e. rewrite V. unfold contrib. rewrite EF, EI, Nat2Z.id, EFa, EA. cbn [andb cosine].
      destruct (hit e 0 (shift 0 o) I); [ring|reflexivity].
  - exists T. split; auto. split; auto. intros e. unfold contrib. rewrite EF. cbn. lra.
Qed.

Lemma sweep1_t_run : exists phi psi T,
  sweep1_t E G C d keep o src pin phi0 psi0 T0 = Ok (FW nx, phi, psi, T) /\
  tab3 nx 1 1 phi (fun i j k => at_ phi0 (idx nx 1 i j k) + d_w d * fst (FC (rx i)))%R /\
  (keep = true -> tab3 nx 1 1 psi (fun i j k => fst (FC (rx i)))) /\
  (keep = false -> psi = psi0) /\ tally_for C T /\
  forall e, val T e = (val T0 e + rsum (S nx) (fun f => contrib C d o e 0%nat f (0%nat, 0%nat, 0%nat) (FW (frank px nx f))))%R.
Proof.
  unfold sweep1_t. fold nx.
  destruct (space_range o 0 nx) as [i0 di] eqn:Hsx.
  rewrite space_range_ok in Hsx by (auto; lia). fold px in Hsx. symmetry in Hsx.
  destruct nw1 as (N0 & N1 & N2).
  assert (Ei0 : i0 = Z.of_nat (if px then 0 else nx - 1)) by (destruct px; injection Hsx as -> _; lia).
  destruct (@tally_in_ok 1 G C ltac:(lia) F d o Ho 0 (if px then 0 else nx - 1, 0, 0) pin T0 HT ltac:(lia)) as (T1 & ET & HT1 & V1).
  { lia. } { cbn [co]. fold px. rewrite N0. reflexivity. }
  { intros d' Hd'. destruct d' as [|[|[|d']]]; cbn [co]; try lia. rewrite N0. destruct px; lia. }
  cbn [zs] in ET. rewrite <- Ei0 in ET. change (Z.of_nat 0) with 0%Z in ET. rewrite ET. cbn [bind].
  (* in one dimension the contribution does not depend on the cell *)
  assert (CX : forall e f x y p, contrib C d o e 0 f (x, 0, 0) p = contrib C d o e 0 f (y, 0, 0) p).
  { intros. reflexivity. }
  destruct (@for_inv _ (fun ii st => let '(i, v, phi, psi, T) := st in
     at_index px nx ii i /\ v = FW ii /\ Kphi E G d o src pin phi0 ii phi /\ Kpsi E G d keep o src pin psi0 ii psi /\
     tally_for C T /\ forall e, val T e = (val T1 e + rsum ii (fun ii => contrib C d o e 0%nat (to px (rx ii)) (0%nat, 0%nat, 0%nat) (FW (S ii))))%R)
     0 nx (i0, pin, phi0, psi0, T1)
     (fun _ st =>
      let '(i, po, phi, psi, T) := st in
      do r <- solve1 E G d keep src i po phi psi;
      let '(po, phi, psi) := r in
      do T <- tally_out1 C d o i po T;
      Ok ((i + di)%Z, po, phi, psi, T))) as (st & EE & P).
  - lia.
  - split; [eapply at_start; eauto|]. split; [reflexivity|]. unfold Kphi, Kpsi. fold nx px. split; [|split; [|split; [auto|intros e; cbn [rsum]; lra]]].
    + split; auto. intros. unfold done3. bcase; unfold at_; lra.
    + split; auto. intros. split; auto. intros. unfold done3. bcase.
  - intros ii [[[[i v] phi1] psi1] T] [_ Hi] (A & -> & J4 & J5 & J6 & J7).
    pose proof (A Hi) as EA. fold rx in EA. subst i.
    destruct (@inv1_cell E G d keep o src pin phi0 psi0 Ho HG Hsrc Hphi Hpsi ii phi1 psi1 Hi J4 J5) as (phi' & psi' & S1 & K1 & K2).
    fold nx px Ce FW rx in S1. rewrite S1. cbn [bind].
    pose proof (rank_lt px Hi) as Ri. fold rx in Ri.
    destruct (@tally_out1_ok (rx ii) (FW (S ii)) T J6 Ri) as (T' & E' & HT' & V'). rewrite E'. cbn [bind].
    eexists. split; [reflexivity|]. split; [eapply at_next; eauto|]. split; [auto|]. split; [auto|]. split; [auto|]. split; [auto|].
    intros e. rewrite V', J7. cbn [rsum]. rewrite (CX e _ (rx ii) 0). lra.
  - destruct st as [[[[i v] phi1] psi1] T]. rewrite EE. cbn [bind]. destruct P as (_ & -> & J4 & J5 & J6 & J7).
    exists phi1, psi1, T. split; [auto|]. destruct J5 as (J5 & J5').
    unfold Kphi, Kpsi in *. fold nx px Ce FC rx in J4, J5.
    split; [|split; [|split; [auto|split; [auto|]]]].
    + eapply tab3_ext; [apply J4|]. intros i' j' k' Hi' Hj' Hk'. pose proof (rank_lt px Hi') as Rk. fold rx in Rk. cbv beta.
      unfold done3. rewrite (proj2 (Nat.ltb_lt _ _) Rk). bcase.
    + intros Hkp. eapply tab3_ext; [apply J5; auto|]. intros i' j' k' Hi' Hj' Hk'. pose proof (rank_lt px Hi') as Rk. fold rx in Rk. cbv beta.
      unfold done3. rewrite (proj2 (Nat.ltb_lt _ _) Rk). bcase.
    + intros e. rewrite J7, V1. rewrite <- (@faces_met px nx). rewrite frank_entry.
      rewrite (CX e _ _ 0). fold px. rewrite N0. change (FW 0) with pin.
      rewrite <- (@rsum_rank px nx (fun i => contrib C d o e 0%nat (to px i) (0%nat, 0%nat, 0%nat) (FW (frank px nx (to px i))))).
      rewrite Rplus_assoc. f_equal. f_equal. apply rsum_ext. intros ii Hi. pose proof (rank_lt px Hi) as Ri.
      rewrite frank_to by auto. rewrite rank_inv by auto. reflexivity.
Qed.
End T1.

(** ** Two dimensions *)
Section T2.
Variables (E : scheme2) (G : grid) (C : cmesh) (d : dir) (keep : bool) (o : nat) (src : list R).
Variables (pv0 ph0 phi0 psi0 : list R) (T0 : tally).
Hypothesis Ho : o < 4.
Hypothesis HG : grid_ok 2 G.
Hypothesis F : coarse_facts 2 G C.
Let nx := g_nx G. Let ny := g_ny G.
Hypothesis Hnx : 1 < nx.
Hypothesis Hny : 1 < ny.
Hypothesis Hsrc : length src = nx * ny * 1.
Hypothesis Hpv : length pv0 = ny.
Hypothesis Hph : length ph0 = nx.
Hypothesis Hphi : length phi0 = nx * ny * 1.
Hypothesis Hpsi : keep = true -> length psi0 = nx * ny * 1.
Hypothesis HT : tally_for C T0.
Let px := positive o 0. Let py := positive o 1.
Let Ce (i j : nat) := cell2 E (at_ (g_sig G) (idx nx ny i j 0)) (d_mu d) (d_eta d)
  (at_ (g_dx G) i) (at_ (g_dy G) j) (at_ src (idx nx ny i j 0)).
Let FV := fv nx ny px py Ce (at_ pv0) (at_ ph0).
Let FH := fh nx ny px py Ce (at_ pv0) (at_ ph0).
Let FC := fc2 nx ny px py Ce (at_ pv0) (at_ ph0).
Let rx := rank px nx. Let ry := rank py ny.

Lemma nw2 : length (fine_widths 2 G 0) = nx /\ length (fine_widths 2 G 1) = ny /\ length (fine_widths 2 G 2) = 1.
Proof. destruct HG as (G1 & _ & G2 & _). destruct (G2 ltac:(lia)) as [G2a _]. cbn. auto. Qed.
Lemma neg_x : (o =? 1) || (o =? 2) = negb px.
Proof. unfold px. clear - Ho. destruct o as [|[|[|[|o']]]]; try reflexivity. lia. Qed.
Lemma neg_y : (1 <? o) = negb py.
Proof. unfold py. clear - Ho. destruct o as [|[|[|[|o']]]]; try reflexivity. lia. Qed.
Lemma in_range2 i j : i < nx -> j < ny -> forall d', d' < 3 -> co (i, j, 0) d' < length (fine_widths 2 G d').
Proof. intros Hi Hj d' Hd'. destruct nw2 as (N0 & N1 & N2). destruct d' as [|[|[|d']]]; cbn [co]; lia. Qed.

Definition cx (e : entry3) (f j : nat) (p : R) : R := contrib C d o e 0 f (0, j, 0) p.
Definition cy (e : entry3) (i f : nat) (p : R) : R := contrib C d o e 1 f (i, 0, 0) p.
Lemma cx_any e f i j p : contrib C d o e 0 f (i, j, 0) p = cx e f j p. Proof. reflexivity. Qed.
Lemma cy_any e f i j p : contrib C d o e 1 f (i, j, 0) p = cy e i f p. Proof. reflexivity. Qed.

Lemma tally_out2_ok i j v h T : tally_for C T -> i < nx -> j < ny ->
  exists T', tally_out C d o (Z.of_nat i, Z.of_nat j, 0%Z) [v; h] T = Ok T' /\ tally_for C T' /\
  forall e, val T' e = (val T e + (cx e (to px i) j v + cy e i (to py j) h))%R.
Proof.
  intros HT' Hi Hj. unfold tally_out. rewrite (cf_dim F). cbn [seq foldM].
  change (Z.of_nat i, Z.of_nat j, 0%Z) with (zs (i, j, 0)). cbn [rd nth_error bind].
  destruct (@out_step 2 G C ltac:(lia) F d o ltac:(lia) 0 (i, j, 0) v T HT' ltac:(lia) (in_range2 Hi Hj)) as (T1 & E1 & HT1 & V1).
  rewrite E1. cbn [bind].
  destruct (@out_step 2 G C ltac:(lia) F d o ltac:(lia) 1 (i, j, 0) h T1 HT1 ltac:(lia) (in_range2 Hi Hj)) as (T2 & E2 & HT2 & V2).
  rewrite E2. cbn [bind]. exists T2. split; auto. split; auto. intros e. rewrite V2, V1, cx_any, cy_any. cbn [co]. fold px py. lra.
Qed.

Lemma incident_x : exists T1, for_ 0 ny T0 (fun jj T =>
    let i := if (o =? 1) || (o =? 2) then (Z.of_nat nx - 1)%Z else 0%Z in
    let j := if 1 <? o then (Z.of_nat ny - Z.of_nat jj - 1)%Z else Z.of_nat jj in
    do v <- rdz pv0 j; tally_in C d o (i, j, 0%Z) 0 v T) = Ok T1 /\ tally_for C T1 /\
  forall e, val T1 e = (val T0 e + rsum ny (fun j => cx e (entry px nx) j (at_ pv0 j)))%R.
Proof.
  destruct nw2 as (N0 & N1 & N2).
  match goal with |- exists T1, for_ 0 ny T0 ?B = _ /\ _ =>
    destruct (@for_inv _ (fun jj T => tally_for C T /\
      forall e, val T e = (val T0 e + rsum jj (fun jj => cx e (entry px nx) (ry jj) (at_ pv0 (ry jj))))%R) 0 ny T0 B) as (T1 & EE & P1 & P2) end.
  - lia.
  - split; auto. intros e. cbn [rsum]. lra.
  - intros jj T [_ Hj] (I1 & I2). cbv zeta. rewrite neg_x, neg_y.
    pose proof (rank_lt py Hj) as Rj. fold ry in Rj.
    replace (if negb py then (Z.of_nat ny - Z.of_nat jj - 1)%Z else Z.of_nat jj) with (Z.of_nat (ry jj))
      by (unfold ry, rank; destruct py; cbn [negb]; lia).
    replace (if negb px then (Z.of_nat nx - 1)%Z else 0%Z) with (Z.of_nat (if px then 0 else nx - 1)) by (destruct px; cbn [negb]; lia).
    rewrite (@rdz_nat _ pv0 (ry jj) 0%R) by lia. cbn [bind].
    assert (Hi0 : (if px then 0 else nx - 1) < nx) by (destruct px; lia).
    destruct (@tally_in_ok 2 G C ltac:(lia) F d o ltac:(lia) 0 (if px then 0 else nx - 1, ry jj, 0) (nth (ry jj) pv0 0%R) T I1 ltac:(lia)) as (T' & E' & HT' & V').
    { lia. } { cbn [co]. fold px. rewrite N0. reflexivity. } { apply in_range2; auto. }
    cbn [zs] in E'. change (Z.of_nat 0) with 0%Z in E'. rewrite E'. exists T'. split; auto. split; auto.
    intros e. rewrite V', I2, cx_any. cbn [rsum]. fold px. rewrite N0. unfold at_. lra.
  - exists T1. split; auto. split; auto. intros e. rewrite P2. f_equal.
    apply (@rsum_rank py ny (fun j => cx e (entry px nx) j (at_ pv0 j))).
Qed.
Lemma incident_y T1 : tally_for C T1 -> exists T2, for_ 0 nx T1 (fun ii T =>
    let j := if 1 <? o then (Z.of_nat ny - 1)%Z else 0%Z in
    let i := if (o =? 1) || (o =? 2) then (Z.of_nat nx - Z.of_nat ii - 1)%Z else Z.of_nat ii in
    do h <- rdz ph0 i; tally_in C d o (i, j, 0%Z) 1 h T) = Ok T2 /\ tally_for C T2 /\
  forall e, val T2 e = (val T1 e + rsum nx (fun i => cy e i (entry py ny) (at_ ph0 i)))%R.
Proof.
  intros HT1. destruct nw2 as (N0 & N1 & N2).
  match goal with |- exists T2, for_ 0 nx T1 ?B = _ /\ _ =>
    destruct (@for_inv _ (fun ii T => tally_for C T /\
      forall e, val T e = (val T1 e + rsum ii (fun ii => cy e (rx ii) (entry py ny) (at_ ph0 (rx ii))))%R) 0 nx T1 B) as (T2 & EE & P1 & P2) end.
  - lia.
  - split; auto. intros e. cbn [rsum]. lra.
  - intros ii T [_ Hi] (I1 & I2). cbv zeta. rewrite neg_x, neg_y.
    pose proof (rank_lt px Hi) as Ri. fold rx in Ri.
    replace (if negb px then (Z.of_nat nx - Z.of_nat ii - 1)%Z else Z.of_nat ii) with (Z.of_nat (rx ii))
      by (unfold rx, rank; destruct px; cbn [negb]; lia).
    replace (if negb py then (Z.of_nat ny - 1)%Z else 0%Z) with (Z.of_nat (if py then 0 else ny - 1)) by (destruct py; cbn [negb]; lia).
    rewrite (@rdz_nat _ ph0 (rx ii) 0%R) by lia. cbn [bind].
    assert (Hj0 : (if py then 0 else ny - 1) < ny) by (destruct py; lia).
    destruct (@tally_in_ok 2 G C ltac:(lia) F d o ltac:(lia) 1 (rx ii, if py then 0 else ny - 1, 0) (nth (rx ii) ph0 0%R) T I1 ltac:(lia)) as (T' & E' & HT' & V').
    { lia. } { cbn [co]. fold py. rewrite N1. reflexivity. } { apply in_range2; auto. }
    cbn [zs] in E'. change (Z.of_nat 0) with 0%Z in E'. rewrite E'. exists T'. split; auto. split; auto.
    intros e. rewrite V', I2, cy_any. cbn [rsum]. fold py. rewrite N1. unfold at_. lra.
  - exists T2. split; auto. split; auto. intros e. rewrite P2. f_equal.
    apply (@rsum_rank px nx (fun i => cy e i (entry py ny) (at_ ph0 i))).
Qed.

Definition delta (e : entry3) (jj ii : nat) : R :=
  (cx e (to px (rx ii)) (ry jj) (FV jj (S ii)) + cy e (rx ii) (to py (ry jj)) (FH (S jj) ii))%R.
Let Jv' := Jv E G d o src pv0 ph0.
Let Jh' := Jh E G d o src pv0 ph0.
Let Jphi' := Jphi E G d o src pv0 ph0 phi0.
Let Jpsi' := Jpsi E G d keep o src pv0 ph0 psi0.

Lemma row2_t jj i0 di j v ph phi psi T : jj < ny ->
  (i0, di) = space_range o 0 nx -> j = Z.of_nat (ry jj) -> v = FV jj 0 ->
  Jh' jj 0 ph -> Jphi' jj 0 phi -> Jpsi' jj 0 psi -> tally_for C T ->
  exists i ph' phi' psi' T',
  for_ 0 nx (i0, v, ph, phi, psi, T) (fun _ st =>
      let '(i, v, ph, phi, psi, T) := st in
      do h <- rdz ph i;
      do r <- solve2 E G d keep src i j v h phi psi;
      let '(v, h, phi, psi) := r in
      do ph <- wrz ph i h;
      do T <- tally_out C d o (i, j, 0%Z) [v; h] T;
      Ok ((i + di)%Z, v, ph, phi, psi, T)) = Ok (i, FV jj nx, ph', phi', psi', T') /\
  Jh' jj nx ph' /\ Jphi' jj nx phi' /\ Jpsi' jj nx psi' /\ tally_for C T' /\
  forall e, val T' e = (val T e + rsum nx (delta e jj))%R.
Proof.
  intros Hj Hsr -> -> I2 I4 I5 I6.
  rewrite space_range_ok in Hsr by lia. fold px in Hsr.
  destruct (@for_inv _ (fun ii st => let '(i, v, ph, phi, psi, T1) := st in
     at_index px nx ii i /\ v = FV jj ii /\ Jh' jj ii ph /\ Jphi' jj ii phi /\ Jpsi' jj ii psi /\ tally_for C T1 /\
     forall e, val T1 e = (val T e + rsum ii (delta e jj))%R)
     0 nx (i0, FV jj 0, ph, phi, psi, T)
     (fun _ st =>
      let '(i, v, ph, phi, psi, T) := st in
      do h <- rdz ph i;
      do r <- solve2 E G d keep src i (Z.of_nat (ry jj)) v h phi psi;
      let '(v, h, phi, psi) := r in
      do ph <- wrz ph i h;
      do T <- tally_out C d o (i, Z.of_nat (ry jj), 0%Z) [v; h] T;
      Ok ((i + di)%Z, v, ph, phi, psi, T))) as (st & EE & P).
  - lia.
  - split; [eapply at_start; eauto|]. repeat (split; auto). intros e. cbn [rsum]. lra.
  - intros ii [[[[[i v] ph1] phi1] psi1] T1] [_ Hi] (A & -> & J2 & J4 & J5 & J6 & J7).
    pose proof (A Hi) as EA. fold rx in EA. subst i.
    destruct (@inv2_cell E G d keep o src pv0 ph0 phi0 psi0 ltac:(lia) HG Hsrc Hpv Hph Hphi Hpsi jj ii ph1 phi1 psi1 Hj Hi J2 J4 J5) as (R1 & ph' & phi' & psi' & S1 & W1 & K2 & K4 & K5).
    fold nx ny px py in R1, S1, W1. fold Ce in R1, S1, W1. fold FV FH rx ry in R1, S1, W1.
    rewrite R1. cbn [bind]. rewrite S1. cbn [bind]. rewrite W1. cbn [bind].
    pose proof (rank_lt px Hi) as Ri. fold rx in Ri. pose proof (rank_lt py Hj) as Rj. fold ry in Rj.
    destruct (@tally_out2_ok (rx ii) (ry jj) (FV jj (S ii)) (FH (S jj) ii) T1 J6 Ri Rj) as (T' & E' & HT' & V'). rewrite E'. cbn [bind].
    eexists. split; [reflexivity|]. split; [eapply at_next; eauto|]. repeat (split; auto).
    intros e. rewrite V', J7. cbn [rsum]. unfold delta at 3. lra.
  - destruct st as [[[[[i v] ph1] phi1] psi1] T1]. destruct P as (_ & -> & P).
    exists i, ph1, phi1, psi1, T1. split; auto.
Qed.

Lemma sweep2_t_run : exists pv ph phi psi T,
  sweep2_t E G C d keep o src pv0 ph0 phi0 psi0 T0 = Ok (pv, ph, phi, psi, T) /\
  tab ny pv (fun j => FV (ry j) nx) /\
  tab nx ph (fun i => FH ny (rx i)) /\
  tab3 nx ny 1 phi (fun i j k => at_ phi0 (idx nx ny i j k) + d_w d * fst (FC (ry j) (rx i)))%R /\
  (keep = true -> tab3 nx ny 1 psi (fun i j k => fst (FC (ry j) (rx i)))) /\
  (keep = false -> psi = psi0) /\ tally_for C T /\
  forall e, val T e = (val T0 e + (rsum ny (fun j => rsum (S nx) (fun f => cx e f j (FV (ry j) (frank px nx f)))) +
    rsum nx (fun i => rsum (S ny) (fun f => cy e i f (FH (frank py ny f) (rx i))))))%R.
Proof.
  unfold sweep2_t. fold nx ny. cbv zeta.
  destruct incident_x as (T1 & ET1 & HT1 & V1). cbv zeta in ET1. rewrite ET1. cbn [bind].
  destruct (incident_y HT1) as (T2 & ET2 & HT2 & V2). cbv zeta in ET2. rewrite ET2. cbn [bind].
  destruct (space_range o 1 ny) as [j0 dj] eqn:Hsy.
  pose proof Hsy as Hsr'. rewrite space_range_ok in Hsr' by lia. fold py in Hsr'. symmetry in Hsr'.
  destruct (@for_inv _ (fun jj st => let '(j, pv, ph, phi, psi, T) := st in
     at_index py ny jj j /\ Jv' jj pv /\ Jh' jj 0 ph /\ Jphi' jj 0 phi /\ Jpsi' jj 0 psi /\ tally_for C T /\
     forall e, val T e = (val T2 e + rsum jj (fun jj => rsum nx (delta e jj)))%R)
     0 ny (j0, pv0, ph0, phi0, psi0, T2)
     (fun _ st =>
        let '(j, pv, ph, phi, psi, T) := st in
        do v <- rdz pv j;
        let (i0, di) := space_range o 0 nx in
        do st <- for_ 0 nx (i0, v, ph, phi, psi, T) (fun _ st =>
          let '(i, v, ph, phi, psi, T) := st in
          do h <- rdz ph i;
          do r <- solve2 E G d keep src i j v h phi psi;
          let '(v, h, phi, psi) := r in
          do ph <- wrz ph i h;
          do T <- tally_out C d o (i, j, 0%Z) [v; h] T;
          Ok ((i + di)%Z, v, ph, phi, psi, T));
        let '(_, v, ph, phi, psi, T) := st in
        do pv <- wrz pv j v;
        Ok ((j + dj)%Z, pv, ph, phi, psi, T))) as (st & EE & P).
  - lia.
  - split; [eapply at_start; eauto|].
    destruct (@inv2_init E G d keep o src pv0 ph0 phi0 psi0 ltac:(lia) Hsrc Hpv Hph Hphi Hpsi) as (Q1 & Q2 & Q3 & Q4).
    repeat (split; auto). intros e. cbn [rsum]. lra.
  - intros jj [[[[[j pv1] ph1] phi1] psi1] T] [_ Hj] (A & J1 & J2 & J4 & J5 & J6 & J7).
    pose proof (A Hj) as EA. fold ry in EA. subst j.
    pose proof (rank_lt py Hj) as Rj. fold ry in Rj.
    assert (Vj : ry (ry jj) = jj) by (apply rank_inv; auto).
    rewrite (tab_rd J1 Rj). cbn [bind]. fold nx ny px py. fold ry. rewrite Vj, Nat.ltb_irrefl. fold Ce. fold FV.
    destruct (space_range o 0 nx) as [i0 di] eqn:ES.
    destruct (@row2_t jj i0 di _ _ ph1 phi1 psi1 T Hj (eq_sym ES) eq_refl eq_refl J2 J4 J5 J6)
      as (i & ph' & phi' & psi' & T' & ER & K2 & K4 & K5 & K6 & K7).
    rewrite ER. cbn [bind].
    destruct (tab_wr (FV jj nx) J1 Rj) as (pv' & W & Tb). rewrite W. cbn [bind].
    eexists. split; [reflexivity|]. split; [eapply at_next; eauto|].
    destruct (@inv2_row E G d keep o src pv0 ph0 phi0 psi0 ltac:(lia) Hsrc Hpv Hph Hphi Hpsi jj ph' phi' psi' Hj ltac:(auto)) as (Q2 & Q3 & Q4).
    split; [|repeat (split; auto); intros e; rewrite K7, J7; cbn [rsum]; lra].
    eapply tab_ext; [apply Tb|]. intros j' Hj'. cbv beta. fold nx ny px py. fold Ce. fold FV. fold ry. fold ny in Hj'.
    unfold ry at 1. rewrite !rank_eq by auto. fold ry.
    destruct (Nat.eqb_spec (ry j') jj) as [E'|N']; bcase; congruence.
  - destruct st as [[[[[j pv1] ph1] phi1] psi1] T]. rewrite EE. cbn [bind].
    destruct P as (_ & J1 & J2 & J4 & (J5 & J6) & J7 & J8).
    exists pv1, ph1, phi1, psi1, T. split; [auto|]. split; [|split; [|split; [|split; [|split; [auto|split; [auto|]]]]]].
    + eapply tab_ext; [apply J1|]. intros j' Hj'. fold ny in Hj'. pose proof (rank_lt py Hj') as Rk. fold ry in Rk. cbv beta.
      fold nx ny px py ry. bcase.
    + eapply tab_ext; [apply J2|]. intros i' Hi'. cbv beta. bcase.
    + eapply tab3_ext; [apply J4|]. intros i' j' k' Hi' Hj' Hk'. fold ny in Hj'. pose proof (rank_lt py Hj') as Rk. fold ry in Rk. cbv beta.
      fold nx ny px py. fold rx ry.
      unfold done3. rewrite (proj2 (Nat.ltb_lt _ _) Rk). bcase.
    + intros Hkp. eapply tab3_ext; [apply J5; auto|]. intros i' j' k' Hi' Hj' Hk'. fold ny in Hj'. pose proof (rank_lt py Hj') as Rk. fold ry in Rk. cbv beta.
      fold nx ny px py. fold rx ry.
      unfold done3. rewrite (proj2 (Nat.ltb_lt _ _) Rk). bcase.
    + intros e. rewrite J8, V2, V1.
      assert (Q1 : rsum ny (fun j => rsum (S nx) (fun f => cx e f j (FV (ry j) (frank px nx f)))) =
        (rsum ny (fun j => cx e (entry px nx) j (at_ pv0 j)) + rsum ny (fun jj => rsum nx (fun ii => cx e (to px (rx ii)) (ry jj) (FV jj (S ii)))))%R).
      { rewrite <- (@rsum_rank py ny (fun j => rsum (S nx) _)). rewrite <- (@rsum_rank py ny (fun j => cx e (entry px nx) j _)).
        rewrite <- rsum_plus. apply rsum_ext. intros jj Hj. fold ry. rewrite <- (@faces_met px nx). rewrite frank_entry.
        pose proof (rank_lt py Hj) as Rj. fold ry in Rj.
        assert (Vj : ry (ry jj) = jj) by (apply rank_inv; auto). rewrite Vj. f_equal.
        rewrite <- (@rsum_rank px nx (fun i => cx e (to px i) (ry jj) (FV jj (frank px nx (to px i))))). apply rsum_ext. intros ii Hi. pose proof (rank_lt px Hi) as Ri.
          rewrite frank_to by auto. rewrite rank_inv by auto. reflexivity. }
      assert (Q2 : rsum nx (fun i => rsum (S ny) (fun f => cy e i f (FH (frank py ny f) (rx i)))) =
        (rsum nx (fun i => cy e i (entry py ny) (at_ ph0 i)) + rsum nx (fun ii => rsum ny (fun jj => cy e (rx ii) (to py (ry jj)) (FH (S jj) ii))))%R).
      { rewrite <- (@rsum_rank px nx (fun i => rsum (S ny) _)). rewrite <- (@rsum_rank px nx (fun i => cy e i (entry py ny) _)).
        rewrite <- rsum_plus. apply rsum_ext. intros ii Hi. fold rx. rewrite <- (@faces_met py ny). rewrite frank_entry.
        assert (Vi : rx (rx ii) = ii) by (apply rank_inv; auto). rewrite Vi. f_equal.
        rewrite <- (@rsum_rank py ny (fun j => cy e (rx ii) (to py j) (FH (frank py ny (to py j)) ii))). apply rsum_ext. intros jj Hj. pose proof (rank_lt py Hj) as Rj.
          rewrite frank_to by auto. rewrite rank_inv by auto. reflexivity. }
      rewrite Q1, Q2. rewrite (rsum_swap nx ny).
      rewrite (@rsum_ext ny (fun jj => rsum nx (delta e jj)) (fun jj => rsum nx (fun ii => cx e (to px (rx ii)) (ry jj) (FV jj (S ii))) +
        rsum nx (fun ii => cy e (rx ii) (to py (ry jj)) (FH (S jj) ii)))%R) by (intros; apply (rsum_plus nx)).
      rewrite (rsum_plus ny). lra.
Qed.
End T2.
