(** * Tally_Proofs: what one call of the tally adds. *)
From Coquelicot Require Import Coquelicot.
From Verif Require Import Base BaseR Loop Mesh_Model Mesh_Proofs Angle_Model Angle_Spec Boundary_Model Boundary_Spec
  Cell_Model Cell_Spec Cell_Proofs Sweep_Model Sweep_Spec Sweep_Proofs Region_Model Region_Spec Region_Proofs Tally_Model Tally_Spec.
Open Scope nat_scope.
Set Implicit Arguments. Unset Strict Implicit.

(** ** One entry *)
Definition entry3 := (nat * nat * nat)%type.
Definition val (T : tally) (e : entry3) : R := let '(d, s, i) := e in nth i (nth s (nth d T []) []) 0%R.
Definition hit (e : entry3) (d s i : nat) : bool := let '(d', s', i') := e in (d' =? d) && (s' =? s) && (i' =? i).

Lemma bump_ok C T d s i x : tally_for C T -> d < 3 -> s < 2 -> i < sizes C d ->
  exists T', bump T d s (Z.of_nat i) x = Ok T' /\ tally_for C T' /\
  forall e, val T' e = (val T e + if hit e d s i then x else 0)%R.
Proof.
  intros (L3 & HT) Hd Hs Hi. destruct (HT d Hd) as (L2 & HS). pose proof (HS s Hs) as L1.
  set (v := nth s (nth d T []) []) in *. set (a := nth d T []) in *.
  exists (upd T d (upd a s (upd v i (nth i v 0 + x)%R))). split; [|split].
  - unfold bump. rewrite (@rd_ok _ T d []) by lia. cbn [bind]. fold a. rewrite (@rd_ok _ a s []) by lia. cbn [bind]. fold v.
    rewrite (@rdz_nat _ v i 0%R) by lia. cbn [bind]. rewrite (@wrz_nat _ v i) by lia. cbn [bind].
    unfold wr. rewrite L2, (proj2 (Nat.ltb_lt s 2)) by lia. cbn [bind]. rewrite L3, (proj2 (Nat.ltb_lt d 3)) by lia. reflexivity.
  - split; [rewrite upd_length; auto|]. intros d' Hd'. destruct (Nat.eq_dec d' d) as [->|N].
    + rewrite nth_upd_eq by lia. rewrite upd_length. split; auto. intros s' Hs'. destruct (Nat.eq_dec s' s) as [->|N].
      * rewrite nth_upd_eq by lia. rewrite upd_length. auto.
      * rewrite nth_upd_neq by auto. apply HS. auto.
    + rewrite nth_upd_neq by auto. apply HT. auto.
  - intros [[d' s'] i']. unfold val, hit. destruct (Nat.eqb_spec d' d) as [->|N]; cbn [andb].
    + rewrite nth_upd_eq by lia. destruct (Nat.eqb_spec s' s) as [->|N]; cbn [andb].
      * rewrite nth_upd_eq by lia. fold a v. destruct (Nat.eqb_spec i' i) as [->|N].
        -- rewrite nth_upd_eq by lia. reflexivity.
        -- rewrite nth_upd_neq by auto. lra.
      * rewrite nth_upd_neq by auto. fold a. lra.
    + rewrite nth_upd_neq by auto. lra.
Qed.

(** ** The coarse mesh *)
Definition fidx (C : cmesh) (I J K axis : nat) : nat :=
  let nx := cm_n C 0 in let ny := cm_n C 1 in
  match axis with
  | 0 => I + J * (nx + 1) + K * (nx + 1) * ny
  | 1 => I + J * nx + K * nx * (ny + 1)
  | _ => I + J * nx + K * nx * ny
  end.
Lemma fidx_Z C I J K axis : face_index C (Z.of_nat I) (Z.of_nat J) (Z.of_nat K) axis = Z.of_nat (fidx C I J K axis).
Proof. unfold face_index, fidx. destruct axis as [|[|a]]; cbv zeta; lia. Qed.

(** Facts about the coarse mesh of a grid. *)
Record coarse_facts (dim : nat) (G : grid) (C : cmesh) : Prop := {
  cf_dim : cm_dim C = dim;
  cf_w : cm_w C = fine_widths dim G;
  cf_used : forall d, d < dim -> coarse_ok (fine_widths dim G d) (cm_of C d);
  cf_unused : forall d, dim <= d -> cm_of C d = unused
}.
Lemma coarsen_good w level x : coarsen w level = Ok x -> coarse_ok w x.
Proof.
  intros E. destruct (le_lt_dec 1 level) as [L|L].
  - assert (LO : level_ok (length w) level).
    { split; [lia|]. destruct (Nat.eq_dec (length w / level) 1); auto. right.
      destruct (le_lt_dec (length w mod level) (length w / level)) as [H|H]; auto. exfalso.
      rewrite coarsen_ub in E; [discriminate|]. intros (_ & [Q | Q]); lia. }
    destruct (coarsen_ok LO) as (y & E' & OK & _). rewrite E in E'. injection E' as <-. auto.
  - rewrite coarsen_ub in E; [discriminate|]. intros (Q & _). lia.
Qed.
Lemma coarse_mesh_facts dim G level C : 0 < dim <= 3 -> coarse_mesh dim G level = Ok C -> coarse_facts dim G C.
Proof.
  intros Hd E. unfold coarse_mesh in E.
  set (f := fun d => if d <? dim then coarsen (fine_widths dim G d) level else Ok unused) in E. cbn [mapM] in E.
  destruct (f 0) as [c0| |] eqn:E0; try discriminate. destruct (f 1) as [c1| |] eqn:E1; try discriminate.
  destruct (f 2) as [c2| |] eqn:E2; try discriminate. cbn [bind] in E. injection E as <-.
  assert (Q : forall d, d < 3 -> f d = Ok (nth d [c0; c1; c2] unused)).
  { intros d H. destruct d as [|[|[|d]]]; auto; lia. }
  constructor; auto.
  - intros d H. cbn [cm_of]. apply (@coarsen_good _ level). pose proof (Q d ltac:(lia)) as Q'. unfold f in Q'.
    rewrite (proj2 (Nat.ltb_lt _ _) H) in Q'. exact Q'.
  - intros d H. cbn [cm_of]. destruct (le_lt_dec 3 d) as [L|L]; [apply (@nth_overflow _ [c0; c1; c2]); auto|].
    specialize (Q d L). unfold f in Q. rewrite (proj2 (Nat.ltb_ge _ _) H) in Q. symmetry. change (unused = nth d [c0; c1; c2] unused). congruence.
Qed.

Section Facts.
Variables (dim : nat) (G : grid) (C : cmesh).
Hypothesis Hdim : dim <= 3.
Hypothesis F : coarse_facts dim G C.
Let n (d : nat) := length (fine_widths dim G d).
Lemma flag_len d : d < dim -> length (c_flag (cm_of C d)) = S (n d).
Proof. intros H. apply (cf_used F H). Qed.
(** A fine face on a coarse edge, or not. *)
Lemma flag_cases d f : d < dim -> f <= n d ->
  (exists I, I <= cm_n C d /\ f = edge C d I /\ nth f (c_flag (cm_of C d)) 0%Z = Z.of_nat I) \/
  ((forall I, I <= cm_n C d -> f <> edge C d I) /\ nth f (c_flag (cm_of C d)) 0%Z = (-1)%Z).
Proof.
  intros Hd Hf. destruct (cf_used F Hd) as (_ & _ & _ & _ & _ & _ & F1 & F2). fold (cm_n C d) in F1, F2.
  assert (D : (exists I, I <= cm_n C d /\ f = edge C d I) \/ (forall I, I <= cm_n C d -> f <> edge C d I)).
  { clear - C d f. induction (cm_n C d) as [|m IH].
    - destruct (Nat.eq_dec f (edge C d 0)) as [E|E]; [left; exists 0; auto|right; intros I HI; replace I with 0 by lia; auto].
    - destruct IH as [(I & HI & E)|N]; [left; exists I; split; auto; lia|].
      destruct (Nat.eq_dec f (edge C d (S m))) as [E|E]; [left; exists (S m); auto|].
      right. intros I HI. destruct (Nat.eq_dec I (S m)) as [->|]; auto. apply N. lia. }
  destruct D as [(I & HI & E)|N]; [left|right; auto].
  exists I. repeat split; auto. rewrite E. apply F1. auto.
Qed.
Lemma edge_inj d I I' : d < dim -> I <= cm_n C d -> I' <= cm_n C d -> edge C d I = edge C d I' -> I = I'.
Proof.
  intros Hd H H' E. destruct (cf_used F Hd) as (_ & _ & _ & _ & _ & _ & F1 & _).
  unfold edge in E. pose proof (F1 I H) as A. pose proof (F1 I' H') as B. rewrite E in A. lia.
Qed.
Lemma map_len d : d < 3 -> length (c_map (cm_of C d)) = n d.
Proof.
  intros Hd. destruct (le_lt_dec dim d) as [L|L].
  - rewrite (cf_unused F L). unfold n, fine_widths. rewrite (proj2 (Nat.ltb_ge _ _) L). auto.
  - apply (cf_used F L).
Qed.
Lemma map_bound d f : d < 3 -> f < n d -> nth f (c_map (cm_of C d)) 0 < cm_n C d.
Proof.
  intros Hd Hf. destruct (le_lt_dec dim d) as [L|L].
  - unfold cm_n. rewrite (cf_unused F L). unfold n, fine_widths in Hf. rewrite (proj2 (Nat.ltb_ge _ _) L) in Hf.
    cbn in Hf. replace f with 0 by lia. cbn. lia.
  - apply (map_lt (cf_used F L)). auto.
Qed.
Lemma map_iff d f J : d < 3 -> f < n d -> J < cm_n C d -> nth f (c_map (cm_of C d)) 0 = J <-> edge C d J <= f < edge C d (S J).
Proof.
  intros Hd Hf HJ. destruct (le_lt_dec dim d) as [L|L].
  - unfold edge. unfold cm_n in HJ. rewrite (cf_unused F L) in *. unfold n, fine_widths in Hf. rewrite (proj2 (Nat.ltb_ge _ _) L) in Hf.
    cbn in Hf, HJ. replace f with 0 by lia. replace J with 0 by lia. rewrite psum_S, psum_0. cbn. lia.
  - destruct (cf_used F L) as ((S1 & _) & _ & M & _). split.
    + intros E. destruct (@psum_block_exists (c_count (cm_of C d)) f ltac:(unfold n in Hf; lia)) as (J' & H1 & H2).
      assert (J' = J) by (rewrite <- E; symmetry; apply M; split; auto). subst J'. exact H2.
    + intros H. apply M. split; auto.
Qed.
Lemma edge_last d : d < 3 -> edge C d (cm_n C d) = n d.
Proof.
  intros Hd. unfold edge, cm_n. rewrite psum_all. destruct (le_lt_dec dim d) as [L|L].
  - rewrite (cf_unused F L). unfold n, fine_widths. rewrite (proj2 (Nat.ltb_ge _ _) L). reflexivity.
  - apply (cf_used F L).
Qed.
Lemma edge_S d J : edge C d (S J) = edge C d J + nth J (c_count (cm_of C d)) 0.
Proof. apply psum_S. Qed.
Lemma edge_le d I : d < 3 -> I <= cm_n C d -> edge C d I <= n d.
Proof. intros Hd H. rewrite <- (edge_last Hd). apply psum_mono. auto. Qed.
Lemma edge_0 d : edge C d 0 = 0. Proof. apply psum_0. Qed.

(** Sums over the fine cells of a coarse cell. *)
Lemma across_sum d J f : d < 3 -> J < cm_n C d ->
  rsum (n d) (fun j => if nth j (c_map (cm_of C d)) 0 =? J then f j else 0%R) = across C d J f.
Proof.
  intros Hd HJ. unfold across, block_sum. fold (edge C d J).
  pose proof (edge_S d J) as ES. pose proof (@edge_le d (S J) Hd HJ) as EL. set (m := nth J (c_count (cm_of C d)) 0) in *.
  replace (n d) with (edge C d J + (m + (n d - edge C d (S J)))) by lia.
  rewrite !rsum_split. rewrite (rsum_zero (n := edge C d J)), (rsum_zero (n := n d - _)).
  - rewrite Rplus_0_l, Rplus_0_r. apply rsum_ext. intros i Hi. rewrite (proj2 (Nat.eqb_eq _ _)); auto.
    apply map_iff; auto; lia.
  - intros i Hi. destruct (Nat.eqb_spec (nth (edge C d J + (m + i)) (c_map (cm_of C d)) 0) J) as [E|E]; auto.
    apply map_iff in E; auto; lia.
  - intros i Hi. destruct (Nat.eqb_spec (nth i (c_map (cm_of C d)) 0) J) as [E|E]; auto.
    apply map_iff in E; auto; lia.
Qed.
(** Sums over the fine faces on a coarse face. *)
Definition on_edge (d f I : nat) : bool := (nth f (c_flag (cm_of C d)) 0 =? Z.of_nat I)%Z.
Lemma on_edge_iff d f I : d < dim -> f <= n d -> I <= cm_n C d -> on_edge d f I = (f =? edge C d I).
Proof.
  intros Hd Hf HI. unfold on_edge. destruct (flag_cases Hd Hf) as [(I' & HI' & E & ->)|(N & ->)].
  - destruct (Nat.eqb_spec f (edge C d I)) as [E'|E'].
    + rewrite E in E'. apply edge_inj in E'; auto. subst. apply Z.eqb_refl.
    + apply Z.eqb_neq. intros Q. apply Nat2Z.inj in Q. subst. auto.
  - specialize (N I HI). rewrite (proj2 (Nat.eqb_neq _ _) N). apply Z.eqb_neq. lia.
Qed.
Lemma faces_sum d I f : d < dim -> I <= cm_n C d ->
  rsum (S (n d)) (fun k => if on_edge d k I then f k else 0%R) = f (edge C d I).
Proof.
  intros Hd HI. rewrite (@rsum_ext _ _ (fun k => if k =? edge C d I then f (edge C d I) else 0%R)).
  - apply rsum_delta. pose proof (@edge_le d I ltac:(lia) HI). lia.
  - intros k Hk. rewrite on_edge_iff by (auto; lia). destruct (Nat.eqb_spec k (edge C d I)); congruence.
Qed.
End Facts.

(** Within the tally, distinct faces have distinct entries. *)
Lemma mix2 a b c d m : a < m -> c < m -> a + b * m = c + d * m -> a = c /\ b = d.
Proof. intros H1 H2 E. assert (b = d) by nia. subst. split; lia. Qed.

Lemma shift_positive d o : d < 3 -> o < 8 -> shift d o = if positive o d then 1 else 0.
Proof. intros Hd Ho. do 3 (destruct d as [|d]; [do 8 (destruct o as [|o]; [reflexivity|]); lia|]). lia. Qed.
Lemma shift_lt d o : d < 3 -> o < 8 -> shift d o < 2.
Proof. intros. rewrite shift_positive by auto. destruct (positive o d); lia. Qed.

Section Calls.
Variables (dim : nat) (G : grid) (C : cmesh).
Hypothesis Hdim : dim <= 3.
Hypothesis F : coarse_facts dim G C.
Let n (d : nat) := length (fine_widths dim G d).
Variables (c : dir) (o : nat).
Hypothesis Ho : o < 8.

(** A fine cell. *)
Definition cell := (nat * nat * nat)%type.
Definition co (x : cell) (d : nat) : nat := let '(i, j, k) := x in match d with 0 => i | 1 => j | _ => k end.
Definition zs (x : cell) : Z * Z * Z := let '(i, j, k) := x in (Z.of_nat i, Z.of_nat j, Z.of_nat k).
Lemma coord_zs x d : coord (zs x) d = Z.of_nat (co x d).
Proof. destruct x as [[i j] k]. destruct d as [|[|d]]; reflexivity. Qed.
Definition cmap (d i : nat) : nat := nth i (c_map (cm_of C d)) 0.
(** The coarse face normal to d0 with edge index I seen by cell x. *)
Definition face_of (d0 I : nat) (x : cell) : nat :=
  let at_d d := if d =? d0 then I else cmap d (co x d) in fidx C (at_d 0) (at_d 1) (at_d 2) d0.
Definition area (d0 : nat) (x : cell) : R :=
  (nth (co x (fst (perp d0))) (cm_w C (fst (perp d0))) 0 * nth (co x (snd (perp d0))) (cm_w C (snd (perp d0))) 0)%R.
(** What flux psi on fine face f adds to entry e. *)
Definition flag (d f : nat) : Z := nth f (c_flag (cm_of C d)) 0%Z.
Definition contrib (e : entry3) (d0 f : nat) (x : cell) (psi : R) : R :=
  if (flag d0 f >=? 0)%Z && hit e d0 (shift d0 o) (face_of d0 (Z.to_nat (flag d0 f)) x)
  then (psi * cosine c d0 * d_w c * area d0 x)%R else 0%R.

Lemma face_of_lt d0 I x : d0 < dim -> I <= cm_n C d0 -> (forall d, d < 3 -> d <> d0 -> co x d < n d) ->
  face_of d0 I x < sizes C d0.
Proof.
  intros Hd HI Hx. unfold sizes. rewrite (cf_dim F), (proj2 (Nat.ltb_lt _ _) Hd).
  assert (M : forall d, d < 3 -> d <> d0 -> cmap d (co x d) < cm_n C d).
  { intros d H N. apply (map_bound Hdim F H). apply Hx; auto. }
  unfold face_of, fidx. destruct d0 as [|[|[|d0]]]; [| | |lia]; cbn [Nat.eqb nth].
  - apply (@index_lt (cm_n C 0 + 1) (cm_n C 1) (cm_n C 2)); [lia|apply M; lia|apply M; lia].
  - apply (@index_lt (cm_n C 0) (cm_n C 1 + 1) (cm_n C 2)); [apply M; lia|lia|apply M; lia].
  - apply (@index_lt (cm_n C 0) (cm_n C 1) (cm_n C 2 + 1)); [apply M; lia|apply M; lia|lia].
Qed.

Lemma tally_at_ok d0 I x psi T : tally_for C T -> d0 < dim -> I <= cm_n C d0 -> (forall d, d < 3 -> d <> d0 -> co x d < n d) ->
  exists T', tally_at C c o (zs x) d0 (Z.of_nat I) psi T = Ok T' /\ tally_for C T' /\
  forall e, val T' e = (val T e + if hit e d0 (shift d0 o) (face_of d0 I x) then psi * cosine c d0 * d_w c * area d0 x else 0)%R.
Proof.
  intros HT Hd HI Hx. unfold tally_at.
  assert (P : fst (perp d0) < 3 /\ fst (perp d0) <> d0 /\ snd (perp d0) < 3 /\ snd (perp d0) <> d0).
  { destruct d0 as [|[|[|d0]]]; cbn; lia. }
  destruct P as (P1 & P2 & P3 & P4). unfold area. destruct (perp d0) as [d1 d2] eqn:EP. cbn [fst snd] in *.
  pose proof (Hx d1 P1 P2) as H1. pose proof (Hx d2 P3 P4) as H2. rewrite !coord_zs.
  rewrite (@rdz_nat _ (c_map (cm_of C d1)) (co x d1) 0) by (rewrite (map_len F P1); exact H1). cbn [bind].
  rewrite (@rdz_nat _ (c_map (cm_of C d2)) (co x d2) 0) by (rewrite (map_len F P3); exact H2). cbn [bind].
  assert (W : forall d, length (cm_w C d) = n d) by (intros d; rewrite (cf_w F); auto).
  rewrite (@rdz_nat _ (cm_w C d1) (co x d1) 0%R) by (rewrite W; auto). cbn [bind].
  rewrite (@rdz_nat _ (cm_w C d2) (co x d2) 0%R) by (rewrite W; auto). cbn [bind].
  match goal with |- exists T', bump T d0 _ ?i ?v = _ /\ _ =>
    replace i with (Z.of_nat (face_of d0 I x)); [destruct (@bump_ok C T d0 (shift d0 o) (face_of d0 I x) v) as (T' & E & HT' & V)|] end; auto.
  - lia.
  - apply shift_lt; lia.
  - apply face_of_lt; auto.
  - exists T'. auto.
  - unfold face_of. rewrite <- fidx_Z. destruct d0 as [|[|[|d0]]]; [| | |lia]; cbn in EP; injection EP as <- <-; reflexivity.
Qed.

Lemma flag_nonneg d0 f : d0 < dim -> f <= n d0 -> (flag d0 f >=? 0)%Z = true ->
  exists I, I <= cm_n C d0 /\ flag d0 f = Z.of_nat I.
Proof.
  intros Hd Hf HF. destruct (flag_cases F Hd Hf) as [(I & HI & E & Q)|(_ & Q)].
  - exists I. auto.
  - unfold flag in HF. rewrite Q in HF. discriminate.
Qed.

(** The outgoing flux along one axis. *)
Lemma out_step d0 x psi T : tally_for C T -> d0 < dim -> (forall d, d < 3 -> co x d < n d) ->
  exists T', (do ce <- rdz (c_flag (cm_of C d0)) (coord (zs x) d0 + Z.of_nat (shift d0 o));
    if (ce >=? 0)%Z then tally_at C c o (zs x) d0 ce psi T else Ok T) = Ok T' /\ tally_for C T' /\
  forall e, val T' e = (val T e + contrib e d0 (to (positive o d0) (co x d0)) x psi)%R.
Proof.
  intros HT Hd Hx. rewrite coord_zs.
  replace (Z.of_nat (co x d0) + Z.of_nat (shift d0 o))%Z with (Z.of_nat (to (positive o d0) (co x d0)))
    by (rewrite shift_positive by lia; unfold to; destruct (positive o d0); lia).
  set (f := to (positive o d0) (co x d0)).
  assert (Hf : f <= n d0) by (pose proof (Hx d0 ltac:(lia)); unfold f, to; destruct (positive o d0); lia).
  rewrite (@rdz_nat _ (c_flag (cm_of C d0)) f 0%Z) by (rewrite (flag_len F Hd); fold (n d0); lia). cbn [bind].
  fold (flag d0 f). destruct (flag d0 f >=? 0)%Z eqn:EF.
  - destruct (flag_nonneg Hd Hf EF) as (I & HI & EI). rewrite EI.
    destruct (@tally_at_ok d0 I x psi T HT Hd HI ltac:(auto)) as (T' & E & HT' & V).
    exists T'. split; auto. split; auto. intros e. rewrite V. unfold contrib. rewrite EF, EI, Nat2Z.id. reflexivity.
  - exists T. split; auto. split; auto. intros e. unfold contrib. rewrite EF. cbn. lra.
Qed.

(** The flux entering through the boundary; a mesh with one cell along the axis
    is excluded. *)
Lemma tally_in_ok d0 x psi T : tally_for C T -> d0 < dim -> 1 < n d0 ->
  co x d0 = (if positive o d0 then 0 else n d0 - 1) -> (forall d, d < 3 -> co x d < n d) ->
  exists T', tally_in C c o (zs x) d0 psi T = Ok T' /\ tally_for C T' /\
  forall e, val T' e = (val T e + contrib e d0 (entry (positive o d0) (n d0)) x psi)%R.
Proof.
  intros HT Hd Hn Hc Hx. unfold tally_in. rewrite coord_zs.
  replace (Z.of_nat (co x d0) + Z.of_nat (shift d0 o) + (if (Z.of_nat (co x d0) =? 0)%Z then (-1)%Z else 1%Z))%Z
    with (Z.of_nat (entry (positive o d0) (n d0))).
  2:{ rewrite Hc, shift_positive by lia. unfold entry. destruct (positive o d0).
      - reflexivity.
      - rewrite (proj2 (Z.eqb_neq _ _)) by lia. lia. }
  set (f := entry (positive o d0) (n d0)).
  assert (Hf : f <= n d0) by (unfold f, entry; destruct (positive o d0); lia).
  rewrite (@rdz_nat _ (c_flag (cm_of C d0)) f 0%Z) by (rewrite (flag_len F Hd); fold (n d0); lia). cbn [bind].
  fold (flag d0 f).
  assert (EF : exists I, I <= cm_n C d0 /\ flag d0 f = Z.of_nat I).
  { destruct (flag_cases F Hd Hf) as [(I & HI & _ & Q)|(N & _)]; [exists I; auto|].
    exfalso. unfold f, entry in N. destruct (positive o d0).
    - apply (N 0); [lia|]. symmetry. apply edge_0.
    - apply (N (cm_n C d0)); [lia|]. symmetry. apply (edge_last F). lia. }
  destruct EF as (I & HI & EI). rewrite EI.
  destruct (@tally_at_ok d0 I x psi T HT Hd HI ltac:(auto)) as (T' & E & HT' & V).
  exists T'. split; auto. split; auto. intros e. rewrite V. unfold contrib. rewrite EI, Nat2Z.id.
  replace (Z.of_nat I >=? 0)%Z with true by (symmetry; apply Z.geb_le; lia). reflexivity.
Qed.
End Calls.
