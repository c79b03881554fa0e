From Verif Require Import Base BaseR Loop Mesh_Model Mesh_Spec Mesh_Proofs Csg_Model Pin_Model Pin_Spec.
Set Implicit Arguments. Unset Strict Implicit.
Open Scope nat_scope.

Lemma made_ok P : made P -> (0 < px (pc_pitch P))%R /\ (0 < py (pc_pitch P))%R /\
  length (pc_mat P) = length (pc_radii P) + 1 /\ pc_div P < 4 /\ radii_ok (pc_radii P) = true.
Proof.
  intros (pt & mm & rr & dv & c & E). unfold pincell_new in E. destruct (Rlt_dec 0 (px pt)) as [Hp|]; [|discriminate].
  destruct (_ && _) eqn:B in E; [|discriminate]. apply andb_true_iff in B. destruct B as [B B3]. apply andb_true_iff in B. destruct B as [B1 B2].
  apply Nat.eqb_eq in B1. apply Nat.ltb_lt in B2. injection E as <-. cbn. destruct (Rle_dec (py pt) 0); cbn; repeat split; auto; lra.
Qed.
Lemma increasing_nth l : increasing l = true -> forall i, S i < length l -> (nth i l 0 < nth (S i) l 0)%R.
Proof.
  induction l as [|a [|b t] IH]; intros H i Hi; cbn [length] in Hi; [lia|lia|].
  cbn [increasing] in H. apply andb_true_iff in H. destruct H as [H1 H2]. destruct (Rlt_dec a b) as [Hab|]; [|discriminate].
  destruct i as [|i]; [exact Hab|]. apply (IH H2 i). cbn [length]. lia.
Qed.
Lemma radii_pos l : radii_ok l = true -> forall i, i < length l -> (0 < nth i l 0)%R.
Proof.
  intros H i. destruct l as [|a t]; [cbn; lia|]. unfold radii_ok in H. apply andb_true_iff in H. destruct H as [H1 H2].
  destruct (Rlt_dec 0 a) as [Ha|]; [|discriminate]. induction i as [|i IH]; intros Hi; [exact Ha|].
  pose proof (increasing_nth H2 Hi). specialize (IH ltac:(lia)). lra.
Qed.
Lemma radii_mono l : radii_ok l = true -> forall i j, i <= j -> j < length l -> (nth i l 0 <= nth j l 0)%R.
Proof.
  intros H i j Hij. induction Hij as [|j Hij IH]; intros Hj; [lra|]. destruct l as [|a t]; [cbn in Hj; lia|].
  unfold radii_ok in H. apply andb_true_iff in H. destruct H as [H1 H2]. pose proof (increasing_nth H2 Hj). specialize (IH ltac:(lia)). lra.
Qed.

(** ** The first ring *)
Lemma first_ring_spec d l : forall p, exists k, first_ring d p l = p + k /\ k <= length l /\
  (k < length l -> (d < nth k l 0)%R) /\ forall i, i < k -> (nth i l 0 <= d)%R.
Proof.
  induction l as [|r t IH]; intros p; cbn [first_ring].
  - exists 0. cbn. repeat split; try lia.
  - destruct (Rlt_dec d r) as [H|H].
    + exists 0. cbn. repeat split; try lia; auto.
    + destruct (IH (S p)) as (k & E & L & A & B). exists (S k). rewrite E. cbn [length nth]. repeat split; try lia.
      * intros HL. apply A. lia.
      * intros [|i] Hi; [lra|]. apply B. lia.
Qed.

Lemma first_ring_le d l p : first_ring d p l <= p + length l.
Proof. destruct (first_ring_spec d l p) as (k & -> & L & _). lia. Qed.

(** ** Meshes from edges *)
Lemma psum_ones n I : I <= n -> psum (repeat 1 n) I = I.
Proof. revert I. induction n as [|n IH]; intros I H; [replace I with 0 by lia; reflexivity|]. destruct I; [reflexivity|]. unfold psum in *. cbn [repeat firstn list_sum fold_right]. change (1 + list_sum (firstn I (repeat 1 n)) = S I). rewrite IH by lia. lia. Qed.
Lemma sum_ones n : list_sum (repeat 1 n) = n.
Proof. rewrite <- (psum_all (repeat 1 n)), repeat_length. apply psum_ones. lia. Qed.

Section Edges.
Context (e : list R) (n : nat) (HL : length e = n + 1) (Hn : 0 < n) (HI : forall i, i < n -> (nth i e 0 < nth (S i) e 0)%R).
Lemma ones_axis : axis_ok (repeat 1 (length e - 1)) e.
Proof.
  rewrite HL. replace (n + 1 - 1) with n by lia. split; [destruct n; [lia|discriminate]|]. split; [intros f Hf; apply repeat_spec in Hf; lia|].
  rewrite repeat_length. split; auto.
Qed.
Lemma mesh_edges mm : exists m, mesh2D_edges e e mm = Ok m /\ mesh_good m /\ dim m = 2 /\ ncx m = n /\ ncy m = n /\ ncz m = 1 /\ mdz m = [1%R] /\
  twx m = (nth n e 0 - nth 0 e 0)%R /\ twy m = twx m /\ mat m = mm /\ mdy m = mdx m /\
  forall i, i < n -> nth i (mdx m) 0%R = (nth (S i) e 0 - nth i e 0)%R.
Proof.
  pose proof ones_axis as A. destruct (widths_total A) as (w & t & EW & ET & L & QT & SX & PX & HX). destruct unit_axis as (z & EZ & LZ & UZ).
  unfold mesh2D_edges. rewrite ET. cbn [bind]. rewrite EW. cbn [bind]. rewrite EZ. cbn [bind]. rewrite UZ. eexists. split; [reflexivity|].
  rewrite sum_ones in *. rewrite repeat_length in *. replace (length e - 1) with n in * by lia.
  assert (W : forall i, i < n -> nth i w 0%R = (nth (S i) e 0 - nth i e 0)%R).
  { intros i Hi. rewrite (HX i i); [rewrite nth_repeat_lt by lia; cbn; field|]. split; [rewrite repeat_length; lia|]. rewrite !psum_ones by lia. lia. }
  assert (E1 : list_sum [1] = 1) by reflexivity.
  unfold mesh_good, ncx, ncy, ncz. cbn [dim xfm yfm zfm mdx mdy mdz twx twy twz mat]. rewrite sum_ones, E1.
  assert (PW : forall x, In x w -> (0 < x)%R). { apply in_nth_pos. intros i Hi. apply PX. lia. }
  repeat split; auto; try lia; try (unfold left_edge; rewrite SX; lra).
  - intros x [Hx|[Hx|[<-|[]]]]; auto. lra.
  - unfold left_edge. cbn. lra.
Qed.
End Edges.

(** ** The loops of the uniform mesh *)
Definition uregion (P : pincell) (n i j : nat) : nat := find_region P i j (px (pc_pitch P) / INR n).
Lemma uregion_le P n i j : uregion P n i j <= length (pc_radii P).
Proof. unfold uregion, find_region. apply (first_ring_le _ _ 0). Qed.

Lemma row_loop P n j mm rm : length (pc_mat P) = length (pc_radii P) + 1 -> j < n -> length mm = n * n -> length rm = n * n ->
  exists mm' rm', for_ 0 n (mm, rm) (fun i s =>
      let r := find_region P i j (px (pc_pitch P) / INR n) in
      do m <- rd (pc_mat P) r;
      do mm <- wr (fst s) (i + j * n) m;
      do rm <- wr (snd s) (i + j * n) (Z.of_nat r);
      Ok (mm, rm)) = Ok (mm', rm') /\
  length mm' = n * n /\ length rm' = n * n /\
  forall c, c < n * n -> nth c rm' (-1)%Z = (if c / n =? j then Z.of_nat (uregion P n (c mod n) j) else nth c rm (-1)%Z) /\
                        nth c mm' 0%Z = (if c / n =? j then nth (uregion P n (c mod n) j) (pc_mat P) 0%Z else nth c mm 0%Z).
Proof.
  intros HM Hj L1 L2.
  destruct (@for_inv _ (fun k s => length (fst s) = n * n /\ length (snd s) = n * n /\
    forall c, c < n * n -> nth c (snd s) (-1)%Z = (if (c / n =? j) && (c mod n <? k) then Z.of_nat (uregion P n (c mod n) j) else nth c rm (-1)%Z) /\
                          nth c (fst s) 0%Z = (if (c / n =? j) && (c mod n <? k) then nth (uregion P n (c mod n) j) (pc_mat P) 0%Z else nth c mm 0%Z))
    0 n (mm, rm) (fun i s =>
      let r := find_region P i j (px (pc_pitch P) / INR n) in
      do m <- rd (pc_mat P) r;
      do mm <- wr (fst s) (i + j * n) m;
      do rm <- wr (snd s) (i + j * n) (Z.of_nat r);
      Ok (mm, rm))) as ([mm' rm'] & E & A & B & C); [lia|..].
  - cbn [fst snd]. split; auto. split; auto. intros c Hc. change (c mod n <? 0) with false. rewrite andb_false_r. auto.
  - intros i [m1 r1] Hi (A & B & C). cbn [fst snd] in *. fold (uregion P n i j). cbv zeta.
    pose proof (uregion_le P n i j) as LE. rewrite (@rd_ok _ (pc_mat P) (uregion P n i j) 0%Z) by lia. cbn [bind].
    assert (LC : i + j * n < n * n) by (apply idx2_lt; lia).
    unfold wr. rewrite A, B. rewrite (proj2 (Nat.ltb_lt _ _) LC). cbn [bind]. eexists. split; [reflexivity|]. cbn [fst snd].
    rewrite !upd_length. split; auto. split; auto. intros c Hc. destruct (C c Hc) as [C1 C2].
    destruct (Nat.eq_dec c (i + j * n)) as [->|Ne].
    + rewrite !nth_upd_eq by lia. destruct (@idx2 i j n ltac:(lia)) as [-> ->]. rewrite Nat.eqb_refl, (proj2 (Nat.ltb_lt i (S i))) by lia. auto.
    + rewrite !nth_upd_neq by auto. rewrite C1, C2. destruct (c / n =? j) eqn:EJ; cbn [andb]; auto. apply Nat.eqb_eq in EJ.
      assert (c mod n <> i). { intros <-. apply Ne. rewrite (Nat.div_mod c n) at 1 by lia. rewrite EJ. lia. }
      destruct (c mod n <? i) eqn:E1; destruct (c mod n <? S i) eqn:E2; auto; apply Nat.ltb_lt in E1 || apply Nat.ltb_ge in E1; apply Nat.ltb_lt in E2 || apply Nat.ltb_ge in E2; lia.
  - exists mm', rm'. split; auto. cbn [fst snd] in *. split; auto. split; auto. intros c Hc. destruct (C c Hc) as [-> ->].
    rewrite (proj2 (Nat.ltb_lt (c mod n) n)) by (apply Nat.mod_upper_bound; lia). rewrite andb_true_r. auto.
Qed.

Theorem uniform_run P n : made P -> 0 < n -> exists m reg, uniform P n = Ok (m, reg) /\ mesh_good m /\ dim m = 2 /\
  ncx m = n /\ ncy m = n /\ ncz m = 1 /\ mdz m = [1%R] /\ twx m = px (pc_pitch P) /\ twy m = px (pc_pitch P) /\
  (forall i, i < n -> nth i (mdx m) 0%R = (px (pc_pitch P) / INR n)%R) /\ mdy m = mdx m /\
  length reg = n * n /\ length (mat m) = n * n /\
  forall i j, i < n -> j < n -> nth (i + j * n) reg (-1)%Z = Z.of_nat (uregion P n i j) /\
    nth (i + j * n) (mat m) 0%Z = nth (uregion P n i j) (pc_mat P) 0%Z.
Proof.
  intros HP Hn. destruct (made_ok HP) as (PX & PY & LM & _ & _). set (p := px (pc_pitch P)) in *. unfold uniform. fold p. set (w := (p / INR n)%R).
  assert (N0 : (0 < INR n)%R) by (apply lt_0_INR; auto). assert (W0 : (0 < w)%R) by (apply Rdiv_lt_0_compat; auto).
  destruct (@for_inv _ (fun k s => length (fst s) = n + 1 /\ length (fst (snd s)) = n * n /\ length (snd (snd s)) = n * n /\
    (forall i, i <= k -> nth i (fst s) 0%R = (INR i * w)%R) /\
    forall c, c < n * n -> c / n < k -> nth c (snd (snd s)) (-1)%Z = Z.of_nat (uregion P n (c mod n) (c / n)) /\
                          nth c (fst (snd s)) 0%Z = nth (uregion P n (c mod n) (c / n)) (pc_mat P) 0%Z)
    0 n (repeat 0%R (n + 1), (repeat 1%Z (n * n), repeat 1%Z (n * n))) (fun j s =>
    do e <- rd (fst s) j;
    do ed <- wr (fst s) (j + 1) (e + w)%R;
    do mr <- for_ 0 n (snd s) (fun i s =>
      let r := find_region P i j w in
      do m <- rd (pc_mat P) r;
      do mm <- wr (fst s) (i + j * n) m;
      do rm <- wr (snd s) (i + j * n) (Z.of_nat r);
      Ok (mm, rm));
    Ok (ed, mr))) as ([ed [mm rm]] & E & L1 & L2 & L3 & HE & HC); [lia|..].
  - cbn [fst snd]. rewrite !repeat_length. repeat split; auto; try lia. intros i Hi. replace i with 0 by lia. rewrite nth_repeat_lt by lia. cbn. ring.
  - intros j [ed [mm rm]] Hj (L1 & L2 & L3 & HE & HC). cbn [fst snd] in *.
    rewrite rd0 by lia. change (bind (Ok (nth j ed 0%R)) ?f) with (f (nth j ed 0%R)). cbv beta.
    assert (EW : wr ed (j + 1) (nth j ed 0 + w)%R = Ok (upd ed (j + 1) (nth j ed 0 + w)%R)). { unfold wr. rewrite L1, (proj2 (Nat.ltb_lt (j + 1) (n + 1))) by lia. reflexivity. }
    rewrite EW. clear EW. change (bind (Ok (upd ed (j + 1) (nth j ed 0 + w)%R)) ?f) with (f (upd ed (j + 1) (nth j ed 0 + w)%R)). cbv beta.
    destruct (@row_loop P n j mm rm LM ltac:(lia) L2 L3) as (mm' & rm' & EL & L2' & L3' & HR). fold p in EL. fold w in EL. cbv zeta in EL |- *. rewrite EL. cbn [bind].
    eexists. split; [reflexivity|]. cbn [fst snd]. rewrite upd_length. repeat split; auto.
    + intros i Hi. destruct (Nat.eq_dec i (j + 1)) as [->|]; [rewrite nth_upd_eq by lia; rewrite HE by lia; rewrite plus_INR; cbn; ring|].
      rewrite nth_upd_neq by lia. apply HE. lia.
    + destruct (HR c H) as [-> _]. destruct (c / n =? j) eqn:EJ; [apply Nat.eqb_eq in EJ; rewrite EJ; auto|]. apply Nat.eqb_neq in EJ. apply HC; auto. lia.
    + destruct (HR c H) as [_ ->]. destruct (c / n =? j) eqn:EJ; [apply Nat.eqb_eq in EJ; rewrite EJ; auto|]. apply Nat.eqb_neq in EJ. apply HC; auto. lia.
  - cbv zeta in E |- *. fold w. rewrite E. cbn [bind fst snd] in *.
    destruct (@mesh_edges ed n L1 Hn) with (mm := mm) as (m & EM & G & D & X & Y & Z & MZ & TX & TY & MM & MY & W).
    { intros i Hi. rewrite !HE by lia. rewrite S_INR. lra. }
    rewrite EM. cbn [bind]. exists m, rm. split; auto. split; auto. do 5 (split; auto).
    assert (TW : twx m = p). { rewrite TX, !HE by lia. unfold w. cbn [INR]. field. lra. }
    split; auto. split; [congruence|]. split. { intros i Hi. rewrite W by auto. rewrite !HE by lia. rewrite S_INR. ring. }
    split; auto. split; auto. split; [congruence|]. intros i j Hi Hj. assert (LC : i + j * n < n * n) by (apply idx2_lt; lia).
    destruct (@idx2 i j n Hi) as [EI EJ]. rewrite MM. pose proof (HC _ LC) as H. rewrite EI, EJ in H. apply H. auto.
Qed.
