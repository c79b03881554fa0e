(** * Proofs on interpolated colours (no model content) *)
From Coq Require Import ZArith Lra Lia.
From Verif Require Import Base BaseR Loop Util_Model Util_Spec Util_Proofs Mesh_Model Mesh_Spec Csg_Model Picture_Model Picture_Spec
  Picture_Proofs Picture_Proofs2 Picture_Proofs3.
Open Scope R_scope.
Set Implicit Arguments. Unset Strict Implicit.

Lemma dist_apart a b : dist a b = apart a b.
Proof.
  destruct a as [[r0 g0] b0]. destruct b as [[r1 g1] b1]. unfold dist, apart, red, green, blue. cbn [fst snd]. f_equal.
  rewrite !minus_IZR. ring.
Qed.
Lemma rsum_first n f : rsum (S n) f = f 0%nat + rsum n (fun i => f (S i)).
Proof. change (S n) with (1 + n)%nat. rewrite rsum_split. cbn. lra. Qed.

Lemma positions_walked cs : forall d c i, (i <= List.length cs)%nat -> nth i (positions d c cs) 0 = d + walked (c :: cs) i.
Proof.
  induction cs as [|c1 cs IH]; intros d c i Hi; cbn [positions].
  - destruct i; [|cbn in Hi; lia]. cbn. unfold walked. cbn. lra.
  - destruct i as [|i]; cbn [nth]; [unfold walked; cbn; lra|].
    rewrite IH by (cbn in Hi; lia). unfold walked. rewrite rsum_first, dist_apart. unfold colour. cbn [nth]. lra.
Qed.
Lemma node_walked cs i : (i < List.length cs)%nat -> nth i (node_positions cs) 0 = walked cs i / walked cs (List.length cs - 1).
Proof.
  destruct cs as [|c cs]; [cbn; lia|]. intros Hi. unfold node_positions, vec_scale.
  set (q := last (positions 0 c cs) 0).
  match goal with |- nth i (map ?g _) 0 = _ => pose (f := g) end.
  rewrite (nth_indep _ 0 (f 0)) by (rewrite map_length, positions_length; cbn in Hi; lia). fold f. rewrite map_nth.
  assert (Q : q = walked (c :: cs) (List.length cs)).
  { unfold q. rewrite <- (Rplus_0_l (walked _ _)), <- positions_walked by auto.
    assert (LN : forall l : list R, last l 0 = nth (List.length l - 1) l 0).
    { induction l as [|x [|y l] IH]; auto. cbn [last]. cbn [last] in IH. rewrite IH. cbn [List.length]. rewrite !Nat.sub_succ, !Nat.sub_0_r. reflexivity. }
    rewrite LN, positions_length. f_equal. lia. }
  cbn [List.length] in *. rewrite Nat.sub_succ, Nat.sub_0_r, <- Q. unfold f. rewrite positions_walked by lia. unfold Rdiv. ring.
Qed.

Lemma apart_nonneg a b : 0 <= apart a b.
Proof. apply sqrt_pos. Qed.

Lemma trunc_part a b del w : (0 <= a)%Z -> (0 <= b)%Z -> 0 < w -> 0 <= del <= w -> part_way (del / w) a b (trunc (mix a b del w)).
Proof.
  intros A B W D. unfold part_way, mix. rewrite minus_IZR.
  assert (0 <= IZR a) by (apply IZR_le; lia). assert (0 <= IZR b) by (apply IZR_le; lia).
  replace ((IZR b - IZR a) * del / w) with ((IZR b - IZR a) * (del / w)) by (field; lra).
  assert (T : 0 <= del / w <= 1).
  { split; [apply Rmult_le_pos; [lra|left; apply Rinv_0_lt_compat; auto]|].
    apply Rmult_le_reg_r with w; auto. unfold Rdiv. rewrite Rmult_assoc, Rinv_l by lra. lra. }
  set (t := del / w) in *. assert (P : 0 <= IZR a + (IZR b - IZR a) * t).
  { assert (0 <= (1 - t) * IZR a) by (apply Rmult_le_pos; lra). assert (0 <= t * IZR b) by (apply Rmult_le_pos; lra). lra. }
  unfold trunc. destruct (Rle_dec 0 (IZR a + (IZR b - IZR a) * t)); [|lra].
  destruct (base_Int_part (IZR a + (IZR b - IZR a) * t)). lra.
Qed.

Lemma interp_at (cs : list rgb) v : (2 <= List.length cs)%nat -> (forall c, In c cs -> is_rgb c) -> 0 < walked cs (List.length cs - 1) -> 0 <= v <= 1 ->
  exists c, interp_rgb cs v = Ok c /\ colour_at cs v c.
Proof.
  intros L H P V. unfold interp_rgb, colour_at. change (@List.length (Z * Z * Z) cs) with (@List.length rgb cs) in *.
  destruct (first_node_spec (node_positions cs) v 0) as (A & B & C). cbn zeta in *.
  set (j := first_node 0 (node_positions cs) v) in *. rewrite node_length in *.
  set (tot := walked cs (List.length cs - 1)) in *.
  assert (RD : forall k, (k < List.length cs)%nat -> rd cs k = Ok (colour cs k) /\ is_rgb (colour cs k)).
  { intros k Hk. rewrite (@rd_ok _ cs k (0, 0, 0)%Z) by auto. split; auto. apply H. apply nth_In. auto. }
  destruct (Nat.eqb_spec j 0) as [J|J].
  - destruct (RD 0%nat ltac:(lia)) as (-> & R0). eexists. split; [reflexivity|].
    specialize (C ltac:(lia)). rewrite J in C. cbn [Nat.sub] in C. rewrite node_walked in C by lia.
    assert (v = 0). { replace (walked cs 0 / _) with 0 in C by (unfold walked; cbn; unfold Rdiv; ring). lra. }
    exists 0%nat, 0. split; [lia|]. split; [split; [lra|]; unfold walked at 1; cbn; subst v; lra|].
    unfold part_way. lra.
  - destruct (Nat.eqb_spec j (List.length cs)) as [J2|J2].
    + exfalso. specialize (B (List.length cs - 1)%nat ltac:(lia)). rewrite node_walked in B by lia. fold tot in B.
      unfold Rdiv in B. rewrite Rinv_r in B by lra. lra.
    + destruct (RD (j - 1)%nat ltac:(lia)) as (-> & R0). destruct (RD j ltac:(lia)) as (-> & R1). cbn [bind].
      rewrite !(@rd_ok _ (node_positions cs) _ 0) by (rewrite node_length; lia). cbn [bind].
      specialize (B (j - 1)%nat ltac:(lia)). specialize (C ltac:(lia)). rewrite Nat.sub_0_r in C.
      rewrite !node_walked in * by lia. fold tot in B, C |- *.
      set (d0 := walked cs (j - 1) / tot) in *. set (d1 := walked cs j / tot) in *.
      unfold rdiv. destruct (Req_EM_T (d1 - d0) 0); [lra|]. cbn [bind].
      destruct (colour cs (j - 1)) as [[r0 g0] b0] eqn:E0. destruct (colour cs j) as [[r1 g1] b1] eqn:E1. cbn [bind].
      destruct R0 as (? & ? & ?). destruct R1 as (? & ? & ?). cbn [fst snd] in *.
      edestruct rgb_of_ok as (-> & _); [apply mix_range with (del := v - d0) (w := d1 - d0); eauto; lra..|].
      eexists. split; [reflexivity|]. exists (j - 1)%nat, ((v - d0) / (d1 - d0)). replace (S (j - 1)) with j by lia. split; [lia|].
      rewrite E0, E1. unfold red, green, blue. cbn [fst snd].
      split; [|split; [|split]]; try (apply trunc_part; lia || lra).
      split.
      * split; [apply Rmult_le_pos; [lra|left; apply Rinv_0_lt_compat; lra]|].
        apply Rmult_le_reg_r with (d1 - d0); [lra|]. unfold Rdiv. rewrite Rmult_assoc, Rinv_l by lra. lra.
      * replace (walked cs j - walked cs (j - 1)) with ((d1 - d0) * tot) by (unfold d0, d1; field; lra).
        replace (walked cs (j - 1)) with (d0 * tot) by (unfold d0; field; lra). field. lra.
Qed.

Lemma palette_ok c : c <> Default -> c <> CoolWarm ->
  let cs := match c with Jet => jet_colours | Hot => hot_colours | _ => cool_colours end in
  map hex_to_rgb (nodes c) = cs /\ (2 <= List.length cs)%nat /\ 0 < walked cs (List.length cs - 1).
Proof.
  intros N1 N2. assert (W : forall cs n, 0 < apart (colour cs 0) (colour cs 1) -> 0 < walked cs (S n)).
  { intros cs n P. unfold walked. rewrite rsum_first. assert (0 <= rsum n (fun i => apart (colour cs (S i)) (colour cs (S (S i))))) by (apply rsum_nonneg; intros; apply apart_nonneg). lra. }
  destruct c; try contradiction; cbn zeta; (split; [reflexivity|]); (split; [cbn; lia|]); apply W; unfold apart; cbn; apply sqrt_lt_R0; lra.
Qed.

Theorem interp_colours c values mn mx : c <> Default -> c <> CoolWarm -> forall hi lo,
  is_min_of mn values -> is_max_of mx values -> mn < mx -> mn <= hi -> lo <= mx ->
  let cs := match c with Jet => jet_colours | Hot => hot_colours | _ => cool_colours end in
  exists r, color hi lo c values = Ok r /\ Forall2 (fun x => colour_at cs ((x - mn) / (mx - mn))) values r.
Proof.
  intros N1 N2 hi lo [I1 M1] [I2 M2] LT Hh Hl cs. destruct (palette_ok N1 N2) as (E & L & P). fold cs in E, L, P.
  assert (Emn : vec_min hi values = mn).
  { destruct (vec_min_gen values hi) as (A & B & C). pose proof (C _ I1). destruct A as [A|A]; [lra|]. pose proof (M1 _ A). lra. }
  assert (Emx : vec_max lo values = mx).
  { destruct (vec_max_gen values lo) as (A & B & C). pose proof (C _ I2). destruct A as [A|A]; [lra|]. pose proof (M2 _ A). lra. }
  assert (G : forall c, In c cs -> is_rgb c).
  { intros q Q. rewrite <- E in Q. apply in_map_iff in Q. destruct Q as (h & <- & _). apply hex_ok. }
  assert (C : color hi lo c values = mapM (interp_rgb cs) (vec_scale (vec_plus_a values (- mn)) (1 / (mx - mn)))).
  { rewrite <- E. unfold color. rewrite Emn, Emx. destruct (Rlt_dec 0 (mx - mn)); [|lra]. destruct c; try contradiction; reflexivity. }
  rewrite C. unfold vec_scale, vec_plus_a. rewrite map_map.
  assert (A : forall x, In x values -> exists b, interp_rgb cs ((x + - mn) * (1 / (mx - mn))) = Ok b /\ colour_at cs ((x - mn) / (mx - mn)) b).
  { intros x X. replace ((x + - mn) * (1 / (mx - mn))) with ((x - mn) / (mx - mn)) by (field; lra).
    apply interp_at; auto. pose proof (M1 x X). pose proof (M2 x X).
    split; [apply Rmult_le_pos; [lra|left; apply Rinv_0_lt_compat; lra]|].
    apply Rmult_le_reg_r with (mx - mn); [lra|]. unfold Rdiv. rewrite Rmult_assoc, Rinv_l by lra. lra. }
  clear - A. induction values as [|x t IH]; cbn [map mapM]; [exists []; auto|].
  destruct (A x (or_introl eq_refl)) as (b & Eb & Q). destruct IH as (r & Er & F); [intros; apply A; right; auto|].
  match goal with |- context [interp_rgb cs ?z] => replace z with ((x + - mn) * (1 / (mx - mn))) by (try reflexivity; ring) end.
  rewrite Eb. cbn [bind]. rewrite Er. cbn [bind]. eexists. split; [reflexivity|]. constructor; auto.
Qed.
