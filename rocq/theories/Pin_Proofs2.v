From Verif Require Import Base BaseR Loop Mesh_Model Mesh_Spec Mesh_Proofs Csg_Model Pin_Model Pin_Spec Pin_Proofs.
Set Implicit Arguments. Unset Strict Implicit.
Open Scope nat_scope.

Lemma uregion_ring P n i j : square P -> centred P ->
  in_ring P ((INR i + / 2) * (px (pc_pitch P) / INR n)) ((INR j + / 2) * (py (pc_pitch P) / INR n)) (uregion P n i j).
Proof.
  intros HS [C1 C2]. unfold uregion, find_region, in_ring, off_axis. rewrite C1, C2, HS. set (p := px (pc_pitch P)).
  set (x := ((INR i + / 2) * (p / INR n))%R). set (y := ((INR j + / 2) * (p / INR n))%R).
  destruct (first_ring_spec (sqrt ((x - / 2 * p) * (x - / 2 * p) + (y - / 2 * p) * (y - / 2 * p))) (pc_radii P) 0) as (k & -> & A & B & C).
  replace (x - (p / 2 + 0))%R with (x - / 2 * p)%R by field. replace (y - (p / 2 + 0))%R with (y - / 2 * p)%R by field. auto.
Qed.
Lemma uregion_swap P n i j : uregion P n i j = uregion P n j i.
Proof. unfold uregion, find_region. cbv zeta. f_equal. f_equal. ring. Qed.
Lemma uregion_mirror P n i j : i < n -> uregion P n i j = uregion P n (n - 1 - i) j.
Proof.
  intros Hi. unfold uregion, find_region. cbv zeta. f_equal. f_equal. rewrite !minus_INR by lia. change (INR 1) with 1%R.
  assert (0 < INR n)%R by (apply lt_0_INR; lia). field. lra.
Qed.

Theorem uniform_mesh P n flag : made P -> square P -> centred P -> 0 < n -> flag && (length (pc_radii P) =? 1) && (7 <=? n) = false ->
  exists m reg, meshify P n flag = Ok (m, reg) /\ covers P n m reg /\ symmetric n reg /\
  (forall i, i < n -> nth i (mdx m) 0%R = (px (pc_pitch P) / INR n)%R /\ nth i (mdy m) 0%R = (py (pc_pitch P) / INR n)%R) /\
  forall i j, i < n -> j < n -> exists k,
    in_ring P ((INR i + / 2) * (px (pc_pitch P) / INR n)) ((INR j + / 2) * (py (pc_pitch P) / INR n)) k /\
    nth (Mesh_Model.index n n i j 0) reg (-1)%Z = Z.of_nat k.
Proof.
  intros HP HS HC Hn HF. unfold meshify. cbv zeta. rewrite HF.
  destruct (uniform_run HP Hn) as (m & reg & E & G & D & X & Y & Z & MZ & TX & TY & W & MY & LR & LM & V). exists m, reg. split; auto.
  split; [|split; [|split]].
  - unfold covers. repeat (split; [solve [auto | rewrite HS; auto]|]). rewrite HS in *. split.
    { pose proof (volumes G) as VT. rewrite TX, TY in VT. replace (twz m) with 1%R in VT; [rewrite Rmult_1_r in VT; exact VT|].
      destruct G as (_ & _ & _ & _ & _ & _ & TZ & _). rewrite <- TZ, MZ, Z. unfold left_edge. cbn. ring. }
    split; auto. split; auto. intros c Hc. exists (uregion P n (c mod n) (c / n)). split; [apply uregion_le|].
    assert (n <> 0) by lia. assert (c / n < n) by (apply Nat.div_lt_upper_bound; auto). assert (c mod n < n) by (apply Nat.mod_upper_bound; auto).
    pose proof (V (c mod n) (c / n) ltac:(auto) ltac:(auto)) as VC. replace (c mod n + c / n * n) with c in VC; [exact VC|]. rewrite (Nat.div_mod c n) at 1 by auto. lia.
  - intros i j Hi Hj. destruct (V i j Hi Hj) as [-> _]. destruct (V j i Hj Hi) as [-> _]. destruct (V (n - 1 - i) j ltac:(lia) Hj) as [-> _].
    split; f_equal; [apply uregion_swap|apply uregion_mirror; auto].
  - intros i Hi. rewrite MY, HS. split; apply W; auto.
  - intros i j Hi Hj. exists (uregion P n i j). split; [apply uregion_ring; auto|]. unfold Mesh_Model.index. destruct (V i j Hi Hj) as [V1 _].
    replace (i + j * n + 0 * n * n) with (i + j * n) by lia. exact V1.
Qed.

(** ** What the uniform mesh does not follow *)
Definition rect_pin : pincell := {| pc_pitch := P3 1 2 0; pc_mat := [0%Z]; pc_div := 0; pc_radii := []; pc_center := P3 0 0 0 |}.
Lemma rect_made : made rect_pin.
Proof.
  exists (P3 1 2 0), [0%Z], [], 0, (P3 0 0 0). unfold pincell_new. cbn [px py]. destruct (Rlt_dec 0 1); [|lra]. cbn [length Nat.eqb Nat.add Nat.ltb Nat.leb andb radii_ok].
  destruct (Rle_dec 2 0); [lra|reflexivity].
Qed.
Theorem rectangular_pitch : exists P, made P /\ centred P /\ forall n flag, 0 < n ->
  exists m reg, meshify P n flag = Ok (m, reg) /\ twy m <> py (pc_pitch P) /\ ~ volumes_total m (px (pc_pitch P) * py (pc_pitch P))%R.
Proof.
  exists rect_pin. split; [apply rect_made|]. split; [split; reflexivity|]. intros n flag Hn. unfold meshify. cbn [rect_pin pc_radii length]. rewrite andb_false_r.
  cbn [andb]. destruct (uniform_run rect_made Hn) as (m & reg & E & G & _ & _ & _ & Z & MZ & TX & TY & _). exists m, reg. split; auto. cbn [pc_pitch px py rect_pin] in *. split; [lra|].
  pose proof (volumes G) as (vs & EV & SV). intros (vs' & EV' & SV'). rewrite EV in EV'. injection EV' as <-. rewrite SV, TX, TY in SV'.
  replace (twz m) with 1%R in SV'; [lra|]. destruct G as (_ & _ & _ & _ & _ & _ & TZ & _). rewrite <- TZ, MZ, Z. unfold left_edge. cbn. ring.
Qed.

Definition offset_pin : pincell := {| pc_pitch := P3 4 4 0; pc_mat := [0%Z; 1%Z]; pc_div := 0; pc_radii := [1%R]; pc_center := P3 1 0 0 |}.
Lemma offset_made : made offset_pin.
Proof.
  exists (P3 4 4 0), [0; 1]%Z, [1%R], 0, (P3 1 0 0). unfold pincell_new. cbn [px py]. destruct (Rlt_dec 0 4); [|lra]. cbn [length Nat.eqb Nat.add Nat.ltb Nat.leb andb radii_ok increasing].
  destruct (Rlt_dec 0 1); [|lra]. destruct (Rle_dec 4 0); [lra|reflexivity].
Qed.
(** With four by four cells the center (3.5, 1.5) is inside the pin at (3, 2), but not inside one at (2, 2). *)
Theorem offset_ignored : exists P n m reg, made P /\ square P /\ pin_inside P /\ meshify P n false = Ok (m, reg) /\
  exists i j, i < n /\ j < n /\
    in_ring P ((INR i + / 2) * (px (pc_pitch P) / INR n)) ((INR j + / 2) * (py (pc_pitch P) / INR n)) 0 /\
    nth (Mesh_Model.index n n i j 0) reg (-1)%Z = 1%Z.
Proof.
  destruct (@uniform_run offset_pin 4 offset_made ltac:(lia)) as (m & reg & E & _ & _ & _ & _ & _ & _ & _ & _ & _ & _ & _ & _ & V).
  exists offset_pin, 4, m, reg. split; [apply offset_made|]. split; [reflexivity|].
  split; [intros r [<-|[]]; cbn; lra|]. split; [exact E|]. exists 3, 1. do 2 (split; [lia|]). split.
  - split; [cbn; lia|]. split; [|intros i Hi; lia]. intros _. unfold off_axis. cbn [offset_pin pc_pitch pc_center pc_radii px py nth].
    apply Rlt_le_trans with (sqrt 1); [apply sqrt_lt_1; cbn; lra|rewrite sqrt_1; lra].
  - destruct (V 3 1 ltac:(lia) ltac:(lia)) as [V1 _]. change (Mesh_Model.index 4 4 3 1 0) with (3 + 1 * 4). rewrite V1.
    unfold uregion, find_region. cbn [offset_pin pc_pitch pc_radii px first_ring]. destruct (Rlt_dec _ _) as [C|]; [|reflexivity]. exfalso. revert C. apply Rle_not_lt.
    apply Rle_trans with (sqrt 1); [rewrite sqrt_1; lra|apply sqrt_le_1; cbn; lra].
Qed.
