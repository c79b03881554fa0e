From Coq Require QArith_base.
From Verif Require Import Base BaseR Loop Mesh_Model Mesh_Spec Mesh_Proofs Csg_Model Tables_Proofs3 Pin_Model Pin_Spec Pin_Proofs Pin_Proofs3.
Set Implicit Arguments. Unset Strict Implicit.
Open Scope nat_scope.

Section Fit.
Context (P : pincell) (r : R) (n : nat) (HM : made P) (HR : pc_radii P = [r]) (HS : square P) (HI : pin_inside P) (HF : fits (px (pc_pitch P)) r n).
Let p := px (pc_pitch P).
Let L := stair_L r.
Let d := stair_d r.
Let fm := fine P r n.

Lemma sum7 f : rsum 7 f = (f 0%nat + f 1%nat + f 2%nat + f 3%nat + f 4%nat + f 5%nat + f 6%nat)%R.
Proof. cbn [rsum]. ring. Qed.
Lemma coarse_of_cell x : x < n -> exists I, I < 7 /\ in_coarse fm I x.
Proof.
  intros Hx. rewrite <- (fine_sum HM HR HI HF) in Hx. destruct (psum_block_exists Hx) as (I & HI7 & B). exists I. split; [exact HI7|]. split; auto.
Qed.

(** Where a point of a cell is. *)
Lemma axis_place w x I X0 : axis_widths fm (fit_edges P) w -> (forall v, In v w -> 0 < v)%R -> in_coarse fm I x -> inside w x X0 -> (ed P r I < X0 < ed P r (S I))%R.
Proof.
  intros W PW [HI7 HX] [A B]. change (length fm) with 7 in HI7. destruct (edges_ok (P := P) (r := r)) as [_ EE]; auto.
  assert (LW : length w = list_sum fm) by apply W.
  pose proof (@left_edge_block fm _ _ (fine_pos HM HR HI HF) W I ltac:(change (length fm) with 7; lia)) as E1.
  pose proof (@left_edge_block fm _ _ (fine_pos HM HR HI HF) W (S I) ltac:(change (length fm) with 7; lia)) as E2.
  rewrite !EE in E1, E2 by lia. assert (Z0 : ed P r 0 = 0%R) by reflexivity. rewrite Z0 in E1, E2.
  assert (psum fm (S I) <= list_sum fm) by (rewrite <- psum_all; apply psum_mono; change (length fm) with 7; lia).
  pose proof (@left_edge_le w (psum fm I) x PW ltac:(lia) ltac:(lia)). pose proof (@left_edge_le w (S x) (psum fm (S I)) PW ltac:(lia) ltac:(lia)). lra.
Qed.
Definition level (I : nat) : nat := nth I [3; 2; 1; 0; 1; 2; 3] 3.
Lemma place_level I X0 : I < 7 -> (ed P r I < X0 < ed P r (S I))%R ->
  match level I with
  | 0 => Rabs (X0 - p / 2) < L / 4
  | 1 => L / 4 < Rabs (X0 - p / 2) < L / 2
  | 2 => L / 2 < Rabs (X0 - p / 2) < L / 2 + d
  | _ => L / 2 + d < Rabs (X0 - p / 2)
  end%R.
Proof.
  intros H7 H. destruct (fit_facts HM HR HI) as (P0 & R0 & L0 & D0 & M0 & _). fold p L d in P0, L0, D0, M0. unfold ed in H. fold p L d in H.
  do 7 (destruct I as [|I]; [cbn [level nth] in *; unfold Rabs; destruct (Rcase_abs _); lra|]). lia.
Qed.
Lemma stair_level I J X0 Y0 : I < 7 -> J < 7 -> (ed P r I < X0 < ed P r (S I))%R -> (ed P r J < Y0 < ed P r (S J))%R ->
  (in_stair r (X0 - p / 2) (Y0 - p / 2) <-> fuelb I J = true).
Proof.
  intros HI7 HJ7 HX HY. destruct (fit_facts HM HR HI) as (P0 & R0 & L0 & D0 & M0 & _). fold p L d in P0, L0, D0, M0.
  pose proof (place_level HI7 HX) as A. pose proof (place_level HJ7 HY) as B. unfold in_stair. fold L d. cbv zeta.
  set (a := Rabs (X0 - p / 2)) in *. set (b := Rabs (Y0 - p / 2)) in *. clearbody a b.
  assert (FB : fuelb I J = ((level I <=? 1) && (level J <=? 1)) || ((level I <=? 2) && (level J =? 0)) || ((level I =? 0) && (level J <=? 2))).
  { do 7 (destruct I as [|I]; [do 7 (destruct J as [|J]; [reflexivity|]); lia|]). lia. }
  rewrite FB. clear FB HX HY. destruct (level I) as [|[|[|?]]], (level J) as [|[|[|?]]]; cbn [Nat.leb Nat.eqb andb orb]; split; intros H; try discriminate; try reflexivity; exfalso + idtac; lra.
Qed.

Definition ind (z k : Z) : R := if Z.eqb z k then 1%R else 0%R.
Definition mark (I J : nat) : Z := if fuelb I J then 0%Z else 1%Z.
Section Mesh.
Context (m : mesh) (reg : list Z) (G : mesh_good m) (X : ncx m = n) (Y : ncy m = n)
  (WX : axis_widths fm (fit_edges P) (mdx m)) (WY : axis_widths fm (fit_edges P) (mdy m)) (LR : length reg = n * n)
  (V : forall I J x y, in_coarse fm I x -> in_coarse fm J y -> nth (Mesh_Model.index n n x y 0) reg (-1)%Z = (if fuelb I J then 0%Z else 1%Z)).

Lemma area_ok : region_area m reg 0 = (L * L + 2 * (d * L))%R /\ region_area m reg 1 = (p * p - (L * L + 2 * (d * L)))%R.
Proof.
  destruct (edges_ok (P := P) (r := r)) as [_ EE]; auto.
  assert (K : forall k, region_area m reg k = rsum 7 (fun J => (ed P r (S J) - ed P r J) * rsum 7 (fun I => (ed P r (S I) - ed P r I) * ind (mark I J) k))%R).
  { intros k. unfold region_area. rewrite X, Y. 
    transitivity (rsum n (fun j => nth j (mdy m) 0 * rsum n (fun i => nth i (mdx m) 0 * ind (nth (Mesh_Model.index n n i j 0%nat) reg (-1)%Z) k))%R).
    { apply rsum_ext. intros j Hj. rewrite <- rsum_scal. apply rsum_ext. intros i Hi. unfold ind. destruct (Z.eqb _ k); ring. }
    pose proof (@block_sum fm (fit_edges P) (mdy m) (fine_pos HM HR HI HF) WY (fun j => rsum n (fun i => nth i (mdx m) 0 * ind (nth (Mesh_Model.index n n i j 0%nat) reg (-1)%Z) k)%R)
      (fun J => rsum 7 (fun I => (ed P r (S I) - ed P r I) * ind (mark I J) k)%R)) as BY. unfold fm in BY at 2. rewrite (fine_sum HM HR HI HF) in BY. rewrite BY.
    - change (length fm) with 7. apply rsum_ext. intros J HJ. rewrite !EE by lia. reflexivity.
    - intros J y HJ.
      pose proof (@block_sum fm (fit_edges P) (mdx m) (fine_pos HM HR HI HF) WX (fun i => ind (nth (Mesh_Model.index n n i y 0%nat) reg (-1)%Z) k) (fun I => ind (mark I J) k)) as BX.
      unfold fm in BX at 2. rewrite (fine_sum HM HR HI HF) in BX. rewrite BX.
      + change (length fm) with 7. apply rsum_ext. intros I HI7. rewrite !EE by lia. reflexivity.
      + intros I x HX. rewrite (V HX HJ). reflexivity. }
  rewrite !K. rewrite !sum7. unfold ed. fold p L d.
  repeat match goal with |- context [ind (mark ?I ?J) ?k] => first [change (ind (mark I J) k) with 1%R | change (ind (mark I J) k) with 0%R] end.
  cbn [nth]. split; field.
Qed.

Lemma symmetric_ok : symmetric n reg.
Proof.
  intros i j Hi Hj. destruct (coarse_of_cell Hi) as (I & HI7 & CI). destruct (coarse_of_cell Hj) as (J & HJ7 & CJ).
  assert (E : forall a b, a + b * n = Mesh_Model.index n n a b 0) by (intros; unfold Mesh_Model.index; lia). rewrite !E. rewrite (V CI CJ), (V CJ CI). split.
  - assert (fuelb I J = fuelb J I) as ->; auto. do 7 (destruct I as [|I]; [do 7 (destruct J as [|J]; [reflexivity|]); lia|]). lia.
  - assert (CM : in_coarse fm (6 - I) (n - 1 - i)).
    { destruct CI as [_ CI]. split; [change (length fm) with 7; lia|]. pose proof (fine_sum HM HR HI HF) as FS. unfold fine in FS. cbn [map list_sum fold_right] in FS.
      unfold fm, psum, fine in *. do 7 (destruct I as [|I]; [cbn [map firstn list_sum fold_right Nat.sub] in *; lia|]). lia. }
    rewrite (V CM CJ). assert (fuelb I J = fuelb (6 - I) J) as ->; auto. do 7 (destruct I as [|I]; [do 7 (destruct J as [|J]; [reflexivity|]); lia|]). lia.
Qed.
End Mesh.

Theorem fit_mesh flag : flag = true -> 7 <= n -> centred P ->
  exists m reg, meshify P n flag = Ok (m, reg) /\ covers P n m reg /\ symmetric n reg /\
  (Rabs (region_area m reg 0 - PI * (r * r)) <= / 10 ^ 15 * (r * r))%R /\
  (region_area m reg 0 + region_area m reg 1 = px (pc_pitch P) * py (pc_pitch P))%R /\
  forall i j x y, i < n -> j < n -> inside (mdx m) i x -> inside (mdy m) j y ->
    (nth (Mesh_Model.index n n i j 0) reg (-1)%Z = 0%Z <->
     in_stair r (x - px (pc_pitch P) / 2) (y - py (pc_pitch P) / 2)).
Proof.
  intros -> N7 HC. unfold meshify. cbv zeta. rewrite HR. cbn [length Nat.eqb andb]. rewrite (proj2 (Nat.leb_le 7 n) N7).
  destruct (fit_run HM HR HI HF) as (m & reg & E & G & D & X & Y & Z & MZ & WX & WY & LR & LM & VT & V). fold p in VT. exists m, reg. split; auto.
  assert (V' : forall I J x y, in_coarse fm I x -> in_coarse fm J y -> nth (Mesh_Model.index n n x y 0) reg (-1)%Z = (if fuelb I J then 0%Z else 1%Z)) by (intros; apply V; auto).
  pose proof (area_ok X Y WX WY LR V') as [A0 A1]. destruct (fit_facts HM HR HI) as (P0 & R0 & L0 & D0 & M0 & _). fold p L d in P0, L0, D0, M0.
  destruct (edges_ok (P := P) (r := r)) as [_ EE]; auto.
  assert (TX : twx m = p). { destruct G as (_ & _ & _ & _ & T & _). rewrite <- T, X. destruct WX as (_ & _ & W). rewrite (fine_sum HM HR HI HF) in W. rewrite W. change (length (fine P r n)) with 7. rewrite !EE by lia. unfold ed. cbn [nth]. fold p. ring. }
  assert (TY : twy m = p). { destruct G as (_ & _ & _ & _ & _ & T & _). rewrite <- T, Y. destruct WY as (_ & _ & W). rewrite (fine_sum HM HR HI HF) in W. rewrite W. change (length (fine P r n)) with 7. rewrite !EE by lia. unfold ed. cbn [nth]. fold p. ring. }
  assert (SQ : py (pc_pitch P) = p) by exact HS. rewrite SQ. fold p.
  split; [|split; [|split; [|split]]].
  - unfold covers. rewrite SQ. fold p. do 9 (split; auto). split; auto. split; auto. intros c Hc. rewrite HR. cbn [length]. assert (n <> 0) by lia.
    assert (C1 : c / n < n) by (apply Nat.div_lt_upper_bound; auto). assert (C2 : c mod n < n) by (apply Nat.mod_upper_bound; auto).
    destruct (coarse_of_cell C2) as (I & HI7 & CI). destruct (coarse_of_cell C1) as (J & HJ7 & CJ). destruct (V _ _ _ _ CI CJ) as [V1 V2].
    replace (Mesh_Model.index n n (c mod n) (c / n) 0) with c in V1, V2; [|unfold Mesh_Model.index; rewrite (Nat.div_mod c n) at 1 by auto; lia].
    rewrite V1, V2. destruct (fuelb I J); [exists 0|exists 1]; repeat split; lia.
  - apply (symmetric_ok (m := m)); auto.
  - rewrite A0. pose proof pi_digits as PD. assert (PD1 : forall a b : R, (Rabs a <= b -> - b <= a <= b)%R) by (intros a b; unfold Rabs; destruct (Rcase_abs a); lra). apply PD1 in PD. unfold pi_q, Q2R in PD. cbn [QArith_base.Qnum QArith_base.Qden] in PD. change (10 ^ 18)%Z with 1000000000000000000%Z in PD.
    unfold L, d, stair_L, stair_d. set (s := (r * r)%R). assert (S0 : (0 < s)%R) by (unfold s; nra).
    replace (1.60496875 * r * (1.60496875 * r) + 2 * (0.176223981031790 * r * (1.60496875 * r)) - PI * s)%R with ((1.60496875 * 1.60496875 + 2 * (0.176223981031790 * 1.60496875) - PI) * s)%R by (unfold s; ring).
    rewrite Rabs_mult, (Rabs_pos_eq s) by lra. apply Rmult_le_compat_r; [lra|]. apply Rabs_le. cbn [pow]. lra.
  - rewrite A0, A1. ring.
  - intros i j x y Hi Hj HX HY. destruct (coarse_of_cell Hi) as (I & HI7 & CI). destruct (coarse_of_cell Hj) as (J & HJ7 & CJ). rewrite (V' _ _ _ _ CI CJ).
    assert (PX : forall v, In v (mdx m) -> (0 < v)%R) by (intros; apply G; auto). assert (PY : forall v, In v (mdy m) -> (0 < v)%R) by (intros; apply G; auto).
    pose proof (axis_place WX PX CI HX) as AX. pose proof (axis_place WY PY CJ HY) as AY. rewrite (stair_level HI7 HJ7 AX AY). destruct (fuelb I J); split; intros; auto; discriminate.
Qed.
End Fit.
