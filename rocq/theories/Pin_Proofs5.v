From Verif Require Import Base BaseR Loop Mesh_Model Mesh_Spec Mesh_Proofs Csg_Model Pin_Model Pin_Spec Pin_Proofs Pin_Proofs3 Pin_Proofs4.
Set Implicit Arguments. Unset Strict Implicit.
Open Scope nat_scope.

(** ** Fine enough meshes fit *)
Lemma share_big p n w : (0 < p)%R -> (p <= INR n * w)%R -> (1 <= Int_part (INR n * w / p))%Z /\ share p n w = Int_part (INR n * w / p).
Proof.
  intros P0 H. assert (X : (1 <= INR n * w / p)%R) by (apply Rmult_le_reg_r with p; auto; unfold Rdiv; rewrite Rmult_assoc, Rinv_l by lra; lra).
  assert (G : (1 <= Int_part (INR n * w / p))%Z). { apply Z.lt_succ_r, lt_IZR. rewrite succ_IZR. destruct (base_Int_part (INR n * w / p)). lra. }
  split; auto. unfold share. lia.
Qed.
Theorem fits_fine p r n : (0 < r)%R -> (p <= INR n * stair_d r)%R -> (p <= INR n * (p / 2 - stair_L r / 2 - stair_d r))%R -> (2 * r <= p)%R -> fits p r n.
Proof.
  intros R0 HD HM H2. assert (P0 : (0 < p)%R) by lra. unfold fits. cbv zeta. set (L := stair_L r) in *. set (d := stair_d r) in *.
  assert (N0 : (0 < INR n)%R). { destruct (Rle_or_lt (INR n) 0) as [C|]; auto. pose proof (pos_INR n). assert (INR n = 0%R) by lra. rewrite H0 in HD. lra. }
  assert (HL : (p <= INR n * (L / 4))%R). { apply Rle_trans with (INR n * d)%R; auto. apply Rmult_le_compat_l; [lra|]. unfold L, d, stair_L, stair_d. lra. }
  destruct (share_big P0 HM) as [A1 ->]. destruct (share_big P0 HD) as [B1 ->]. destruct (share_big P0 HL) as [C1 ->].
  set (xa := (INR n * (p / 2 - L / 2 - d) / p)%R) in *. set (xb := (INR n * d / p)%R) in *. set (xc := (INR n * (L / 4) / p)%R) in *.
  assert (ES : (2 * (xa + xb + xc) = INR n - 2 * xc)%R) by (unfold xa, xb, xc; field; lra).
  replace (INR n * (L / 2) / p)%R with (2 * xc)%R by (unfold xc; field; lra).
  destruct (base_Int_part xa) as [Ia _]. destruct (base_Int_part xb) as [Ib _]. destruct (base_Int_part xc) as [Ic _]. destruct (base_Int_part (2 * xc)) as [Id _].
  apply IZR_le in C1. rewrite INR_IZR_INZ in ES.
  split; [apply lt_IZR|apply le_IZR]; rewrite ?minus_IZR, mult_IZR, !plus_IZR; lra.
Qed.

(** ** Meshes that do not fit *)
Definition single_pin (p r : R) : pincell := {| pc_pitch := P3 p p 0; pc_mat := [0%Z; 1%Z]; pc_div := 0; pc_radii := [r]; pc_center := P3 0 0 0 |}.
Lemma single_made p r : (0 < p)%R -> (0 < r)%R -> made (single_pin p r).
Proof.
  intros Hp Hr. exists (P3 p p 0), [0; 1]%Z, [r], 0, (P3 0 0 0). unfold pincell_new. cbn [px py]. destruct (Rlt_dec 0 p); [|lra].
  cbn [length Nat.eqb Nat.add Nat.ltb Nat.leb andb radii_ok increasing]. destruct (Rlt_dec 0 r); [|lra]. destruct (Rle_dec p 0); [lra|reflexivity].
Qed.
Lemma thin_counts : fit_counts (single_pin 2 (2 / 5)) 7 = (2, 1, 1, 0)%Z.
Proof.
  unfold fit_counts, fit_mod, fit_L, fit_delta. cbn [single_pin pc_pitch pc_radii px nth].
  rewrite (@Int_part_eq (/ 2 * INR 7 * (/ 2 * 2 - / 2 * (160496875 / 100000000 * (2 / 5)) - 17622398103179 / 100000000000000 * (2 / 5)) / (/ 2 * 2)) 2) by (cbn [INR]; lra).
  rewrite (@Int_part_eq (/ 2 * INR 7 * (17622398103179 / 100000000000000 * (2 / 5)) / (/ 2 * 2)) 0) by (cbn [INR]; lra).
  rewrite (@Int_part_eq (/ 2 * INR 7 * (/ 4 * (160496875 / 100000000 * (2 / 5))) / (/ 2 * 2)) 0) by (cbn [INR]; lra).
  rewrite (@Int_part_eq (/ 4 * INR 7 * (160496875 / 100000000 * (2 / 5)) / (/ 2 * 2)) 1) by (cbn [INR]; lra).
  reflexivity.
Qed.
Lemma wide_counts : fit_counts (single_pin 2 1) 10 = (1, 1, 2, 3)%Z.
Proof.
  unfold fit_counts, fit_mod, fit_L, fit_delta. cbn [single_pin pc_pitch pc_radii px nth].
  rewrite (@Int_part_eq (/ 2 * INR 10 * (/ 2 * 2 - / 2 * (160496875 / 100000000 * 1) - 17622398103179 / 100000000000000 * 1) / (/ 2 * 2)) 0) by (cbn [INR]; lra).
  rewrite (@Int_part_eq (/ 2 * INR 10 * (17622398103179 / 100000000000000 * 1) / (/ 2 * 2)) 0) by (cbn [INR]; lra).
  rewrite (@Int_part_eq (/ 2 * INR 10 * (/ 4 * (160496875 / 100000000 * 1)) / (/ 2 * 2)) 2) by (cbn [INR]; lra).
  rewrite (@Int_part_eq (/ 4 * INR 10 * (160496875 / 100000000 * 1) / (/ 2 * 2)) 4) by (cbn [INR]; lra).
  reflexivity.
Qed.
Lemma thin_widths a b c d e f g h : widths [2; 1; 1; 0; 1; 1; 2] [a; b; c; d; e; f; g; h]%R =
  Ok [(b - a) / INR 2; (b - a) / INR 2; (c - b) / INR 1; (d - c) / INR 1; (f - e) / INR 1; (g - f) / INR 1; (h - g) / INR 2; (h - g) / INR 2]%R.
Proof. reflexivity. Qed.

Theorem thin_pin : exists P n m reg, made P /\ square P /\ centred P /\ pin_inside P /\ 7 <= n /\ length (pc_radii P) = 1 /\
  meshify P n true = Ok (m, reg) /\ ncx m <> n /\ (left_edge (mdx m) (ncx m) < px (pc_pitch P))%R.
Proof.
  exists (single_pin 2 (2 / 5)), 7.
  destruct (@coarse_map_spec [2; 1; 1; 0; 1; 1; 2] [2; 1; 1; 0; 1; 1; 2] [1] (fold_left (fun l i => upd l i 0%Z) fuel_index (repeat 1%Z 49))) as (reg & ER & _ & _); [reflexivity|].
  destruct unit_axis as (z & EZ & LZ & UZ).
  assert (E : exists m, meshify (single_pin 2 (2 / 5)) 7 true = Ok (m, reg) /\ ncx m = 8 /\ (left_edge (mdx m) 8 < 2)%R).
  { unfold meshify. cbn [single_pin pc_radii length Nat.eqb andb Nat.leb]. fold (single_pin 2 (2 / 5)). unfold best_fit. rewrite thin_counts. change (0 <? 0)%Z with false. cbv iota.
    change (map Z.to_nat [2; 1; 1; 0; 1; 1; 2]%Z) with [2; 1; 1; 0; 1; 1; 2]. cbn [single_pin pc_mat rd nth_error bind]. fold (single_pin 2 (2 / 5)).
    change (fold_left (fun l i => upd l i 0%Z) fuel_index (repeat 1%Z 49)) with (fold_left (fun l i => upd l i 0%Z) fuel_index (repeat 1%Z 49)).
    unfold mesh2D, mesh_new, fit_edges. set (e1 := fit_mod (single_pin 2 (2 / 5))). set (dl := fit_delta (single_pin 2 (2 / 5))). set (LL := fit_L (single_pin 2 (2 / 5))).
    rewrite thin_widths, EZ. unfold total. cbn [length Nat.sub rd nth_error bind]. rewrite ER. cbn [bind]. eexists. split; [reflexivity|].
    cbn [ncx xfm mdx list_sum fold_right Nat.add]. split; [reflexivity|]. unfold left_edge. cbn [rsum nth INR]. unfold e1, dl, LL, fit_mod, fit_L, fit_delta. cbn [single_pin pc_pitch pc_radii px nth]. lra. }
  destruct E as (m & E & N & W). exists m, reg. split; [apply single_made; lra|]. split; [reflexivity|]. split; [split; reflexivity|].
  split; [intros r [<-|[]]; cbn; lra|]. split; auto. split; auto. split; auto. rewrite N. split; [lia|]. exact W.
Qed.

Theorem wide_pin : exists P n m reg, made P /\ square P /\ centred P /\ pin_inside P /\ 7 <= n /\ length (pc_radii P) = 1 /\
  meshify P n true = Ok (m, reg) /\ mesh_good m /\ ncx m = S n.
Proof.
  exists (single_pin 2 1), 10.
  destruct (@coarse_map_spec [1; 1; 2; 3; 2; 1; 1] [1; 1; 2; 3; 2; 1; 1] [1] (fold_left (fun l i => upd l i 0%Z) fuel_index (repeat 1%Z 49))) as (reg & ER & _ & _); [reflexivity|].
  assert (MD : made (single_pin 2 1)) by (apply single_made; lra).
  assert (AX : axis_ok [1; 1; 2; 3; 2; 1; 1] (fit_edges (single_pin 2 1))).
  { split; [discriminate|]. split; [intros f Hf; cbn [In] in Hf; repeat (destruct Hf as [<-|Hf]; [lia|]); destruct Hf|]. split; [reflexivity|].
    intros i Hi. unfold fit_edges, fit_mod, fit_delta, fit_L. cbn [single_pin pc_pitch pc_radii px length] in *. do 7 (destruct i as [|i]; [cbn [nth]; lra|]). lia. }
  destruct (@mesh2D_ok [1; 1; 2; 3; 2; 1; 1] [1; 1; 2; 3; 2; 1; 1] _ _ (fold_left (fun l i => upd l i 0%Z) fuel_index (repeat 1%Z 49)) AX AX) as (m & EM & G & X & _); [reflexivity|].
  exists m, reg. split; auto. split; [reflexivity|]. split; [split; reflexivity|]. split; [intros r [<-|[]]; cbn; lra|]. split; [lia|]. split; [reflexivity|].
  split; [|split; [exact G|rewrite X; reflexivity]].
  unfold meshify. cbn [single_pin pc_radii length Nat.eqb andb Nat.leb]. fold (single_pin 2 1). unfold best_fit. rewrite wide_counts. change (3 <? 0)%Z with false. cbv iota.
  change (map Z.to_nat [1; 1; 2; 3; 2; 1; 1]%Z) with [1; 1; 2; 3; 2; 1; 1]. cbn [single_pin pc_mat rd nth_error bind]. fold (single_pin 2 1).
  rewrite EM. cbn [bind]. rewrite ER. reflexivity.
Qed.

(** A case that fits: 14 cells for a common fuel pin. *)
Lemma case_fit : let P := single_pin (126 / 100) (54 / 100) in
  made P /\ square P /\ centred P /\ pin_inside P /\ fits (px (pc_pitch P)) (54 / 100) 14.
Proof.
  split; [apply single_made; lra|]. split; [reflexivity|]. split; [split; reflexivity|]. split; [intros r [<-|[]]; cbn; lra|].
  cbn [single_pin pc_pitch px]. apply fits_fine; unfold stair_L, stair_d; cbn [INR]; lra.
Qed.
