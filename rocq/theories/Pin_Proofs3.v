From Verif Require Import Base BaseR Loop Mesh_Model Mesh_Spec Mesh_Proofs Csg_Model Pin_Model Pin_Spec Pin_Proofs.
Set Implicit Arguments. Unset Strict Implicit.
Open Scope nat_scope.

Lemma Int_part_eq x z : (IZR z <= x < IZR z + 1)%R -> Int_part x = z.
Proof.
  intros [A B]. destruct (base_Int_part x) as [C D]. assert (Int_part x < z + 1)%Z by (apply lt_IZR; rewrite plus_IZR; lra).
  assert (z < Int_part x + 1)%Z by (apply lt_IZR; rewrite plus_IZR; lra). lia.
Qed.
Lemma Int_part_le x y : (x <= y)%R -> (Int_part x <= Int_part y)%Z.
Proof. intros H. destruct (base_Int_part x) as [C D]. destruct (base_Int_part y) as [C' D']. assert (Int_part x < Int_part y + 1)%Z by (apply lt_IZR; rewrite plus_IZR; lra). lia. Qed.

(** ** Sums over the blocks of an axis *)
Section Axis.
Context (fm : list nat) (cme w : list R) (HP : forall f, In f fm -> 0 < f) (HW : axis_widths fm cme w).
Lemma block_step (F : nat -> R) c I : I < length fm -> (forall x, in_coarse fm I x -> F x = c) ->
  rsum (nth I fm 0) (fun i => nth (psum fm I + i) w 0 * F (psum fm I + i)%nat)%R = ((nth (S I) cme 0 - nth I cme 0) * c)%R.
Proof.
  intros HI HF. assert (P0 : 0 < nth I fm 0) by (apply HP, nth_In; auto). destruct HW as (_ & W & _).
  transitivity (rsum (nth I fm 0) (fun _ => ((nth (S I) cme 0 - nth I cme 0) / INR (nth I fm 0%nat) * c)%R)).
  - apply rsum_ext. intros i Hi. assert (C : in_coarse fm I (psum fm I + i)) by (split; auto; rewrite psum_S; lia). rewrite (W _ _ C), (HF _ C). reflexivity.
  - rewrite rsum_const. field. apply not_0_INR. lia.
Qed.
Lemma block_sum (F : nat -> R) (f : nat -> R) : (forall I x, in_coarse fm I x -> F x = f I) ->
  rsum (list_sum fm) (fun x => nth x w 0 * F x)%R = rsum (length fm) (fun I => (nth (S I) cme 0 - nth I cme 0) * f I)%R.
Proof.
  intros HF. rewrite <- psum_all.
  assert (G : forall k, k <= length fm -> rsum (psum fm k) (fun x => nth x w 0 * F x)%R = rsum k (fun I => (nth (S I) cme 0 - nth I cme 0) * f I)%R).
  { induction k as [|k IH]; intros Hk; [reflexivity|]. rewrite psum_S, rsum_split, IH by lia. cbn [rsum]. f_equal. apply block_step; [lia|]. intros x Hx. apply HF. auto. }
  apply G. lia.
Qed.
Lemma left_edge_block I : I <= length fm -> left_edge w (psum fm I) = (nth I cme 0 - nth 0 cme 0)%R.
Proof.
  induction I as [|I IH]; intros HI; [unfold left_edge; rewrite psum_0; cbn; ring|]. unfold left_edge in *. rewrite psum_S, rsum_split, IH by lia.
  assert (E : rsum (nth I fm 0) (fun i => nth (psum fm I + i) w 0)%R = ((nth (S I) cme 0 - nth I cme 0) * 1)%R).
  { rewrite <- (@block_step (fun _ => 1%R) 1%R I); [|lia|auto]. apply rsum_ext. intros. ring. }
  rewrite E. ring.
Qed.
End Axis.
Lemma left_edge_le w a b : (forall x, In x w -> 0 < x)%R -> a <= b -> b <= length w -> (left_edge w a <= left_edge w b)%R.
Proof.
  intros HP H. induction H as [|b H IH]; intros HB; [lra|]. unfold left_edge in *. cbn [rsum]. specialize (IH ltac:(lia)).
  assert (0 < nth b w 0)%R by (apply HP, nth_In; lia). lra.
Qed.

(** ** The counts *)
Section Fit.
Context (P : pincell) (r : R) (n : nat) (HM : made P) (HR : pc_radii P = [r]) (HS : square P) (HI : pin_inside P) (HF : fits (px (pc_pitch P)) r n).
Let p := px (pc_pitch P).
Let L := stair_L r.
Let d := stair_d r.
Lemma fit_facts : (0 < p)%R /\ (0 < r)%R /\ (0 < L)%R /\ (0 < d)%R /\ (0 < p / 2 - L / 2 - d)%R /\ fit_L P = L /\ fit_delta P = d /\ fit_mod P = (p / 2 - L / 2 - d)%R.
Proof.
  destruct (made_ok HM) as (PX & _ & _ & _ & RO). rewrite HR in RO. pose proof (@radii_pos _ RO 0 ltac:(cbn; lia)) as R0. cbn [nth] in R0.
  destruct (HI (r := r)) as [B _]; [rewrite HR; left; auto|]. unfold L, d, stair_L, stair_d, fit_mod, fit_L, fit_delta. rewrite HR. cbn [nth]. fold p in PX, B |- *.
  repeat split; auto; try lra.
Qed.
Definition c_mod : Z := share p n (p / 2 - L / 2 - d).
Definition c_del : Z := share p n d.
Definition c_l4 : Z := share p n (L / 4).
Definition c_l2 : Z := (Z.of_nat n - 2 * (c_mod + c_del + c_l4))%Z.
Lemma counts_ok : fit_counts P n = (c_mod, c_del, c_l4, c_l2) /\ (1 <= c_mod)%Z /\ (1 <= c_del)%Z /\ (1 <= c_l4)%Z /\ (1 <= c_l2)%Z.
Proof.
  destruct fit_facts as (P0 & R0 & L0 & D0 & M0 & EL & ED & EM).
  assert (F1 : (1 <= c_mod)%Z) by (unfold c_mod, share; lia). assert (F2 : (1 <= c_del)%Z) by (unfold c_del, share; lia). assert (F3 : (1 <= c_l4)%Z) by (unfold c_l4, share; lia).
  destruct HF as [HF1 HF2]. fold p L d in HF1, HF2. fold c_mod c_del c_l4 in HF1, HF2. fold c_l2 in HF2.
  split; [|unfold c_l2; repeat split; lia].
  unfold fit_counts. rewrite EL, ED, EM. fold p.
  replace (/ 2 * INR n * (p / 2 - L / 2 - d) / (/ 2 * p))%R with (INR n * (p / 2 - L / 2 - d) / p)%R by (field; lra).
  replace (/ 2 * INR n * d / (/ 2 * p))%R with (INR n * d / p)%R by (field; lra).
  replace (/ 2 * INR n * (/ 4 * L) / (/ 2 * p))%R with (INR n * (L / 4) / p)%R by (field; lra).
  replace (/ 4 * INR n * L / (/ 2 * p))%R with (INR n * (L / 2) / p)%R by (field; lra).
  assert (forall x, Z.max x 1 = Z.max 1 x) as -> by (intros; lia). assert (forall x, Z.max x 1 = Z.max 1 x) as MC by (intros; lia). rewrite !MC.
  fold (share p n (p / 2 - L / 2 - d)) (share p n d) (share p n (L / 4)). fold c_mod c_del c_l4. fold c_l2. cbv zeta.
  rewrite (Z.max_r (Int_part (INR n * (L / 2) / p) - 1) c_l2) by lia.
  replace (2 * c_mod + 2 * c_del + 2 * c_l4 + c_l2)%Z with (Z.of_nat n) by (unfold c_l2; lia).
  repeat (rewrite Z.sub_diag; change (0 <? 0)%Z with false; change (1 <? 0)%Z with false; cbv beta iota). reflexivity.
Qed.
Definition fine : list nat := map Z.to_nat [c_mod; c_del; c_l4; c_l2; c_l4; c_del; c_mod].
Lemma fine_sum : list_sum fine = n.
Proof. destruct counts_ok as (_ & A & B & C & D). unfold fine, list_sum. cbn [map fold_right]. unfold c_l2 in *. lia. Qed.
Lemma fine_pos f : In f fine -> 0 < f.
Proof. destruct counts_ok as (_ & A & B & C & D). unfold fine. cbn [map In]. intros H. repeat (destruct H as [<-|H]; [lia|]). destruct H. Qed.
Definition ed (I : nat) : R := nth I [0; p / 2 - L / 2 - d; p / 2 - L / 2; p / 2 - L / 4; p / 2 + L / 4; p / 2 + L / 2; p / 2 + L / 2 + d; p]%R 0%R.
Lemma edges_ok : length (fit_edges P) = 8 /\ forall I, I < 8 -> nth I (fit_edges P) 0%R = ed I.
Proof.
  destruct fit_facts as (P0 & R0 & L0 & D0 & M0 & EL & ED & EM). unfold fit_edges. rewrite EL, ED, EM. split; [reflexivity|].
  intros I HI8. unfold ed. do 8 (destruct I as [|I]; [cbn [nth]; field|]). lia.
Qed.
Lemma fine_axis : axis_ok fine (fit_edges P).
Proof.
  destruct fit_facts as (P0 & R0 & L0 & D0 & M0 & _). destruct edges_ok as [LE E]. split; [discriminate|]. split; [apply fine_pos|]. split; [rewrite LE; reflexivity|].
  intros I HI7. change (length fine) with 7 in HI7. rewrite !E by lia. unfold ed. do 7 (destruct I as [|I]; [cbn [nth]; lra|]). lia.
Qed.

(** ** The map *)
Definition fuelb (I J : nat) : bool := existsb (Nat.eqb (I + J * 7)) fuel_index.
Lemma map_val A (a b : A) I J dft : I < 7 -> J < 7 -> nth (Mesh_Model.index 7 7 I J 0) (fold_left (fun l i => upd l i a) fuel_index (repeat b 49)) dft = if fuelb I J then a else b.
Proof. intros HI7 HJ7. do 7 (destruct I as [|I]; [do 7 (destruct J as [|J]; [reflexivity|]); lia|]). lia. Qed.
Lemma map_len A (a b : A) : length (fold_left (fun l i => upd l i a) fuel_index (repeat b 49)) = 49.
Proof. reflexivity. Qed.

Lemma fit_run : exists m reg, best_fit P n = Ok (m, reg) /\ mesh_good m /\ dim m = 2 /\ ncx m = n /\ ncy m = n /\ ncz m = 1 /\ mdz m = [1%R] /\
  axis_widths fine (fit_edges P) (mdx m) /\ axis_widths fine (fit_edges P) (mdy m) /\ length reg = n * n /\ length (mat m) = n * n /\
  volumes_total m (p * p)%R /\
  forall I J x y, in_coarse fine I x -> in_coarse fine J y ->
    nth (Mesh_Model.index n n x y 0) reg (-1)%Z = (if fuelb I J then 0%Z else 1%Z) /\
    nth (Mesh_Model.index n n x y 0) (mat m) 0%Z = (if fuelb I J then nth 0 (pc_mat P) 0%Z else nth 1 (pc_mat P) 0%Z).
Proof.
  destruct counts_ok as (EC & A & B & C & D). destruct (made_ok HM) as (PX & _ & LM & _ & _). rewrite HR in LM. cbn [length Nat.add] in LM.
  unfold best_fit. rewrite EC. rewrite (proj2 (Z.ltb_ge c_l2 0)) by lia. rewrite (@rd_ok _ (pc_mat P) 0 0%Z) by lia. cbn [bind]. rewrite (@rd_ok _ (pc_mat P) 1 0%Z) by lia. cbn [bind].
  fold fine. set (mm := fold_left (fun l i => upd l i (nth 0 (pc_mat P) 0%Z)) fuel_index (repeat (nth 1 (pc_mat P) 0%Z) 49)).
  destruct (@mesh2D_ok fine fine (fit_edges P) (fit_edges P) mm fine_axis fine_axis) as (m & EM & G & X & Y & Z & DM & WX & WY & MZ & CM & LT & VT); [reflexivity|].
  rewrite EM. cbn [bind]. destruct (@coarse_map_spec fine fine [1] (fold_left (fun l i => upd l i 0%Z) fuel_index (repeat 1%Z 49))) as (reg & ER & LR & VR); [reflexivity|].
  rewrite ER. cbn [bind]. exists m, reg. rewrite fine_sum in *. split; auto. do 5 (split; auto). split; auto. split; auto. split; auto.
  split. { rewrite LR. cbn. lia. } split. { rewrite LT. unfold ncells. rewrite X, Y, Z. lia. }
  split. { destruct edges_ok as [_ EE]. change (length fine) with 7 in VT. rewrite !EE in VT by lia. unfold ed in VT. cbn [nth] in VT. rewrite Rminus_0_r in VT. exact VT. }
  intros I J x y HX HY. assert (K0 : in_coarse [1] 0 0) by (split; cbn; lia).
  pose proof (VR I J 0 x y 0 HX HY K0) as V1. pose proof (CM I J 0 x y 0 HX HY K0) as V2. rewrite fine_sum in V2. change (length fine) with 7 in *.
  destruct HX as [HX HX2]. destruct HY as [HY HY2]. change (length fine) with 7 in HX, HY. rewrite map_val in V1 by auto. unfold mm in V2. rewrite map_val in V2 by auto. split; auto.
  rewrite <- V1. apply nth_indep. rewrite LR. pose proof (psum_mono fine (n := S I) (m := 7) ltac:(lia)). pose proof (psum_mono fine (n := S J) (m := 7) ltac:(lia)).
  change 7 with (length fine) in H, H0. rewrite psum_all, fine_sum in H, H0. pose proof (@index_lt n n 1 x y 0 ltac:(lia) ltac:(lia) ltac:(lia)). cbn [list_sum fold_right Nat.add]. lia.
Qed.
End Fit.
