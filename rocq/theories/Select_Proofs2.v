(** * Proofs on the factories: normalised Chebyshev weights *)
From Coq Require Import String.
From Verif Require Import Base BaseR Loop Util_Model Util_Proofs Manager_Model Driver_Spec
  Angle_Model Angle_Proofs Select_Model Select_Spec Select_Proofs.
Open Scope string_scope.
Open Scope nat_scope.
Set Implicit Arguments.
Unset Strict Implicit.

Definition allpos (l : list R) : Prop := Forall (fun x => (0 < x)%R) l.

Lemma allpos_sum l : allpos l -> l <> [] -> (0 < sumR l)%R.
Proof.
  intros H. induction H as [|x l Hx H IH]; [congruence|]. intros _. rewrite sumR_cons.
  destruct l as [|y l]; [unfold sumR; simpl; lra|]. specialize (IH ltac:(discriminate)). lra.
Qed.
Lemma allpos_scale l s : allpos l -> (0 < s)%R -> allpos (vec_scale l s).
Proof.
  intros H Hs. unfold vec_scale, allpos. induction H; simpl; constructor; auto. apply Rmult_lt_0_compat; auto.
Qed.
Lemma allpos_nth l i : allpos l -> i < List.length l -> (0 < nth i l 0)%R.
Proof. intros H Hi. unfold allpos in H. rewrite Forall_forall in H. apply H. apply nth_In. auto. Qed.

Lemma gc_length m : List.length (fst (gc_params m)) = m /\ List.length (snd (gc_params m)) = m.
Proof. unfold gc_params. cbn [fst snd]. rewrite !map_length, seq_length. auto. Qed.

Lemma gc_pos m : allpos (snd (gc_params m)).
Proof.
  unfold gc_params, allpos. cbn [snd]. apply Forall_forall. intros w Hw.
  apply in_map_iff in Hw. destruct Hw as (t & <- & Ht). apply in_map_iff in Ht. destruct Ht as (i & <- & Hi).
  apply in_seq in Hi.
  assert (Hm : (0 < INR m)%R) by (apply lt_0_INR; lia).
  assert (Hi' : (INR i + 1 <= INR m)%R) by (rewrite <- S_INR; apply le_INR; lia).
  pose proof PI_RGT_0 as Hp. pose proof (pos_INR i) as Hi0.
  set (th := ((INR (S i) - 1 / 2) * PI / INR m)%R).
  assert (T : (0 < th < PI)%R).
  { unfold th. rewrite S_INR. split.
    - apply Rmult_lt_0_compat; [apply Rmult_lt_0_compat; lra|apply Rinv_0_lt_compat; auto].
    - apply Rmult_lt_reg_r with (INR m); auto. replace ((INR i + 1 - 1 / 2) * PI / INR m * INR m)%R with ((INR i + 1 / 2) * PI)%R by (field; lra). nra. }
  apply Rmult_lt_0_compat; [apply Rdiv_lt_0_compat; auto|]. apply sqrt_lt_R0.
  pose proof (sin_gt_0 th (proj1 T) (proj2 T)) as Hs. pose proof (sin2_cos2 th) as H2. unfold Rsqr in H2. nra.
Qed.

Lemma gc_rule_pos m : allpos (snd (gc_rule (-1) 1 m)) /\ List.length (snd (gc_rule (-1) 1 m)) = m.
Proof.
  unfold gc_rule, scale_and_shift. cbn [snd]. split.
  - apply allpos_scale; [apply gc_pos|]. lra.
  - rewrite vec_scale_length. apply gc_length.
Qed.

Lemma dgc_rule_pos m : allpos (snd (dgc_rule (-1) 1 m)) /\ List.length (snd (dgc_rule (-1) 1 m)) = 2 * (m / 2).
Proof.
  unfold dgc_rule, double_rule.
  destruct (scale_and_shift (-1) 1 0 1 (gc_params (m / 2))) as [xh wh] eqn:E.
  assert (W : wh = vec_scale (snd (gc_params (m / 2))) ((1 - 0) / (1 - -1))) by (unfold scale_and_shift in E; congruence).
  assert (P : allpos wh). { rewrite W. apply allpos_scale; [apply gc_pos|lra]. }
  assert (L : List.length wh = m / 2). { rewrite W, vec_scale_length. apply gc_length. }
  unfold scale_and_shift. cbn [snd]. split.
  - apply allpos_scale; [|lra]. apply Forall_app. split; auto. apply Forall_rev; auto.
  - rewrite vec_scale_length, app_length, rev_length. lia.
Qed.

Lemma polar_normal (Q : R -> R -> nat -> list R * list R) np : 0 < np ->
  allpos (snd (Q (-1)%R 1%R (2 * np))) -> List.length (snd (Q (-1)%R 1%R (2 * np))) = 2 * np ->
  sumR (po_wt (polar_quad Q np true)) = 1%R /\ List.length (po_wt (polar_quad Q np true)) = np.
Proof.
  intros Hn Hp Hl. unfold polar_quad. destruct (Q (-1)%R 1%R (2 * np)) as [x w]. cbn [snd] in *. cbn [po_wt].
  split; [|rewrite vec_scale_length, map_length, seq_length; auto].
  apply normalize_sum. apply Rgt_not_eq. apply allpos_sum.
  - unfold allpos. apply Forall_forall. intros v Hv. apply in_map_iff in Hv. destruct Hv as (i & <- & Hi).
    apply in_seq in Hi. apply allpos_nth; auto. lia.
  - destruct np; [lia|discriminate].
Qed.

Lemma slab_normal b np : (b = GC \/ b = DGC) -> 0 < np ->
  exists w, polar_weights b np true = Some w /\ List.length w = np /\ (2 * sumR w = 2)%R.
Proof.
  intros [-> | ->] Hn; unfold polar_weights; cbn [rule_of]; eexists; (split; [reflexivity|]).
  - destruct (@polar_normal gc_rule np Hn) as [H1 H2]; [apply gc_rule_pos|apply gc_rule_pos|]. split; [auto|lra].
  - destruct (@polar_normal dgc_rule np Hn) as [H1 H2]; [apply dgc_rule_pos| |split; [auto|lra]].
    destruct (dgc_rule_pos (2 * np)) as [_ L]. rewrite L. replace (2 * np / 2) with np; [auto|].
    rewrite Nat.mul_comm, Nat.div_mul; auto.
Qed.

(** ** The normalisation asked for is not passed to products *)
Definition norm_db : db unit := put (sel1 "u-dgc") "quad_chebyshev_normalize" (VInt 1%Z).

Ltac lists := match goal with
  | |- (_, _) = (_, _) => apply f_equal2; lists
  | |- _ :: _ = _ :: _ => apply f_equal2; lists
  | |- [] = [] => reflexivity
  | |- _ => first [field | lra] end.
Lemma gc1 : gc_params 1 = ([0%R], [PI]).
Proof.
  unfold gc_params. simpl. replace ((1 - 1 / 2) * PI / 1)%R with (PI / 2)%R by field. rewrite cos_PI2.
  replace (1 - - 0 * - 0)%R with 1%R by ring. rewrite sqrt_1. lists.
Qed.
Lemma dgc2 : dgc_rule (-1) 1 2 = ([- (1 / 2); 1 / 2]%R, [PI / 2; PI / 2]%R).
Proof.
  unfold dgc_rule. change (2 / 2) with 1. rewrite gc1. unfold double_rule, scale_and_shift, vec_scale. simpl.
  lists.
Qed.
Lemma uni1 : uniform_rule 0 (PI / 2) 1 = ([PI / 4]%R, [PI / 2]%R).
Proof. unfold uniform_rule, linspace_center. simpl. lists. Qed.

Definition entry_1 (w : R) : entry :=
  {| e_mu := sqrt (1 - 1 / 2 * (1 / 2)) * cos (PI / 4); e_eta := sqrt (1 - 1 / 2 * (1 / 2)) * sin (PI / 4);
     e_xi := 1 / 2; e_wt := w |}%R.
Lemma product_1 norm : product_entries 3 Unif DGC 1 1 norm =
  Some (Ok [entry_1 (if norm then PI / 2 else PI / 2 * (PI / 2))%R]).
Proof.
  unfold product_entries. cbn [rule_of]. f_equal. unfold azimuthal. rewrite acos_0. rewrite uni1.
  unfold polar_quad. change (2 * 1) with 2. rewrite dgc2. unfold product_build. cbn [Nat.ltb Nat.leb].
  pose proof PI_RGT_0 as Hp.
  set (es := product_set _ _ _ _ _).
  assert (E : es = [entry_1 (if norm then PI / 2 else PI / 2 * (PI / 2))%R]).
  { unfold es, product_set, entry_1. cbn [seq flat_map map app nth po_sin po_cos po_wt az_cos az_sin az_wt Nat.eqb Nat.add].
    f_equal. destruct norm; unfold vec_scale, vec_sum; cbn [map fold_left nth]; f_equal; field; lra. }
  rewrite E. unfold verify. cbn [seq forallb nth po_cos Nat.eqb angle_of Nat.add Nat.mul map].
  unfold entry_1. cbn [e_mu].
  assert (B1 : Rltb 0 (1 / 2) = true) by (unfold Rltb; destruct (Rlt_dec 0 (1 / 2)); [auto|lra]).
  assert (S1 : (0 < sqrt (1 - 1 / 2 * (1 / 2)) < 1)%R).
  { split; [apply sqrt_lt_R0; lra|]. apply Rlt_le_trans with (sqrt 1); [apply sqrt_lt_1; lra|rewrite sqrt_1; lra]. }
  assert (C1 : (cos (PI / 4) <= 1)%R) by apply COS_bound.
  assert (C0 : (0 < cos (PI / 4))%R) by (apply cos_gt_0; lra).
  assert (B2 : Rltb (sqrt (1 - 1 / 2 * (1 / 2)) * cos (PI / 4)) 1 = true).
  { unfold Rltb. destruct (Rlt_dec _ _) as [|N]; [auto|]. exfalso. apply N. nra. }
  rewrite B1. simpl. rewrite B2. reflexivity.
Qed.

Lemma product_not_normal : exists (d : db unit) na np norm es,
  has_str d "quad_type" "u-dgc" /\ has_int d "quad_chebyshev_normalize" 1%Z /\ typed d quad_ints TInt /\
  quad_build d 3 = Ok (Product 3 Unif DGC (Z.of_nat na) (Z.of_nat np) norm) /\
  product_entries 3 Unif DGC na np norm = Some (Ok es) /\ sphere_weight 3 es <> (4 * PI)%R /\
  exists es', product_entries 3 Unif DGC na np true = Some (Ok es') /\ sphere_weight 3 es' = (4 * PI)%R.
Proof.
  exists norm_db, 1, 1, false. eexists. split; [reflexivity|]. split; [reflexivity|]. split.
  { intros k Hk. simpl in Hk. destruct Hk as [<-|Hk]; [intros _; eexists; reflexivity|].
    repeat (destruct Hk as [<-|Hk]; [discriminate|]). destruct Hk. }
  split; [reflexivity|]. split; [apply product_1|]. pose proof PI_RGT_0 as Hp. split.
  - unfold sphere_weight, entry_1. cbn [List.length rsum nth e_wt]. simpl INR. intros H.
    assert (PI = 2)%R by nra. pose proof PI2_3_2. lra.
  - eexists. split; [apply product_1|]. unfold sphere_weight, entry_1. cbn [List.length rsum nth e_wt]. simpl INR. field.
Qed.
