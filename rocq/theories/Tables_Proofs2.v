(** * Tables_Proofs2: the level-symmetric sets, continued. *)
From Coq Require Import Qabs.
From Verif Require Import Base BaseR Util_Model Angle_Model Angle_Spec Angle_Proofs Tables_Model Tables_Spec Harm_Model Harm_Spec Harm_Proofs Tables_Proofs.
Set Implicit Arguments. Unset Strict Implicit.
Local Open Scope R_scope.

Lemma level_checks h : (1 <= h <= 12)%nat ->
  check_moments h = true /\ check_sharp h = true /\ check_exact h = true /\ check_inside h = true /\ check_unit h = true.
Proof.
  intros Hh. pose proof moments_checked as C. rewrite forallb_forall in C. specialize (C h).
  assert (I : In h (seq 1 12)) by (apply in_seq; lia). apply C in I. apply andb_true_iff in I as [I I5].
  apply andb_true_iff in I as [I I4]. apply andb_true_iff in I as [I I3]. apply andb_true_iff in I as [I1 I2]. auto.
Qed.
Lemma z24_pos : (0 < z24)%Z. Proof. reflexivity. Qed.
Lemma smean0 p q : smean p q 0 = IZR (odd_fact p * odd_fact q) / IZR (odd_fact (p + q + 1)).
Proof. unfold smean. cbn [odd_fact]. rewrite Z.mul_1_r, Nat.add_0_r. reflexivity. Qed.
(** The fixed-point sums are near the real ones. *)
Lemma unit_row_ok l : unit_row l = true -> forall q, In q l -> Rabs (Q2R q) <= 1.
Proof.
  unfold unit_row. rewrite forallb_forall. intros H q Hq. apply H, Z.leb_le, IZR_le in Hq. rewrite abs_IZR in Hq.
  unfold Q2R. rewrite Rabs_mult. assert (P : 0 < IZR (Zpos (Qden q))) by (apply IZR_lt; lia).
  rewrite (Rabs_pos_eq (/ _)) by (apply Rlt_le, Rinv_0_lt_compat; auto).
  apply Rmult_le_reg_r with (IZR (Zpos (Qden q))); auto. rewrite Rmult_assoc, Rinv_l by lra. lra.
Qed.
Lemma powers_nth x n : forall m k, (k <= n)%nat -> nth k (powers x (fpow x m) n) 0%Z = fpow x (m + k).
Proof.
  induction n as [|n IH]; intros m [|k] Hk; try lia; cbn [powers nth]; try (f_equal; lia).
  change (shr (x * fpow x m)) with (fpow x (S m)). rewrite IH by lia. f_equal. lia.
Qed.
Lemma table_nth X n k : (k <= n)%nat -> nth k (table X n) [] = fpows X k.
Proof.
  intros Hk. unfold table, fpows. cbv zeta. rewrite (nth_map_seq (fun k => map (fun l => nth k l 0%Z) (map (fun x => powers x zB n) X)) []) by lia.
  rewrite map_map. apply map_ext. intros x. exact (powers_nth x 0 Hk).
Qed.
Lemma Forall2_map2 A B C (P : B -> C -> Prop) (f : A -> B) (g : A -> C) l : (forall a, In a l -> P (f a) (g a)) -> Forall2 P (map f l) (map g l).
Proof. induction l as [|a l IH]; intros H; constructor; [apply H; left; auto|]. apply IH. intros; apply H; right; auto. Qed.
Lemma Forall2_chop A B (P : A -> B -> Prop) ns : forall l m, Forall2 P l m -> Forall2 (Forall2 P) (chop l ns) (chop m ns).
Proof.
  induction ns as [|n ns IH]; intros l m H; cbn [chop]; constructor.
  - revert l m H. induction n as [|n IHn]; intros l m H; cbn [firstn]; [constructor|]. destruct H; constructor; auto.
  - apply IH. revert l m H. induction n as [|n IHn]; intros l m H; cbn [skipn]; auto. destruct H; auto.
Qed.
Lemma sq_near h : (1 <= h <= 12)%nat -> Forall2 (near 1 4) (map (fun x => x * x) (ls_xs h)) (fls_x2 h).
Proof.
  intros Hh. destruct (level_checks Hh) as (_ & _ & _ & _ & C). apply andb_true_iff in C as [C _].
  unfold ls_xs, fls_x2. rewrite map_map. apply Forall2_map2. intros q Hq. cbv zeta. pose proof (unit_row_ok C Hq) as U. pose proof (fx_near U) as F.
  pose proof zB_big as D. split.
  - rewrite Rabs_mult. pose proof (Rabs_pos (Q2R q)). nra.
  - pose proof (prod_near F F ltac:(lra) ltac:(lra) ltac:(lra)) as P. pose proof (shr_near (fx q * fx q)) as S. set (d := IZR zB) in *.
    replace (d * (Q2R q * Q2R q) - IZR (shr (fx q * fx q))) with
      ((d * d * (Q2R q * Q2R q) - IZR (fx q * fx q)) / d + (IZR (fx q * fx q) / d - IZR (shr (fx q * fx q)))) by (field; lra).
    eapply Rle_trans; [apply Rabs_triang|]. apply Rle_trans with (3 + 1); [|lra]. apply Rplus_le_compat; auto.
    unfold Rdiv. rewrite Rabs_mult, (Rabs_pos_eq (/ d)) by (apply Rlt_le, Rinv_0_lt_compat; lra).
    apply Rmult_le_reg_r with d; [lra|]. rewrite Rmult_assoc, Rinv_l by lra. lra.
Qed.
Lemma pows_near h p : (1 <= h <= 12)%nat -> (p <= 13)%nat -> Forall2 (near 1 117) (rpows (ls_xs h) p) (fpows (fls_x2 h) p).
Proof.
  intros Hh Hp. pose proof (sq_near Hh) as H. unfold rpows, fpows. rewrite <- (map_map (fun x => x * x) (fun y => y ^ p)).
  assert (Pp : INR p <= 13) by (apply le_INR in Hp; cbn [INR] in Hp; lra).
  induction H as [|r z l L Hr H IH]; cbn [map]; constructor; auto.
  destruct (@fpow_near r z 4 p Hr ltac:(lra) ltac:(lra) ltac:(lra)) as [A B]. split; auto. eapply Rle_trans; [exact B|]. pose proof (pos_INR p). lra.
Qed.
Lemma wts_near h : (1 <= h <= 12)%nat -> Forall2 (near 1 1) (ls_ws h) (fls_wts (2 * h)).
Proof.
  intros Hh. destruct (level_checks Hh) as (_ & _ & _ & _ & C). apply andb_true_iff in C as [_ C].
  pose proof (ls_tables Hh) as T. unfold ls_ok in T. do 2 apply andb_true_iff in T as [T _]. apply andb_true_iff in T as [_ T]. rewrite forallb_forall in T.
  unfold ls_ws, ls_wts, fls_wts. cbv zeta. rewrite map_map. apply Forall2_map2. intros k Hk. apply T, Nat.ltb_lt in Hk.
  change 0%Z with (fx 0). rewrite map_nth. apply fx_near. apply (unit_row_ok C). apply nth_In. auto.
Qed.
Lemma Forall2_left A B (P : A -> B -> Prop) (Q : A -> Prop) l m : (forall a b, P a b -> Q a) -> Forall2 P l m -> Forall Q l.
Proof. intros H. induction 1; constructor; eauto. Qed.
Lemma le12 n : (n <= 12)%nat -> INR n <= 12.
Proof. intros H. apply le_INR in H. cbn [INR] in H. lra. Qed.
Lemma level_mom h p q : (1 <= h <= 12)%nat -> (p <= 13)%nat -> (q <= 13)%nat ->
  Rabs (rmom (ls_xs h) (ls_ws h) (ls_pairs h) p q 0 -
        IZR (dotz (fpows (fls_x2 h) p) (fcol (fls_rows h) (fpows (fls_x2 h) q))) / IZR (zB * zB)) <= / IZR (10 ^ 24).
Proof.
  intros Hh Hp Hq. rewrite rmom_rows by auto. unfold rrows. destruct (rows_fit Hh) as (_ & _ & R3 & R5). rewrite forallb_forall in R5.
  pose proof (pows_near Hh Hp) as Np. pose proof (pows_near Hh Hq) as Nq. pose proof zB_big as D.
  assert (Nr : Forall2 (near 12 1429) (map (fun r => dotR r (rpows (ls_xs h) q)) (chop (ls_ws h) (ls_cut h))) (fcol (fls_rows h) (fpows (fls_x2 h) q))).
  { assert (L : forall r, In r (chop (ls_ws h) (ls_cut h)) -> (length r <= 12)%nat).
    { intros r. unfold ls_ws. rewrite chop_map. intros Hr. apply in_map_iff in Hr as (r' & <- & Hr). rewrite map_length. apply R5, Nat.leb_le in Hr. lia. }
    pose proof (Forall2_chop (ls_cut h) (wts_near Hh)) as W. unfold fls_rows, fcol. revert L.
    induction W as [|r z l L' Hr W IH]; intros L; cbn [map]; constructor; [|apply IH; intros; apply L; right; auto].
    pose proof (le12 (L r (or_introl eq_refl))) as L12. pose proof (pos_INR (length r)) as L0. split.
    - eapply Rle_trans; [apply (@dot_bound 1 1); try lra|lra].
      + apply (Forall2_left (Q := fun r => Rabs r <= 1)) in Hr; auto. intros a b [A _]; auto.
      + apply (Forall2_left (Q := fun r => Rabs r <= 1)) in Nq; auto. intros a b [A _]; auto.
    - pose proof (dot_near Hr Nq ltac:(lra) ltac:(lra) ltac:(lra) ltac:(lra) ltac:(lra)) as P. pose proof (shr_near (dotz z (fpows (fls_x2 h) q))) as S.
      set (d := IZR zB) in *. set (u := dotR _ _) in *. set (v := dotz _ _) in *.
      replace (d * u - IZR (shr v)) with ((d * d * u - IZR v) / d + (IZR v / d - IZR (shr v))) by (field; lra).
      eapply Rle_trans; [apply Rabs_triang|]. apply Rle_trans with (1428 + 1); [|lra]. apply Rplus_le_compat; auto.
      unfold Rdiv. rewrite Rabs_mult, (Rabs_pos_eq (/ d)) by (apply Rlt_le, Rinv_0_lt_compat; lra).
      apply Rmult_le_reg_r with d; [lra|]. rewrite Rmult_assoc, Rinv_l by lra. rewrite Rmult_1_r. eapply Rle_trans; [exact P|]. nra. }
  pose proof (dot_near Np Nr ltac:(lra) ltac:(lra) ltac:(lra) ltac:(lra) ltac:(lra)) as P.
  assert (Lp : (length (rpows (ls_xs h) p) <= 12)%nat).
  { unfold rpows, ls_xs. rewrite !map_length. pose proof (ls_tables Hh) as T. unfold ls_ok in T. do 5 apply andb_true_iff in T as [T _]. apply Nat.eqb_eq in T. lia. }
  apply le12 in Lp. pose proof (pos_INR (length (rpows (ls_xs h) p))) as L0.
  assert (Big : 36000 * IZR (10 ^ 24) <= IZR zB) by (rewrite <- mult_IZR; apply IZR_le; vm_compute; discriminate).
  assert (T24 : 0 < IZR (10 ^ 24)) by (apply IZR_lt; reflexivity).
  rewrite mult_IZR. set (d := IZR zB) in *. set (u := dotR _ _) in *. set (v := IZR (dotz _ _)) in *. generalize dependent (IZR (10 ^ 24)). intros t Big T24.
  replace (u - v / (d * d)) with ((d * d * u - v) * / (d * d)) by (field; lra).
  rewrite Rabs_mult, (Rabs_pos_eq (/ _)) by (apply Rlt_le, Rinv_0_lt_compat; nra).
  apply Rmult_le_reg_r with (d * d); [nra|]. rewrite Rmult_assoc, Rinv_l, Rmult_1_r by nra. eapply Rle_trans; [exact P|].
  apply Rle_trans with (d * 36000); [apply Rmult_le_compat_l; nra|].
  replace (/ t * (d * d)) with (d * (/ t * d)) by ring. apply Rmult_le_compat_l; [lra|]. apply Rmult_le_reg_r with t; auto. field_simplify; lra.
Qed.
Lemma deg2_le h : (1 <= h <= 12)%nat -> (deg2 h <= 12)%nat.
Proof. intros H. do 13 (destruct h as [|h]; [try lia; vm_compute; lia|]). lia. Qed.
Lemma zB2_pos : (0 < zB * zB)%Z. Proof. reflexivity. Qed.
Lemma level_moments h p q : (1 <= h <= 12)%nat -> (p + q <= deg2 h)%nat ->
  Rabs (rmom (ls_xs h) (ls_ws h) (ls_pairs h) p q 0 - smean p q 0) <= / IZR (10 ^ 23).
Proof.
  intros Hh Hp. destruct (level_checks Hh) as (C & _ & _ & _). unfold check_moments in C. cbv zeta in C.
  rewrite forallb_forall in C. specialize (C q). assert (I : In q (seq 0 (S (deg2 h)))) by (apply in_seq; lia). apply C in I.
  rewrite forallb_forall in I. specialize (I p). assert (I' : In p (seq 0 (S (deg2 h - q)))) by (apply in_seq; lia). apply I in I'.
  rewrite !table_nth in I' by lia. unfold gap, gap_ok in I'. apply Z.leb_le in I'. pose proof (deg2_le Hh).
  pose proof (@level_mom h p q Hh ltac:(lia) ltac:(lia)) as M. pose proof (odd_fact_pos (p + q + 1)) as Ho.
  set (v := dotz _ _) in *. pose proof (@gap_frac _ _ v (odd_fact p) (odd_fact q) zB2_pos Ho) as G. rewrite <- smean0 in G.
  apply ratio_le in I'; [|apply Z.mul_pos_pos; [apply zB2_pos|auto]|reflexivity]. rewrite <- G in I'.
  set (u := rmom _ _ _ _ _ _) in *. set (s := smean p q 0) in *. set (w := IZR v / IZR (zB * zB)) in *.
  replace (u - s) with ((u - w) + (w - s)) by ring. eapply Rle_trans; [apply Rabs_triang|].
  change (10 ^ 24)%Z with 1000000000000000000000000%Z in *. change (10 ^ 23)%Z with 100000000000000000000000%Z. lra.
Qed.
Lemma level_sharp h : (1 <= h <= 12)%nat -> exists p q, (p + q = S (deg2 h))%nat /\
  / IZR (10 ^ 12) <= Rabs (rmom (ls_xs h) (ls_ws h) (ls_pairs h) p q 0 - smean p q 0).
Proof.
  intros Hh. destruct (level_checks Hh) as (_ & C & _ & _). exists (sharp_at h), (S (deg2 h) - sharp_at h)%nat. pose proof (deg2_le Hh).
  assert (Hs : (sharp_at h + (S (deg2 h) - sharp_at h) = S (deg2 h))%nat) by (clear - Hh; do 13 (destruct h as [|h]; [try lia; reflexivity|]); lia).
  split; auto.
  unfold check_sharp, gap, gap_bad in C. apply Z.leb_le in C. set (p := sharp_at h) in *. set (q := (S (deg2 h) - p)%nat) in *.
  pose proof (@level_mom h p q Hh ltac:(lia) ltac:(lia)) as M. pose proof (odd_fact_pos (p + q + 1)) as Ho.
  set (v := dotz _ _) in *. pose proof (@gap_frac _ _ v (odd_fact p) (odd_fact q) zB2_pos Ho) as G. rewrite <- smean0 in G.
  apply ratio_ge in C; [|apply Z.mul_pos_pos; [apply zB2_pos|auto]|reflexivity]. rewrite <- G in C.
  set (u := rmom _ _ _ _ _ _) in *. set (s := smean p q 0) in *. set (w := IZR v / IZR (zB * zB)) in *.
  pose proof (Rabs_triang (w - u) (u - s)) as T. replace (w - u + (u - s)) with (w - s) in T by ring. rewrite (Rabs_minus_sym w u) in T.
  change (10 ^ 24)%Z with 1000000000000000000000000%Z in *. change (10 ^ 12)%Z with 1000000000000%Z in *. lra.
Qed.

(** ** The set as a quadrature *)
Lemma ls_lengths h : (1 <= h <= 12)%nat -> length (ls_pairs h) = (h * (h + 1) / 2)%nat /\ length (ls_wts (2 * h)) = (h * (h + 1) / 2)%nat /\
  length (ls_att (2 * h)) = h /\ forall ij, In ij (ls_pairs h) -> (fst ij < h)%nat /\ (snd ij < h)%nat.
Proof.
  intros Hh. pose proof (ls_tables Hh) as T. unfold ls_ok in T.
  apply andb_true_iff in T as [T T6]. apply andb_true_iff in T as [T T5]. apply andb_true_iff in T as [T T4].
  apply andb_true_iff in T as [T T3]. apply andb_true_iff in T as [T1 T2].
  apply Nat.eqb_eq in T1, T2, T3. rewrite forallb_forall in T5. repeat split; auto; try (unfold ls_wts; rewrite map_length; auto);
  apply T5 in H; apply andb_true_iff in H as [A B]; apply Nat.ltb_lt; auto.
Qed.
Lemma level_inside h ij : (1 <= h <= 12)%nat -> In ij (ls_pairs h) ->
  0 <= 1 - nth (fst ij) (ls_xs h) 0 * nth (fst ij) (ls_xs h) 0 - nth (snd ij) (ls_xs h) 0 * nth (snd ij) (ls_xs h) 0.
Proof.
  intros Hh Hin. destruct (level_checks Hh) as (_ & _ & C1 & I & _). unfold check_exact in C1.
  unfold check_inside in I. rewrite forallb_forall in I. apply I in Hin. clear I. cbv zeta in Hin. apply Z.leb_le, IZR_le in Hin.
  unfold ls_xs. rewrite (zrow_ok z24_pos C1).
  assert (N : forall i, nth i (map (fun z => IZR z / IZR z24) (zrow z24 (ls_att (2 * h)))) 0 = IZR (nth i (zrow z24 (ls_att (2 * h))) 0%Z) / IZR z24).
  { intros i. rewrite <- (map_nth (fun z => IZR z / IZR z24)). f_equal. cbv beta. unfold Rdiv. ring. }
  rewrite !N. revert Hin. generalize (nth (fst ij) (zrow z24 (ls_att (2 * h))) 0%Z) (nth (snd ij) (zrow z24 (ls_att (2 * h))) 0%Z).
  intros a b. rewrite !minus_IZR, !mult_IZR. assert (D : 0 < IZR z24) by (apply IZR_lt, z24_pos). intros H.
  replace (1 - IZR a / IZR z24 * (IZR a / IZR z24) - IZR b / IZR z24 * (IZR b / IZR z24)) with
    ((IZR z24 * IZR z24 - IZR a * IZR a - IZR b * IZR b) * / (IZR z24 * IZR z24)) by (field; lra).
  apply Rmult_le_pos; [lra|]. apply Rlt_le, Rinv_0_lt_compat. nra.
Qed.
Lemma nth_map0 A (f : A -> R) (d : A) l i : (i < length l)%nat -> nth i (map f l) 0 = f (nth i l d).
Proof. intros H. rewrite (nth_indep _ 0 (f d)) by (rewrite map_length; auto). apply map_nth. Qed.
Lemma ls_well_formed h dim : (1 <= h <= 12)%nat -> dim = 2%nat \/ dim = 3%nat -> well_formed (ls_quad h dim).
Proof.
  intros Hh Hd. destruct (ls_lengths Hh) as (L1 & L2 & L3 & L4). unfold well_formed, ls_quad.
  cbn [q_dim q_noct q_nang q_nao q_sign q_mu q_eta q_xi q_wt]. rewrite !map_length, L1, L2.
  repeat split; auto; try lia.
  - rewrite (nth_map0 _ (0, 0)%nat) by lia. apply sqrt_pos.
  - rewrite !(nth_map0 _ (0, 0)%nat) by lia. fold (ls_xs h).
    pose proof (@level_inside h (nth a (ls_pairs h) (0, 0)%nat) Hh ltac:(apply nth_In; lia)) as I.
    unfold on_sphere. rewrite sqrt_sqrt by exact I. ring.
Qed.
(** Sums over the stored octant. *)
Definition osum (q : quad) (i j k : nat) : R :=
  rsum (q_nao q) (fun a => wt_of q a * (nth a (q_mu q) 0 ^ i * nth a (q_eta q) 0 ^ j * nth a (q_xi q) 0 ^ k)).
Lemma sgn_pow o axis i : IZR (octant_signs o axis) ^ i = if Nat.even i then 1 else IZR (octant_signs o axis).
Proof.
  pose proof (signs_sq o axis) as S. set (s := IZR (octant_signs o axis)) in *. clearbody s.
  induction i as [|i IH]; auto. rewrite Nat.even_succ, <- Nat.negb_even. cbn [pow]. rewrite IH. destruct (Nat.even i); cbn [negb]; lra.
Qed.
Lemma qsum_octants q i j k : well_formed q -> (q_dim q = 2%nat -> Nat.even k = true) ->
  qsum q (fun o a => mu_of q o a ^ i * eta_of q o a ^ j * xi_of q o a ^ k) =
  (if (Nat.even i && Nat.even j && Nat.even k)%bool then INR (2 ^ q_dim q) else 0) * osum q i j k.
Proof.
  intros W Hk. pose proof W as (Hd & Ho & _).
  transitivity (rsum (q_noct q) (fun o => (IZR (octant_signs o 0) ^ i * IZR (octant_signs o 1) ^ j * IZR (octant_signs o 2) ^ k) * osum q i j k)).
  - unfold qsum. apply rsum_ext. intros o Io. unfold osum. rewrite <- rsum_scal. apply rsum_ext. intros a Ia.
    unfold mu_of, eta_of, xi_of. rewrite !cosine_num by (auto; lia). cbn [nth]. rewrite !Rpow_mult_distr. ring.
  - rewrite rsum_scal_r. f_equal. rewrite Ho.
    rewrite (@rsum_ext _ _ (fun o => (if Nat.even i then 1 else IZR (octant_signs o 0)) * (if Nat.even j then 1 else IZR (octant_signs o 1)) *
      (if Nat.even k then 1 else IZR (octant_signs o 2)))) by (intros; rewrite !sgn_pow; auto).
    destruct Hd as [E|E]; rewrite E in *; [rewrite (Hk eq_refl)|destruct (Nat.even k)]; destruct (Nat.even i), (Nat.even j);
    cbn -[IZR]; lra.
Qed.
Lemma osum_rmom h dim p q r : (1 <= h <= 12)%nat ->
  osum (ls_quad h dim) (2 * p) (2 * q) (2 * r) = ls_scale dim * rmom (ls_xs h) (ls_ws h) (ls_pairs h) p q r.
Proof.
  intros Hh. destruct (ls_lengths Hh) as (L1 & L2 & L3 & L4). unfold osum, rmom.
  cbn [ls_quad q_nao]. set (n := (h * (h + 1) / 2)%nat) in *.
  rewrite sumR_nth, map_length, combine_length. unfold ls_ws at 1. rewrite map_length, L1, L2, Nat.min_id. rewrite <- rsum_scal.
  apply rsum_ext. intros a Ia. unfold wt_of. cbn [ls_quad q_wt q_mu q_eta q_xi]. fold (ls_xs h) (ls_ws h).
  rewrite !(nth_map0 _ (0, 0)%nat) by lia. rewrite (nth_map0 _ 0) by (unfold ls_ws; rewrite map_length; lia).
  rewrite (nth_map0 _ (0, (0, 0)%nat)) by (rewrite combine_length; unfold ls_ws; rewrite map_length; lia).
  rewrite combine_nth by (unfold ls_ws; rewrite map_length; lia). cbn [fst snd].
  pose proof (@level_inside h (nth a (ls_pairs h) (0, 0)%nat) Hh ltac:(apply nth_In; lia)) as I.
  rewrite !pow_mult. set (x := nth (fst _) _ 0) in *. set (y := nth (snd _) _ 0) in *.
  replace (sqrt (1 - x * x - y * y) ^ 2) with (1 - x * x - y * y) by (cbn [pow]; rewrite Rmult_1_r, sqrt_sqrt by auto; auto).
  replace (x ^ 2) with (x * x) by (cbn; ring). replace (y ^ 2) with (y * y) by (cbn; ring). ring.
Qed.
Lemma scale_octants dim : dim = 2%nat \/ dim = 3%nat -> INR (2 ^ dim) * ls_scale dim = 4 * PI.
Proof. intros [->| ->]; unfold ls_scale; cbn; field. Qed.
Lemma mean_half p q r : sphere_mean (2 * p) (2 * q) (2 * r) = smean p q r.
Proof.
  unfold sphere_mean, smean. replace (2 * p + 2 * q + 2 * r)%nat with ((p + q + r) * 2)%nat by lia.
  rewrite !Nat.even_mul. cbn [Nat.even orb andb]. rewrite Nat.div_mul by lia. rewrite !(Nat.mul_comm 2), !Nat.div_mul by lia. reflexivity.
Qed.
Lemma even_half i : Nat.even i = true -> exists p, i = (2 * p)%nat.
Proof. intros H. apply Nat.even_spec in H as [p ->]. exists p. lia. Qed.
Lemma qsum_even h dim p q r : (1 <= h <= 12)%nat -> dim = 2%nat \/ dim = 3%nat ->
  qsum (ls_quad h dim) (fun o a => mu_of (ls_quad h dim) o a ^ (2 * p) * eta_of (ls_quad h dim) o a ^ (2 * q) * xi_of (ls_quad h dim) o a ^ (2 * r)) -
  4 * PI * sphere_mean (2 * p) (2 * q) (2 * r) = 4 * PI * (rmom (ls_xs h) (ls_ws h) (ls_pairs h) p q r - smean p q r).
Proof.
  intros Hh Hd. rewrite qsum_octants. 2:{ apply ls_well_formed; auto. } 2:{ intros _. rewrite Nat.even_mul. reflexivity. }
  rewrite !Nat.even_mul. cbn [Nat.even orb andb]. rewrite osum_rmom by auto. rewrite mean_half. cbn [ls_quad q_dim].
  rewrite <- Rmult_assoc, scale_octants by auto. ring.
Qed.
Lemma level_integrates h dim : (1 <= h <= 12)%nat -> dim = 2%nat \/ dim = 3%nat -> integrates (ls_quad h dim) (ls_degree h) (/ 10 ^ 16).
Proof.
  intros Hh Hd i j k Hn Hk. assert (T16 : 0 < / 10 ^ 16) by (apply Rinv_0_lt_compat, pow_lt; lra).
  destruct (Nat.even i && Nat.even j && Nat.even k)%bool eqn:E.
  - apply andb_true_iff in E as [E E3]. apply andb_true_iff in E as [E1 E2].
    apply even_half in E1 as [p ->]. apply even_half in E2 as [q ->]. apply even_half in E3 as [r ->].
    rewrite qsum_even by auto. rewrite Rabs_mult.
    assert (D2 : (p + q + r <= deg2 h)%nat). { unfold deg2. apply Nat.div_le_lower_bound; lia. }
    assert (R12 : (r <= 12)%nat). { assert (deg2 h <= 12)%nat; [|lia]. clear - Hh. do 13 (destruct h as [|h]; [try lia; vm_compute; lia|]). lia. }
    pose proof (@rmom_close (ls_xs h) (ls_ws h) (ls_pairs h) (deg2 h) (/ IZR (10 ^ 23)) (fun p q H => level_moments Hh H) r p q D2) as B.
    pose proof PI_4 as P4. pose proof pi_low. rewrite (Rabs_pos_eq (4 * PI)) by lra.
    assert (P3 : 3 ^ r <= 3 ^ 12) by (apply Rle_pow; [lra|auto]).
    assert (P0 : 0 < 3 ^ r) by (apply pow_lt; lra).
    apply Rle_trans with (16 * (3 ^ 12 * / IZR (10 ^ 23))).
    + apply Rmult_le_compat; [lra|apply Rabs_pos|lra|]. eapply Rle_trans; [exact B|].
      apply Rmult_le_compat_r; auto. apply Rlt_le, Rinv_0_lt_compat, IZR_lt. reflexivity.
    + change (10 ^ 23)%Z with 100000000000000000000000%Z. lra.
  - rewrite qsum_octants; auto. 2:{ apply ls_well_formed; auto. } rewrite E. unfold sphere_mean. rewrite E.
    rewrite Rmult_0_l, Rmult_0_r, Rminus_0_r, Rabs_R0. lra.
Qed.
Lemma level_not_beyond h dim : (1 <= h <= 12)%nat -> dim = 2%nat \/ dim = 3%nat -> ~ integrates (ls_quad h dim) (ls_degree h + 2) (/ 10 ^ 12).
Proof.
  intros Hh Hd I. destruct (level_sharp Hh) as (p & q & Hpq & B).
  assert (Hn : (2 * p + 2 * q + 2 * 0 <= ls_degree h + 2)%nat).
  { unfold deg2 in Hpq. assert (E : ls_degree h = (2 * (ls_degree h / 2))%nat) by (do 13 (destruct h as [|h]; [try lia; reflexivity|]); lia). lia. }
  specialize (I _ _ _ Hn (fun _ => eq_refl)). rewrite qsum_even in I by auto. rewrite Rabs_mult in I.
  pose proof pi_low. rewrite (Rabs_pos_eq (4 * PI)) in I by lra.
  assert (T : / IZR (10 ^ 12) = / 10 ^ 12) by (f_equal; change (10 ^ 12)%Z with 1000000000000%Z; lra). rewrite T in B.
  assert (0 < / 10 ^ 12) by (apply Rinv_0_lt_compat, pow_lt; lra).
  assert (12 * / 10 ^ 12 <= / 10 ^ 12); [|lra]. eapply Rle_trans; [|exact I]. apply Rmult_le_compat; lra.
Qed.

(** ** Symmetry and signs *)
Definition pos_of (h i j : nat) : nat := (list_sum (map (fun k => h - k) (seq 0 i)) + j)%nat.
Definition check_sym (h : nat) : bool :=
  let X := zrow z24 (ls_att (2 * h)) in let P := ls_wp (2 * h) in
  forallb (fun a => let (i, j) := nth a (ls_pairs h) (0, 0)%nat in let k := (h - 1 - i - j)%nat in
    let b := pos_of h j i in let c := pos_of h k j in
    ((b <? length (ls_pairs h)) && (c <? length (ls_pairs h)) &&
     (fst (nth b (ls_pairs h) (0, 0)) =? j) && (snd (nth b (ls_pairs h) (0, 0)) =? i) && (nth b P 0 =? nth a P 0) &&
     (fst (nth c (ls_pairs h) (0, 0)) =? k) && (snd (nth c (ls_pairs h) (0, 0)) =? j) && (nth c P 0 =? nth a P 0))%nat &&
     (Z.abs (z24 * z24 - nth i X 0 * nth i X 0 - nth j X 0 * nth j X 0 - nth k X 0 * nth k X 0) <=? 3 * z24)%Z &&
     (z24 <=? 20 * nth i X 0)%Z && (z24 <=? 20 * nth k X 0)%Z)%bool (seq 0 (length (ls_pairs h))).
Lemma sym_checked h : (1 <= h <= 12)%nat -> check_sym h = true.
Proof. intros H. do 13 (destruct h as [|h]; [try lia; vm_compute; reflexivity|]). lia. Qed.
Lemma root_close u v d c : 0 <= u -> 0 < c -> c <= v -> Rabs (u - v * v) <= d -> Rabs (sqrt u - v) <= d / c.
Proof.
  intros Hu Hc Hv H. pose proof (sqrt_pos u) as S0. pose proof (sqrt_sqrt u Hu) as S1. set (s := sqrt u) in *.
  assert (E : Rabs (s - v) * (s + v) = Rabs (u - v * v)).
  { rewrite <- (Rabs_pos_eq (s + v)) at 1 by lra. rewrite <- Rabs_mult. f_equal. rewrite <- S1. ring. }
  pose proof (Rabs_pos (s - v)). apply Rmult_le_reg_r with c; auto. replace (d / c * c) with d by (field; lra). nra.
Qed.
Lemma ls_swaps h dim : (1 <= h <= 12)%nat -> dim = 2%nat \/ dim = 3%nat ->
  let q := ls_quad h dim in forall a, (a < q_nao q)%nat ->
  (exists b, (b < q_nao q)%nat /\ swapped_mu_eta q a b) /\ (exists c, (c < q_nao q)%nat /\ swapped_mu_xi q (/ 10 ^ 22) a c).
Proof.
  intros Hh Hd q a Ha. destruct (ls_lengths Hh) as (L1 & L2 & L3 & L4). assert (HQ : q_nao q = length (ls_pairs h)) by (rewrite L1; reflexivity). rewrite HQ in *. destruct (level_checks Hh) as (_ & _ & C0 & _).
  unfold check_exact in C0.
  pose proof (sym_checked Hh) as C. unfold check_sym in C. cbv zeta in C. rewrite forallb_forall in C. specialize (C a).
  assert (Ia : In a (seq 0 (length (ls_pairs h)))). { apply in_seq. lia. }
  apply C in Ia. clear C. destruct (nth a (ls_pairs h) (0, 0)%nat) as [i j] eqn:Eij. set (k := (h - 1 - i - j)%nat) in *.
  set (b := pos_of h j i) in *. set (c := pos_of h k j) in *.
  apply andb_true_iff in Ia as [Ia K2]. apply andb_true_iff in Ia as [Ia K1]. apply andb_true_iff in Ia as [Ia K0].
  apply andb_true_iff in Ia as [Ia W2]. apply andb_true_iff in Ia as [Ia C2]. apply andb_true_iff in Ia as [Ia C1].
  apply andb_true_iff in Ia as [Ia W1]. apply andb_true_iff in Ia as [Ia B2]. apply andb_true_iff in Ia as [Ia B1].
  apply andb_true_iff in Ia as [Hb Hc]. apply Nat.ltb_lt in Hb, Hc. apply Nat.eqb_eq in B1, B2, W1, C1, C2, W2.
  apply Z.leb_le, IZR_le in K0. apply Z.leb_le, IZR_le in K1. apply Z.leb_le, IZR_le in K2.
  assert (Eb : nth b (ls_pairs h) (0, 0)%nat = (j, i)) by (rewrite (surjective_pairing (nth b (ls_pairs h) (0, 0)%nat)), B1, B2; reflexivity).
  assert (Ec : nth c (ls_pairs h) (0, 0)%nat = (k, j)) by (rewrite (surjective_pairing (nth c (ls_pairs h) (0, 0)%nat)), C1, C2; reflexivity).
  assert (Ea : (a < length (ls_pairs h))%nat) by lia.
  pose proof (@level_inside h (i, j) Hh) as Ni. rewrite <- Eij in Ni. specialize (Ni (nth_In _ _ Ea)). rewrite Eij in Ni.
  pose proof (@level_inside h (k, j) Hh) as Nk. rewrite <- Ec in Nk. specialize (Nk (nth_In _ _ Hc)). rewrite Ec in Nk.
  cbn [fst snd] in Ni, Nk.
  assert (Wt : forall d, (d < length (ls_pairs h))%nat -> nth d (ls_wp (2 * h)) 0%nat = nth a (ls_wp (2 * h)) 0%nat -> wt_of q d = wt_of q a).
  { intros d Hdl Hw. unfold wt_of, q. cbn [ls_quad q_wt].
    rewrite !(nth_map0 _ 0) by (rewrite map_length; lia). rewrite !(nth_map0 _ 0%Q) by lia. do 2 f_equal.
    unfold ls_wts. assert (Lp : length (ls_wp (2 * h)) = length (ls_pairs h)) by (unfold ls_wts in L2; rewrite map_length in L2; lia).
    rewrite !(@nth_indep _ (map _ _) _ 0%Q (nth 0 (ls_wtt (2 * h)) 0%Q)) by (rewrite map_length; lia).
    rewrite !(map_nth (fun m => nth m (ls_wtt (2 * h)) 0%Q)). rewrite Hw. reflexivity. }
  split.
  - exists b. split; [lia|]. unfold swapped_mu_eta. split; [|split; [|split]]; auto; unfold q; cbn [ls_quad q_mu q_eta q_xi];
    rewrite !(nth_map0 _ (0, 0)%nat) by lia; rewrite Eb, Eij; cbn [fst snd]; auto. f_equal. ring.
  - exists c. split; [lia|]. unfold swapped_mu_xi.
    assert (N : forall i, nth i (ls_xs h) 0 = IZR (nth i (zrow z24 (ls_att (2 * h))) 0%Z) / IZR z24).
    { intros i'. unfold ls_xs. rewrite (zrow_ok z24_pos C0). rewrite <- (map_nth (fun z => IZR z / IZR z24)). f_equal. cbv beta. unfold Rdiv. ring. }
    assert (D : 0 < IZR z24) by (apply IZR_lt, z24_pos).
    assert (P : forall z, IZR z24 <= IZR (20 * z) -> / 20 <= IZR z / IZR z24).
    { intros z. rewrite mult_IZR. intros Hz. apply Rmult_le_reg_r with (20 * IZR z24); [lra|]. field_simplify; lra. }
    apply P in K1. apply P in K2. rewrite <- N in K1, K2.
    assert (G : Rabs (1 - nth i (ls_xs h) 0 * nth i (ls_xs h) 0 - nth j (ls_xs h) 0 * nth j (ls_xs h) 0 - nth k (ls_xs h) 0 * nth k (ls_xs h) 0) <= 3 / IZR z24).
    { rewrite !N. rewrite abs_IZR, !minus_IZR, !mult_IZR in K0.
      set (x := IZR (nth i _ _)) in *. set (y := IZR (nth j _ _)) in *. set (z := IZR (nth k _ _)) in *.
      replace (1 - x / IZR z24 * (x / IZR z24) - y / IZR z24 * (y / IZR z24) - z / IZR z24 * (z / IZR z24)) with
        ((IZR z24 * IZR z24 - x * x - y * y - z * z) * / (IZR z24 * IZR z24)) by (field; lra).
      rewrite Rabs_mult. rewrite (Rabs_pos_eq (/ _)) by (apply Rlt_le, Rinv_0_lt_compat; nra).
      apply Rmult_le_reg_r with (IZR z24 * IZR z24); [nra|]. rewrite Rmult_assoc, Rinv_l by nra. field_simplify; [|lra]. lra. }
    assert (T : 3 / IZR z24 / (/ 20) <= / 10 ^ 22). { unfold z24. change (10 ^ 24)%Z with 1000000000000000000000000%Z. lra. }
    split; [|split; [|split]]; auto; unfold q; cbn [ls_quad q_mu q_eta q_xi]; fold (ls_xs h);
    rewrite !(nth_map0 _ (0, 0)%nat) by lia; rewrite Ec, Eij; cbn [fst snd]; auto.
    + rewrite Rabs_minus_sym. eapply Rle_trans; [|exact T]. apply root_close; auto; lra.
    + eapply Rle_trans; [|exact T]. apply root_close; auto; [lra|].
      replace (1 - nth k (ls_xs h) 0 * nth k (ls_xs h) 0 - nth j (ls_xs h) 0 * nth j (ls_xs h) 0 - nth i (ls_xs h) 0 * nth i (ls_xs h) 0) with
       (1 - nth i (ls_xs h) 0 * nth i (ls_xs h) 0 - nth j (ls_xs h) 0 * nth j (ls_xs h) 0 - nth k (ls_xs h) 0 * nth k (ls_xs h) 0) by ring. exact G.
Qed.
Lemma scale_pos dim : 0 < ls_scale dim.
Proof. unfold ls_scale. pose proof pi_low. destruct (_ =? _)%nat; lra. Qed.
Lemma ls_positive h dim a : (1 <= h <= 9)%nat -> (a < q_nao (ls_quad h dim))%nat -> 0 < wt_of (ls_quad h dim) a.
Proof.
  intros Hh Ha. destruct (@ls_lengths h ltac:(lia)) as (L1 & L2 & _). unfold wt_of. cbn [ls_quad q_nao q_wt] in *.
  rewrite (nth_map0 _ 0) by (rewrite map_length; lia). rewrite (nth_map0 _ 0%Q) by lia.
  apply Rmult_lt_0_compat; [|apply scale_pos].
  assert (F : forallb (fun q => (0 <? Qnum q)%Z) (ls_wts (2 * h)) = true).
  { clear - Hh. do 10 (destruct h as [|h]; [try lia; vm_compute; reflexivity|]). lia. }
  rewrite forallb_forall in F. specialize (F _ (@nth_In _ a (ls_wts (2 * h)) 0%Q ltac:(lia))). apply Z.ltb_lt in F.
  unfold Q2R. apply Rmult_lt_0_compat; [apply IZR_lt; auto|]. apply Rinv_0_lt_compat, IZR_lt. reflexivity.
Qed.
Lemma ls_negative h dim : (10 <= h <= 12)%nat -> exists a, (a < q_nao (ls_quad h dim))%nat /\ wt_of (ls_quad h dim) a < 0.
Proof.
  intros Hh. destruct (@ls_lengths h ltac:(lia)) as (L1 & L2 & _).
  assert (F : existsb (fun q => (Qnum q <? 0)%Z) (ls_wts (2 * h)) = true).
  { clear - Hh. do 13 (destruct h as [|h]; [try lia; vm_compute; reflexivity|]). lia. }
  apply existsb_exists in F as (x & Hx & Nx). apply Z.ltb_lt in Nx. apply In_nth with (d := 0%Q) in Hx as (a & Ha & <-).
  exists a. split; [cbn [ls_quad q_nao]; lia|]. unfold wt_of. cbn [ls_quad q_wt]. rewrite (nth_map0 _ 0) by (rewrite map_length; lia). rewrite (nth_map0 _ 0%Q) by lia.
  pose proof (scale_pos dim). assert (Q2R (nth a (ls_wts (2 * h)) 0%Q) < 0); [|nra].
  unfold Q2R. assert (0 < / IZR (Z.pos (Qden (nth a (ls_wts (2 * h)) 0%Q)))) by (apply Rinv_0_lt_compat, IZR_lt; reflexivity).
  apply IZR_lt in Nx. nra.
Qed.

(** ** In terms of the constructor *)
Lemma ls_result np dim q : dim = 2%nat \/ dim = 3%nat -> level_symmetric np dim = Ok q -> (1 <= np <= 12)%nat /\ q = ls_quad np dim.
Proof.
  intros Hd H. rewrite ls_built in H by lia. destruct (_ && _)%bool eqn:E; [|discriminate]. injection H as <-.
  apply andb_true_iff in E as [E1 E2]. apply Nat.leb_le in E1, E2. auto.
Qed.
Lemma levels_built np dim : dim = 2%nat \/ dim = 3%nat ->
  ((1 <= np <= 12)%nat -> exists q, level_symmetric np dim = Ok q /\ q_dim q = dim /\ well_formed q /\ q_nao q = (np * (np + 1) / 2)%nat /\
     Rabs (qsum q (fun _ _ => 1) - 4 * PI) <= / 10 ^ 16 /\
     (forall a, (a < q_nao q)%nat -> (exists b, (b < q_nao q)%nat /\ swapped_mu_eta q a b) /\
                                     (exists c, (c < q_nao q)%nat /\ swapped_mu_xi q (/ 10 ^ 22) a c))) /\
  (~ (1 <= np <= 12)%nat -> level_symmetric np dim = Err).
Proof.
  intros Hd. rewrite ls_built by lia. split; intros Hh.
  - exists (ls_quad np dim). rewrite (proj2 (Nat.leb_le 1 np)), (proj2 (Nat.leb_le np 12)) by lia.
    split; [reflexivity|]. split; [reflexivity|]. split; [apply ls_well_formed; auto|]. split; [reflexivity|].
    split; [|apply ls_swaps; auto].
    pose proof (@level_integrates np dim Hh Hd 0%nat 0%nat 0%nat ltac:(lia) (fun _ => eq_refl)) as I.
    assert (M : sphere_mean 0 0 0 = 1) by (unfold sphere_mean; cbn; lra). rewrite M, Rmult_1_r in I.
    rewrite (@qsum_ext _ _ (fun _ _ => 1)) in I; auto. intros. cbn [pow]. ring.
  - destruct (_ && _)%bool eqn:E; auto. exfalso. apply Hh. apply andb_true_iff in E as [E1 E2]. apply Nat.leb_le in E1, E2. lia.
Qed.
Lemma levels_degree np dim q : dim = 2%nat \/ dim = 3%nat -> level_symmetric np dim = Ok q ->
  integrates q (ls_degree np) (/ 10 ^ 16) /\ ~ integrates q (ls_degree np + 2) (/ 10 ^ 12).
Proof. intros Hd H. destruct (ls_result Hd H) as [Hh ->]. split; [apply level_integrates; auto|apply level_not_beyond; auto]. Qed.
Lemma levels_sign np dim q : dim = 2%nat \/ dim = 3%nat -> level_symmetric np dim = Ok q ->
  ((forall a, (a < q_nao q)%nat -> 0 < wt_of q a) <-> (np <= 9)%nat).
Proof.
  intros Hd H. destruct (ls_result Hd H) as [Hh ->]. split.
  - intros P. destruct (le_lt_dec np 9); auto. destruct (@ls_negative np dim ltac:(lia)) as (a & Ha & N). specialize (P a Ha). lra.
  - intros Hn a Ha. apply ls_positive; auto. lia.
Qed.
Lemma levels_orthogonal np dim q L ix M : dim = 2%nat \/ dim = 3%nat -> level_symmetric np dim = Ok q -> (L <= 3)%nat ->
  indexer_new dim L = Ok ix -> m2d_build ix q = Ok M ->
  forall l m l' m', valid_lm dim L l m -> valid_lm dim L l' m' -> (l + l' <= 2 * np)%nat ->
  Rabs (qsum q (fun o a => num (Y_cosines l m (mu_of q o a) (eta_of q o a) (xi_of q o a)) * num (m2d_oalm ix q M o a l' m')) -
        (if ((l =? l')%nat && (m =? m')%Z)%bool then 1 else 0)) <= 2 * / 10 ^ 14.
Proof.
  intros Hd H HL HI HM l m l' m' V V' HD. destruct (ls_result Hd H) as [Hh Eq].
  assert (Dq : q_dim q = dim) by (rewrite Eq; reflexivity).
  assert (I : integrates q (ls_degree np) (/ 10 ^ 16)) by (rewrite Eq; apply level_integrates; auto).
  assert (D2 : (l + l' <= ls_degree np)%nat).
  { destruct V as [V _], V' as [V' _]. clear - Hh HL V V' HD. do 13 (destruct np as [|np]; [try lia; cbn in *; lia|]). lia. }
  eapply Rle_trans; [eapply (@m2d_orthogonal q L ix M); eauto; rewrite ?Dq; auto; rewrite Eq; apply ls_well_formed; auto|].
  lra.
Qed.
