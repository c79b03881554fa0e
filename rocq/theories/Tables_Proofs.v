(** * Tables_Proofs: the level-symmetric sets. *)
From Coq Require Import Qabs.
From Verif Require Import Base BaseR Util_Model Angle_Model Angle_Spec Angle_Proofs Tables_Model Tables_Spec Harm_Model Harm_Spec Harm_Proofs.
Set Implicit Arguments. Unset Strict Implicit.
Local Open Scope R_scope.

(** ** What the constructor stores *)
Definition ls_wts (N : nat) : list Q := map (fun k => nth k (ls_wtt N) 0%Q) (ls_wp N).
Definition ls_ok (h : nat) : bool :=
  let N := (2 * h)%nat in let nao := (h * (h + 1) / 2)%nat in
  ((length (ls_att N) =? h)%nat && (length (ls_wp N) =? nao)%nat && (length (ls_pairs h) =? nao)%nat &&
   forallb (fun k => (k <? length (ls_wtt N))%nat) (ls_wp N) &&
   forallb (fun ij => ((fst ij <? h)%nat && (snd ij <? h)%nat)) (ls_pairs h) &&
   (2 * h * (2 * h + 2) / 8 =? nao)%nat)%bool.
Lemma ls_tables h : (1 <= h <= 12)%nat -> ls_ok h = true.
Proof. intros H. do 13 (destruct h as [|h]; [try lia; vm_compute; reflexivity|]). lia. Qed.
Lemma ls_fill_gen att scale ps : forall m pm pe px pw rm re rx rw,
  length pm = m -> length pe = m -> length px = m -> length pw = m ->
  length rm = length ps -> length re = length ps -> length rx = length ps -> length rw = length ps ->
  (forall ij, In ij ps -> (fst ij < length att)%nat /\ (snd ij < length att)%nat) ->
  foldM (fun (s : nat * (list R * list R * list R * list R)) ij =>
    let '(m, (mu, eta, xi, wt)) := s in
    do a <- rd att (fst ij); do mu <- wr mu m a;
    do b <- rd att (snd ij); do eta <- wr eta m b;
    do xi <- wr xi m (sqrt (1 - a * a - b * b))%R;
    do w <- rd wt m; do wt <- wr wt m (w * scale)%R;
    Ok (S m, (mu, eta, xi, wt))) ps (m, (pm ++ rm, pe ++ re, px ++ rx, pw ++ rw)) =
  Ok ((m + length ps)%nat, (pm ++ map (fun ij => nth (fst ij) att 0) ps, pe ++ map (fun ij => nth (snd ij) att 0) ps,
      px ++ map (fun ij => sqrt (1 - nth (fst ij) att 0 * nth (fst ij) att 0 - nth (snd ij) att 0 * nth (snd ij) att 0)) ps,
      pw ++ map (fun w => w * scale) rw)).
Proof.
  assert (Wr : forall (p r : list R) x y m, length p = m -> wr (p ++ x :: r) m y = Ok ((p ++ [y]) ++ r)).
  { intros p r x y m <-. unfold wr. rewrite app_length. cbn [length]. rewrite (proj2 (Nat.ltb_lt _ _)) by lia.
    f_equal. induction p as [|c p IH]; cbn; auto. rewrite IH. auto. }
  induction ps as [|[i j] ps IH]; intros m pm pe px pw rm re rx rw L1 L2 L3 L4 M1 M2 M3 M4 H.
  - destruct rm, re, rx, rw; try discriminate. cbn [foldM map length]. rewrite Nat.add_0_r. reflexivity.
  - destruct rm as [|x1 rm], re as [|x2 re], rx as [|x3 rx], rw as [|x4 rw]; try discriminate.
    cbn [length] in M1, M2, M3, M4. injection M1 as M1; injection M2 as M2; injection M3 as M3; injection M4 as M4.
    destruct (H (i, j) (or_introl eq_refl)) as [Hi Hj]. cbn [fst snd] in Hi, Hj.
    cbn [foldM fst snd]. unfold rd at 1. rewrite (nth_error_nth' att 0 Hi). cbn [bind]. rewrite (Wr pm) by auto. cbn [bind].
    unfold rd at 1. rewrite (nth_error_nth' att 0 Hj). cbn [bind]. rewrite (Wr pe) by auto. cbn [bind]. rewrite (Wr px) by auto. cbn [bind].
    unfold rd at 1. rewrite nth_error_app2 by lia. rewrite L4, Nat.sub_diag. cbn [nth_error bind]. rewrite (Wr pw) by auto. cbn [bind].
    rewrite IH; auto; try (rewrite app_length; cbn [length]; lia). 2:{ intros ij Hin. apply H. right; auto. }
    cbn [map length fst snd]. rewrite <- !app_assoc. cbn [app]. do 2 f_equal. lia.
Qed.
Definition ls_scale (dim : nat) : R := if (dim =? 3)%nat then 1 / 2 * PI else PI.
Definition ls_quad (h dim : nat) : quad :=
  let att := map Q2R (ls_att (2 * h)) in let nao := (h * (h + 1) / 2)%nat in
  {| q_dim := dim; q_nang := (nao * 2 ^ dim)%nat; q_noct := (2 ^ dim)%nat; q_nao := nao;
     q_wt := map (fun w => w * ls_scale dim) (map Q2R (ls_wts (2 * h)));
     q_mu := map (fun ij => nth (fst ij) att 0) (ls_pairs h);
     q_eta := map (fun ij => nth (snd ij) att 0) (ls_pairs h);
     q_xi := map (fun ij => sqrt (1 - nth (fst ij) att 0 * nth (fst ij) att 0 - nth (snd ij) att 0 * nth (snd ij) att 0)) (ls_pairs h);
     q_sign := octant_sign; q_inc := incident_table dim; q_out := outgoing_table dim; q_adj := false |}.
Lemma ls_order h : existsb (Nat.eqb (2 * h)) ls_orders = ((1 <=? h) && (h <=? 12))%nat%bool.
Proof. do 13 (destruct h as [|h]; [reflexivity|]). apply not_true_is_false. intros C. unfold ls_orders in C. apply existsb_exists in C as (x & Hx & E).
  apply Nat.eqb_eq in E. assert (x <= 24)%nat by (repeat (destruct Hx as [<-|Hx]; [lia|]); destruct Hx). lia. Qed.
Lemma ls_built h dim : (0 < dim < 4)%nat ->
  level_symmetric h dim = if ((1 <=? h) && (h <=? 12))%nat%bool then Ok (ls_quad h dim) else Err.
Proof.
  intros Hd. unfold level_symmetric, quad_new.
  rewrite (proj2 (Nat.ltb_lt 0 dim)), (proj2 (Nat.ltb_lt dim 4)) by lia. cbn [andb bind q_nao q_mu q_eta q_xi].
  unfold ls_set. rewrite ls_order. destruct ((1 <=? h) && (h <=? 12))%nat%bool eqn:E; [|reflexivity].
  apply andb_true_iff in E as [E1 E2]. apply Nat.leb_le in E1, E2. pose proof (@ls_tables h (conj E1 E2)) as T. unfold ls_ok in T.
  set (nao := (h * (h + 1) / 2)%nat) in *.
  apply andb_true_iff in T as [T T6]. apply andb_true_iff in T as [T T5]. apply andb_true_iff in T as [T T4].
  apply andb_true_iff in T as [T T3]. apply andb_true_iff in T as [T1 T2].
  apply Nat.eqb_eq in T1, T2, T3, T6. rewrite T6.
  assert (P : (2 ^ dim <> 0)%nat) by (apply Nat.pow_nonzero; lia).
  rewrite (Nat.div_mul nao _ P). rewrite forallb_forall in T4, T5.
  rewrite (@mapM_ok nat R _ (fun m => Q2R (nth m (ls_wts (2 * h)) 0%Q))).
  2:{ intros m Hm. apply in_seq in Hm. unfold rd. assert (Lm : (m < length (ls_wp (2 * h)))%nat) by lia.
      rewrite (nth_error_nth' _ 0%nat Lm). cbn [bind].
      assert (Lk : (nth m (ls_wp (2 * h)) 0 < length (ls_wtt (2 * h)))%nat) by (apply Nat.ltb_lt, T4, nth_In; auto).
      rewrite (nth_error_nth' _ 0%Q Lk). cbn [bind]. f_equal. f_equal. unfold ls_wts.
      rewrite (@nth_indep _ _ m 0%Q (nth 0 (ls_wtt (2 * h)) 0%Q)) by (rewrite map_length; auto).
      rewrite (map_nth (fun k => nth k (ls_wtt (2 * h)) 0%Q)). reflexivity. }
  cbn [bind fst snd]. replace (2 * h / 2)%nat with h by (rewrite Nat.mul_comm, Nat.div_mul; lia).
  pose proof (@ls_fill_gen (map Q2R (ls_att (2 * h))) (ls_scale dim) (ls_pairs h) 0 [] [] [] []
    (repeat 0 nao) (repeat 0 nao) (repeat 0 nao) (map Q2R (ls_wts (2 * h))) eq_refl eq_refl eq_refl eq_refl) as F.
  cbn [app] in F. unfold ls_fill, ls_scale in *.
  assert (Ew : map (fun m => Q2R (nth m (ls_wts (2 * h)) 0%Q)) (seq 0 nao) = map Q2R (ls_wts (2 * h))).
  { assert (Lw : length (ls_wts (2 * h)) = nao) by (unfold ls_wts; rewrite map_length; auto).
    rewrite <- (map_map (fun m => nth m (ls_wts (2 * h)) 0%Q) Q2R). f_equal. rewrite <- Lw. clear.
    apply list_ext_nth with (d := 0%Q); [rewrite map_length, seq_length; auto|]. intros i Hi. rewrite map_length, seq_length in Hi.
    rewrite nth_map_seq; auto. }
  rewrite Ew. rewrite F; try (rewrite repeat_length; auto).
  - cbn [bind]. reflexivity.
  - rewrite map_length. unfold ls_wts. rewrite map_length. lia.
  - intros ij Hin. apply T5 in Hin. apply andb_true_iff in Hin as [A B]. apply Nat.ltb_lt in A, B. rewrite map_length, T1. auto.
Qed.

(** ** Moments of the stored octant *)
Definition rmom (x w : list R) (ps : list (nat * nat)) (p q r : nat) : R :=
  sumR (map (fun t => let a := nth (fst (snd t)) x 0 in let b := nth (snd (snd t)) x 0 in
    fst t * ((a * a) ^ p * (b * b) ^ q * (1 - a * a - b * b) ^ r)) (combine w ps)).
Lemma rmom_rec x w ps p q r : rmom x w ps p q (S r) = rmom x w ps p q r - rmom x w ps (S p) q r - rmom x w ps p (S q) r.
Proof.
  unfold rmom. induction (combine w ps) as [|t l IH]; [cbn; ring|]. cbn [map sumR fold_right] in *.
  unfold sumR in *. cbn [fold_right]. rewrite IH. cbn [pow]. ring.
Qed.
Definition smean (p q r : nat) : R :=
  IZR (odd_fact p * odd_fact q * odd_fact r) / IZR (odd_fact (p + q + r + 1)).
Lemma odd_fact_S k : IZR (odd_fact (S k)) = (2 * INR k + 1) * IZR (odd_fact k).
Proof. cbn [odd_fact]. rewrite mult_IZR, <- INR_IZR_INZ, plus_INR, mult_INR. cbn [INR]. ring. Qed.
Lemma smean_rec p q r : smean p q (S r) = smean p q r - smean (S p) q r - smean p (S q) r.
Proof.
  unfold smean. replace (p + q + S r + 1)%nat with (S (p + q + r + 1)) by lia.
  replace (S p + q + r + 1)%nat with (S (p + q + r + 1)) by lia. replace (p + S q + r + 1)%nat with (S (p + q + r + 1)) by lia.
  rewrite !mult_IZR, !odd_fact_S. rewrite !plus_INR. cbn [INR].
  assert (IZR (odd_fact (p + q + r + 1)) <> 0) by (apply not_0_IZR; pose proof (odd_fact_pos (p + q + r + 1)); lia).
  pose proof (pos_INR p). pose proof (pos_INR q). pose proof (pos_INR r). field. split; auto. lra.
Qed.
Lemma rmom_close x w ps n d : (forall p q, (p + q <= n)%nat -> Rabs (rmom x w ps p q 0 - smean p q 0) <= d) ->
  forall r p q, (p + q + r <= n)%nat -> Rabs (rmom x w ps p q r - smean p q r) <= 3 ^ r * d.
Proof.
  intros H. induction r as [|r IH]; intros p q Hn; [cbn [pow]; rewrite Rmult_1_l; apply H; lia|].
  rewrite rmom_rec, smean_rec. cbn [pow].
  replace (rmom x w ps p q r - rmom x w ps (S p) q r - rmom x w ps p (S q) r - (smean p q r - smean (S p) q r - smean p (S q) r)) with
    ((rmom x w ps p q r - smean p q r) - (rmom x w ps (S p) q r - smean (S p) q r) - (rmom x w ps p (S q) r - smean p (S q) r)) by ring.
  replace (3 * 3 ^ r * d) with (3 ^ r * d + 3 ^ r * d + 3 ^ r * d) by ring.
  repeat apply b_sub; apply IH; lia.
Qed.
(** Integers for table entries. *)
Definition zrow (k : Z) (l : list Q) : list Z := map (fun q => (Qnum q * (k / Zpos (Qden q)))%Z) l.
Definition exact_row (k : Z) (l : list Q) : bool := forallb (fun q => (k mod Zpos (Qden q) =? 0)%Z) l.
Lemma zrow_ok k l : (0 < k)%Z -> exact_row k l = true -> map Q2R l = map (fun z => IZR z / IZR k) (zrow k l).
Proof.
  intros Hk. unfold exact_row, zrow. rewrite forallb_forall, map_map. intros H. apply map_ext_in. intros q Hq.
  specialize (H q Hq). apply Z.eqb_eq in H. unfold Q2R. rewrite mult_IZR.
  assert (E : k = (Zpos (Qden q) * (k / Zpos (Qden q)))%Z) by (apply Z_div_exact_full_2; [lia|auto]).
  assert (K0 : (k / Zpos (Qden q) <> 0)%Z) by (intros Z0; rewrite Z0 in E; lia).
  rewrite E at 2. rewrite mult_IZR. field. split; apply not_0_IZR; auto. lia.
Qed.

(** ** Fixed-point arithmetic with a bound on the rounding *)
Definition zB : Z := (2 ^ 100)%Z.
Definition fx (q : Q) : Z := (Z.shiftl (Qnum q) 100 / Zpos (Qden q))%Z.
Definition near (b e r : R) (z : Z) : Prop := Rabs r <= b /\ Rabs (IZR zB * r - IZR z) <= e.
Lemma zB_pos : (0 < zB)%Z. Proof. reflexivity. Qed.
Lemma zB_big : 1000000 <= IZR zB. Proof. apply IZR_le. vm_compute. discriminate. Qed.
Lemma div_near a d : (0 < d)%Z -> Rabs (IZR a / IZR d - IZR (a / d)) <= 1.
Proof.
  intros Hd. pose proof (Z.div_mod a d ltac:(lia)) as E. pose proof (Z.mod_pos_bound a d Hd) as [M1 M2].
  apply (f_equal IZR) in E. rewrite plus_IZR, mult_IZR in E. apply IZR_le in M1. apply IZR_lt in M2, Hd.
  replace (IZR a / IZR d - IZR (a / d)) with (IZR (a mod d) / IZR d) by (rewrite E; field; lra).
  assert (0 <= IZR (a mod d) / IZR d <= 1); [|rewrite Rabs_pos_eq; lra].
  split; [apply Rmult_le_pos; auto; apply Rlt_le, Rinv_0_lt_compat; auto|]. apply Rmult_le_reg_r with (IZR d); auto. field_simplify; lra.
Qed.
Lemma fx_near q b : Rabs (Q2R q) <= b -> near b 1 (Q2R q) (fx q).
Proof.
  intros H. split; auto. unfold fx. rewrite Z.shiftl_mul_pow2 by lia. fold zB.
  replace (IZR zB * Q2R q) with (IZR (Qnum q * zB) / IZR (Zpos (Qden q))) by (rewrite mult_IZR; unfold Q2R, Rdiv; ring).
  apply div_near. lia.
Qed.
Definition shr (a : Z) : Z := Z.shiftr a 100.
Lemma shr_near a : Rabs (IZR a / IZR zB - IZR (shr a)) <= 1.
Proof. unfold shr. rewrite Z.shiftr_div_pow2 by lia. fold zB. apply div_near, zB_pos. Qed.
Lemma prod_near a e r z b f s y : near a e r z -> near b f s y -> f <= IZR zB -> 0 <= e -> 0 <= a ->
  Rabs (IZR zB * IZR zB * (r * s) - IZR (z * y)) <= IZR zB * (a * f + (b + 1) * e).
Proof.
  intros [A E] [B F] HF He Ha. pose proof zB_big as D. set (d := IZR zB) in *. rewrite mult_IZR.
  replace (d * d * (r * s) - IZR z * IZR y) with (d * r * (d * s - IZR y) + IZR y * (d * r - IZR z)) by ring.
  eapply Rle_trans; [apply Rabs_triang|]. rewrite !Rabs_mult, (Rabs_pos_eq d) by lra.
  assert (Y : Rabs (IZR y) <= d * (b + 1)).
  { replace (IZR y) with (d * s - (d * s - IZR y)) by ring. eapply Rle_trans; [apply Rabs_triang|]. rewrite Rabs_Ropp, Rabs_mult, (Rabs_pos_eq d) by lra.
    pose proof (Rabs_pos s). nra. }
  assert (P1 : d * Rabs r * Rabs (d * s - IZR y) <= d * a * f).
  { apply Rmult_le_compat; [apply Rmult_le_pos; [lra|apply Rabs_pos]|apply Rabs_pos| |auto]. apply Rmult_le_compat_l; [lra|auto]. }
  assert (P2 : Rabs (IZR y) * Rabs (d * r - IZR z) <= d * (b + 1) * e).
  { apply Rmult_le_compat; try apply Rabs_pos; auto. }
  lra.
Qed.
Fixpoint fpow (x : Z) (n : nat) : Z := match n with O => zB | S n => shr (x * fpow x n) end.
Lemma fpow_near r x e n : near 1 e r x -> 0 <= e -> (INR n <= 1000)%R -> e <= 100 -> near 1 (INR n * (2 * e + 1)) (r ^ n) (fpow x n).
Proof.
  intros H He Hn E100. induction n as [|n IH].
  - cbn [pow fpow INR]. split; [rewrite Rabs_R1; lra|]. rewrite Rmult_1_r, Rminus_diag_eq, Rabs_R0 by auto. lra.
  - rewrite S_INR in Hn. pose proof (pos_INR n) as Pn. assert (I := IH ltac:(lra)). cbn [pow fpow]. split.
    + rewrite Rabs_mult. destruct I as [I _], H as [H _]. pose proof (Rabs_pos r). pose proof (Rabs_pos (r ^ n)). nra.
    + pose proof zB_big as D. assert (F : INR n * (2 * e + 1) <= IZR zB).
      { apply Rle_trans with (1000 * 201); [|lra]. apply Rmult_le_compat; lra. }
      pose proof (prod_near H I F He ltac:(lra)) as P. pose proof (shr_near (x * fpow x n)) as Q. set (d := IZR zB) in *.
      replace (d * (r * r ^ n) - IZR (shr (x * fpow x n))) with
        ((d * d * (r * r ^ n) - IZR (x * fpow x n)) / d + (IZR (x * fpow x n) / d - IZR (shr (x * fpow x n)))) by (field; lra).
      eapply Rle_trans; [apply Rabs_triang|]. rewrite S_INR. apply Rle_trans with ((1 * (INR n * (2 * e + 1)) + (1 + 1) * e) + 1); [|lra].
      apply Rplus_le_compat; auto. unfold Rdiv. rewrite Rabs_mult, (Rabs_pos_eq (/ d)) by (apply Rlt_le, Rinv_0_lt_compat; lra).
      apply Rmult_le_reg_r with d; [lra|]. rewrite Rmult_assoc, Rinv_l by lra. lra.
Qed.
Definition dotR (l m : list R) : R := sumR (map (fun t => fst t * snd t) (combine l m)).
Definition dotz (l m : list Z) : Z := fold_right (fun t s => (fst t * snd t + s)%Z) 0%Z (combine l m).
Lemma dot_near a e b f l L m M : Forall2 (near a e) l L -> Forall2 (near b f) m M -> f <= IZR zB -> 0 <= e -> 0 <= a -> 0 <= f -> 0 <= b ->
  Rabs (IZR zB * IZR zB * dotR l m - IZR (dotz L M)) <= IZR zB * (INR (length l) * (a * f + (b + 1) * e)).
Proof.
  intros HL HM HF He Ha H0 Hb. assert (P : 0 <= a * f + (b + 1) * e) by nra. pose proof zB_big as D.
  unfold dotR, dotz, sumR. revert m M HM. induction HL as [|r z l L Hr HL IH]; intros m M HM.
  - cbn. rewrite Rmult_0_r, Rminus_0_r, Rabs_R0. lra.
  - destruct HM as [|s y m M Hs HM].
    + cbn [combine map fold_right]. rewrite Rmult_0_r, Rminus_0_r, Rabs_R0. pose proof (pos_INR (length (r :: l))). apply Rmult_le_pos; [lra|]. nra.
    + cbn [combine map fold_right fst snd length]. rewrite S_INR, plus_IZR. specialize (IH m M HM). pose proof (prod_near Hr Hs HF He Ha) as Q.
      set (u := fold_right Rplus _ _) in *. set (v := IZR (fold_right _ _ _)) in *.
      replace (IZR zB * IZR zB * (r * s + u) - (IZR (z * y) + v)) with ((IZR zB * IZR zB * (r * s) - IZR (z * y)) + (IZR zB * IZR zB * u - v)) by ring.
      eapply Rle_trans; [apply Rabs_triang|]. lra.
Qed.
Lemma dot_bound a b l m : Forall (fun r => Rabs r <= a) l -> Forall (fun r => Rabs r <= b) m -> 0 <= a -> 0 <= b ->
  Rabs (dotR l m) <= INR (length l) * (a * b).
Proof.
  intros HL HM Ha Hb. unfold dotR, sumR. revert m HM. induction HL as [|r l Hr HL IH]; intros m HM.
  - cbn. rewrite Rabs_R0. lra.
  - destruct HM as [|s m Hs HM].
    + cbn [combine map fold_right]. rewrite Rabs_R0. pose proof (pos_INR (length (r :: l))). apply Rmult_le_pos; nra.
    + cbn [combine map fold_right fst snd length]. rewrite S_INR. specialize (IH m HM). eapply Rle_trans; [apply Rabs_triang|]. rewrite Rabs_mult.
      pose proof (Rabs_pos r). pose proof (Rabs_pos s). assert (Rabs r * Rabs s <= a * b) by (apply Rmult_le_compat; auto). lra.
Qed.
(** Nearness to a fraction. *)
Lemma gap_frac E o m op oq : (0 < E)%Z -> (0 < o)%Z ->
  Rabs (IZR m / IZR E - IZR (op * oq) / IZR o) = IZR (Z.abs (m * o - E * (op * oq))) / IZR (E * o).
Proof.
  intros HE Ho. apply IZR_lt in HE, Ho. rewrite abs_IZR, minus_IZR, !mult_IZR.
  replace (IZR m / IZR E - IZR op * IZR oq / IZR o) with ((IZR m * IZR o - IZR E * (IZR op * IZR oq)) / (IZR E * IZR o)) by (field; lra).
  unfold Rdiv. rewrite Rabs_mult. f_equal. apply Rabs_pos_eq. apply Rlt_le, Rinv_0_lt_compat, Rmult_lt_0_compat; auto.
Qed.
Lemma ratio_le g G k c : (0 < G)%Z -> (0 < k)%Z -> (g * k <= c * G)%Z -> IZR g / IZR G <= IZR c / IZR k.
Proof.
  intros HG Hk H. apply IZR_le in H. rewrite !mult_IZR in H. apply IZR_lt in HG, Hk.
  apply Rmult_le_reg_r with (IZR G * IZR k); [nra|]. field_simplify; lra.
Qed.
Lemma ratio_ge g G k c : (0 < G)%Z -> (0 < k)%Z -> (c * G <= g * k)%Z -> IZR c / IZR k <= IZR g / IZR G.
Proof.
  intros HG Hk H. apply IZR_le in H. rewrite !mult_IZR in H. apply IZR_lt in HG, Hk.
  apply Rmult_le_reg_r with (IZR G * IZR k); [nra|]. field_simplify; lra.
Qed.

(** Row by row, which is quicker to compute. *)
Section Rows.
Context {A : Type}.
Fixpoint chop (W : list A) (ns : list nat) : list (list A) :=
  match ns with [] => [] | n :: ns => firstn n W :: chop (skipn n W) ns end.
Fixpoint pairs_of (i : nat) (rows : list (list A)) : list (nat * nat) :=
  match rows with [] => [] | r :: rows => map (fun j => (i, j)) (seq 0 (length r)) ++ pairs_of (S i) rows end.
End Rows.
Lemma chop_map A B (f : A -> B) ns : forall W, chop (map f W) ns = map (map f) (chop W ns).
Proof. induction ns as [|n ns IH]; intros W; cbn [chop map]; auto. rewrite firstn_map, skipn_map, IH. auto. Qed.
Lemma pairs_map A B (f : A -> B) rows : forall i, pairs_of i (map (map f) rows) = pairs_of i rows.
Proof. induction rows as [|r rows IH]; intros i; cbn [pairs_of map]; auto. rewrite map_length, IH. auto. Qed.
Definition rpart (f : nat -> nat -> R) (l : list (R * (nat * nat))) : R :=
  sumR (map (fun t => fst t * f (fst (snd t)) (snd (snd t))) l).
Lemma combine_app2 A B (l l' : list A) (m m' : list B) : length l = length m -> combine (l ++ l') (m ++ m') = combine l m ++ combine l' m'.
Proof. revert m. induction l as [|a l IH]; intros [|b m] H; try discriminate; auto. cbn. f_equal. apply IH. cbn in H. lia. Qed.
Lemma rpart_row f g i (qx : list R) : (forall j, f i j = g * nth j qx 0) -> forall r k, (k + length r <= length qx)%nat ->
  rpart f (combine r (map (fun j => (i, j)) (seq k (length r)))) = g * dotR r (skipn k qx).
Proof.
  intros F. induction r as [|w r IH]; intros k Hk; [cbn; ring|]. cbn [length seq map combine] in *.
  assert (Hk' : (k < length qx)%nat) by lia.
  assert (E : skipn k qx = nth k qx 0 :: skipn (S k) qx).
  { clear - Hk'. revert k Hk'. induction qx as [|x qx IH]; intros [|k] H; cbn in *; try lia; auto. apply IH. lia. }
  rewrite E. unfold rpart, dotR, sumR in *. cbn [map fold_right combine fst snd]. rewrite IH by lia. rewrite F. ring.
Qed.
Definition rrows (px qx : list R) (rows : list (list R)) : R := dotR px (map (fun r => dotR r qx) rows).
Lemma rrows_ok (qx : list R) : forall rows px i f,
  (forall k j, f (i + k)%nat j = nth k px 0 * nth j qx 0) -> length px = length rows ->
  (forall r, In r rows -> (length r <= length qx)%nat) ->
  rpart f (combine (concat rows) (pairs_of i rows)) = rrows px qx rows.
Proof.
  induction rows as [|r rows IH]; intros px i f F L H; [destruct px; reflexivity|].
  destruct px as [|x px]; [discriminate|]. cbn [concat pairs_of]. rewrite combine_app2 by (rewrite map_length, seq_length; auto).
  unfold rpart. rewrite map_app, sumR_app. fold (rpart f (combine r (map (fun j => (i, j)) (seq 0 (length r))))).
  fold (rpart f (combine (concat rows) (pairs_of (S i) rows))). rewrite (@rpart_row f x i qx).
  2:{ intros j. specialize (F 0%nat j). rewrite Nat.add_0_r in F. exact F. }
  2:{ cbn [Nat.add]. apply H. left; auto. }
  rewrite (IH px (S i)).
  - reflexivity.
  - intros k j. specialize (F (S k) j). rewrite Nat.add_succ_r in F. exact F.
  - cbn in L. lia.
  - intros r' Hr. apply H. right; auto.
Qed.
Definition ls_cut (h : nat) : list nat := map (fun i => h - i)%nat (seq 0 h).
Lemma rows_fit h : (1 <= h <= 12)%nat ->
  concat (chop (ls_wts (2 * h)) (ls_cut h)) = ls_wts (2 * h) /\ pairs_of 0 (chop (ls_wts (2 * h)) (ls_cut h)) = ls_pairs h /\
  length (chop (ls_wts (2 * h)) (ls_cut h)) = h /\ forallb (fun r => (length r <=? h)%nat) (chop (ls_wts (2 * h)) (ls_cut h)) = true.
Proof. intros H. do 13 (destruct h as [|h]; [try lia; vm_compute; repeat split; reflexivity|]). lia. Qed.
Definition ls_xs (h : nat) : list R := map Q2R (ls_att (2 * h)).
Definition ls_ws (h : nat) : list R := map Q2R (ls_wts (2 * h)).
Definition rpows (X : list R) (p : nat) : list R := map (fun x => (x * x) ^ p) X.
Lemma rmom_rows h p q : (1 <= h <= 12)%nat ->
  rmom (ls_xs h) (ls_ws h) (ls_pairs h) p q 0 = rrows (rpows (ls_xs h) p) (rpows (ls_xs h) q) (chop (ls_ws h) (ls_cut h)).
Proof.
  intros Hh. destruct (rows_fit Hh) as (R1 & R2 & R3 & R5). rewrite forallb_forall in R5.
  pose proof (ls_tables Hh) as T. unfold ls_ok in T. apply andb_true_iff in T as [T _]. apply andb_true_iff in T as [T4 T].
  do 3 apply andb_true_iff in T4 as [T4 _]. apply Nat.eqb_eq in T4. rewrite forallb_forall in T.
  assert (LX : length (ls_xs h) = h) by (unfold ls_xs; rewrite map_length; auto).
  unfold ls_ws. rewrite chop_map.
  rewrite <- (@rrows_ok _ _ _ 0 (fun i j => nth i (rpows (ls_xs h) p) 0 * nth j (rpows (ls_xs h) q) 0)).
  - rewrite concat_map, R1 at 1 || idtac. rewrite <- concat_map, R1, pairs_map, R2.
    unfold rmom, rpart. f_equal. apply map_ext_in. intros [w [i j]] Hin. apply in_combine_r in Hin. apply T in Hin.
    apply andb_true_iff in Hin as [A B]. cbn [fst snd] in *. apply Nat.ltb_lt in A, B. unfold rpows.
    rewrite (nth_indep (map _ _) 0 ((0 * 0) ^ p)) by (rewrite map_length; lia). rewrite (map_nth (fun x => (x * x) ^ p)).
    rewrite (nth_indep (map _ _) 0 ((0 * 0) ^ q)) by (rewrite map_length; lia). rewrite (map_nth (fun x => (x * x) ^ q)).
    cbn [pow]. ring.
  - reflexivity.
  - unfold rpows. rewrite !map_length. lia.
  - intros r Hr. apply in_map_iff in Hr as (r' & <- & Hr). apply R5, Nat.leb_le in Hr. unfold rpows. rewrite !map_length. lia.
Qed.
(** The fixed-point versions. *)
Definition z24 : Z := (10 ^ 24)%Z.
Definition fls_wts (N : nat) : list Z := let t := map fx (ls_wtt N) in map (fun k => nth k t 0%Z) (ls_wp N).
Definition fls_x2 (h : nat) : list Z := map (fun q => let z := fx q in shr (z * z)) (ls_att (2 * h)).
Definition fpows (X : list Z) (p : nat) : list Z := map (fun x => fpow x p) X.
Definition fls_rows (h : nat) : list (list Z) := chop (fls_wts (2 * h)) (ls_cut h).
Definition fcol (R : list (list Z)) (qx : list Z) : list Z := map (fun r => shr (dotz r qx)) R.
Definition gap_ok (E o : Z) (m op oq : Z) : bool := (Z.abs (m * o - E * (op * oq)) * 10 ^ 24 <=? 9 * (E * o))%Z.
Definition gap_bad (E o : Z) (m op oq : Z) : bool := (2 * (E * o) <=? Z.abs (m * o - E * (op * oq)) * 10 ^ 12)%Z.
Definition gap (b : Z -> Z -> Z -> Z -> Z -> bool) (p q : nat) (px col : list Z) : bool :=
  b (zB * zB)%Z (odd_fact (p + q + 1)) (dotz px col) (odd_fact p) (odd_fact q).
Definition deg2 (h : nat) : nat := (ls_degree h / 2)%nat.
(** All powers of one abscissa up to n, lowest first. *)
Fixpoint powers (x t : Z) (n : nat) : list Z := match n with O => [t] | S n => t :: powers x (shr (x * t)) n end.
Definition table (X : list Z) (n : nat) : list (list Z) :=
  let P := map (fun x => powers x zB n) X in map (fun k => map (fun l => nth k l 0%Z) P) (seq 0 (S n)).
Definition check_moments (h : nat) : bool :=
  let X := fls_x2 h in let R := fls_rows h in
  let P := table X (deg2 h) in
  forallb (fun q => let qx := nth q P [] in let col := fcol R qx in
    (forallb (fun p => gap gap_ok p q (nth p P []) col) (seq 0 (S (deg2 h - q))))) (seq 0 (S (deg2 h))).
Definition sharp_at (h : nat) : nat := nth h [0; 2; 3; 4; 5; 6; 3; 8; 4; 6; 5; 8; 6]%nat 0%nat.
Definition check_sharp (h : nat) : bool :=
  let p := sharp_at h in let q := (S (deg2 h) - p)%nat in
  gap gap_bad p q (fpows (fls_x2 h) p) (fcol (fls_rows h) (fpows (fls_x2 h) q)).
Definition check_exact (h : nat) : bool := (exact_row z24 (ls_att (2 * h)))%bool.
Definition check_inside (h : nat) : bool :=
  let X := zrow z24 (ls_att (2 * h)) in
  forallb (fun ij => let a := nth (fst ij) X 0%Z in let b := nth (snd ij) X 0%Z in
    (0 <=? z24 * z24 - a * a - b * b)%Z) (ls_pairs h).
Definition unit_row (l : list Q) : bool := forallb (fun q => (Z.abs (Qnum q) <=? Zpos (Qden q))%Z) l.
Definition check_unit (h : nat) : bool := (unit_row (ls_att (2 * h)) && unit_row (ls_wtt (2 * h)))%bool.
Lemma moments_checked : forallb (fun h => check_moments h && check_sharp h && check_exact h && check_inside h && check_unit h)%bool (seq 1 12) = true.
Proof. vm_cast_no_check (eq_refl true). Qed.
