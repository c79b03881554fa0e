From Verif Require Import Base BaseR Loop Vector_Model Vector_Spec Vector_Proofs Banach_Proofs Power_Proofs Cpow_Model Cpow_Spec Cpow_Proofs.
From Coq Require Import Lra.
Set Implicit Arguments. Unset Strict Implicit.
Open Scope R_scope.

(** ** Success *)
Lemma solve_sound n mul slv T s x x0 r : realises n mul slv T -> length (guess x x0) = n -> (ps_maxit s <= length (ps_hist s))%nat ->
  power_solve mul slv s x x0 = Ok r ->
  (pr_status r = SUCCESS ->
    exists x' l', length x' = n /\ size1 n x' = 1 /\ 0 < l' /\ resid n T l' x' < ps_tol s /\ nth (pr_it r) (pr_hist r) 0 = resid n T l' x' /\
      length (pr_x r) = n /\ size1 n (pr_x r) = 1 /\ 0 < pr_lambda r /\ pr_x0 r = pr_x r /\
      (forall i, (i < n)%nat -> image n T x' i = pr_lambda r * nth i (pr_x r) 0) /\
      Rabs (pr_lambda r - l') < ps_tol s /\ resid n T (pr_lambda r) x' < 2 * ps_tol s /\
      pr_lambda r * dist1 n (pr_x r) x' < 2 * ps_tol s /\
      forall C, 0 < C -> (forall j, (j < n)%nat -> rsum n (fun i => Rabs (T i j)) <= C) ->
        pr_lambda r * resid n T (pr_lambda r) (pr_x r) < C * (2 * ps_tol s)) /\
  (pr_status r = MAXIT -> forall j, (j < ps_maxit s)%nat -> ps_tol s <= nth j (pr_hist r) 0).
Proof.
  intros RZ LV HC ES. destruct (solve_run RZ LV HC) as [(j & _ & _ & E)|(N & r' & HN & E & LP & X1 & X2 & X3 & X4 & X5 & X6)]; [congruence|].
  assert (r' = r) by congruence. subst r'. set (v := guess x x0) in *. split.
  - intros SU. destruct X6 as [(_ & N0 & RT & _)|(M & _)]; [|congruence].
    destruct N as [|i]; [lia|]. destruct (X1 ltac:(lia)) as (EX & EI). replace (S i - 1)%nat with i in * by lia.
    exists (xs n T v i), (ls n T v i). rewrite EX, EI, X4, X5 by lia.
    split; [apply xs_length; auto|]. split; [apply xs_unit; intros; apply LP; lia|]. split; [apply LP; lia|]. split; [exact RT|]. split; [auto|].
    split; [apply xs_length; auto|]. split; [apply xs_unit; auto|]. split; [apply LP; lia|]. split; [congruence|].
    split; [intros j Hj; symmetry; apply ls_xs; auto|].
    split; [eapply Rle_lt_trans; [apply ls_change; auto|auto]|].
    split; [eapply Rle_lt_trans; [apply resid_new; auto|lra]|].
    split; [eapply Rle_lt_trans; [apply dist_new; auto|lra]|].
    intros C C0 HCC. eapply Rle_lt_trans; [apply resid_returned; eauto|]. apply Rmult_lt_compat_l; lra.
  - intros MI. destruct X6 as [(S & _)|(_ & -> & H)]; [congruence|]. intros j Hj. rewrite X5; auto.
Qed.

(** ** Eigenvectors are fixed *)
Lemma xs_eigen n T v l : length v = n -> 0 < l -> size1 n v <> 0 -> (forall i, (i < n)%nat -> image n T v i = l * nth i v 0) ->
  forall i, xs n T v i = unit1 n v /\ ls n T v (S i) = l.
Proof.
  intros LV L NZ E. assert (P := size1_nonneg n v).
  assert (EU : forall j, (j < n)%nat -> image n T (unit1 n v) j = l * nth j (unit1 n v) 0).
  { intros j Hj. rewrite image_unit, E by auto. unfold unit1. rewrite vscale_nth. ring. }
  assert (SU := unit1_size NZ).
  assert (STEP : size1 n (tstep n T (unit1 n v)) = l).
  { unfold size1. rewrite (@rsum_ext n _ (fun j => l * Rabs (nth j (unit1 n v) 0))).
    - rewrite rsum_scal. unfold size1 in SU. rewrite SU. ring.
    - intros j Hj. unfold tstep. rewrite vec_nth, EU by auto. rewrite Rabs_mult, (Rabs_pos_eq l); [auto|lra]. }
  assert (FX : unit1 n (tstep n T (unit1 n v)) = unit1 n v).
  { apply (@list_ext_nth _ 0); [rewrite !unit1_length, tstep_length; auto|]. intros j Hj. rewrite unit1_length, tstep_length in Hj.
    unfold unit1 at 1. rewrite vscale_nth, STEP. unfold tstep. rewrite vec_nth, EU by auto. field. lra. }
  assert (A : forall i, xs n T v i = unit1 n v).
  { induction i as [|i IH]; cbn [xs]; auto. rewrite IH. auto. }
  intros i. split; [apply A|]. cbn [ls]. rewrite A. auto.
Qed.
Lemma solve_fixed n mul slv T s x x0 l : realises n mul slv T -> length (guess x x0) = n -> (ps_maxit s <= length (ps_hist s))%nat ->
  0 < ps_tol s -> (2 <= ps_maxit s)%nat -> 0 < l -> size1 n (guess x x0) <> 0 ->
  (forall i, (i < n)%nat -> image n T (guess x x0) i = l * nth i (guess x x0) 0) ->
  exists r, power_solve mul slv s x x0 = Ok r /\ pr_status r = SUCCESS /\ pr_lambda r = l /\ (pr_it r <= 1)%nat /\
    forall i, (i < n)%nat -> nth i (pr_x r) 0 = nth i (guess x x0) 0 / size1 n (guess x x0).
Proof.
  intros RZ LV HC T0 M2 L NZ E. set (v := guess x x0) in *.
  assert (XE := xs_eigen LV L NZ E). assert (P := size1_nonneg n v).
  assert (R1 : rs n T v 1 = 0).
  { unfold rs. destruct (XE 1%nat) as (-> & _). destruct (XE 0%nat) as (_ & ->). unfold resid.
    apply rsum_zero. intros j Hj. rewrite image_unit, E by auto. unfold unit1. rewrite vscale_nth.
    replace (l * nth j v 0 * (1 / size1 n v) - l * (nth j v 0 * (1 / size1 n v))) with 0 by ring. apply Rabs_R0. }
  destruct (solve_run RZ LV HC) as [(j & Hj & Z & _)|(N & r & HN & ES & LP & X1 & X2 & X3 & X4 & X5 & X6)].
  - exfalso. fold v in Z. destruct j as [|j]; [cbn [ls] in Z; lra|]. destruct (XE j) as (_ & Q). lra.
  - fold v in LP, X1, X4, X5, X6. exists r. split; [auto|].
    destruct X6 as [(SU & N0 & RT & BF)|(MI & -> & BF)].
    + assert (N2 : (N <= 2)%nat).
      { destruct (Nat.le_gt_cases N 2) as [|G]; auto. exfalso. specialize (BF 1%nat ltac:(lia)). lra. }
      destruct N as [|i]; [lia|]. destruct (X1 ltac:(lia)) as (EX & EI). rewrite X4, EX, EI. destruct (XE i) as (_ & ->). destruct (XE (S i)) as (-> & _).
      split; [auto|split; [auto|split; [lia|]]]. intros j Hj. unfold unit1. rewrite vscale_nth. unfold Rdiv. ring.
    + exfalso. specialize (BF 1%nat ltac:(lia)). lra.
Qed.

(** ** Convergence *)
Section Conv.
Variables (n : nat) (T : nat -> nat -> R) (e u : nat -> R) (d : R) (v : list R).
Hypothesis MX : mixing n T e u d.
Hypothesis LV : length v = n.
Hypothesis VN : forall i, (i < n)%nat -> 0 <= nth i v 0.
Hypothesis VP : 0 < rsum n (fun j => u j * nth j v 0).

Definition dens (i c : nat) : R := ls n T v i * nth c (xs n T v i) 0.
Lemma v_size : 0 < size1 n v.
Proof.
  destruct (Rle_lt_or_eq_dec 0 (size1 n v) (size1_nonneg n v)) as [|Z]; auto. exfalso. symmetry in Z.
  rewrite rsum_zero in VP; [lra|]. intros j Hj. rewrite (size1_zero Z Hj). ring.
Qed.
Lemma dens0 c : (c < n)%nat -> dens 0 c = nth c v 0.
Proof. intros Hc. unfold dens. cbn [ls xs]. unfold unit1. rewrite vscale_nth. assert (P := v_size). field. lra. Qed.
Lemma size_nonneg (x : list R) : (forall i, (i < n)%nat -> 0 <= nth i x 0) -> size1 n x = rsum n (fun i => nth i x 0).
Proof. intros H. apply rsum_ext. intros i Hi. apply Rabs_pos_eq. auto. Qed.
Lemma app_image x c : app n T (fun j => nth j x 0) c = image n T x c.
Proof. reflexivity. Qed.

Lemma runs i : 0 < ls n T v i /\ (forall c, (c < n)%nat -> 0 <= nth c (xs n T v i) 0) /\ 0 < rsum n (fun j => u j * nth j (xs n T v i) 0).
Proof.
  destruct MX as (D & He & Hu & Ha & Hue).
  assert (SC : forall w, 0 < size1 n w -> (forall c, (c < n)%nat -> 0 <= nth c w 0) -> 0 < rsum n (fun j => u j * nth j w 0) ->
     (forall c, (c < n)%nat -> 0 <= nth c (unit1 n w) 0) /\ 0 < rsum n (fun j => u j * nth j (unit1 n w) 0)).
  { intros w SW WN WP. assert (IP : 0 < 1 / size1 n w) by (apply Rdiv_lt_0_compat; lra). split.
    - intros c Hc. unfold unit1. rewrite vscale_nth. apply Rmult_le_pos; [auto|lra].
    - rewrite (@rsum_ext n _ (fun j => 1 / size1 n w * (u j * nth j w 0))) by (intros; unfold unit1; rewrite vscale_nth; ring).
      rewrite rsum_scal. apply Rmult_lt_0_compat; auto. }
  assert (SP : forall w, (forall c, (c < n)%nat -> 0 <= nth c w 0) -> 0 < rsum n (fun j => u j * nth j w 0) -> 0 < size1 n w).
  { intros w WN WP. destruct (Rle_lt_or_eq_dec 0 (size1 n w) (size1_nonneg n w)) as [|Z]; auto. exfalso. symmetry in Z.
    rewrite rsum_zero in WP; [lra|]. intros j Hj. rewrite (size1_zero Z Hj). ring. }
  induction i as [|i (L & N & W)].
  - cbn [ls xs]. assert (P := v_size). split; [auto|]. apply SC; auto.
  - assert (TN : forall c, (c < n)%nat -> 0 <= nth c (tstep n T (xs n T v i)) 0).
    { intros c Hc. unfold tstep. rewrite vec_nth by auto. apply (@app_nonneg n T e u d D He Hu Ha (fun j => nth j (xs n T v i) 0)); auto. }
    assert (TP : 0 < rsum n (fun j => u j * nth j (tstep n T (xs n T v i)) 0)).
    { rewrite (@rsum_ext n _ (fun j => u j * app n T (fun j => nth j (xs n T v i) 0) j)) by (intros; unfold tstep; rewrite vec_nth by auto; reflexivity).
      apply (@app_pos n T e u d D Hu Ha Hue (fun j => nth j (xs n T v i) 0)); auto. }
    cbn [ls xs]. assert (S1 := SP _ TN TP). split; [exact S1|]. apply SC; auto.
Qed.
Lemma tot_dens i : rsum n (dens i) = ls n T v i.
Proof.
  unfold dens. rewrite rsum_scal. destruct (runs i) as (L & N & _).
  assert (U : size1 n (xs n T v i) = 1) by (apply xs_unit; intros j Hj; apply runs). rewrite size_nonneg in U by auto. rewrite U. ring.
Qed.
Lemma dens_step i c : (c < n)%nat -> dens (S i) c = / ls n T v i * app n T (dens i) c.
Proof.
  intros Hc. unfold dens at 1. destruct (runs (S i)) as (L & _). destruct (runs i) as (L' & _). rewrite (ls_xs L Hc).
  unfold dens. rewrite (app_scal n T). rewrite app_image. field. lra.
Qed.
Lemma rs_dens i : rs n T v i = rsum n (fun c => Rabs (dens (S i) c - dens i c)).
Proof.
  unfold rs, resid. apply rsum_ext. intros c Hc. unfold dens. destruct (runs (S i)) as (L & _). rewrite (ls_xs L Hc). auto.
Qed.

Lemma converges : exists l w K q, 0 < l /\ 0 <= q < 1 /\ eigenpair n T l w /\ (forall l' w', eigenpair n T l' w' -> l' <> 0 -> l' = l) /\
  (forall i, Rabs (ls n T v (S (S i)) - l) <= q ^ i * K) /\
  (forall i c, (c < n)%nat -> Rabs (dens (S (S i)) c - l * nth c w 0) <= q ^ i * K) /\
  (forall i, rs n T v (S (S i)) <= q ^ i * K).
Proof.
  assert (MX' := MX). destruct MX' as (D & He & Hu & Ha & Hue).
  destruct (@power_converges n T e u d D He Hu Ha Hue dens (ls n T v)) as (l & V & K & q & Q & EV & UN & CK & CF & CR).
  - intros c Hc. rewrite dens0 by auto. auto.
  - unfold wsum. rewrite (@rsum_ext n _ (fun j => u j * nth j v 0)); [exact VP|]. intros; rewrite dens0; auto.
  - apply (runs 0).
  - intros i c Hc. apply dens_step; auto.
  - intros i. rewrite tot_dens.
    rewrite (@rsum_ext n (app n T (dens i)) (fun c => ls n T v i * dens (S i) c)).
    + rewrite rsum_scal, tot_dens. destruct (runs i) as (L & _). field. lra.
    + intros c Hc. rewrite dens_step by auto. destruct (runs i) as (L & _). field. lra.
  - assert (LP := @eigen_pos n T e u d D Hu Ha Hue l V EV). destruct EV as (VN' & VP' & VE).
    assert (TV : rsum n V = l).
    { destruct (Req_dec (rsum n V) l) as [|NE]; auto. exfalso.
      assert (GP : 0 < Rabs (rsum n V - l)) by (apply Rabs_pos_lt; lra).
      destruct (pow_small Q ((INR n + 1) * K) GP) as (j & Hj). specialize (Hj j (Nat.le_refl _)).
      assert (B : Rabs (rsum n V - l) <= q ^ j * ((INR n + 1) * K)); [|lra].
      replace (rsum n V - l) with ((rsum n V - rsum n (dens (S (S j)))) + (ls n T v (S (S j)) - l)) by (rewrite tot_dens; ring).
      eapply Rle_trans; [apply Rabs_triang|]. replace (q ^ j * ((INR n + 1) * K)) with (INR n * (q ^ j * K) + q ^ j * K) by ring.
      apply Rplus_le_compat; [|apply CK]. rewrite <- rsum_minus. eapply Rle_trans; [apply rsum_abs|].
      assert (CST : forall m a, rsum m (fun _ => a) = INR m * a) by (induction m as [|m IHm]; intros a; [cbn; ring|rewrite S_INR; cbn [rsum]; rewrite IHm; ring]).
      rewrite <- CST. apply rsum_le. intros c Hc. rewrite Rabs_minus_sym. apply CF; auto. }
    exists l, (vec n (fun c => V c / l)), K, q.
    split; [auto|split; [auto|]]. split; [|split; [|split; [auto|split]]].
    + split; [apply vec_length|]. split; [|split].
      * intros i Hi. rewrite vec_nth by auto. apply Rmult_le_pos; [auto|]. left. apply Rinv_0_lt_compat. auto.
      * rewrite size_nonneg by (intros i Hi; rewrite vec_nth by auto; apply Rmult_le_pos; [auto|left; apply Rinv_0_lt_compat; auto]).
        rewrite (@rsum_ext n _ (fun c => / l * V c)) by (intros; rewrite vec_nth by auto; unfold Rdiv; ring).
        rewrite rsum_scal, TV. field. lra.
      * intros i Hi. rewrite vec_nth by auto. unfold image.
        rewrite (@rsum_ext n _ (fun j => / l * (T i j * V j))) by (intros; rewrite vec_nth by auto; unfold Rdiv; ring).
        rewrite rsum_scal. fold (app n T V i). rewrite VE by auto. field. lra.
    + intros l' w' (LW & WN & WS & WE) NZ. apply (UN l' (fun j => nth j w' 0)). split; [exact WN|]. split; [|exact WE].
      assert (W0 : 0 <= wsum n u (fun j => nth j w' 0)) by (apply rsum_nonneg; intros; apply Rmult_le_pos; auto).
      destruct W0 as [|Z]; auto. exfalso.
      assert (ZI : forall c, (c < n)%nat -> nth c w' 0 = 0).
      { intros c Hc. destruct (@app_bounds n T e u d Ha (fun j => nth j w' 0) c WN Hc) as (B1 & B2). rewrite <- Z in B1, B2.
        rewrite app_image, WE in B1, B2 by auto. assert (l' * nth c w' 0 = 0) by lra. apply Rmult_integral in H as [|]; [contradiction|auto]. }
      unfold size1 in WS. rewrite rsum_zero in WS; [lra|]. intros i Hi. rewrite ZI by auto. apply Rabs_R0.
    + intros i c Hc. rewrite vec_nth by auto. replace (l * (V c / l)) with (V c) by (field; lra). apply CF; auto.
    + intros i. rewrite rs_dens. apply CR.
Qed.
End Conv.

Lemma solve_converges n mul slv T e u d x x0 : realises n mul slv T -> mixing n T e u d -> length (guess x x0) = n ->
  (forall i, (i < n)%nat -> 0 <= nth i (guess x x0) 0) -> 0 < rsum n (fun j => u j * nth j (guess x x0) 0) ->
  exists l w K q, 0 < l /\ 0 <= q < 1 /\ eigenpair n T l w /\ (forall l' w', eigenpair n T l' w' -> l' <> 0 -> l' = l) /\
    (forall s, (ps_maxit s <= length (ps_hist s))%nat -> exists r, power_solve mul slv s x x0 = Ok r /\
       ((1 <= pr_it r)%nat -> Rabs (pr_lambda r - l) <= q ^ (pr_it r - 1) * K /\
          forall c, (c < n)%nat -> Rabs (pr_lambda r * nth c (pr_x r) 0 - l * nth c w 0) <= q ^ (pr_it r - 1) * K)) /\
    (forall tol, 0 < tol -> exists M, forall s r, ps_tol s = tol -> (M <= ps_maxit s <= length (ps_hist s))%nat ->
       power_solve mul slv s x x0 = Ok r -> pr_status r = SUCCESS).
Proof.
  intros RZ MX LV VN VP. set (v := guess x x0) in *.
  destruct (converges MX VN VP) as (l & w & K & q & L & Q & EP & UN & CK & CF & CR).
  exists l, w, K, q. split; [auto|split; [auto|split; [auto|split; [auto|]]]]. split.
  - intros s HC. destruct (solve_run RZ LV HC) as [(j & _ & Z & _)|(N & r & HN & ES & LP & X1 & X2 & X3 & X4 & X5 & X6)].
    + exfalso. destruct (runs MX VN VP j) as (P & _). unfold v in P. lra.
    + exists r. split; [auto|]. intros I1. destruct (Nat.eq_dec N 0) as [->|NZ].
      * exfalso. destruct X6 as [(_ & N0 & _)|(_ & M0 & _)]; [lia|]. unfold power_solve in ES. rewrite <- M0 in ES.
        destruct (Req_EM_T (norm L1 (if (length x0 =? 0)%nat then repeat 1 (length x) else x0)) 0); [discriminate|].
        cbn [piter] in ES. inversion ES. subst r. cbn in I1. lia.
      * destruct (X1 NZ) as (EX & EI). rewrite EI in I1 |- *. fold v in EX, X4. rewrite EX, X4.
        destruct N as [|[|i]]; [lia|lia|]. replace (S (S i) - 1 - 1)%nat with i by lia. split; [apply CK|]. intros c Hc. apply (CF i c Hc).
  - intros tol T0. destruct (pow_small Q K T0) as (j & Hj). exists (S (S (S j))). intros s r ET HM ES.
    destruct (solve_run RZ LV (proj2 HM)) as [(j' & _ & _ & E)|(N & r' & HN & E & LP & X1 & X2 & X3 & X4 & X5 & X6)]; [congruence|].
    assert (r' = r) by congruence. subst r'. destruct X6 as [(SU & _)|(MI & -> & BF)]; [auto|exfalso].
    specialize (BF (S (S j)) ltac:(lia)). fold v in BF. specialize (CR j). specialize (Hj j (Nat.le_refl _)). rewrite ET in BF. lra.
Qed.

(** ** Counterexamples and cases *)
(** diag(1, 3) and a guess almost along the first axis. *)
Definition dmul (x : list R) : res (list R) := Ok [nth 0 x 0; 3 * nth 1 x 0].
Definition dmat (i j : nat) : R := if (i =? j)%nat then (if (i =? 0)%nat then 1 else 3) else 0.
Lemma d_realises : realises 2 dmul None dmat.
Proof.
  intros x0 temp L LT. exists [nth 0 x0 0; 3 * nth 1 x0 0], temp. split; [reflexivity|]. split; [auto|split; [auto|]].
  intros i Hi. destruct i as [|[|i]]; [| |lia]; unfold image, dmat; cbn; ring.
Qed.
(** Use the run: one iteration. *)
Lemma d_early : exists r, power_solve dmul None (power_new (1 / 4) 1) [0; 0] [9 / 10; 1 / 10] = Ok r /\ pr_status r = SUCCESS /\
  pr_lambda r = 6 / 5 /\ resid 2 dmat (pr_lambda r) (pr_x r) = 3 / 5.
Proof.
  set (v := [9 / 10; 1 / 10]).
  assert (S0 : size1 2 v = 1) by (unfold size1, v; cbn [rsum nth]; rewrite !Rabs_pos_eq by lra; lra).
  assert (X0 : xs 2 dmat v 0 = [9 / 10 * (1 / 1); 1 / 10 * (1 / 1)]) by (cbn [xs]; unfold unit1; rewrite S0; reflexivity).
  assert (I0 : image 2 dmat (xs 2 dmat v 0) 0 = 9 / 10) by (rewrite X0; unfold image, dmat; cbn; lra).
  assert (I1 : image 2 dmat (xs 2 dmat v 0) 1 = 3 / 10) by (rewrite X0; unfold image, dmat; cbn; lra).
  assert (T0 : tstep 2 dmat (xs 2 dmat v 0) = [9 / 10; 3 / 10]) by (unfold tstep, vec; cbn [seq map]; rewrite I0, I1; auto).
  assert (L1 : ls 2 dmat v 1 = 6 / 5) by (cbn [ls]; rewrite T0; unfold size1; cbn [rsum nth]; rewrite !Rabs_pos_eq by lra; lra).
  assert (R0 : rs 2 dmat v 0 = 1 / 5).
  { unfold rs, resid. cbn [rsum]. rewrite I0, I1, X0. cbn [ls nth]. rewrite S0.
    replace (9 / 10 - 1 * (9 / 10 * (1 / 1))) with 0 by lra. rewrite Rabs_R0. rewrite Rabs_pos_eq by lra. lra. }
  assert (X1 : xs 2 dmat v 1 = [9 / 10 * (1 / (6 / 5)); 3 / 10 * (1 / (6 / 5))]).
  { cbn [xs]. cbn [xs] in T0. rewrite T0. unfold unit1. cbn [ls xs] in L1. rewrite T0 in L1. rewrite L1. reflexivity. }
  destruct (@solve_run 2 dmul None dmat d_realises (power_new (1 / 4) 1) [0; 0] v) as [(j & Hj & Z & E)|(N & r & HN & ES & LP & X & _ & _ & XL & _ & H)];
    [reflexivity|cbn; lia| |].
  - change (guess [0; 0] v) with v in Z. exfalso.
    destruct j as [|[|j]]; [cbn [ls] in Z; lra|lra|cbn in Hj; lia].
  - change (guess [0; 0] v) with v in *. cbn [ps_maxit power_new] in HN.
    assert (N = 1%nat).
    { destruct H as [(_ & N0 & _)|(_ & M & _)]; [lia|exact M]. }
    subst N. destruct (X ltac:(lia)) as (EX & _). exists r. split; [exact ES|]. split.
    { destruct H as [(SU & _)|(_ & _ & BF)]; [auto|]. specialize (BF 0%nat ltac:(lia)). rewrite R0 in BF. cbn in BF. lra. }
    rewrite XL, EX, L1. split; [auto|]. rewrite X1. unfold resid, image, dmat. cbn [rsum nth Nat.eqb].
    replace (0 + 1 * (9 / 10 * (1 / (6 / 5))) + 0 * (3 / 10 * (1 / (6 / 5))) - 6 / 5 * (9 / 10 * (1 / (6 / 5)))) with (- (3 / 20)) by lra.
    replace (0 + 0 * (9 / 10 * (1 / (6 / 5))) + 3 * (3 / 10 * (1 / (6 / 5))) - 6 / 5 * (3 / 10 * (1 / (6 / 5)))) with (9 / 20) by lra.
    rewrite Rabs_Ropp, !Rabs_pos_eq by lra. lra.
Qed.

(** Storage for one iteration, then two are allowed. *)
Definition one_mul (x : list R) : res (list R) := Ok [2 * nth 0 x 0].
Lemma storage_ub : power_solve one_mul None (set_tolerances (power_new 1 0) (/ 4) 2) [0] [1] = UB.
Proof.
  unfold power_solve. cbn [length Nat.eqb]. assert (N1 : norm L1 [1] = 1) by (unfold norm; cbn; rewrite Rabs_pos_eq by lra; lra).
  rewrite N1. destruct (Req_EM_T 1 0); [lra|]. cbn [ps_maxit set_tolerances piter]. unfold apply_op, one_mul. cbn [bind fst snd].
  unfold vadd. rewrite vzip_ok by reflexivity. cbn [bind].
  match goal with |- context [Req_EM_T (norm L1 ?x) 0] => assert (E : norm L1 x = 2) by (unfold norm; cbn; rewrite Rabs_pos_eq by lra; lra) end.
  rewrite E. destruct (Req_EM_T 2 0); [lra|]. unfold vcopy at 1. rewrite vzip_ok by reflexivity. cbn [bind].
  unfold wr at 1. cbn [ps_hist power_new repeat Nat.add length Nat.ltb Nat.leb bind upd Nat.eqb].
  match goal with |- context [Rlt_dec (norm L1 ?x) _] => assert (E2 : norm L1 x = 1) by (unfold norm, vec; cbn; rewrite Rabs_pos_eq by lra; lra) end.
  rewrite E2. cbn [ps_tol set_tolerances]. destruct (Rlt_dec 1 (/ 4)); [lra|].
  cbn [piter]. unfold vadd. rewrite vzip_ok by reflexivity. cbn [bind].
  match goal with |- context [Req_EM_T (norm L1 ?x) 0] => assert (E3 : norm L1 x = 2) end.
  { unfold norm, vec; cbn. rewrite Rabs_pos_eq; lra. }
  cbn [fst]. rewrite E3. destruct (Req_EM_T 2 0); [lra|]. unfold vcopy. rewrite vzip_ok by reflexivity. reflexivity.
Qed.

(** A mixing matrix: 2 1 / 1 1 with the guess (1, 1). *)
Definition mmul (x : list R) : res (list R) := Ok [2 * nth 0 x 0 + nth 1 x 0; nth 0 x 0 + nth 1 x 0].
Definition mmat (i j : nat) : R := if (i =? 0)%nat && (j =? 0)%nat then 2 else 1.
Lemma m_realises : realises 2 mmul None mmat.
Proof.
  intros x0 temp L LT. exists [2 * nth 0 x0 0 + nth 1 x0 0; nth 0 x0 0 + nth 1 x0 0], temp. split; [reflexivity|]. split; [auto|split; [auto|]].
  intros i Hi. destruct i as [|[|i]]; [| |lia]; unfold image, mmat; cbn; ring.
Qed.
Lemma m_mixing : mixing 2 mmat (fun _ => 2) (fun _ => 1) (1 / 2).
Proof.
  split; [lra|]. split; [intros; lra|]. split; [intros; lra|]. split; [|cbn; lra].
  intros i j _ _. unfold mmat. destruct ((i =? 0)%nat && (j =? 0)%nat); lra.
Qed.
