From Verif Require Import Base BaseR Loop Vector_Model Vector_Spec Vector_Proofs Banach_Proofs Power_Proofs Cpow_Model Cpow_Spec.
From Coq Require Import Lra.
Set Implicit Arguments. Unset Strict Implicit.
Open Scope R_scope.

Lemma norm_size x : norm L1 x = size1 (length x) x.
Proof.
  unfold norm, size1.
  assert (G : forall l a, fold_left (fun s a => s + Rabs a) l a = a + rsum (length l) (fun i => Rabs (nth i l 0))).
  { induction l as [|b l IH]; intros a; cbn [fold_left length]; [cbn; lra|]. rewrite IH.
    assert (E : rsum (S (length l)) (fun i => Rabs (nth i (b :: l) 0)) = Rabs b + rsum (length l) (fun i => Rabs (nth i l 0))).
    { clear. induction (length l) as [|k IHk]; [cbn; lra|]. change (rsum (S (S k)) (fun i => Rabs (nth i (b :: l) 0))) with
        (rsum (S k) (fun i => Rabs (nth i (b :: l) 0)) + Rabs (nth k l 0)). rewrite IHk. cbn [rsum]. lra. }
    rewrite E. lra. }
  rewrite G. lra.
Qed.
Lemma size1_nonneg n x : 0 <= size1 n x. Proof. apply rsum_nonneg. intros. apply Rabs_pos. Qed.
Lemma size1_scale n x a : size1 n (vscale x a) = size1 n x * Rabs a.
Proof. unfold size1. rewrite Rmult_comm, <- rsum_scal. apply rsum_ext. intros. rewrite vscale_nth, Rabs_mult. ring. Qed.
Lemma rsum_abs n f : Rabs (rsum n f) <= rsum n (fun i => Rabs (f i)).
Proof. induction n as [|n IH]; cbn; [rewrite Rabs_R0; lra|]. eapply Rle_trans; [apply Rabs_triang|]. lra. Qed.
Lemma size1_zero n x : size1 n x = 0 -> forall i, (i < n)%nat -> nth i x 0 = 0.
Proof.
  intros Z i Hi. assert (H : Rabs (nth i x 0) <= size1 n x).
  { unfold size1. rewrite <- (@rsum_delta n i (Rabs (nth i x 0)) Hi). apply rsum_le. intros j Hj.
    destruct (Nat.eqb_spec j i) as [->|]; [lra|apply Rabs_pos]. }
  rewrite Z in H. assert (P := Rabs_pos (nth i x 0)). destruct (Req_dec (nth i x 0) 0) as [|N]; auto. apply Rabs_pos_lt in N. lra.
Qed.

Section P.
Variables (n : nat) (mul : list R -> res (list R)) (slv : option (list R -> list R -> res (list R))) (T : nat -> nat -> R).
Hypothesis RZ : realises n mul slv T.

(** One step. *)
Definition tstep (x : list R) : list R := vec n (image n T x).
Definition unit1 (x : list R) : list R := vscale x (1 / size1 n x).
Fixpoint xs (v : list R) (i : nat) : list R := match i with O => unit1 v | S i => unit1 (tstep (xs v i)) end.
Definition ls (v : list R) (i : nat) : R := match i with O => size1 n v | S i => size1 n (tstep (xs v i)) end.
Definition rs (v : list R) (i : nat) : R := resid n T (ls v i) (xs v i).
Lemma tstep_length x : length (tstep x) = n. Proof. apply vec_length. Qed.
Lemma unit1_length x : length (unit1 x) = length x. Proof. apply vscale_length. Qed.
Lemma xs_length v i : length v = n -> length (xs v i) = n.
Proof. intros L. destruct i; cbn [xs]; rewrite unit1_length; auto using tstep_length. Qed.
Lemma unit1_size x : size1 n x <> 0 -> size1 n (unit1 x) = 1.
Proof.
  intros H. assert (P := size1_nonneg n x). unfold unit1. rewrite size1_scale. rewrite Rabs_pos_eq.
  - field. auto.
  - apply Rlt_le, Rdiv_lt_0_compat; lra.
Qed.

Lemma piter_run s v : length v = n -> forall fuel i x temp it hist, (i + fuel = ps_maxit s)%nat -> (i + fuel <= length hist)%nat -> length temp = n ->
  exists N, (N <= fuel)%nat /\
  ((exists j, (j < N)%nat /\ ls v (S (i + j)) = 0 /\ piter mul slv s fuel i x (xs v i) temp (ls v i) it hist = Err) \/
   ((forall j, (j < N)%nat -> ls v (S (i + j)) <> 0) /\
    exists r, piter mul slv s fuel i x (xs v i) temp (ls v i) it hist = Ok r /\
      (N <> O -> pr_x r = xs v (i + N)%nat /\ pr_it r = (i + N - 1)%nat) /\ (N = O -> pr_x r = x /\ pr_it r = it) /\
      pr_x0 r = xs v (i + N)%nat /\ pr_lambda r = ls v (i + N)%nat /\
      length (pr_hist r) = length hist /\ (forall j, (j < N)%nat -> nth (i + j)%nat (pr_hist r) 0 = rs v (i + j)%nat) /\
      (forall k, (k < i \/ i + N <= k)%nat -> nth k (pr_hist r) 0 = nth k hist 0) /\
      ((pr_status r = SUCCESS /\ (0 < N)%nat /\ rs v (i + N - 1)%nat < ps_tol s /\ forall j, (j < N - 1)%nat -> ps_tol s <= rs v (i + j)%nat) \/
       (pr_status r = MAXIT /\ N = fuel /\ forall j, (j < N)%nat -> ps_tol s <= rs v (i + j)%nat)))).
Proof.
  intros LV. induction fuel as [|fuel IH]; intros i x temp it hist HM HH LT.
  - exists O. split; [lia|]. right. split; [intros; lia|]. cbn [piter]. eexists. split; [reflexivity|]. cbn [pr_x pr_it pr_x0 pr_lambda pr_hist pr_status].
    rewrite Nat.add_0_r. split; [congruence|]. split; [auto|]. split; [auto|]. split; [auto|]. split; [auto|].
    split; [intros; lia|]. split; [auto|]. right. split; [auto|split; [auto|intros; lia]].
  - cbn [piter]. destruct (RZ (xs_length i LV) LT) as (y & t & EA & LY & LTT & NY). rewrite EA. cbn [bind fst snd].
    assert (EY : y = tstep (xs v i)).
    { apply (@list_ext_nth _ 0); [rewrite tstep_length; auto|]. intros j Hj. rewrite LY in Hj. unfold tstep. rewrite vec_nth by auto. auto. }
    subst y. assert (NL : norm L1 (tstep (xs v i)) = ls v (S i)) by (rewrite norm_size, tstep_length; auto).
    rewrite NL. unfold vadd. rewrite vzip_ok by (rewrite vscale_length, xs_length, tstep_length; auto). cbn [bind].
    rewrite vscale_length, xs_length by auto.
    set (r := vec n (fun j => nth j (vscale (xs v i) (- ls v i)) 0 + nth j (tstep (xs v i)) 0)).
    assert (ER : norm L1 r = rs v i).
    { rewrite norm_size. unfold r. rewrite vec_length. unfold size1, rs, resid. apply rsum_ext. intros j Hj. rewrite vec_nth by auto.
      rewrite vscale_nth. unfold tstep. rewrite vec_nth by auto. f_equal. ring. }
    rewrite ER. destruct (Req_EM_T (ls v (S i)) 0) as [Z|NZ].
    + exists 1%nat. split; [lia|]. left. exists O. rewrite Nat.add_0_r. split; [lia|auto].
    + assert (EX : vscale (tstep (xs v i)) (1 / ls v (S i)) = xs v (S i)) by reflexivity. rewrite EX.
      unfold vcopy. rewrite vzip_ok by (unfold r; rewrite vec_length, xs_length; auto). cbn [bind].
      assert (EC : vec (length r) (fun j => nth j (xs v (S i)) 0) = xs v (S i)).
      { apply (@list_ext_nth _ 0); unfold r; rewrite !vec_length; [rewrite xs_length; auto|]. intros j Hj. rewrite vec_nth; auto. }
      rewrite EC. unfold wr. rewrite (proj2 (Nat.ltb_lt i (length hist))) by lia. cbn [bind].
      rewrite (proj2 (Nat.eqb_neq i (ps_maxit s))) by lia.
      destruct (Rlt_dec (rs v i) (ps_tol s)) as [LTL|GE].
      * exists 1%nat. split; [lia|]. right. split; [intros j Hj; replace (i + j)%nat with i by lia; auto|].
        eexists. split; [reflexivity|]. cbn [pr_x pr_it pr_x0 pr_lambda pr_hist pr_status].
        replace (i + 1)%nat with (S i) by lia. replace (S i - 1)%nat with i by lia.
        split; [auto|]. split; [discriminate|]. split; [auto|]. split; [auto|]. split; [apply upd_length|].
        split; [intros j Hj; replace (i + j)%nat with i by lia; apply nth_upd_eq; lia|].
        split; [intros k Hk; apply nth_upd_neq; lia|].
        left. split; [auto|]. split; [lia|]. split; [auto|]. intros; lia.
      * destruct (IH (S i) (xs v (S i)) t i (upd hist i (rs v i))) as (N & HN & H); [lia|rewrite upd_length; lia|auto|].
        exists (S N). split; [lia|]. destruct H as [(j & Hj & Z & E)|(NZ' & rr & E & X1 & X2 & X3 & X4 & X5 & X6 & X7 & X8)].
        -- left. exists (S j). split; [lia|]. replace (i + S j)%nat with (S i + j)%nat by lia. split; auto.
        -- right. split.
           { intros j Hj. destruct j as [|j]; [rewrite Nat.add_0_r; auto|]. replace (i + S j)%nat with (S i + j)%nat by lia. apply NZ'. lia. }
           exists rr. split; [exact E|].
           replace (i + S N)%nat with (S i + N)%nat by lia.
           split. { intros _. destruct (Nat.eq_dec N 0) as [->|NN]; [|apply X1; auto].
             destruct (X2 eq_refl) as [-> ->]. replace (S i + 0)%nat with (S i) by lia. split; auto. lia. }
           split; [discriminate|]. split; [exact X3|]. split; [exact X4|]. split; [rewrite X5; apply upd_length|].
           split. { intros j Hj. destruct j as [|j]; [|replace (i + S j)%nat with (S i + j)%nat by lia; apply X6; lia].
             rewrite Nat.add_0_r. rewrite X7 by lia. apply nth_upd_eq. lia. }
           split. { intros k Hk. rewrite X7 by lia. apply nth_upd_neq. lia. }
           destruct X8 as [(S1 & S2 & S3 & S4)|(S1 & S2 & S3)].
           ++ left. split; [auto|]. split; [lia|]. split; [exact S3|]. intros j Hj.
              destruct j as [|j]; [rewrite Nat.add_0_r; lra|]. replace (i + S j)%nat with (S i + j)%nat by lia. apply S4. lia.
           ++ right. split; [auto|]. split; [lia|]. intros j Hj. destruct j as [|j]; [rewrite Nat.add_0_r; lra|].
              replace (i + S j)%nat with (S i + j)%nat by lia. apply S3. lia.
Qed.

(** The guess in effect. *)
Definition guess (x x0 : list R) : list R := if (length x0 =? 0)%nat then repeat 1 (length x) else x0.

Lemma solve_run s x x0 : length (guess x x0) = n -> (ps_maxit s <= length (ps_hist s))%nat ->
  let v := guess x x0 in
  (exists j, (j <= ps_maxit s)%nat /\ ls v j = 0 /\ power_solve mul slv s x x0 = Err) \/
  exists N r, (N <= ps_maxit s)%nat /\ power_solve mul slv s x x0 = Ok r /\ (forall j, (j <= N)%nat -> 0 < ls v j) /\
    (N <> O -> pr_x r = xs v N /\ pr_it r = (N - 1)%nat) /\ (N = O -> pr_x r = x) /\ pr_x0 r = xs v N /\ pr_lambda r = ls v N /\
    (forall j, (j < N)%nat -> nth j (pr_hist r) 0 = rs v j) /\
    ((pr_status r = SUCCESS /\ (0 < N)%nat /\ rs v (N - 1)%nat < ps_tol s /\ forall j, (j < N - 1)%nat -> ps_tol s <= rs v j) \/
     (pr_status r = MAXIT /\ N = ps_maxit s /\ forall j, (j < N)%nat -> ps_tol s <= rs v j)).
Proof.
  intros LV HC v. unfold power_solve. fold (guess x x0). fold v.
  assert (NV : norm L1 v = ls v 0) by (rewrite norm_size; unfold v; rewrite LV; auto). rewrite NV.
  assert (LP : forall j, ls v j <> 0 -> 0 < ls v j).
  { intros j H. assert (0 <= ls v j) by (destruct j; apply size1_nonneg). lra. }
  destruct (Req_EM_T (ls v 0) 0) as [Z|NZ]; [left; exists O; split; [lia|auto]|].
  change (vscale v (1 / ls v 0)) with (xs v 0).
  destruct (@piter_run s v LV (ps_maxit s) 0 x v 0%nat (ps_hist s)) as (N & HN & H); [lia|lia|auto|].
  destruct H as [(j & Hj & Z & E)|(NZ' & r & E & X1 & X2 & X3 & X4 & X5 & X6 & X7 & X8)].
  - left. exists (S j). split; [lia|]. auto.
  - right. exists N, r. split; [auto|]. split; [exact E|]. split.
    { intros j Hj. apply LP. destruct j; auto. apply NZ'. lia. }
    cbn [Nat.add] in *. split; [auto|]. split; [apply X2|]. split; [auto|]. split; [auto|]. split; [auto|]. exact X8.
Qed.

(** ** What success means *)
Lemma image_unit x i : image n T (unit1 x) i = image n T x i * (1 / size1 n x).
Proof. unfold image. rewrite Rmult_comm, <- rsum_scal. apply rsum_ext. intros. unfold unit1. rewrite vscale_nth. ring. Qed.
Lemma xs_unit v i : (forall j, (j <= i)%nat -> 0 < ls v j) -> size1 n (xs v i) = 1.
Proof. intros H. destruct i; cbn [xs]; apply unit1_size; specialize (H _ (Nat.le_refl _)); cbn [ls] in H; lra. Qed.
Lemma ls_xs v i j : 0 < ls v (S i) -> (j < n)%nat -> ls v (S i) * nth j (xs v (S i)) 0 = image n T (xs v i) j.
Proof.
  intros P Hj. cbn [xs]. unfold unit1. rewrite vscale_nth. unfold tstep at 1. rewrite vec_nth by auto. cbn [ls] in *. field. lra.
Qed.
Lemma ls_change v i : (forall j, (j <= S i)%nat -> 0 < ls v j) -> Rabs (ls v (S i) - ls v i) <= rs v i.
Proof.
  intros P. assert (U : size1 n (xs v i) = 1) by (apply xs_unit; intros; apply P; lia).
  assert (E : ls v i = rsum n (fun j => Rabs (ls v i * nth j (xs v i) 0))).
  { rewrite (@rsum_ext n _ (fun j => ls v i * Rabs (nth j (xs v i) 0))).
    - rewrite rsum_scal. unfold size1 in U. rewrite U. ring.
    - intros j Hj. rewrite Rabs_mult. rewrite (Rabs_pos_eq (ls v i)); auto. apply Rlt_le, P. lia. }
  assert (E1 : ls v (S i) = rsum n (fun j => Rabs (image n T (xs v i) j))).
  { cbn [ls]. unfold size1. apply rsum_ext. intros j Hj. unfold tstep. rewrite vec_nth by auto. auto. }
  rewrite E1. rewrite E at 1. rewrite <- rsum_minus. eapply Rle_trans; [apply rsum_abs|]. apply rsum_le. intros j Hj. apply Rabs_triang_inv2.
Qed.
Lemma resid_new v i : (forall j, (j <= S i)%nat -> 0 < ls v j) -> resid n T (ls v (S i)) (xs v i) <= 2 * rs v i.
Proof.
  intros P. assert (C := ls_change P). assert (U : size1 n (xs v i) = 1) by (apply xs_unit; intros; apply P; lia).
  assert (resid n T (ls v (S i)) (xs v i) <= rs v i + Rabs (ls v (S i) - ls v i) * size1 n (xs v i)); [|rewrite U in *; lra].
  unfold rs, resid, size1. rewrite <- rsum_scal, <- rsum_plus. apply rsum_le. intros j Hj. rewrite <- Rabs_mult.
  replace (image n T (xs v i) j - ls v (S i) * nth j (xs v i) 0) with
    ((image n T (xs v i) j - ls v i * nth j (xs v i) 0) + - ((ls v (S i) - ls v i) * nth j (xs v i) 0)) by ring.
  eapply Rle_trans; [apply Rabs_triang|]. rewrite Rabs_Ropp. lra.
Qed.
Lemma dist_new v i : (forall j, (j <= S i)%nat -> 0 < ls v j) -> ls v (S i) * dist1 n (xs v (S i)) (xs v i) <= 2 * rs v i.
Proof.
  intros P. eapply Rle_trans; [|apply (resid_new P)]. unfold dist1, resid. rewrite <- rsum_scal. apply rsum_le. intros j Hj.
  rewrite <- (ls_xs (P (S i) (Nat.le_refl _)) Hj). rewrite <- Rmult_minus_distr_l. rewrite Rabs_mult.
  rewrite (Rabs_pos_eq (ls v (S i))); [lra|]. apply Rlt_le, P; lia.
Qed.
Lemma image_bound C (f : nat -> R) : (forall j, (j < n)%nat -> rsum n (fun i => Rabs (T i j)) <= C) ->
  rsum n (fun i => Rabs (rsum n (fun j => T i j * f j))) <= C * rsum n (fun j => Rabs (f j)).
Proof.
  intros HC. eapply Rle_trans.
  - apply rsum_le. intros i Hi. apply rsum_abs.
  - rewrite rsum_swap. rewrite <- rsum_scal. apply rsum_le. intros j Hj.
    rewrite (@rsum_ext n _ (fun i => Rabs (f j) * Rabs (T i j))) by (intros; rewrite Rabs_mult; ring). rewrite rsum_scal.
    rewrite (Rmult_comm C). apply Rmult_le_compat_l; [apply Rabs_pos|auto].
Qed.
Lemma resid_returned v i C : (forall j, (j <= S i)%nat -> 0 < ls v j) -> (forall j, (j < n)%nat -> rsum n (fun i => Rabs (T i j)) <= C) ->
  ls v (S i) * resid n T (ls v (S i)) (xs v (S i)) <= C * (2 * rs v i).
Proof.
  intros P HC. assert (C0 : 0 <= C \/ n = O).
  { destruct (Nat.eq_dec n 0) as [|NZ]; [auto|left]. eapply Rle_trans; [|apply (HC O); lia]. apply rsum_nonneg. intros. apply Rabs_pos. }
  destruct C0 as [C0|Z].
  2: { exfalso. assert (U := xs_unit P). unfold size1 in U. rewrite Z in U. cbn in U. lra. }
  eapply Rle_trans; [|apply Rmult_le_compat_l; [exact C0|apply (resid_new P)]].
  assert (LP := P (S i) (Nat.le_refl _)).
  eapply Rle_trans; [|apply (@image_bound C (fun j => image n T (xs v i) j - ls v (S i) * nth j (xs v i) 0) HC)].
  unfold resid at 1. rewrite <- rsum_scal. right. apply rsum_ext. intros k Hk.
  rewrite <- (Rabs_pos_eq (ls v (S i))) at 1 by lra. rewrite <- Rabs_mult. f_equal.
  rewrite Rmult_minus_distr_l. rewrite (ls_xs LP Hk). unfold image at 1 2. rewrite <- !rsum_scal, <- rsum_minus. apply rsum_ext. intros j Hj.
  cbv beta. rewrite <- (ls_xs LP Hj). ring.
Qed.
End P.
