(** * Arn_Proofs3: all iterations made *)
From Verif Require Import Base BaseR Loop Vector_Model Vector_Spec Vector_Proofs Cpow_Model
  Util_Model Angle_Model Boundary_Model Material_Model Source_Model Source_Spec Cell_Spec Sweep_Model Sweep_Spec
  Iter_Model Iter_Spec Pi_Spec PiLinear_Proofs PiGs_Proofs PiEig_Proofs Arn_Model Arn_Spec Arn_Proofs Arn_Proofs2.
From Coq Require Import Lra Lia.
Set Implicit Arguments. Unset Strict Implicit.
Open Scope R_scope.

Lemma l1_nonneg v : 0 <= Vector_Model.norm Vector_Model.L1 v. Proof. apply (norm_laws v plain1). Qed.
(** With tolerance zero the power method never stops early. *)
Lemma spiter_it mul s : ps_tol s <= 0 -> forall fuel i t x x0 lambda it hist t' r, (i + fuel = ps_maxit s)%nat ->
  spiter mul s fuel i t x x0 lambda it hist = Ok (t', r) -> pr_it r = match fuel with O => it | S f => (i + f)%nat end.
Proof.
  intros TOL. induction fuel as [|fuel IH]; intros i t x x0 lambda it hist t' r HF E.
  - cbn in E. injection E as _ <-. reflexivity.
  - cbn [spiter] in E. destruct (mul t x0) as [[t1 x1]| |]; cbn [bind] in E; try discriminate. cbv zeta in E.
    destruct (vadd _ _) as [y| |]; cbn [bind] in E; try discriminate. destruct (Req_EM_T _ 0); [discriminate|].
    destruct (vcopy _ _) as [z| |]; cbn [bind] in E; try discriminate. destruct (wr hist i _) as [h| |]; cbn [bind] in E; try discriminate.
    destruct (Nat.eqb_spec i (ps_maxit s)); [lia|].
    destruct (Rlt_dec _ _) as [L|_]; [pose proof (l1_nonneg y); lra|].
    apply IH in E; [|lia]. destruct fuel; rewrite E; lia.
Qed.

Lemma pow_small q K : 0 <= q < 1 -> forall eps, 0 < eps -> exists N, forall n, (N <= n)%nat -> q ^ n * K < eps.
Proof.
  intros Q eps He. destruct (pow_lt_1_zero q) with (y := eps / (1 + Rabs K)) as (N & HN).
  - rewrite Rabs_right; lra.
  - apply Rdiv_lt_0_compat; auto. pose proof (Rabs_pos K). lra.
  - exists N. intros n Hn. specialize (HN n Hn). assert (P : 0 <= q ^ n) by (apply pow_le; lra). rewrite Rabs_right in HN by lra.
    pose proof (Rabs_pos K) as A. pose proof (Rle_abs K) as B.
    apply Rle_lt_trans with (q ^ n * (1 + Rabs K)); [apply Rmult_le_compat_l; lra|].
    apply Rmult_lt_reg_r with (/ (1 + Rabs K)); [apply Rinv_0_lt_compat; lra|].
    rewrite Rmult_assoc, Rinv_r, Rmult_1_r by lra. exact HN.
Qed.

Section Limit.
Variables (w : sweeper) (m : mtl) (nc : nat) (t0 : tstate) (l : list nat) (mg : tstate -> res tstate).
Local Notation Inv := (same_case w m nc t0).
Local Notation xs := (ssrc (t_x t0)).
Hypotheses (HO : homogeneous t0) (Hn : (0 < ng (mat xs))%nat) (SO : solve_order (t_x t0) l) (DA : all_damped w t0) (I0 : Inv t0)
  (MS : mg_solver nc Inv mg) (EX : exact w Inv mg) (SPR : eq_spreads (w_eq w) = true) (CH : chain w t0 xs).

Theorem arn_limit : exists k V, eigenpair w nc t0 k V /\ (forall k' V', eigenpair w nc t0 k' V' -> k' = k) /\ size (map V (seq 0 nc)) = 1 /\
  forall eps, 0 < eps -> exists N, forall n, (N <= n)%nat -> exists t' lambda,
    arn_solve mg (power_es mg (power_new 0 n)) (repeat 0 nc) t0 = Ok (t', lambda) /\ Rabs (lambda - k) < eps /\
    forall c, (c < nc)%nat -> Rabs (production xs (phis t') c - k * V c) < eps.
Proof.
  destruct (arn_power HO Hn SO DA I0 MS EX SPR CH) as (x0 & k & V & K & q & A1 & A2 & A3 & A4 & A5 & A6 & A7).
  exists k, V. split; auto. split; auto. split; auto. intros eps He.
  pose proof A3 as (Hk & V0 & _ & _).
  assert (SV : forall c, (c < nc)%nat -> 0 <= V c <= 1).
  { intros c Hc. split; auto. rewrite <- A5. unfold size. rewrite map_length, seq_length.
    assert (T := @Power_Proofs.term_le nc (fun c => Rabs (at_ (map V (seq 0 nc)) c)) c ltac:(intros j Hj; apply Rabs_pos) Hc). cbv beta in T.
    unfold at_ at 1 in T. rewrite nth_map_seq in T by auto. rewrite Rabs_right in T by (specialize (V0 c Hc); lra). exact T. }
  set (e1 := Rmin (k / 2) (Rmin eps (eps * (k / 2) / (1 + k)))).
  assert (E0 : 0 < e1).
  { unfold e1. repeat apply Rmin_pos; try lra. apply Rdiv_lt_0_compat; [apply Rmult_lt_0_compat; lra|lra]. }
  assert (E1 : e1 <= k / 2) by apply Rmin_l.
  assert (E2 : e1 <= eps) by (unfold e1; eapply Rle_trans; [apply Rmin_r|apply Rmin_l]).
  assert (E3 : e1 * (1 + k) <= eps * (k / 2)).
  { assert (e1 <= eps * (k / 2) / (1 + k)) by (unfold e1; eapply Rle_trans; [apply Rmin_r|apply Rmin_r]).
    apply Rmult_le_compat_r with (r := 1 + k) in H; [|lra]. replace (eps * (k / 2) / (1 + k) * (1 + k)) with (eps * (k / 2)) in H by (field; lra). exact H. }
  destruct (pow_small K A2 E0) as (N & HN). exists (N + 2)%nat. intros n Hnn.
  destruct (A6 (power_new 0 n)) as (t1 & t2 & r & t' & C1 & C2 & C3 & C4 & _ & _ & C5); [cbn; rewrite repeat_length; lia|].
  assert (IT : pr_it r = (n - 1)%nat).
  { unfold spower in C2. destruct (Req_EM_T _ 0); [discriminate|]. apply spiter_it in C2; [|cbn; lra|cbn; lia]. cbn [power_new ps_maxit] in C2.
    destruct n; [lia|]. rewrite C2. lia. }
  destruct C5 as (D1 & D2); [lia|]. specialize (HN (pr_it r - 1)%nat ltac:(lia)).
  exists t', (pr_lambda r). split; auto. assert (D1' : Rabs (pr_lambda r - k) < e1) by lra. split; [lra|].
  intros c Hc. specialize (D2 c Hc). set (p := production xs (phis t') c) in *. set (la := pr_lambda r) in *.
  assert (LA : k / 2 < la) by (apply Rabs_def2 in D1'; lra).
  assert (B : Rabs (la * (p - k * V c)) < e1 + e1 * k).
  { replace (la * (p - k * V c)) with ((la * p - k * (k * V c)) + (k - la) * (k * V c)) by ring.
    eapply Rle_lt_trans; [apply Rabs_triang|]. apply Rplus_lt_le_compat; [lra|].
    rewrite Rabs_mult, Rabs_minus_sym. destruct (SV c Hc) as (S1 & S2).
    rewrite (Rabs_right (k * V c)) by (apply Rle_ge, Rmult_le_pos; lra).
    apply Rmult_le_compat; [apply Rabs_pos|apply Rmult_le_pos; lra|lra|]. rewrite <- (Rmult_1_r k) at 2. apply Rmult_le_compat_l; lra. }
  rewrite Rabs_mult, (Rabs_right la) in B by lra. apply Rmult_lt_reg_l with (k / 2); [lra|].
  apply Rle_lt_trans with (la * Rabs (p - k * V c)); [apply Rmult_le_compat_r; [apply Rabs_pos|lra]|]. lra.
Qed.
End Limit.

(** With the Gauss-Seidel multigroup solver and source iteration. *)
Theorem arn_gs w m nc t0 tol max p keff : homogeneous t0 -> (0 < ng (mat (ssrc (t_x t0))))%nat ->
  solve_order (t_x t0) (gs_groups (gs_lower p) (gs_upper p)) -> all_damped w t0 -> same_case w m nc t0 t0 ->
  gs_multiply p = false -> gs_norm p <> BadFlag -> group_lists (ng (mat (ssrc (t_x t0)))) p -> (gs_norm p = Linf -> 0 < gs_tol p) ->
  gs_iterate p = false -> (0 < max)%nat -> (forall g, (g < ng (mat (ssrc (t_x t0))))%nat -> takes_nothing (t_x t0) g g) ->
  eq_spreads (w_eq w) = true -> chain w t0 (ssrc (t_x t0)) ->
  exists k V, eigenpair w nc t0 k V /\ (forall k' V', eigenpair w nc t0 k' V' -> k' = k) /\ size (map V (seq 0 nc)) = 1 /\
  forall eps, 0 < eps -> exists N, forall n, (N <= n)%nat -> exists t' lambda,
    arn_solve (gs_solve (si_solve w tol max) p keff) (power_es (gs_solve (si_solve w tol max) p keff) (power_new 0 n)) (repeat 0 nc) t0 = Ok (t', lambda) /\
    Rabs (lambda - k) < eps /\ forall c, (c < nc)%nat -> Rabs (production (ssrc (t_x t0)) (phis t') c - k * V c) < eps.
Proof.
  intros HO Hn SO DA I0 G1 G2 G3 G4 G5 G6 G7 SPR CH.
  destruct (@eigen_gs w m nc t0 tol max p keff HO Hn SO DA I0 G1 G2 G3 G4 G5 G6 G7) as (MS & EX).
  apply (arn_limit HO Hn SO DA I0 MS EX SPR CH).
Qed.
