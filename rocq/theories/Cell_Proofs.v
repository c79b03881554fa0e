(** * Cell_Proofs *)
From Coquelicot Require Import Coquelicot.
From Verif Require Import BaseR Cell_Model Cell_Spec.
Set Implicit Arguments. Unset Strict Implicit.

(** ** Exponential bounds *)
Lemma exp_ge x : 1 + x <= exp x.
Proof. destruct (Req_dec x 0) as [->|H]; [rewrite exp_0; lra|]. left. apply exp_ineq1. auto. Qed.
Lemma exp_le1 x : 0 <= x -> exp (- x) <= 1.
Proof. intros H. rewrite <- exp_0. destruct H as [H|<-]; [left; apply exp_increasing; lra|rewrite Ropp_0; lra]. Qed.
Lemma exp_ge2 x : 0 <= x -> 1 + x + x * x / 2 <= exp x.
Proof.
  intros H.
  destruct (Req_dec x 0) as [->|Hn]; [rewrite exp_0; lra|].
  set (f := fun y => exp y - (1 + y + y * y / 2)).
  assert (D : forall y, is_derive f y (exp y - (1 + y))).
  { intros y. unfold f. auto_derive; auto. lra. }
  destruct (MVT_gen f 0 x (fun y => exp y - (1 + y))) as (c & Hc & E).
  - intros y _. apply D.
  - intros y _. apply continuity_pt_filterlim. apply (ex_derive_continuous f). eexists. apply D.
  - unfold f in E. rewrite exp_0 in E. pose proof (exp_ge c).
    assert (0 <= (exp c - (1 + c)) * (x - 0)) by (apply Rmult_le_pos; lra). lra.
Qed.
Lemma exp_le2 x : 0 <= x -> exp (- x) <= 1 - x + x * x / 2.
Proof.
  intros H. rewrite exp_Ropp. pose proof (exp_ge2 H) as G.
  assert (P : 0 < 1 + x + x * x / 2) by nra.
  apply Rle_trans with (/ (1 + x + x * x / 2)); [apply Rinv_le_contravar; auto|].
  apply Rmult_le_reg_l with (1 + x + x * x / 2); auto. rewrite Rinv_r by lra. nra.
Qed.
(** m = (1 - exp(-x))/x *)
Lemma mean_bounds x : 0 < x -> 0 <= (1 - exp (- x)) / x <= 1.
Proof.
  intros H. pose proof (exp_le1 (Rlt_le _ _ H)). pose proof (exp_ge (- x)). split.
  - apply Rmult_le_pos; [lra|]. left. apply Rinv_0_lt_compat. auto.
  - apply Rmult_le_reg_r with x; auto. unfold Rdiv. rewrite Rmult_assoc, Rinv_l by lra. lra.
Qed.
Lemma frac_le x y c : 0 < c -> x <= y -> x / c <= y / c.
Proof. intros Hc H. apply Rmult_le_compat_r; auto. left. apply Rinv_0_lt_compat. auto. Qed.
Lemma div_pos a b : 0 <= a -> 0 < b -> 0 <= a / b.
Proof. intros. apply Rmult_le_pos; auto. left. apply Rinv_0_lt_compat. auto. Qed.
Lemma div_pos' a b : 0 < a -> 0 < b -> 0 < a / b.
Proof. intros. apply Rmult_lt_0_compat; auto. apply Rinv_0_lt_compat. auto. Qed.

(** ** Diamond difference *)
Lemma coef_mul d n : d <> 0 -> d * (1 / d * n) = n.
Proof. intros. field. auto. Qed.

Lemma dd1_balance sigma mu dx q pin pc po : dx <> 0 -> sigma + 2 * mu / dx <> 0 ->
  (dd1 sigma mu dx q pin = (pc, po) <-> balanced1 sigma mu dx q pin pc po /\ diamond pin pc po).
Proof.
  intros Hd Hr. unfold dd1, balanced1, diamond, leak. cbv zeta.
  replace (mu * (po - pin) / dx) with (2 * mu / dx * ((po - pin) / 2)) by (field; auto).
  set (cx := 2 * mu / dx) in *. pose proof (@coef_mul (sigma + cx) (q + cx * pin) Hr) as K.
  set (p := 1 / (sigma + cx) * (q + cx * pin)) in *. split.
  - intros E. injection E as <- <-. split; [|lra].
    replace ((2 * p - pin - pin) / 2) with (p - pin) by lra. lra.
  - intros [B D]. assert (po = 2 * pc - pin) by lra. subst po.
    replace ((2 * pc - pin - pin) / 2) with (pc - pin) in B by lra.
    assert (E : pc = p). { apply Rmult_eq_reg_l with (sigma + cx); auto. lra. }
    subst pc. auto.
Qed.

Lemma dd2_balance sigma mu eta dx dy q pv ph pc ov oh : dx <> 0 -> dy <> 0 ->
  sigma + 2 * mu / dx + 2 * eta / dy <> 0 ->
  (dd2 sigma mu eta dx dy q pv ph = (pc, (ov, oh)) <->
   balanced2 sigma mu eta dx dy q pv ph pc ov oh /\ diamond pv pc ov /\ diamond ph pc oh).
Proof.
  intros Hx Hy Hr. unfold dd2, balanced2, diamond, leak. cbv zeta.
  replace (mu * (ov - pv) / dx) with (2 * mu / dx * ((ov - pv) / 2)) by (field; auto).
  replace (eta * (oh - ph) / dy) with (2 * eta / dy * ((oh - ph) / 2)) by (field; auto).
  set (cx := 2 * mu / dx) in *. set (cy := 2 * eta / dy) in *.
  pose proof (@coef_mul (sigma + cx + cy) (q + cx * pv + cy * ph) Hr) as K.
  set (p := 1 / (sigma + cx + cy) * (q + cx * pv + cy * ph)) in *. split.
  - intros E. injection E as <- <- <-. repeat split; lra.
  - intros (B & D1 & D2). assert (ov = 2 * pc - pv) by lra. assert (oh = 2 * pc - ph) by lra. subst ov oh.
    replace ((2 * pc - pv - pv) / 2) with (pc - pv) in B by lra.
    replace ((2 * pc - ph - ph) / 2) with (pc - ph) in B by lra.
    assert (E : pc = p). { apply Rmult_eq_reg_l with (sigma + cx + cy); auto. lra. }
    subst pc. auto.
Qed.

Lemma dd3_balance sigma mu eta xi dx dy dz q p1 p2 p3 pc o1 o2 o3 : dx <> 0 -> dy <> 0 -> dz <> 0 ->
  sigma + 2 * mu / dx + 2 * eta / dy + 2 * xi / dz <> 0 ->
  (dd3 sigma mu eta xi dx dy dz q p1 p2 p3 = (pc, (o1, o2, o3)) <->
   balanced3 sigma mu eta xi dx dy dz q p1 p2 p3 pc o1 o2 o3 /\
   diamond p1 pc o1 /\ diamond p2 pc o2 /\ diamond p3 pc o3).
Proof.
  intros Hx Hy Hz Hr. unfold dd3, balanced3, diamond, leak. cbv zeta.
  replace (mu * (o1 - p1) / dx) with (2 * mu / dx * ((o1 - p1) / 2)) by (field; auto).
  replace (eta * (o2 - p2) / dy) with (2 * eta / dy * ((o2 - p2) / 2)) by (field; auto).
  replace (xi * (o3 - p3) / dz) with (2 * xi / dz * ((o3 - p3) / 2)) by (field; auto).
  set (cx := 2 * mu / dx) in *. set (cy := 2 * eta / dy) in *. set (cz := 2 * xi / dz) in *.
  pose proof (@coef_mul (sigma + cx + cy + cz) (q + cx * p1 + cy * p2 + cz * p3) Hr) as K.
  set (p := 1 / (sigma + cx + cy + cz) * (q + cx * p1 + cy * p2 + cz * p3)) in *. split.
  - intros E. injection E as <- <- <- <-. repeat split; lra.
  - intros (B & D1 & D2 & D3).
    assert (o1 = 2 * pc - p1) by lra. assert (o2 = 2 * pc - p2) by lra. assert (o3 = 2 * pc - p3) by lra. subst o1 o2 o3.
    replace ((2 * pc - p1 - p1) / 2) with (pc - p1) in B by lra.
    replace ((2 * pc - p2 - p2) / 2) with (pc - p2) in B by lra.
    replace ((2 * pc - p3 - p3) / 2) with (pc - p3) in B by lra.
    assert (E : pc = p). { apply Rmult_eq_reg_l with (sigma + cx + cy + cz); auto. lra. }
    subst pc. auto.
Qed.

(** ** Step difference *)
Lemma sd1_balance sigma mu dx q pin pc po : dx <> 0 -> sigma + mu / dx <> 0 ->
  (sd1 sigma mu dx q pin = (pc, po) <-> balanced1 sigma mu dx q pin pc po /\ po = pc).
Proof.
  intros Hd Hr. unfold sd1, balanced1, leak. cbv zeta.
  replace (mu * (po - pin) / dx) with (mu / dx * (po - pin)) by (field; auto).
  set (cx := mu / dx) in *. pose proof (@coef_mul (sigma + cx) (q + cx * pin) Hr) as K.
  set (p := 1 / (sigma + cx) * (q + cx * pin)) in *. split.
  - intros E. injection E as <- <-. split; [|lra]. lra.
  - intros [B D]. subst po.
    assert (E : pc = p). { apply Rmult_eq_reg_l with (sigma + cx); auto. lra. }
    subst pc. auto.
Qed.
Lemma sd2_balance sigma mu eta dx dy q pv ph pc ov oh : dx <> 0 -> dy <> 0 ->
  sigma + mu / dx + eta / dy <> 0 ->
  (sd2 sigma mu eta dx dy q pv ph = (pc, (ov, oh)) <->
   balanced2 sigma mu eta dx dy q pv ph pc ov oh /\ ov = pc /\ oh = pc).
Proof.
  intros Hx Hy Hr. unfold sd2, balanced2, leak. cbv zeta.
  replace (mu * (ov - pv) / dx) with (mu / dx * (ov - pv)) by (field; auto).
  replace (eta * (oh - ph) / dy) with (eta / dy * (oh - ph)) by (field; auto).
  set (cx := mu / dx) in *. set (cy := eta / dy) in *.
  pose proof (@coef_mul (sigma + cx + cy) (q + cx * pv + cy * ph) Hr) as K.
  set (p := 1 / (sigma + cx + cy) * (q + cx * pv + cy * ph)) in *. split.
  - intros E. injection E as <- <- <-. repeat split; lra.
  - intros (B & -> & ->).
    assert (E : pc = p). { apply Rmult_eq_reg_l with (sigma + cx + cy); auto. lra. }
    subst pc. auto.
Qed.
Lemma sd1_nonneg sigma mu dx q pin pc po : 0 < mu -> 0 < dx -> 0 <= sigma -> 0 <= q -> 0 <= pin ->
  sd1 sigma mu dx q pin = (pc, po) -> 0 <= pc /\ 0 <= po.
Proof.
  intros Hm Hd Hs Hq Hp E. unfold sd1 in E. injection E as <- <-.
  pose proof (div_pos' Hm Hd). assert (0 <= 1 / (sigma + mu / dx) * (q + mu / dx * pin)); auto.
  apply Rmult_le_pos; [apply div_pos; lra|]. assert (0 <= mu / dx * pin) by (apply Rmult_le_pos; lra). lra.
Qed.
Lemma sd2_nonneg sigma mu eta dx dy q pv ph pc ov oh :
  0 < mu -> 0 < eta -> 0 < dx -> 0 < dy -> 0 <= sigma -> 0 <= q -> 0 <= pv -> 0 <= ph ->
  sd2 sigma mu eta dx dy q pv ph = (pc, (ov, oh)) -> 0 <= pc /\ 0 <= ov /\ 0 <= oh.
Proof.
  intros Hm He Hd Hy Hs Hq Hv Hh E. unfold sd2 in E. injection E as <- <- <-.
  pose proof (div_pos' Hm Hd). pose proof (div_pos' He Hy).
  assert (0 <= 1 / (sigma + mu / dx + eta / dy) * (q + mu / dx * pv + eta / dy * ph)); auto.
  apply Rmult_le_pos; [apply div_pos; lra|].
  assert (0 <= mu / dx * pv) by (apply Rmult_le_pos; lra).
  assert (0 <= eta / dy * ph) by (apply Rmult_le_pos; lra). lra.
Qed.

(** ** Step characteristic *)
Lemma line_flux_unique k r pin f x : k <> 0 -> line_flux k r pin f ->
  f x = pin * exp (- (k * x)) + r / k * (1 - exp (- (k * x))).
Proof.
  intros Hk [H0 Hd].
  set (g := fun y => (f y - r / k) * exp (k * y)).
  assert (D : forall y, is_derive g y 0).
  { intros y. unfold g. specialize (Hd y).
    evar_last.
    - apply (is_derive_mult (fun y => f y - r / k) (fun y => exp (k * y))).
      + apply (is_derive_minus f (fun _ => r / k)); [apply Hd|apply is_derive_const].
      + auto_derive; auto.
      + intros. apply Rmult_comm.
    - unfold minus, plus, mult, zero, opp; simpl. field. auto. }
  assert (C : g x = g 0).
  { destruct (MVT_gen g 0 x (fun _ => 0)) as (c & _ & E).
    - intros y _. apply D.
    - intros y _. apply continuity_pt_filterlim. apply (ex_derive_continuous g). eexists. apply D.
    - lra. }
  unfold g in C. rewrite H0, Rmult_0_r, exp_0, Rmult_1_r in C.
  rewrite exp_Ropp. pose proof (exp_pos (k * x)).
  assert (E : f x - r / k = (pin - r / k) * / exp (k * x)).
  { rewrite <- C. field. split; auto. lra. }
  replace (f x) with (f x - r / k + r / k) by ring. rewrite E. field. split; auto. lra.
Qed.

Lemma line_flux_ex k r pin : k <> 0 ->
  line_flux k r pin (fun x => pin * exp (- (k * x)) + r / k * (1 - exp (- (k * x)))).
Proof.
  intros Hk. split.
  - rewrite Rmult_0_r, Ropp_0, exp_0. ring.
  - intros x. auto_derive; auto. field. auto.
Qed.

Lemma line_mean k r pin h : k <> 0 -> 0 < h ->
  is_RInt (fun x => pin * exp (- (k * x)) + r / k * (1 - exp (- (k * x)))) 0 h
    (pin * (1 - exp (- (k * h))) / k + r / k * (h - (1 - exp (- (k * h))) / k)).
Proof.
  intros Hk Hh.
  set (F := fun x => pin * (1 - exp (- (k * x))) / k + r / k * (x - (1 - exp (- (k * x))) / k)).
  replace (pin * (1 - exp (- (k * h))) / k + r / k * (h - (1 - exp (- (k * h))) / k)) with (minus (F h) (F 0)).
  - apply (is_RInt_derive F).
    + intros x _. unfold F. auto_derive; auto. field. auto.
    + intros x _. apply (ex_derive_continuous (fun x => pin * exp (- (k * x)) + r / k * (1 - exp (- (k * x))))).
      auto_derive; auto.
  - unfold F, minus, plus, opp; simpl. rewrite Rmult_0_r, Ropp_0, exp_0. field. auto.
Qed.

(** The characteristic solvers return the end value and the mean of the exact flux. *)
Lemma sc1_exact sigma mu dx q pin pc po f : 0 < sigma -> 0 < mu -> 0 < dx ->
  line_flux (sigma / mu) (q / mu) pin f -> sc1 sigma mu dx q pin = (pc, po) ->
  po = f dx /\ is_RInt f 0 dx (dx * pc).
Proof.
  intros Hs Hm Hd L E. unfold sc1 in E. injection E as <- <-.
  assert (Hk : sigma / mu <> 0) by (apply Rgt_not_eq, div_pos'; auto).
  assert (EX : sigma * dx / mu = sigma / mu * dx) by (field; lra). rewrite EX.
  split.
  - rewrite (line_flux_unique dx Hk L). field. lra.
  - eapply is_RInt_ext.
    + intros x _. symmetry. apply (line_flux_unique x Hk L).
    + evar_last; [apply (@line_mean (sigma / mu) (q / mu) pin dx Hk Hd)|]. field. repeat split; lra.
Qed.
Lemma moc_exact sigma t q pin pc po f : 0 < sigma -> 0 < t ->
  line_flux sigma q pin f -> moc sigma t q pin = (pc, po) ->
  po = f t /\ is_RInt f 0 t (t * pc).
Proof.
  intros Hs Ht L E. unfold moc in E. injection E as <- <-.
  assert (Hk : sigma <> 0) by lra.
  assert (EX : - sigma * t = - (sigma * t)) by ring. rewrite EX.
  split.
  - rewrite (line_flux_unique t Hk L). field. lra.
  - eapply is_RInt_ext.
    + intros x _. symmetry. apply (line_flux_unique x Hk L).
    + evar_last; [apply (@line_mean sigma q pin t Hk Ht)|]. field. repeat split; lra.
Qed.
Lemma sc1_balance sigma mu dx q pin pc po : sigma <> 0 -> mu <> 0 -> dx <> 0 ->
  sc1 sigma mu dx q pin = (pc, po) -> balanced1 sigma mu dx q pin pc po.
Proof.
  intros Hs Hm Hd E. unfold sc1 in E. injection E as <- <-. unfold balanced1, leak. field. auto.
Qed.
Lemma moc_balance sigma t q pin pc po : sigma <> 0 -> t <> 0 ->
  moc sigma t q pin = (pc, po) -> balanced1 sigma 1 t q pin pc po.
Proof.
  intros Hs Ht E. unfold moc in E. injection E as <- <-. unfold balanced1, leak. field. auto.
Qed.
Lemma sc2_balance sigma mu eta dx dy q pv ph pc ov oh :
  sigma <> 0 -> mu <> 0 -> eta <> 0 -> dx <> 0 -> dy <> 0 ->
  sc2 sigma mu eta dx dy q pv ph = (pc, (ov, oh)) -> balanced2 sigma mu eta dx dy q pv ph pc ov oh.
Proof.
  intros Hs Hm He Hx Hy E. unfold sc2 in E. cbv zeta in E.
  destruct (if Rle_dec _ _ then _ else _) as [v h] in E. injection E as <- -> ->.
  unfold balanced2, leak. field. auto.
Qed.

Lemma sc1_nonneg sigma mu dx q pin pc po : 0 < sigma -> 0 < mu -> 0 < dx -> 0 <= q -> 0 <= pin ->
  sc1 sigma mu dx q pin = (pc, po) -> 0 <= pc /\ 0 <= po.
Proof.
  intros Hs Hm Hd Hq Hp E. unfold sc1 in E. injection E as <- <-.
  set (tau := sigma * dx / mu).
  assert (Ht : 0 < tau) by (apply div_pos'; auto; apply Rmult_lt_0_compat; auto).
  pose proof (mean_bounds Ht) as [M0 M1]. pose proof (exp_le1 (Rlt_le _ _ Ht)).
  pose proof (exp_pos (- tau)).
  replace (sigma * dx) with (mu * tau) by (unfold tau; field; lra).
  pose proof (exp_ge (- tau)). split.
  - assert (0 <= pin * (1 - exp (- tau)) / tau).
    { unfold Rdiv. rewrite Rmult_assoc. apply Rmult_le_pos; auto. }
    assert (0 <= q * (mu * tau + mu * (exp (- tau) - 1)) / (sigma * sigma * dx)); [|lra].
    apply div_pos; [|repeat apply Rmult_lt_0_compat; auto].
    apply Rmult_le_pos; auto. replace (mu * tau + mu * (exp (- tau) - 1)) with (mu * (exp (- tau) - 1 + tau)) by ring.
    apply Rmult_le_pos; lra.
  - assert (0 <= exp (- tau) * pin) by (apply Rmult_le_pos; lra).
    assert (0 <= q * (1 - exp (- tau)) / sigma); [|lra].
    apply div_pos; auto. apply Rmult_le_pos; lra.
Qed.
Lemma moc_nonneg sigma t q pin pc po : 0 < sigma -> 0 < t -> 0 <= q -> 0 <= pin ->
  moc sigma t q pin = (pc, po) -> 0 <= pc /\ 0 <= po.
Proof.
  intros Hs Ht Hq Hp E. unfold moc in E. injection E as <- <-.
  assert (EX : - sigma * t = - (sigma * t)) by ring. rewrite EX.
  assert (Hst : 0 < sigma * t) by (apply Rmult_lt_0_compat; auto).
  pose proof (mean_bounds Hst) as [M0 M1]. pose proof (exp_le1 (Rlt_le _ _ Hst)).
  pose proof (exp_pos (- (sigma * t))). pose proof (exp_ge (- (sigma * t))).
  set (A := exp (- (sigma * t))) in *.
  assert (B0 : 0 <= (1 - A) / sigma) by (apply div_pos; lra).
  assert (C0 : 0 <= t / sigma * (1 - (1 - A) / sigma / t)).
  { apply Rmult_le_pos; [apply div_pos; lra|].
    replace ((1 - A) / sigma / t) with ((1 - A) / (sigma * t)) by (field; lra). lra. }
  split.
  - apply Rmult_le_pos; [apply div_pos; lra|].
    assert (0 <= (1 - A) / sigma * pin) by (apply Rmult_le_pos; auto).
    assert (0 <= t / sigma * (1 - (1 - A) / sigma / t) * q) by (apply Rmult_le_pos; auto). lra.
  - assert (0 <= A * pin) by (apply Rmult_le_pos; lra).
    assert (0 <= (1 - A) / sigma * q) by (apply Rmult_le_pos; auto). lra.
Qed.

(** The 2-D characteristic solution for rho <= 1, in barycentric form. *)
Lemma sc2_pos_low Q a rho v h : 0 < a -> 0 < rho <= 1 -> 0 <= Q -> 0 <= v -> 0 <= h ->
  let e := exp (- a) in let m := (1 - e) / a in
  let ov := Q + (v - Q) * (1 - rho) * e + (h - Q) * rho * m in
  let oh := Q + (v - Q) * m in
  0 <= ov /\ 0 <= oh /\ 0 <= Q - (ov - v) / a - (oh - h) * (rho / a).
Proof.
  intros Ha Hr HQ Hv Hh e m ov oh.
  pose proof (mean_bounds Ha) as M. fold e in M. fold m in M.
  pose proof (exp_le1 (Rlt_le _ _ Ha)) as E1. fold e in E1. pose proof (exp_pos (- a)) as E0. fold e in E0.
  pose proof (exp_le2 (Rlt_le _ _ Ha)) as E2. fold e in E2.
  assert (EM : e = 1 - a * m) by (unfold m; field; lra).
  assert (M2 : 1 - a / 2 <= m).
  { apply Rmult_le_reg_l with a; auto. nra. }
  assert (We : 0 <= (1 - rho) * e) by (apply Rmult_le_pos; lra).
  assert (Wm : 0 <= rho * m) by (apply Rmult_le_pos; lra).
  assert (W1 : (1 - rho) * e + rho * m <= 1) by nra.
  split; [|split].
  - unfold ov. replace (Q + (v - Q) * (1 - rho) * e + (h - Q) * rho * m)
      with (Q * (1 - ((1 - rho) * e + rho * m)) + v * ((1 - rho) * e) + h * (rho * m)) by ring.
    assert (0 <= Q * (1 - ((1 - rho) * e + rho * m))) by (apply Rmult_le_pos; lra).
    assert (0 <= v * ((1 - rho) * e)) by (apply Rmult_le_pos; lra).
    assert (0 <= h * (rho * m)) by (apply Rmult_le_pos; lra). lra.
  - unfold oh. replace (Q + (v - Q) * m) with (Q * (1 - m) + v * m) by ring.
    assert (0 <= Q * (1 - m)) by (apply Rmult_le_pos; lra).
    assert (0 <= v * m) by (apply Rmult_le_pos; lra). lra.
  - unfold ov, oh.
    replace (Q - (Q + (v - Q) * (1 - rho) * e + (h - Q) * rho * m - v) / a - (Q + (v - Q) * m - h) * (rho / a))
      with ((Q * (a - 1 + (1 - rho) * e + 2 * (rho * m) - rho) + v * (1 - ((1 - rho) * e + rho * m)) + h * (rho * (1 - m))) / a)
      by (field; lra).
    apply div_pos; auto.
    assert (0 <= v * (1 - ((1 - rho) * e + rho * m))) by (apply Rmult_le_pos; lra).
    assert (0 <= h * (rho * (1 - m))) by (apply Rmult_le_pos; auto; apply Rmult_le_pos; lra).
    assert (0 <= Q * (a - 1 + (1 - rho) * e + 2 * (rho * m) - rho)); [|lra].
    apply Rmult_le_pos; auto.
    replace (a - 1 + (1 - rho) * e + 2 * (rho * m) - rho)
      with ((1 - rho) * (e - 1 + a) + rho * (a - 2 + 2 * m)) by ring.
    pose proof (exp_ge (- a)). fold e in H1.
    assert (0 <= (1 - rho) * (e - 1 + a)) by (apply Rmult_le_pos; lra).
    assert (0 <= rho * (a - 2 + 2 * m)) by (apply Rmult_le_pos; lra). lra.
Qed.

Lemma sc2_nonneg sigma mu eta dx dy q pv ph pc ov oh :
  0 < sigma -> 0 < mu -> 0 < eta -> 0 < dx -> 0 < dy -> 0 <= q -> 0 <= pv -> 0 <= ph ->
  sc2 sigma mu eta dx dy q pv ph = (pc, (ov, oh)) -> 0 <= pc /\ 0 <= ov /\ 0 <= oh.
Proof.
  intros Hs Hm He Hx Hy Hq Hv Hh E. unfold sc2 in E. cbv zeta in E.
  assert (HQ : 0 <= q / sigma) by (apply div_pos; auto). set (Q := q / sigma) in *.
  assert (Ha : 0 < sigma * (dx / mu)) by (apply Rmult_lt_0_compat; auto; apply div_pos'; auto).
  assert (Hb : 0 < sigma * (dy / eta)) by (apply Rmult_lt_0_compat; auto; apply div_pos'; auto).
  set (a := sigma * (dx / mu)) in *. set (b := sigma * (dy / eta)) in *.
  assert (Hr : 0 < a / b) by (apply div_pos'; auto).
  destruct (Rle_dec (a / b) 1) as [L|L].
  - injection E as <- <- <-.
    destruct (@sc2_pos_low Q a (a / b) pv ph Ha (conj Hr L) HQ Hv Hh) as (P1 & P2 & P3).
    repeat split; auto. eapply Rle_trans; [apply P3|]. apply Req_le. field. lra.
  - injection E as <- <- <-.
    assert (Hr' : 0 < b / a <= 1).
    { split; [apply div_pos'; auto|]. apply Rmult_le_reg_r with a; auto.
      unfold Rdiv. rewrite Rmult_assoc, Rinv_l, Rmult_1_r, Rmult_1_l by lra.
      assert (1 < a / b) by lra. apply Rmult_lt_compat_r with (r := b) in H; auto.
      unfold Rdiv in H. rewrite Rmult_assoc, Rinv_l in H by lra. lra. }
    destruct (@sc2_pos_low Q b (b / a) ph pv Hb Hr' HQ Hh Hv) as (P1 & P2 & P3).
    repeat split.
    + eapply Rle_trans; [apply P3|]. apply Req_le. field. lra.
    + auto.
    + eapply Rle_trans; [apply P1|]. apply Req_le. field. lra.
Qed.

(** ** One segment's share of the region balance: summed over a region's
    segments whose areas add up to its volume, the MOC scalar flux satisfies the
    region's balance. *)
Lemma moc_phi_balance w sigma length inv_sin width volume q pin :
  sigma <> 0 -> length <> 0 -> inv_sin <> 0 -> volume <> 0 ->
  sigma * moc_phi w sigma length inv_sin width volume q pin =
  w * (width / volume) * (q * length - (snd (moc sigma (length * inv_sin) q pin) - pin) / inv_sin).
Proof.
  intros Hs Hl Hi Hv. unfold moc_phi.
  destruct (moc sigma (length * inv_sin) q pin) as [pc po] eqn:E.
  assert (Ht : length * inv_sin <> 0) by (apply Rmult_integral_contrapositive; auto).
  pose proof (moc_balance Hs Ht E) as B. unfold balanced1, leak in B. simpl.
  replace (sigma * (w * (pc * (width * length * (1 / volume))))) with (w * (width / volume) * length * (sigma * pc)) by (field; auto).
  replace (sigma * pc) with (q - 1 * (po - pin) / (length * inv_sin)) by lra. field. auto.
Qed.

(** ** The 2-D characteristic face averages *)
Lemma int_exp_const Q f k c : k <> 0 -> 
  is_RInt (fun y => Q + (f - Q) * exp (- (k * y))) 0 c (Q * c + (f - Q) * ((1 - exp (- (k * c))) / k)).
Proof.
  intros Hk. set (F := fun x => Q * x + (f - Q) * ((1 - exp (- (k * x))) / k)).
  replace (Q * c + (f - Q) * ((1 - exp (- (k * c))) / k)) with (minus (F c) (F 0)).
  - apply (is_RInt_derive F).
    + intros x _. unfold F. auto_derive; auto. field. auto.
    + intros x _. apply (ex_derive_continuous (fun y => Q + (f - Q) * exp (- (k * y)))). auto_derive; auto.
  - unfold F, minus, plus, opp; simpl. rewrite !Rmult_0_r, Ropp_0, exp_0. field. auto.
Qed.
