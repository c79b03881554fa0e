(** * Proofs on the LRA benchmark material *)
From Verif Require Import Base BaseR Loop Kinetics_Model Kinetics_Spec Kinetics_Proofs Lra_Model Lra_Spec.
Open Scope R_scope.
Set Implicit Arguments.
Unset Strict Implicit.

Ltac tables := unfold T1, T2, A1, A2, F1, F2, S11, S21, S22, D1, D2, mu0, mu1.
Ltac cell m := unfold update_cell, init_cell, rod_absorption, ROD, REFLECTOR, GAMMA, NU, B;
  tables; destruct m as [|[|[|[|[|[|m]]]]]]; cbn [rd nth_error bind Nat.eqb].

Lemma sqrt300 : 17 < sqrt 300 < 18.
Proof.
  split; [rewrite <- (sqrt_square 17) by lra; apply sqrt_lt_1; lra|].
  rewrite <- (sqrt_square 18) by lra. apply sqrt_lt_1; lra.
Qed.
Lemma sqrt300_pos : 0 < sqrt 300. Proof. pose proof sqrt300; lra. Qed.

Lemma cell_total tr st t m T : (m < 6)%nat -> exists x, update_cell tr st t m T = Ok x.
Proof. intros H. cell m; try lia; destruct st; eexists; reflexivity. Qed.
Lemma cell_ub tr st t m T : (6 <= m)%nat -> update_cell tr st t m T = UB.
Proof. intros H. cell m; try lia. destruct m; reflexivity. Qed.

Ltac fields := cbn [t1 t2 a1 a2 s11 s21 s22 f1 f2 nu chi1 chi2 d1 d2] in *.
(** Split a hypothesis [update_cell ... = Ok x] into the material's cases. *)
Ltac cases H m := revert H; cell m; [intros H .. | intros H; destruct m; discriminate H].

Lemma cell_balance tr st t m T x : update_cell tr st t m T = Ok x ->
  nearly_balanced 1e-14 x /\ (m <> REFLECTOR \/ tr = false -> balanced x).
Proof.
  intros H. cases H m.
  all: destruct st; injection H as <-; unfold nearly_balanced, balanced; destruct tr; fields;
    repeat match goal with |- context [Rle_dec ?a ?b] => destruct (Rle_dec a b) end.
  all: split; [split; apply Rabs_le; split; lra|].
  all: try (intros _; split; lra).
  all: intros [N|N]; [exfalso; apply N; reflexivity|discriminate].
Qed.

Lemma cell_unbalanced T : exists x, update_cell true false 0 4 T = Ok x /\ ~ balanced x.
Proof.
  unfold update_cell, init_cell, ROD, REFLECTOR; tables; cbn [rd nth_error bind Nat.eqb]. eexists. split; [reflexivity|].
  unfold balanced, B; fields. intros [H _]. lra.
Qed.

Lemma cell_positive tr st t m T x : 0 <= t -> 0 <= T -> update_cell tr st t m T = Ok x -> nonnegative x.
Proof.
  intros Ht HT H. pose proof sqrt300 as Hs. pose proof (sqrt_pos T) as Hq.
  assert (G : 0.9 < 1 + 3.034e-3 * (sqrt T - sqrt 300)) by lra.
  set (f := 1 + 3.034e-3 * (sqrt T - sqrt 300)) in *.
  cases H m.
  all: fold f in H; destruct st; injection H as <-; unfold nonnegative; destruct tr; fields;
    repeat match goal with |- context [Rle_dec ?a ?b] => destruct (Rle_dec a b) end; repeat split; lra.
Qed.

(** ** The rod *)
Lemma rod_time tr t T x y : update_cell tr true t ROD T = Ok x -> update_cell tr false t ROD 300 = Ok y ->
  (t <= 2 -> a2 y - B * d2 y = (a2 x - B * d2 x) * (1 - 0.0606184 * t)) /\
  (2 < t -> a2 y - B * d2 y = (a2 x - B * d2 x) * 0.878763) /\ differs_thermally x y (a2 y - a2 x).
Proof.
  unfold update_cell, init_cell, rod_absorption, ROD, REFLECTOR, GAMMA; tables; cbn [rd nth_error bind Nat.eqb].
  intros H1 H2. injection H1 as <-. injection H2 as <-. unfold differs_thermally; fields.
  unfold B. repeat split; intros; destruct tr; fields; repeat match goal with |- context [Rle_dec ?a ?b] => destruct (Rle_dec a b) end; lra.
Qed.

Lemma rod_only tr t t' m T x y : m <> ROD -> update_cell tr false t m T = Ok x -> update_cell tr false t' m T = Ok y -> x = y.
Proof. intros N H1 H2. revert H1 H2. cell m; try congruence. unfold ROD in N. congruence. Qed.

Lemma rod_continuous tr t t' m T x y : 0 <= t -> 0 <= t' ->
  update_cell tr false t m T = Ok x -> update_cell tr false t' m T = Ok y ->
  differs_thermally x y (a2 y - a2 x) /\ Rabs (a2 y - a2 x) <= 2e-8 + 0.0051 * Rabs (t' - t).
Proof.
  intros Ht Ht' H1 H2.
  assert (Ab : 0 <= Rabs (t' - t)) by apply Rabs_pos.
  assert (Ab1 : t' - t <= Rabs (t' - t)) by apply Rle_abs.
  assert (Ab2 : t - t' <= Rabs (t' - t)) by (rewrite <- Rabs_Ropp; replace (t - t') with (- (t' - t)) by ring; apply Rle_abs).
  destruct (Nat.eq_dec m ROD) as [->|N].
  - revert H1 H2. unfold update_cell, init_cell, rod_absorption, ROD, REFLECTOR; tables; cbn [rd nth_error bind Nat.eqb].
    intros H1 H2. injection H1 as <-. injection H2 as <-. unfold differs_thermally, B; fields. split.
    + repeat split; destruct tr; fields; try reflexivity; ring.
    + apply Rabs_le. repeat match goal with |- context [Rle_dec ?a ?b] => destruct (Rle_dec a b) end; split; lra.
  - pose proof (rod_only N H1 H2). subst y. split.
    + unfold differs_thermally. repeat split; try ring.
    + replace (a2 x - a2 x) with 0 by ring. rewrite Rabs_R0. lra.
Qed.

Lemma rod_jump tr : exists eps, 0 < eps /\ forall delta, 0 < delta ->
  exists t t' x y, 0 <= t /\ 0 <= t' /\ Rabs (t' - t) < delta /\
    update_cell tr false t ROD 300 = Ok x /\ update_cell tr false t' ROD 300 = Ok y /\ eps <= Rabs (a2 y - a2 x).
Proof.
  exists 1e-8. split; [lra|]. intros delta Hd.
  destruct (@cell_total tr false 2 ROD 300) as [x Hx]; [unfold ROD; lia|].
  destruct (@cell_total tr false (2 + delta / 2) ROD 300) as [y Hy]; [unfold ROD; lia|].
  exists 2, (2 + delta / 2), x, y. split; [lra|]. split; [lra|]. split; [|split; [auto|split; [auto|]]].
  - replace (2 + delta / 2 - 2) with (delta / 2) by ring. rewrite Rabs_right by lra. lra.
  - revert Hx Hy. unfold update_cell, init_cell, rod_absorption, ROD, REFLECTOR; tables; cbn [rd nth_error bind Nat.eqb].
    intros H1 H2. injection H1 as <-. injection H2 as <-. fields.
    destruct (Rle_dec 2 2); [|lra]. destruct (Rle_dec (2 + delta / 2) 2); [lra|].
    rewrite Rabs_left1; lra.
Qed.

(** ** Doppler feedback *)
Lemma doppler tr t m T T' x y : 0 <= T -> T <= T' ->
  update_cell tr false t m T = Ok x -> update_cell tr false t m T' = Ok y ->
  differs_fast x y (a1 y - a1 x) /\ (m = REFLECTOR -> x = y) /\
  (m <> REFLECTOR -> a1 x <= a1 y /\ (T < T' -> a1 x < a1 y)).
Proof.
  intros HT HT' H1 H2.
  assert (Q : sqrt T <= sqrt T') by (apply sqrt_le_1; lra).
  assert (Q' : T < T' -> sqrt T < sqrt T') by (intros; apply sqrt_lt_1; lra).
  revert H1 H2. cell m.
  7:{ intros H1. destruct m; discriminate H1. }
  all: intros H1 H2; injection H1 as <-; injection H2 as <-; unfold differs_fast; fields.
  all: split; [repeat split; destruct tr; fields; try reflexivity; ring|].
  all: split; [intros E; try discriminate E; try reflexivity|intros N].
  all: try (exfalso; apply N; reflexivity).
  all: split; [|intros L; specialize (Q' L)]; lra.
Qed.

Lemma cold_start tr m x y : update_cell tr true 0 m 300 = Ok x -> update_cell tr false 0 m 300 = Ok y ->
  t1 y = t1 x /\ t2 y = t2 x /\ a1 y = a1 x /\ a2 y = a2 x /\ s11 y = s11 x /\ s21 y = s21 x /\ s22 y = s22 x /\
  f1 y = f1 x /\ f2 y = f2 x /\ chi1 y = chi1 x /\ chi2 y = chi2 x.
Proof.
  intros H1 H2. revert H1 H2. cell m.
  7:{ intros H1. destruct m; discriminate H1. }
  all: intros H1 H2; injection H1 as <-; injection H2 as <-; fields.
  all: destruct (Rle_dec 0 2); [|lra]; repeat split; destruct tr; fields; try reflexivity; ring.
Qed.

Lemma cell_spectrum tr st t m T x : update_cell tr st t m T = Ok x -> chi1 x + chi2 x = 1.
Proof. intros H. cases H m; destruct st; injection H as <-; fields; lra. Qed.
