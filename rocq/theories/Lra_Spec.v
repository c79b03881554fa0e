(** * The LRA benchmark, in words of the cross sections of a cell *)
From Verif Require Import Base BaseR Lra_Model.
Open Scope R_scope.

(** Every neutron that collides is absorbed or scattered into some group. *)
Definition balanced (x : xs) : Prop := t1 x = a1 x + s11 x + s21 x /\ t2 x = a2 x + s22 x.
Definition nearly_balanced (tol : R) (x : xs) : Prop :=
  Rabs (t1 x - (a1 x + s11 x + s21 x)) <= tol /\ Rabs (t2 x - (a2 x + s22 x)) <= tol.
Definition nonnegative (x : xs) : Prop :=
  0 < t1 x /\ 0 < t2 x /\ 0 < a1 x /\ 0 < a2 x /\ 0 <= s11 x /\ 0 <= s21 x /\ 0 <= s22 x /\
  0 <= f1 x /\ 0 <= f2 x /\ 0 < nu x /\ 0 < d1 x /\ 0 < d2 x.
(** Removing the rod changes the thermal absorption and total alike and nothing else. *)
Definition differs_thermally (x y : xs) (dv : R) : Prop :=
  a2 y = a2 x + dv /\ t2 y = t2 x + dv /\
  t1 y = t1 x /\ a1 y = a1 x /\ s11 y = s11 x /\ s21 y = s21 x /\ s22 y = s22 x /\ f1 y = f1 x /\ f2 y = f2 x /\
  nu y = nu x /\ chi1 y = chi1 x /\ chi2 y = chi2 x /\ d1 y = d1 x /\ d2 y = d2 x.
(** Heating changes the fast absorption and total alike and nothing else. *)
Definition differs_fast (x y : xs) (dv : R) : Prop :=
  a1 y = a1 x + dv /\ t1 y = t1 x + dv /\
  t2 y = t2 x /\ a2 y = a2 x /\ s11 y = s11 x /\ s21 y = s21 x /\ s22 y = s22 x /\ f1 y = f1 x /\ f2 y = f2 x /\
  nu y = nu x /\ chi1 y = chi1 x /\ chi2 y = chi2 x /\ d1 y = d1 x /\ d2 y = d2 x.
