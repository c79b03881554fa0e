(** * C123: the LRA benchmark material *)
From Verif Require Import Base BaseR Loop Kinetics_Model Kinetics_Spec Lra_Model Lra_Spec Lra_Proofs Lra_Proofs2.
Open Scope R_scope.

(** Data of every cell depend only on its material, its temperature and the
    time; the update is defined exactly for the six materials. *)
Theorem C123_cells : forall tr st t map T l, length T = length map -> lra_update tr st t map T = Ok l ->
  length l = length map /\ forall i, (i < length map)%nat ->
    update_cell tr st t (nth i map 0%nat) (nth i T 0) = Ok (nth i l xs0).
Proof. exact update_cells. Qed.
Print Assumptions C123_cells.
Theorem C123_total : forall tr st t map T, length T = length map ->
  (forall i, (i < length map)%nat -> (nth i map 0 < 6)%nat) ->
  exists l, lra_update tr st t map T = Ok l /\ length l = length map.
Proof. exact update_total. Qed.
Print Assumptions C123_total.

(** Full statement: total is absorption plus scattering, exactly. *)
Theorem C123_balance_partial : forall tr st t m T x, update_cell tr st t m T = Ok x ->
  nearly_balanced 1e-14 x /\ (m <> REFLECTOR \/ tr = false -> balanced x).
Proof. exact cell_balance. Qed.
Print Assumptions C123_balance_partial.
Theorem C123_balance_refuted : forall T, exists x, update_cell true false 0 4 T = Ok x /\ ~ balanced x.
Proof. exact cell_unbalanced. Qed.
Print Assumptions C123_balance_refuted.

Theorem C123_positive : forall tr st t m T x, 0 <= t -> 0 <= T -> update_cell tr st t m T = Ok x -> nonnegative x.
Proof. exact cell_positive. Qed.
Print Assumptions C123_positive.

Theorem C123_spectrum : forall tr st t m T x, update_cell tr st t m T = Ok x -> chi1 x + chi2 x = 1.
Proof. exact cell_spectrum. Qed.
Print Assumptions C123_spectrum.

(** The rod moves out during two seconds; only the rod's cells feel the time. *)
Theorem C123_rod : forall tr t T x y, update_cell tr true t ROD T = Ok x -> update_cell tr false t ROD 300 = Ok y ->
  (t <= 2 -> a2 y - B * d2 y = (a2 x - B * d2 x) * (1 - 0.0606184 * t)) /\
  (2 < t -> a2 y - B * d2 y = (a2 x - B * d2 x) * 0.878763) /\ differs_thermally x y (a2 y - a2 x).
Proof. exact rod_time. Qed.
Print Assumptions C123_rod.
Theorem C123_rod_only : forall tr t t' m T x y, m <> ROD ->
  update_cell tr false t m T = Ok x -> update_cell tr false t' m T = Ok y -> x = y.
Proof. exact rod_only. Qed.
Print Assumptions C123_rod_only.
(** Full statement: the cross sections are continuous in time. *)
Theorem C123_continuous_partial : forall tr t t' m T x y, 0 <= t -> 0 <= t' ->
  update_cell tr false t m T = Ok x -> update_cell tr false t' m T = Ok y ->
  differs_thermally x y (a2 y - a2 x) /\ Rabs (a2 y - a2 x) <= 2e-8 + 0.0051 * Rabs (t' - t).
Proof. exact rod_continuous. Qed.
Print Assumptions C123_continuous_partial.
Theorem C123_continuous_refuted : forall tr, exists eps, 0 < eps /\ forall delta, 0 < delta ->
  exists t t' x y, 0 <= t /\ 0 <= t' /\ Rabs (t' - t) < delta /\
    update_cell tr false t ROD 300 = Ok x /\ update_cell tr false t' ROD 300 = Ok y /\ eps <= Rabs (a2 y - a2 x).
Proof. exact rod_jump. Qed.
Print Assumptions C123_continuous_refuted.

(** Doppler feedback in the fuel only, growing with the temperature. *)
Theorem C123_doppler : forall tr t m T T' x y, 0 <= T -> T <= T' ->
  update_cell tr false t m T = Ok x -> update_cell tr false t m T' = Ok y ->
  differs_fast x y (a1 y - a1 x) /\ (m = REFLECTOR -> x = y) /\
  (m <> REFLECTOR -> a1 x <= a1 y /\ (T < T' -> a1 x < a1 y)).
Proof. exact doppler. Qed.
Print Assumptions C123_doppler.
Theorem C123_start : forall tr m x y, update_cell tr true 0 m 300 = Ok x -> update_cell tr false 0 m 300 = Ok y ->
  t1 y = t1 x /\ t2 y = t2 x /\ a1 y = a1 x /\ a2 y = a2 x /\ s11 y = s11 x /\ s21 y = s21 x /\ s22 y = s22 x /\
  f1 y = f1 x /\ f2 y = f2 x /\ chi1 y = chi1 x /\ chi2 y = chi2 x.
Proof. exact cold_start. Qed.
Print Assumptions C123_start.
Example C123_cell_ex : forall tr st t T, exists x, update_cell tr st t 5 T = Ok x.
Proof. intros. apply cell_total. lia. Qed.

(** Adiabatic heating by any method of order one to six. *)
Theorem C123_heating : forall s t dt order prev sf phi,
  length (l_P s) = length (l_var s) -> 0 < t -> dt <> 0 -> (1 <= order <= 6)%nat ->
  exists a s', coefs order a /\ heat_step s t dt order prev sf phi = Ok s' /\
    length (l_var s') = length (l_var s) /\ length (l_P s') = length (l_P s) /\
    forall i, (i < length (l_var s))%nat ->
      let F := sf i 0%nat * phi 0%nat i + sf i 1%nat * phi 1%nat i in
      bdf_rate a order dt (nth i (l_var s') 0) (fun k => nth i (prev k) 0) = ALPHA * F /\
      nth i (lra_power s') 0 = KAPPA * F.
Proof. exact heat_ok. Qed.
Print Assumptions C123_heating.
Theorem C123_first_order : forall s t dt prev sf phi, length (l_P s) = length (l_var s) -> 0 < t -> dt <> 0 ->
  exists s', heat_step s t dt 1 prev sf phi = Ok s' /\
    forall i, (i < length (l_var s))%nat ->
      nth i (l_var s') 0 = nth i (prev 0%nat) 0 + dt * (ALPHA * (sf i 0%nat * phi 0%nat i + sf i 1%nat * phi 1%nat i)).
Proof. exact heat_first. Qed.
Print Assumptions C123_first_order.
Example C123_new_ex : forall n, length (l_P (lra_new n)) = length (l_var (lra_new n)).
Proof. intros n. simpl. rewrite !repeat_length. reflexivity. Qed.

(** The temperatures reported are the initial ones for ever. *)
Theorem C123_reported_refuted : exists s', heat_step (lra_new 1) 1 1 1 (fun _ => [300]) hot_sf hot_sf = Ok s' /\
  nth 0 (l_var s') 0 = 300 + 2 * ALPHA /\ nth 0 (lra_temperature s') 0 <> nth 0 (l_var s') 0.
Proof. exact stale. Qed.
Print Assumptions C123_reported_refuted.

Theorem C123_area : forall volume map, lra_area volume map =
  Ok (rsum (length map) (fun i => if (nth i map 0 =? 4)%nat then 0 else volume i)).
Proof. exact area_ok. Qed.
Print Assumptions C123_area.
