(** * Cell_Props *)
From Coquelicot Require Import Coquelicot.
From Verif Require Import BaseR Cell_Model Cell_Spec Cell_Proofs.
Open Scope R_scope.

(** C38: the computed fluxes are exactly the solution of balance and diamond relations. *)
Theorem C38_diamond_1d :
  forall sigma mu dx q pin pc po,
  dx <> 0 -> sigma + 2 * mu / dx <> 0 ->
  (dd1 sigma mu dx q pin = (pc, po) <-> balanced1 sigma mu dx q pin pc po /\ diamond pin pc po).
Proof. exact @dd1_balance. Qed.
Print Assumptions C38_diamond_1d.
Theorem C38_diamond_2d :
  forall sigma mu eta dx dy q pv ph pc ov oh,
  dx <> 0 -> dy <> 0 ->
  sigma + 2 * mu / dx + 2 * eta / dy <> 0 ->
  (dd2 sigma mu eta dx dy q pv ph = (pc, (ov, oh)) <->
   balanced2 sigma mu eta dx dy q pv ph pc ov oh /\ diamond pv pc ov /\ diamond ph pc oh).
Proof. exact @dd2_balance. Qed.
Print Assumptions C38_diamond_2d.
Theorem C38_diamond_3d :
  forall sigma mu eta xi dx dy dz q p1 p2 p3 pc o1 o2 o3,
  dx <> 0 -> dy <> 0 -> dz <> 0 ->
  sigma + 2 * mu / dx + 2 * eta / dy + 2 * xi / dz <> 0 ->
  (dd3 sigma mu eta xi dx dy dz q p1 p2 p3 = (pc, (o1, o2, o3)) <->
   balanced3 sigma mu eta xi dx dy dz q p1 p2 p3 pc o1 o2 o3 /\
   diamond p1 pc o1 /\ diamond p2 pc o2 /\ diamond p3 pc o3).
Proof. exact @dd3_balance. Qed.
Print Assumptions C38_diamond_3d.
Example C38_case : dd2 1 (1/2) (1/4) 1 (1/2) 3 2 0 = (5/3, (4/3, 10/3)) /\ 1 + 2 * (1/2) / 1 + 2 * (1/4) / (1/2) <> 0.
Proof. split; [unfold dd2; f_equal; [field|f_equal; field]|lra]. Qed.

(** C39 *)
Theorem C39_step_balance_1d :
  forall sigma mu dx q pin pc po,
  dx <> 0 -> sigma + mu / dx <> 0 ->
  (sd1 sigma mu dx q pin = (pc, po) <-> balanced1 sigma mu dx q pin pc po /\ po = pc).
Proof. exact @sd1_balance. Qed.
Print Assumptions C39_step_balance_1d.
Theorem C39_step_balance_2d :
  forall sigma mu eta dx dy q pv ph pc ov oh,
  dx <> 0 -> dy <> 0 ->
  sigma + mu / dx + eta / dy <> 0 ->
  (sd2 sigma mu eta dx dy q pv ph = (pc, (ov, oh)) <->
   balanced2 sigma mu eta dx dy q pv ph pc ov oh /\ ov = pc /\ oh = pc).
Proof. exact @sd2_balance. Qed.
Print Assumptions C39_step_balance_2d.
Theorem C39_step_nonneg_1d :
  forall sigma mu dx q pin pc po,
  0 < mu -> 0 < dx -> 0 <= sigma -> 0 <= q -> 0 <= pin ->
  sd1 sigma mu dx q pin = (pc, po) -> 0 <= pc /\ 0 <= po.
Proof. exact @sd1_nonneg. Qed.
Print Assumptions C39_step_nonneg_1d.
Theorem C39_step_nonneg_2d :
  forall sigma mu eta dx dy q pv ph pc ov oh,
  0 < mu -> 0 < eta -> 0 < dx -> 0 < dy -> 0 <= sigma -> 0 <= q -> 0 <= pv -> 0 <= ph ->
  sd2 sigma mu eta dx dy q pv ph = (pc, (ov, oh)) -> 0 <= pc /\ 0 <= ov /\ 0 <= oh.
Proof. exact @sd2_nonneg. Qed.
Print Assumptions C39_step_nonneg_2d.
Theorem C39_characteristic_balance_1d :
  forall sigma mu dx q pin pc po,
  sigma <> 0 -> mu <> 0 -> dx <> 0 ->
  sc1 sigma mu dx q pin = (pc, po) -> balanced1 sigma mu dx q pin pc po.
Proof. exact @sc1_balance. Qed.
Print Assumptions C39_characteristic_balance_1d.
Theorem C39_characteristic_balance_2d :
  forall sigma mu eta dx dy q pv ph pc ov oh,
  sigma <> 0 -> mu <> 0 -> eta <> 0 -> dx <> 0 -> dy <> 0 ->
  sc2 sigma mu eta dx dy q pv ph = (pc, (ov, oh)) -> balanced2 sigma mu eta dx dy q pv ph pc ov oh.
Proof. exact @sc2_balance. Qed.
Print Assumptions C39_characteristic_balance_2d.
Theorem C39_characteristic_nonneg_1d :
  forall sigma mu dx q pin pc po,
  0 < sigma -> 0 < mu -> 0 < dx -> 0 <= q -> 0 <= pin ->
  sc1 sigma mu dx q pin = (pc, po) -> 0 <= pc /\ 0 <= po.
Proof. exact @sc1_nonneg. Qed.
Print Assumptions C39_characteristic_nonneg_1d.
Theorem C39_characteristic_nonneg_2d :
  forall sigma mu eta dx dy q pv ph pc ov oh,
  0 < sigma -> 0 < mu -> 0 < eta -> 0 < dx -> 0 < dy -> 0 <= q -> 0 <= pv -> 0 <= ph ->
  sc2 sigma mu eta dx dy q pv ph = (pc, (ov, oh)) -> 0 <= pc /\ 0 <= ov /\ 0 <= oh.
Proof. exact @sc2_nonneg. Qed.
Print Assumptions C39_characteristic_nonneg_2d.
Theorem C39_characteristic_exact_1d :
  forall sigma mu dx q pin pc po f,
  0 < sigma -> 0 < mu -> 0 < dx ->
  line_flux (sigma / mu) (q / mu) pin f -> sc1 sigma mu dx q pin = (pc, po) ->
  po = f dx /\ is_RInt f 0 dx (dx * pc).
Proof. exact @sc1_exact. Qed.
Print Assumptions C39_characteristic_exact_1d.
Theorem C39_segment_balance :
  forall sigma t q pin pc po,
  sigma <> 0 -> t <> 0 ->
  moc sigma t q pin = (pc, po) -> balanced1 sigma 1 t q pin pc po.
Proof. exact @moc_balance. Qed.
Print Assumptions C39_segment_balance.
Theorem C39_segment_nonneg :
  forall sigma t q pin pc po,
  0 < sigma -> 0 < t -> 0 <= q -> 0 <= pin ->
  moc sigma t q pin = (pc, po) -> 0 <= pc /\ 0 <= po.
Proof. exact @moc_nonneg. Qed.
Print Assumptions C39_segment_nonneg.
Theorem C39_segment_exact :
  forall sigma t q pin pc po f,
  0 < sigma -> 0 < t ->
  line_flux sigma q pin f -> moc sigma t q pin = (pc, po) ->
  po = f t /\ is_RInt f 0 t (t * pc).
Proof. exact @moc_exact. Qed.
Print Assumptions C39_segment_exact.
Theorem C39_segment_accumulation :
  forall w sigma length inv_sin width volume q pin,
  sigma <> 0 -> length <> 0 -> inv_sin <> 0 -> volume <> 0 ->
  sigma * moc_phi w sigma length inv_sin width volume q pin =
  w * (width / volume) * (q * length - (snd (moc sigma (length * inv_sin) q pin) - pin) / inv_sin).
Proof. exact @moc_phi_balance. Qed.
Print Assumptions C39_segment_accumulation.
(** The exact line flux the 1-D and segment theorems refer to exists and is unique. *)
Theorem C39_line_flux_exists :
  forall k r pin,
  k <> 0 ->
  line_flux k r pin (fun x => pin * exp (- (k * x)) + r / k * (1 - exp (- (k * x)))).
Proof. exact @line_flux_ex. Qed.
Print Assumptions C39_line_flux_exists.
Theorem C39_line_flux_unique :
  forall k r pin f x,
  k <> 0 -> line_flux k r pin f ->
  f x = pin * exp (- (k * x)) + r / k * (1 - exp (- (k * x))).
Proof. exact @line_flux_unique. Qed.
Print Assumptions C39_line_flux_unique.
Example C39_case_step : sd1 1 (1/2) (1/2) 3 2 = (5/2, 5/2).
Proof. unfold sd1. f_equal; field. Qed.
Example C39_case_characteristic : exists pc po, sc1 2 1 (1/2) 4 0 = (pc, po) /\ po = 2 * (1 - exp (-1)) /\ 0 < po < 2.
Proof.
  eexists. eexists. split; [reflexivity|]. replace (2 * (1 / 2) / 1) with 1 by field. split; [replace (- (1)) with (-1) by lra; field|].
  pose proof (exp_increasing (-1) 0 ltac:(lra)) as H. rewrite exp_0 in H. pose proof (exp_pos (-1)). replace (- (1)) with (-1) by lra. lra.
Qed.
