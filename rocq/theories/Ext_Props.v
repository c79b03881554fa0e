(** * Ext_Props *)
From Coquelicot Require Import Coquelicot.
From Verif Require Import Base BaseR Loop Angle_Model Kinetics_Model Kinetics_Spec Ext_Model Ext_Spec Ext_Proofs Ext_Proofs2 Ext_Proofs3.
Open Scope R_scope.

(** C115.  Full statement: C115_direction_partial for every source, and
    C115_linear_partial and C115_pulsed_partial with parts that depend on time
    themselves.  Both fail: the flag that keeps directions is off by default, and
    parts are not told the time. *)
Theorem C115_moment :
  forall dim q, normalised dim q -> forall s c g m, moment q s c g = Ok m ->
  exists v, (forall o a, (o < q_noct q)%nat -> (a < q_nao q)%nat -> discrete dim s c g (index q o a) = Ok (v o a)) /\ over_angles q v = m.
Proof. exact @moment_integral. Qed.
Print Assumptions C115_moment.
Theorem C115_emission :
  forall dim q, normalised dim q -> forall s c g m, moment q s c g = Ok m ->
  exists v, (forall o a, (o < q_noct q)%nat -> (a < q_nao q)%nat -> emission dim q s c g o a = Ok (v o a)) /\ over_angles q v = m.
Proof. exact @emission_total. Qed.
Print Assumptions C115_emission.
Theorem C115_direction_partial :
  forall dim q, normalised dim q -> forall s c g m o a, isotropic s \/ is_discrete s = true ->
  moment q s c g = Ok m -> (o < q_noct q)%nat -> (a < q_nao q)%nat ->
  emission dim q s c g o a = discrete dim s c g (index q o a).
Proof. exact @emission_direction. Qed.
Print Assumptions C115_direction_partial.
Theorem C115_linear_partial :
  forall dim q ts ps flag at_ t c g, (1 <= length ts)%nat -> increasing ts -> length ps = length ts ->
  exists s, set_time (Linear ts ps flag at_) t = Ok s /\ is_discrete s = flag /\
  (forall d v, (forall i, (i < length ps)%nat -> moment q (nth i ps d) c g = Ok (v i)) ->
     exists m, moment q s c g = Ok m /\ interpolates ts v t m) /\
  (forall d v angle, (forall i, (i < length ps)%nat -> discrete dim (nth i ps d) c g angle = Ok (v i)) ->
     exists m, discrete dim s c g angle = Ok m /\ interpolates ts v t m).
Proof. exact @linear_at. Qed.
Print Assumptions C115_linear_partial.
Theorem C115_pulsed_partial :
  forall dim q p peak fwhm flag x t c g, fwhm <> 0 ->
  exists s f, set_time (Pulsed p peak fwhm flag x) t = Ok s /\ is_discrete s = flag /\
  Rabs (f - gaussian peak fwhm t) <= / 10 ^ 14 /\ 0 < f <= 1 /\ (t = peak -> f = 1) /\
  (forall m, moment q p c g = Ok m -> moment q s c g = Ok (f * m)) /\
  (forall m angle, discrete dim p c g angle = Ok m -> discrete dim s c g angle = Ok (f * m)).
Proof. exact @pulsed_at. Qed.
Print Assumptions C115_pulsed_partial.
Theorem C115_direction_refuted :
  exists q s t s', normalised 1 q /\ is_discrete s = true /\
  set_time (pulsed_new s t 1 flag_default) t = Ok s' /\
  (exists x, discrete 1 s 0 0 (index q 1 0) = Ok 0 /\ discrete 1 s' 0 0 (index q 1 0) = Ok 0 /\ emission 1 q s' 0 0 1 0 = Ok x /\ x <> 0).
Proof. exact @default_direction. Qed.
Print Assumptions C115_direction_refuted.
Theorem C115_nested_refuted :
  forall q times peak fwhm x flag flag' t s c g,
  set_time (linear_new times (map (fun _ => pulsed_new x peak fwhm flag) times) flag') t = Ok s ->
  forall m, moment q x c g = Ok m -> moment q s c g = Ok 0.
Proof. exact @nested_pulse. Qed.
Print Assumptions C115_nested_refuted.
Theorem C115_unset_refuted :
  forall q times ps peak fwhm flag flag' t s c g,
  set_time (pulsed_new (linear_new times ps flag) peak fwhm flag') t = Ok s -> moment q s c g = UB.
Proof. exact @nested_linear. Qed.
Print Assumptions C115_unset_refuted.

(** Cases: a beam along a line; a pulse made of beams, interpolated; at its half
    width the Gaussian is one half. *)
Example C115_case : exists q, normalised 1 q /\ moment q beam 0 0 = Ok 2 /\ ~ isotropic beam /\
  discrete 1 beam 0 0 (index q 0 0) = Ok 2 /\ discrete 1 beam 0 0 (index q 1 0) = Ok 0.
Proof. exists two. split; [apply two_normalised|]. split; [apply beam_moment|]. repeat split; auto. Qed.
Example C115_case_gaussian : forall peak fwhm, fwhm <> 0 -> gaussian peak fwhm (peak + fwhm / 2) = 1 / 2 /\ gaussian peak fwhm (peak - fwhm / 2) = 1 / 2.
Proof.
  intros peak fwhm H. unfold gaussian.
  replace (- (4 * ln 2) * ((peak + fwhm / 2 - peak) / fwhm) ^ 2) with (- ln 2) by (field; auto).
  replace (- (4 * ln 2) * ((peak - fwhm / 2 - peak) / fwhm) ^ 2) with (- ln 2) by (field; auto).
  rewrite exp_Ropp, exp_ln by lra. lra.
Qed.
Example C115_case_time : increasing [0; 1] /\ exists s, set_time (linear_new [0; 1] [Constant 1; Constant 3] false) (1 / 2) = Ok s /\ moment two s 0 0 = Ok 2.
Proof.
  assert (I : increasing [0; 1]). { intros [|i] Hi; cbn in *; [lra|lia]. }
  split; auto. destruct (@linear_at 1 two [0; 1] [Constant 1; Constant 3] false None (1 / 2) 0 0 ltac:(cbn; lia) I eq_refl) as (s & E & _ & M & _).
  exists s. split; auto. destruct (M (Constant 0) (fun i => 1 + 2 * INR i)) as (m & Em & (_ & _ & P)).
  - intros [|[|i]] Hi; cbn in *; try lia; f_equal; ring.
  - rewrite Em. f_equal. rewrite (P 0%nat); cbn; try lia; lra.
Qed.
