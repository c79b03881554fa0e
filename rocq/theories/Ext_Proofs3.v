(** * Ext_Proofs3: time, and the cases *)
From Coquelicot Require Import Coquelicot.
From Verif Require Import Base BaseR Loop Angle_Model Kinetics_Model Kinetics_Spec Kinetics_Proofs Ext_Model Ext_Spec Ext_Proofs Ext_Proofs2.
Set Implicit Arguments. Unset Strict Implicit.
Open Scope R_scope.

Lemma linear_at dim q ts ps flag at_ t c g : (1 <= length ts)%nat -> increasing ts -> length ps = length ts ->
  exists s, set_time (Linear ts ps flag at_) t = Ok s /\ is_discrete s = flag /\
  (forall d v, (forall i, (i < length ps)%nat -> moment q (nth i ps d) c g = Ok (v i)) ->
     exists m, moment q s c g = Ok m /\ interpolates ts v t m) /\
  (forall d v angle, (forall i, (i < length ps)%nat -> discrete dim (nth i ps d) c g angle = Ok (v i)) ->
     exists m, discrete dim s c g angle = Ok m /\ interpolates ts v t m).
Proof.
  intros Hn I HL. destruct (@bracket_ok ts t Hn) as (ia & ib & fa & fb & E & La & Lb & _).
  unfold set_time. rewrite E. cbn [bind]. eexists. split; [reflexivity|]. split; [reflexivity|].
  pose proof (fun f => @interpolates_bracket ts t f ia ib fa fb Hn I E) as IB.
  rewrite <- HL in La, Lb. split.
  - intros d v V. exists (fa * v ia + fb * v ib). split; [|apply IB]. cbn [moment].
    rewrite (@rd_map_ok _ _ (fun p => moment q p c g) ps ia _ (@rd_ok _ ps ia d La)), (@rd_map_ok _ _ (fun p => moment q p c g) ps ib _ (@rd_ok _ ps ib d Lb)). cbn [bind].
    rewrite !V by auto. cbn [bind]. f_equal. ring.
  - intros d v angle V. exists (fa * v ia + fb * v ib). split; [|apply IB]. cbn [discrete].
    rewrite (@rd_map_ok _ _ (fun p => discrete dim p c g angle) ps ia _ (@rd_ok _ ps ia d La)), (@rd_map_ok _ _ (fun p => discrete dim p c g angle) ps ib _ (@rd_ok _ ps ib d Lb)). cbn [bind].
    rewrite !V by auto. cbn [bind]. f_equal. ring.
Qed.
Lemma pulsed_at dim q p peak fwhm flag x t c g : fwhm <> 0 ->
  exists s f, set_time (Pulsed p peak fwhm flag x) t = Ok s /\ is_discrete s = flag /\
  Rabs (f - gaussian peak fwhm t) <= / 10 ^ 14 /\ 0 < f <= 1 /\ (t = peak -> f = 1) /\
  (forall m, moment q p c g = Ok m -> moment q s c g = Ok (f * m)) /\
  (forall m angle, discrete dim p c g angle = Ok m -> discrete dim s c g angle = Ok (f * m)).
Proof.
  intros Hf. exists (Pulsed p peak fwhm flag (pulse peak fwhm t)), (pulse peak fwhm t). split; [reflexivity|]. split; [reflexivity|].
  split; [apply pulse_gaussian; auto|]. split; [apply pulse_range; auto|]. split; [intros ->; apply pulse_peak|].
  split; intros * H; cbn [moment discrete]; rewrite H; reflexivity.
Qed.

(** ** Cases *)
(** Two directions on a line. *)
Definition two : quad := {| q_dim := 1; q_nang := 2; q_noct := 2; q_nao := 1; q_wt := [1]; q_mu := [1 / 2]; q_eta := [0]; q_xi := [0];
  q_sign := octant_sign; q_inc := incident_table 1; q_out := incident_table 1; q_adj := false |}.
Lemma two_normalised : normalised 1 two.
Proof. split; [reflexivity|]. unfold over_angles, angular_norm. cbn. lra. Qed.
(** Emits to the right only. *)
Definition beam : source := Discrete [[[2; 0]]] [0%nat].
Lemma beam_moment : moment two beam 0 0 = Ok 2.
Proof. cbn. f_equal. ring. Qed.

Lemma default_direction : exists q s t s', normalised 1 q /\ is_discrete s = true /\
  set_time (pulsed_new s t 1 flag_default) t = Ok s' /\
  (exists x, discrete 1 s 0 0 (index q 1 0) = Ok 0 /\ discrete 1 s' 0 0 (index q 1 0) = Ok 0 /\ emission 1 q s' 0 0 1 0 = Ok x /\ x <> 0).
Proof.
  exists two, beam, 0, (Pulsed beam 0 1 flag_default 1). split; [apply two_normalised|]. split; [reflexivity|]. split.
  - unfold pulsed_new. cbn [set_time]. rewrite pulse_peak. reflexivity.
  - exists 1. split; [reflexivity|]. split; [cbn; f_equal; ring|]. split; [|lra].
    unfold emission. cbn [is_discrete flag_default]. replace (moment two (Pulsed beam 0 1 flag_default 1) 0 0) with (Ok 2).
    + cbn [bind]. f_equal. unfold angular_norm. cbn. lra.
    + cbn [moment]. change (moment two beam 0 0) with (moment two beam 0 0). rewrite beam_moment. cbn [bind]. f_equal. ring.
Qed.

(** Parts that depend on time themselves are not told the time. *)
Lemma nested_pulse q times peak fwhm x flag flag' t s c g : set_time (linear_new times (map (fun _ => pulsed_new x peak fwhm flag) times) flag') t = Ok s ->
  forall m, moment q x c g = Ok m -> moment q s c g = Ok 0.
Proof.
  unfold linear_new. cbn [set_time]. destruct (bracket times t) as [[[[ia ib] fa] fb]| |] eqn:E; cbn [bind]; try discriminate.
  intros H. injection H as <-. intros m Hm. assert (Hn : (1 <= length times)%nat). { destruct times; [discriminate E|cbn; lia]. }
  destruct (@bracket_ok times t Hn) as (ia' & ib' & fa' & fb' & E' & La & Lb & _). rewrite E in E'. injection E' as <- <- <- <-.
  cbn [moment]. rewrite map_map. rewrite (@rd_map_ok _ _ (fun _ => moment q (pulsed_new x peak fwhm flag) c g) times ia _ (@rd_ok _ times ia 0 La)).
  rewrite (@rd_map_ok _ _ (fun _ => moment q (pulsed_new x peak fwhm flag) c g) times ib _ (@rd_ok _ times ib 0 Lb)). unfold pulsed_new. cbn [moment bind].
  rewrite Hm. cbn [bind]. f_equal. ring.
Qed.
Lemma nested_linear q times ps peak fwhm flag flag' t s c g : set_time (pulsed_new (linear_new times ps flag) peak fwhm flag') t = Ok s ->
  moment q s c g = UB.
Proof. cbn. intros H. injection H as <-. reflexivity. Qed.
