From Verif Require Import Base BaseR Util_Model Mesh_Model Mesh_Spec Csg_Model Csg_Spec Csg_Proofs Pin_Model Pin_Spec Pin_Proofs7 Tracker_Model Tracker_Spec.
Set Implicit Arguments. Unset Strict Implicit.
Open Scope R_scope.

(** ** The ray of a track *)
Lemma dist_nonneg p q : 0 <= distance p q. Proof. apply sqrt_pos. Qed.
Definition unit_ray (y : ray) : Prop := px (direction y) * px (direction y) + py (direction y) * py (direction y) + pz (direction y) * pz (direction y) = 1.
Lemma track_ray_unit P0 P1 : 0 < distance P0 P1 -> unit_ray (track_ray P0 P1).
Proof.
  intros H. unfold unit_ray, track_ray. cbn [direction px py pz pscale psub]. set (L := distance P0 P1) in *.
  assert (E : L * L = (px P1 - px P0) * (px P1 - px P0) + (py P1 - py P0) * (py P1 - py P0) + (pz P1 - pz P0) * (pz P1 - pz P0)) by (unfold L, distance; apply sqrt_sqrt; repeat apply Rplus_le_le_0_compat; apply Rle_0_sqr).
  transitivity ((L * L) * ((1 / L) * (1 / L))); [rewrite E; ring|]. field. lra.
Qed.
Lemma at_track P0 P1 t : 0 < distance P0 P1 -> at_distance (track_ray P0 P1) (t + seg_eps) = on_track P0 P1 t.
Proof. intros H. unfold at_distance, track_ray, on_track. set (L := distance P0 P1) in *. apply point_eq; cbn; field; lra. Qed.
Lemma dist_at y t u : unit_ray y -> distance (at_distance y t) (at_distance y u) = Rabs (u - t).
Proof.
  intros H. unfold distance, at_distance. cbn [px py pz padd pscale]. unfold unit_ray in H. set (a := px (direction y)) in *. set (b := py (direction y)) in *. set (c := pz (direction y)) in *.
  replace (_ + _ + _) with (Rsqr (u - t) * (a * a + b * b + c * c)) by (unfold Rsqr; ring). rewrite H, Rmult_1_r. apply sqrt_Rsqr_abs.
Qed.
Lemma mid_at y t u : pscale (/ 2) (padd (at_distance y t) (at_distance y u)) = at_distance y ((t + u) / 2).
Proof. unfold at_distance. apply point_eq; cbn; field. Qed.

(** ** Hits of one surface *)
Lemma hit_sorted s r m : StronglySorted Rle (hit_distances s r m) /\ forall t, In t (hit_distances s r m) -> 0 < t /\ (m < 0 \/ t <= m).
Proof.
  unfold hit_distances. destruct (abc s r) as [[a b] c]. destruct (roots a b c) as [t0 t1].
  assert (K : forall x y, x <= y -> StronglySorted Rle (keep m x ++ keep m y)).
  { intros x y H. assert (KS : forall z, StronglySorted Rle (keep m z)) by (intros z; unfold keep; repeat destruct (_ : {_} + {_}); repeat constructor).
    unfold keep at 1. destruct (Rle_dec x 0); [apply KS|]. assert (G : StronglySorted Rle ([x] ++ keep m y)).
    { cbn. constructor; [apply KS|]. apply Forall_forall. intros z Hz. apply keep_in in Hz. lra. }
    destruct (Rlt_dec m 0); [exact G|]. destruct (Rle_dec x m); [exact G|apply KS]. }
  split.
  - destruct (Rle_dec t1 t0), (Rlt_dec t0 t1); apply K; lra.
  - intros t H. apply in_app_iff in H. rewrite !keep_in in H. destruct H as [(-> & A & B)|(-> & A & B)]; auto.
Qed.

(** Continuity: a change of sense comes with a zero. *)
Lemma poly_zero a b c t u : t < u -> (a * t * t + b * t + c) * (a * u * u + b * u + c) <= 0 -> exists z, t <= z <= u /\ a * z * z + b * z + c = 0.
Proof.
  intros H K. destruct (@IVT_cor (fun x => a * x * x + b * x + c) t u) as (z & A & B); [|lra|exact K|exists z; auto].
  intros x. apply derivable_continuous_pt. reg.
Qed.
Definition reg_ray (s : quadric) (y : ray) : Prop :=
  exists a b c, (forall t, along s y t = a * t * t + b * t + c) /\
    ((eps13 / 2 <= Rabs a /\ (0 < a \/ b * b <> 4 * a * c)) \/ (a = 0 /\ eps13 / 2 < Rabs b) \/ (a = 0 /\ b = 0 /\ c <> 0)).
Lemma sense_change s y T t u : reg_ray s y -> 0 < t < u -> u <= T -> sense s (at_distance y t) <> sense s (at_distance y u) ->
  exists h, In h (hit_distances s y T) /\ t <= h <= u.
Proof.
  intros (a & b & c & F & R) Ht Hu D.
  assert (C : transversal s y \/ (forall x z, sense s (at_distance y x) = sense s (at_distance y z))).
  { destruct R as [[A B]|[[A B]|(A & B & _)]].
    - destruct (Req_dec (b * b) (4 * a * c)) as [E|E].
      + right. destruct B as [B|B]; [|contradiction]. assert (P : forall x, 0 <= along s y x).
        { intros x. rewrite F. assert (0 <= a * (a * x * x + b * x + c)); [|destruct (Rle_or_lt 0 (a * x * x + b * x + c)); auto; exfalso; nra]. replace (a * (a * x * x + b * x + c)) with (Rsqr (a * x + b / 2)); [apply Rle_0_sqr|]. transitivity (a * a * x * x + a * b * x + b * b / 4); [unfold Rsqr; field|]. rewrite E. field. }
        intros x z. unfold sense. unfold along in P. destruct (Rle_dec 0 (qf s (at_distance y x))); [|exfalso; auto]. destruct (Rle_dec 0 (qf s (at_distance y z))); auto. exfalso; auto.
      + left. exists a, b, c. split; auto.
    - left. exists a, b, c. split; auto.
    - right. intros x z. unfold sense. change (qf s (at_distance y x)) with (along s y x). change (qf s (at_distance y z)) with (along s y z). rewrite !F. subst. f_equal. 
      replace (0 * x * x + 0 * x + c) with c by ring. replace (0 * z * z + 0 * z + c) with c by ring. reflexivity. }
  destruct C as [C|C]; [|exfalso; apply D, C]. destruct (@hits_in s y T C) as [_ HI].
  destruct (@poly_zero a b c t u ltac:(lra)) as (z & Z1 & Z2).
  { unfold sense in D. change (qf s (at_distance y t)) with (along s y t) in D. change (qf s (at_distance y u)) with (along s y u) in D. rewrite !F in D.
    destruct (Rle_dec 0 (a * t * t + b * t + c)), (Rle_dec 0 (a * u * u + b * u + c)); try congruence; nra. }
  exists z. split; auto. apply HI. rewrite F. repeat split; auto; lra.
Qed.
Lemma hit_zero s y T h : reg_ray s y -> In h (hit_distances s y T) -> along s y h = 0.
Proof.
  intros (a & b & c & F & R) H. pose proof eps13_pos as EP.
  assert (C : transversal s y \/ ((a = 0 /\ b = 0) \/ (eps13 / 2 <= Rabs a /\ b * b = 4 * a * c))).
  { destruct R as [[A B]|[[A B]|(A & B & _)]]; auto.
    - destruct (Req_dec (b * b) (4 * a * c)); auto. left. exists a, b, c. auto.
    - left. exists a, b, c. auto. }
  destruct C as [C|C]; [apply (@hits_in s y T C) in H; tauto|]. exfalso. unfold hit_distances in H. assert (AL := abc_along s y). destruct (abc s y) as [[a' b'] c'].
  assert (c' = 2 * c) by (specialize (AL 0); rewrite F in AL; lra).
  assert (a' = 2 * a) by (assert (A1 := AL 1); assert (A2 := AL (-1)); rewrite F in A1, A2; lra).
  assert (b' = 2 * b) by (assert (A1 := AL 1); rewrite F in A1; lra).
  assert (RR : roots a' b' c' = (0, 0)).
  { subst. unfold roots. rewrite !Rabs_mult, (Rabs_right 2) by lra. destruct C as [[-> ->]|[A B]].
    - rewrite Rabs_R0. destruct (Rlt_dec (2 * 0) eps13); [|lra]. destruct (Rlt_dec eps13 (2 * 0)); [lra|]. auto.
    - destruct (Rlt_dec (2 * Rabs a) eps13); [lra|]. destruct (Rlt_dec (4 * (2 * a) * (2 * c)) (2 * b * (2 * b))); auto. lra. }
  rewrite RR in H. unfold keep in H. destruct (Rle_dec 0 0); [|lra]. destruct (Rlt_dec 0 0); [lra|]. destruct (Rle_dec 0 0); [|lra]. destruct H.
Qed.
