(** * Vector_Props *)
From Verif Require Import Base BaseR Vector_Model Vector_Spec Vector_Proofs.
Open Scope R_scope.

(** C77 *)
Theorem C77_norms :
  forall ty v,
  plain ty ->
  0 <= norm ty v /\ (norm ty v = 0 <-> forall i, (i < length v)%nat -> cmp v i = 0) /\
  (forall c, norm ty (vscale v c) = Rabs c * norm ty v) /\
  (forall w, length w = length v -> exists s, vadd v w = Ok s /\ norm ty s <= norm ty v + norm ty w).
Proof. exact @norm_laws. Qed.
Print Assumptions C77_norms.
Theorem C77_residual :
  forall ty v x,
  plain ty -> length v = length x ->
  exists d, vsub v x = Ok d /\ norm_residual ty v x = Ok (norm ty d) /\ (norm ty d = 0 <-> v = x).
Proof. exact @residual_distance. Qed.
Print Assumptions C77_residual.
Theorem C77_dot :
  forall u v,
  length u = length v ->
  exists s, vdot u v = Ok s /\ vdot v u = Ok s /\ Rabs s <= norm L2 u * norm L2 v /\
    vdot u u = Ok (norm L2 u * norm L2 u).
Proof. exact @dot_laws. Qed.
Print Assumptions C77_dot.
(** Relative distances do not depend on the unit of measure. *)
Theorem C77_relative_partial :
  forall ty v x c,
  ty = L1REL \/ ty = L2REL -> length v = length x -> c <> 0 ->
  (forall i, (i < length v)%nat -> cmp v i <> 0) ->
  exists r, norm_residual ty v x = Ok r /\ norm_residual ty (vscale v c) (vscale x c) = Ok r.
Proof. exact @relative_scale. Qed.
Print Assumptions C77_relative_partial.
Theorem C77_relative_refuted :
  exists v x c, c <> 0 /\ norm_residual LINFREL v x = Ok 1 /\ norm_residual LINFREL (vscale v c) (vscale x c) = Ok 2.
Proof. exact @linfrel_not_relative. Qed.
Print Assumptions C77_relative_refuted.
Theorem C77_norm_kind_refuted :
  exists v, norm L1 v = 1 /\ norm L1REL v = 0 /\ norm L2REL v = 0 /\ norm LINFREL v = 0.
Proof. exact @norm_rel_zero. Qed.
Print Assumptions C77_norm_kind_refuted.
Example C77_case : plain L2 /\ length [3; 4] = length [0; 0] /\ norm L1 [3; -4] = 7 /\
  (exists r, norm_residual L1REL [2; 4] [1; 3] = Ok r /\ r = 3 / 4) /\ vdot [1; 2] [3; 4] = Ok 11.
Proof.
  split; [constructor|]. split; [reflexivity|]. split.
  { cbn. rewrite (Rabs_right 3) by lra. rewrite (Rabs_left (-4)) by lra. ring. }
  split; [|cbn; f_equal; ring]. eexists. split; [reflexivity|]. rewrite !Rabs_right by lra. field.
Qed.
