(** * Gds_Spec: what the generalised Davidson route needs of its eigensolver. *)
From Verif Require Import Base BaseR Material_Model Source_Model Source_Spec Sweep_Model Sweep_Spec Iter_Model Iter_Spec Mgk_Model Wg_Spec Mgk_Spec Util_Model Gd_Model Gds_Model.
Open Scope nat_scope.

(** It leaves the transport problem as it was and returns k and x, both other than zero,
    with F x = k A x, whatever the states the operators are applied in. *)
Definition finds_gd_pair (w : sweeper) (m : mtl) (half : nat -> nat) (t : tstate) (es : gd_eigen) : Prop :=
  let N := ng (mat (ssrc (t_x t))) * cells (ssrc (t_x t)) in
  exists u x k, es t (repeat 1%R N) (repeat 1%R N) = Ok (u, x, k) /\ mg_state w m 0 t u /\ length x = N /\ k <> 0%R /\ (exists i, i < N /\ at_ x i <> 0%R) /\
  forall u1 u2 y1 y2 v1 a v2 f, mg_state w m 0 t u1 -> mg_state w m 0 t u2 -> length y1 = N -> length y2 = N ->
    mg_multiply w (mg_bsize half (t_b t)) 0 u1 x y1 = Ok (v1, a) -> gd_lhs w (mg_bsize half (t_b t)) u2 x y2 = Ok (v2, f) ->
    forall i, i < N -> at_ f i = (k * at_ a i)%R.
