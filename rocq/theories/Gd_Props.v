(** * Gd_Props *)
From Verif Require Import Base BaseR Loop Util_Model Mesh_Model Angle_Model Boundary_Model Boundary_Spec Boundary_Proofs Cell_Model Cell_Spec
  Material_Model Material_Spec Material_Proofs Source_Model Source_Spec Source_Proofs Sweep_Model Sweep_Spec Sweep_Proofs
  Iter_Model Iter_Spec Wg_Spec Iter_Proofs Wg_Proofs WgCase_Proofs Mgk_Model Mgk_Spec Mgk_Proofs Gd_Model Gd_Spec Gd_Proofs GdCase_Proofs.
Open Scope nat_scope.

(** C113 *)
Local Open Scope R_scope.
Theorem C113_problem_partial :
  forall w m half t q k u1 u2 x y1 y2, let y := ssrc (t_x t) in let n := cells y in let G := ng (mat y) in
  adj y = false -> (forall g, (g < G)%nat -> wellposed w m g t) -> vacuum_boundary (t_b t) ->
  length (phis t) = G -> (forall g, (g < G)%nat -> length (nth g (phis t) []) = n) ->
  fiss (t_x t) = Some q -> fscale q = 1 -> implicit (t_x t) = false -> dext (t_x t) = [] -> k <> 0 ->
  mg_state w m 0 t u1 -> mg_state w m 0 t u2 -> length x = (G * n)%nat -> length y1 = (G * n)%nat -> length y2 = (G * n)%nat ->
  exists v1 a v2 f, mg_multiply w (mg_bsize half (t_b t)) 0 u1 x y1 = Ok (v1, a) /\ mg_state w m 0 t v1 /\ length a = (G * n)%nat /\
  gd_lhs w (mg_bsize half (t_b t)) u2 x y2 = Ok (v2, f) /\ mg_state w m 0 t v2 /\ length f = (G * n)%nat /\
  ((forall i, (i < G * n)%nat -> at_ f i = k * at_ a i) <-> k_mode w t k x).
Proof. exact @gd_problem. Qed.
Print Assumptions C113_problem_partial.
Local Close Scope R_scope.
Theorem C113_short : forall w bsize t cutoff x y, adj (ssrc (t_x t)) = false -> 0 < cells (ssrc (t_x t)) ->
  0 < cutoff <= ng (mat (ssrc (t_x t))) -> length x = block_size (ssrc (t_x t)) cutoff * cells (ssrc (t_x t)) ->
  gd_lhs w bsize t x y = UB.
Proof. exact @gd_short. Qed.
Print Assumptions C113_short.
Theorem C113_default_refuted : exists w m t q, let y := ssrc (t_x t) in
  adj y = false /\ (forall g, g < ng (mat y) -> wellposed w m g t) /\ vacuum_boundary (t_b t) /\ fiss (t_x t) = Some q /\ fscale q = 1%R /\
  implicit (t_x t) = false /\ dext (t_x t) = [] /\
  let c := upscatter_cutoff (mat y) (adj y) in let k := block_size y c * cells y in 0 < k /\
  forall half x, length x = k ->
    (exists v a, mg_multiply w (mg_bsize half (t_b t)) c t x x = Ok (v, a) /\ length a = k) /\ gd_lhs w (mg_bsize half (t_b t)) t x x = UB.
Proof. exact @gd_default. Qed.
Print Assumptions C113_default_refuted.
Theorem C113_untouched :
  forall w m half t q u x y, let n := cells (ssrc (t_x t)) in let G := ng (mat (ssrc (t_x t))) in
  adj (ssrc (t_x t)) = true -> 0 < G -> open_boundary (t_b t) -> dext (t_x t) = [] -> fiss (t_x t) = Some q ->
  mg_state w m 0 t u -> length x = G * n -> length y = G * n ->
  exists v f, gd_lhs w (mg_bsize half (t_b t)) u x y = Ok (v, f) /\ length f = G * n /\ forall i, n <= i -> at_ f i = at_ y i.
Proof. exact @gd_adjoint. Qed.
Print Assumptions C113_untouched.
(** The result depends on what the output vector held before. *)
Theorem C113_adjoint_refuted : exists w m t q, let y := ssrc (t_x t) in
  adj y = true /\ (forall g, g < ng (mat y) -> wellposed w m g t) /\ vacuum_boundary (t_b t) /\ fiss (t_x t) = Some q /\ fscale q = 1%R /\
  implicit (t_x t) = false /\ dext (t_x t) = [] /\
  forall half, exists x y1 y2 v1 v2 f1 f2, length x = ng (mat y) * cells y /\ length y1 = ng (mat y) * cells y /\ length y2 = ng (mat y) * cells y /\
    gd_lhs w (mg_bsize half (t_b t)) t x y1 = Ok (v1, f1) /\ gd_lhs w (mg_bsize half (t_b t)) t x y2 = Ok (v2, f2) /\ f1 <> f2.
Proof. exact @gd_stale. Qed.
Print Assumptions C113_adjoint_refuted.
(** Case: three groups, two cells, fission in all groups. *)
Example C113_case : let t := gd_t false in let y := ssrc (t_x t) in
  adj y = false /\ ng (mat y) = 3 /\ cells y = 2 /\ (forall g, g < 3 -> wellposed gd_w gd_raw g t) /\ vacuum_boundary (t_b t) /\
  length (phis t) = 3 /\ (forall g, g < 3 -> length (nth g (phis t) []) = 2) /\
  fiss (t_x t) = Some (fis_new (ssrc (t_x t))) /\ fscale (fis_new (ssrc (t_x t))) = 1%R /\ mg_state gd_w gd_raw 0 t t /\
  upscatter_cutoff (mat y) (adj y) = 1 /\ (0 < fission_xs y 0 0 2)%R.
Proof. exact gd_case. Qed.
