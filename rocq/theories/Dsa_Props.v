(** * Diffusion synthetic acceleration: C108 and C109. *)
From Verif Require Import Base BaseR Loop Mesh_Model Material_Model Matrix_Model Matrix_Spec Diffusion_Model Diffusion_Spec Vector_Spec Solver_Model Solver_Spec Gmres_Model Gmres_Spec
  Cpc_Model Source_Model Source_Spec Dsa_Model Dsa_Spec Dsa_Proofs Dsa_Proofs2 Dsa_Proofs3 DsaCase_Proofs.
From Coq Require Import Lra.
Set Implicit Arguments. Unset Strict Implicit.
Open Scope nat_scope.

(** ** C108 *)
Theorem C108_operator_partial : forall srt L x f, is_sort srt -> loss_ok L -> l_adj L = false -> l_sf L = 0 -> l_keff L = 1%R -> describes x L ->
  (l_fis L = true -> fsrc f = x /\ fscale f = 1%R) ->
  let m := l_mesh L in let N := active L * ncells m in
  exists C be, build srt (loss_caps L) (loss_ops L) = Ok C /\ is_albedo (dim m) (l_bc L) (l_zero L) be /\
    forall lin, solves C N lin -> forall Vm Vb, length Vm = N ->
    exists u y, mgdsa_apply x f (l_fis L) (l_cut L) lin (length (Vm ++ Vb)) (Vm ++ Vb) = Ok (u ++ repeat 0%R (length Vb)) /\ length u = N /\
      multiply C u = Ok y /\ length y = N /\ unscattered m (l_mat L) (l_cut L) (active L) be Vm y.
Proof. intros. apply mgdsa_operator; auto. Qed.
Print Assumptions C108_operator_partial.

Theorem C108_infinite_partial : forall srt L x f k, is_sort srt -> loss_ok L -> l_adj L = false -> l_sf L = 0 -> l_keff L = 1%R -> describes x L ->
  (l_fis L = true -> fsrc f = x /\ fscale f = 1%R) -> lossy L -> infinite L k ->
  let m := l_mesh L in let n := ncells m in let N := active L * n in
  exists C, build srt (loss_caps L) (loss_ops L) = Ok C /\
    forall lin, solves C N lin -> forall phi Vm Vb, length Vm = N ->
      (forall p c, p < active L -> c < n -> part n Vm p c = (phi p - born L 1 k phi p / st (l_mat L) (l_cut L + p) k)%R) ->
    exists u, mgdsa_apply x f (l_fis L) (l_cut L) lin (length (Vm ++ Vb)) (Vm ++ Vb) = Ok (u ++ repeat 0%R (length Vb)) /\ length u = N /\
      forall p c, p < active L -> c < n -> part n u p c = phi p.
Proof. intros. apply mgdsa_infinite; auto. Qed.
Print Assumptions C108_infinite_partial.

Theorem C108_within_group : forall srt W x, let m := w_mesh W in let n := ncells m in
  is_sort srt -> wg_ok W -> problem x -> mat x = Diffusion_Model.w_mat W -> cells x = n -> (forall c, c < n -> mat_of x c = mt m c) ->
  exists C be, build srt (wg_caps W) (wg_ops W) = Ok C /\ is_albedo (dim m) (w_bc W) false be /\
    forall lin, solves C n lin -> forall Vm Vb, length Vm = n ->
    exists u y, pcdsa_apply x (w_group W) lin (Vm ++ Vb) = Ok (u ++ Vb) /\ length u = n /\ multiply C u = Ok y /\ length y = n /\
      unscattered m (Diffusion_Model.w_mat W) (w_group W) 1 be Vm y.
Proof. exact pcdsa_operator. Qed.
Print Assumptions C108_within_group.

Theorem C108_keff_refuted : forall srt, is_sort srt -> exists L x f C lin Vm u,
  loss_ok L /\ l_adj L = false /\ l_sf L = 0 /\ l_keff L = 1%R /\ describes x L /\ lossy L /\ infinite L 0 /\ l_fis L = true /\ fsrc f = x /\ fscale f = (/ 2)%R /\
  build srt (loss_caps L) (loss_ops L) = Ok C /\ solves C (active L * ncells (l_mesh L)) lin /\ length Vm = active L * ncells (l_mesh L) /\
  mgdsa_apply x f true (l_cut L) lin (length Vm) Vm = Ok u /\
  (forall be, is_albedo (dim (l_mesh L)) (l_bc L) (l_zero L) be -> ~ exists y, multiply C u = Ok y /\ unscattered (l_mesh L) (l_mat L) (l_cut L) (active L) be Vm y) /\
  exists phi, nth 0 Vm 0%R = (phi 0%nat - born L (fscale f) 0 phi 0 / st (l_mat L) 0 0)%R /\ nth 0 u 0%R <> phi 0.
Proof. exact keff_wrong. Qed.
Print Assumptions C108_keff_refuted.

Theorem C108_adjoint_refuted : forall srt, is_sort srt -> exists L x f C lin Vm u,
  loss_ok L /\ l_adj L = true /\ l_sf L = 0 /\ l_fis L = false /\ describes x L /\ infinite L 0 /\
  build srt (loss_caps L) (loss_ops L) = Ok C /\ solves C (active L * ncells (l_mesh L)) lin /\ length Vm = active L * ncells (l_mesh L) /\
  mgdsa_apply x f false (l_cut L) lin (length Vm) Vm = Ok u /\
  (forall be, is_albedo (dim (l_mesh L)) (l_bc L) (l_zero L) be -> ~ exists y, multiply C u = Ok y /\ unscattered (l_mesh L) (l_mat L) 0 (active L) be Vm y).
Proof. exact adjoint_wrong. Qed.
Print Assumptions C108_adjoint_refuted.

(** Boundary unknowns stay at the guess, whatever the operator and the outcome. *)
Theorem C108_boundary_stuck : forall x f inc cut lin p mul pl pr mode restart b x0 st prev x' mo,
  let P := fun v => mgdsa_apply x f inc cut lin (length v) v in
  (pl = Some P /\ pr = None \/ pr = Some P) ->
  gmres p mul pl pr mode restart b x0 st prev = Ok (x', mo) ->
  length x' = length x0 /\ forall i, cells x * active_groups (ng (mat x)) (adj x) cut <= i -> nth i x' 0%R = nth i x0 0%R.
Proof. exact mgdsa_stuck. Qed.
Print Assumptions C108_boundary_stuck.

Theorem C108_reflection_refuted : forall p mode restart st prev, (0 < p_atol p)%R -> 0 < p_maxit p ->
  let x := src1 (mtl1 0 0) false in
  refl_mul [2%R; 1%R] = Ok [1%R; 0%R] /\ (forall v, length v = 2 -> refl_mul v = Ok [1%R; 0%R] -> v = [2%R; 1%R]) /\
  exists mo, gmres p refl_mul (Some (fun v => mgdsa_apply x (fis1 x 1) false 0 (lin1 1) (length v) v)) None mode restart [1%R; 0%R] [1%R; 0%R] st prev = Ok ([1%R; 0%R], mo) /\
    m_status mo = SUCCESS.
Proof. exact reflection_wrong. Qed.
Print Assumptions C108_reflection_refuted.

(** *** Cases *)
(** Two groups with downscatter in an infinite medium: from the collided flux (1, 3/4) of
    the flux (1, 5/4) the preconditioner finds that flux. *)
Example C108_case : forall srt, is_sort srt -> let L := loss1 mtl2 0 false false in let x := src1 mtl2 false in
  loss_ok L /\ describes x L /\ lossy L /\ infinite L 0 /\
  (exists C, build srt (loss_caps L) (loss_ops L) = Ok C /\ solves C 2 lin3) /\
  (forall p, p < 2 -> nth p [1%R; (3 / 4)%R] 0%R = (nth p [1; 5 / 4] 0 - born L 1 0 (fun p => nth p [1; 5 / 4] 0) p / st (l_mat L) p 0)%R) /\
  mgdsa_apply x (fis1 x 1) false 0 lin3 2 [1%R; (3 / 4)%R] = Ok [1%R; (5 / 4)%R].
Proof.
  intros srt SRT L x. assert (LK : loss_ok L) by (apply mtl2_ok; lia). split; [auto|]. split; [apply describes1; cbn; lia|]. split.
  { split; [discriminate|]. intros q k Hq Hk. change (active L) with 2 in Hq |- *. destruct q as [|[|q]]; [| |lia]; cbn; lra. }
  split; [apply infinite1|]. split.
  { destruct (@one_builds mtl2 0 false false srt SRT LK) as (C & HB & _). exists C. split; auto. apply (@solves3 srt C); auto. }
  split.
  - intros p Hp. destruct p as [|[|p]]; [| |lia]; unfold born; cbn; lra.
  - cbn. unfold Pos.to_nat. cbn. unfold Pos.to_nat. cbn. f_equal. f_equal; [lra|]. f_equal. lra.
Qed.
(** The within-group preconditioner keeps the boundary unknowns. *)
Example C108_case_within : let x := src1 (mtl1 (/ 2) 0) false in
  problem x /\ pcdsa_apply x 0 (lin1 (/ 2)) [1%R; 7%R] = Ok [2%R; 7%R].
Proof.
  split; [apply (@describes1 (mtl1 (/ 2) 0) 0 false false); cbn; lia|]. cbn. repeat f_equal; lra.
Qed.

(** ** C109 *)
Theorem C109_newton : forall n at_ At p_ P a A k, is_op n at_ At -> linear n At -> is_op n p_ P -> linear n P -> is_op n a A -> linear n A ->
  exists X, is_op n (tcdsa_apply a at_ p_ k false) X /\ linear n X /\
    (forall b, length b = n -> vec n (left_over n At X b) = power n (left_over n At P) (2 ^ k) b) /\
    exists Y, is_op n (tcdsa_apply a at_ p_ k true) Y /\ linear n Y /\
      forall b, length b = n -> vec n (left_over n A Y b) = power n (left_over n A X) 2 b.
Proof.
  intros n at_ At p_ P a A k H1 H2 H3 H4 H5 H6. destruct (@tcdsa_ok n At P at_ p_ H1 H2 H3 H4 A a k H5 H6) as (X & _ & L & E & O & Y). exists X. auto.
Qed.
Print Assumptions C109_newton.

Theorem C109_rate : forall n at_ At p_ P a A k (size : list R -> R) q, is_op n at_ At -> linear n At -> is_op n p_ P -> linear n P -> is_op n a A -> linear n A ->
  (0 <= q)%R -> (forall b, length b = n -> size (vec n (left_over n At P b)) <= q * size b)%R ->
  exists X, is_op n (tcdsa_apply a at_ p_ k false) X /\
    forall b, length b = n -> (size (vec n (left_over n At X b)) <= q ^ (2 ^ k)%nat * size b)%R.
Proof.
  intros n at_ At p_ P a A k size q H1 H2 H3 H4 H5 H6 Hq HS. destruct (@C109_newton n at_ At p_ P a A k H1 H2 H3 H4 H5 H6) as (X & O & _ & E & _).
  exists X. split; auto. intros b Hb. rewrite E by auto. exact (@power_rate n (left_over n At P) size q Hq HS (2 ^ k) b Hb).
Qed.
Print Assumptions C109_rate.

(** *** Case: one unknown, the operator 2 preconditioned by 1/4: a half is left over, one
    correction leaves a quarter, and the fine correction for the operator 4 nothing less. *)
Example C109_case : let at_ := fun v => Ok [(2 * nth 0 v 0)%R] in let p_ := fun v => Ok [(nth 0 v 0 / 4)%R] in
  is_op 1 at_ (fun v _ => (2 * nth 0 v 0)%R) /\ linear 1 (fun v _ => (2 * nth 0 v 0)%R) /\
  is_op 1 p_ (fun v _ => (nth 0 v 0 / 4)%R) /\ linear 1 (fun v _ => (nth 0 v 0 / 4)%R) /\
  tcdsa_apply at_ at_ p_ 0 false [1%R] = Ok [(/ 4)%R] /\ tcdsa_apply at_ at_ p_ 1 false [1%R] = Ok [(3 / 8)%R] /\ tcdsa_apply at_ at_ p_ 1 true [1%R] = Ok [(15 / 32)%R].
Proof.
  assert (LN : forall c, linear 1 (fun v _ => (c * nth 0 v 0)%R)).
  { intros c u v w a Hu Hv Hw E i Hi. specialize (E 0 ltac:(lia)). unfold cmp in E. rewrite E. ring. }
  cbn zeta. split; [|split; [|split; [|split; [|split; [|split]]]]].
  - intros v Hv. reflexivity.
  - apply LN.
  - intros v Hv. reflexivity.
  - intros u v w a Hu Hv Hw E i Hi. specialize (E 0 ltac:(lia)). unfold cmp in E. rewrite E. field.
  - cbn. f_equal. f_equal. lra.
  - cbn. f_equal. f_equal. lra.
  - cbn. f_equal. f_equal. lra.
Qed.
