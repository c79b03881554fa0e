(** * Gmres_Props *)
From Verif Require Import Base BaseR Matrix_Model Matrix_Spec Vector_Model Vector_Spec Solver_Model Solver_Spec Solver_Proofs Precond_Proofs
  Gmres_Model Gmres_Spec Gmres_Proofs.
Open Scope R_scope.

(** C10 *)
Theorem C10_givens :
  forall k c s H N,
  (forall i, (i < k)%nat -> c i * c i + s i * s i = 1) -> (k < N)%nat ->
  rsum N (fun i => apply_givens k c s H i k * apply_givens k c s H i k) = rsum N (fun i => H i k * H i k) /\
  forall i j, j <> k -> apply_givens k c s H i j = H i j.
Proof. exact @givens_norm. Qed.
Print Assumptions C10_givens.
Theorem C10_back_substitution :
  forall k H g y,
  (forall i, (i < k)%nat -> H i i <> 0) ->
  exists y', compute_y k H g y = Ok y' /\
    forall i, (i < k)%nat -> rsum k (fun j => if (i <=? j)%nat then H i j * y' j else 0) = g i.
Proof. exact @compute_y_ok. Qed.
Print Assumptions C10_back_substitution.
Theorem C10_least_squares :
  forall n mul pl pr A L Rt b p mode restart st0 y x m it,
  is_op n mul A -> linear n A -> is_pc n pl L -> is_pc n pr Rt -> injective n (chain n L A Rt) -> length b = n -> length x = n ->
  (1 <= restart)%nat ->
  let rho := pnorm n L A b x in
  let r0 := nth 0 (m_res m) 0 in
  0 < threshold p r0 -> threshold p r0 <= rho ->
  length (m_res m) = S (p_maxit p) -> nth it (m_res m) 0 = rho -> falling (m_res m) it -> m_status m = RUNNING ->
  (S it < p_maxit p \/ it = 0)%nat ->
  let st := {| g_v := setf (g_v st0) 0%nat (vscale (vec n (pres n L A b x)) (1 / rho)); g_H := g_H st0; g_c := g_c st0; g_s := g_s st0;
               g_g := setf (fun _ => 0) 0%nat rho |} in
  exists k it' done st' m' y' x', inner_loop p mul pl pr mode restart 0 it st m = Ok (k, it', done, st', m') /\
    compute_y k (g_H st') (g_g st') y = Ok y' /\ update_x pr k (g_v st') y' x = Ok x' /\
    minimiser n L A Rt b x x' k /\ nth (it + k) (m_res m') 0 = pnorm n L A b x'.
Proof. exact @gmres_cycle. Qed.
Print Assumptions C10_least_squares.

(** C80 *)
Theorem C80_true_residual :
  forall n mul pl pr A L Rt b p mode restart x st prev,
  is_op n mul A -> linear n A -> is_pc n pl L -> is_pc n pr Rt -> injective n (chain n L A Rt) -> length b = n -> length x = n ->
  (1 <= restart)%nat -> (3 <= p_maxit p)%nat -> 0 < p_atol p -> p_rtol p <= 1 ->
  exists x' m, gmres p mul pl pr mode restart b x st prev = Ok (x', m) /\ length x' = n /\
    (pnorm n L A b x < p_atol p -> x' = x /\ m_status m = SUCCESS) /\
    (p_atol p <= pnorm n L A b x ->
       let k := m_iters m in
       let thr := threshold p (pnorm n L A b x) in
       (1 <= k)%nat /\ (S k < p_maxit p)%nat /\ length (m_res m) = S k /\ nth 0 (m_res m) 0 = pnorm n L A b x /\ nth k (m_res m) 0 = pnorm n L A b x' /\
       falling (m_res m) k /\
       (m_status m = SUCCESS /\ pnorm n L A b x' < thr \/ m_status m = RUNNING /\ thr <= pnorm n L A b x' /\ S (S k) = p_maxit p)).
Proof. exact @gmres_ok. Qed.
Print Assumptions C80_true_residual.
Theorem C80_minimal :
  forall n mul pl pr A L Rt b p mode restart x st prev,
  is_op n mul A -> linear n A -> is_pc n pl L -> is_pc n pr Rt -> injective n (chain n L A Rt) -> length b = n -> length x = n ->
  (1 <= restart)%nat -> (3 <= p_maxit p)%nat -> 0 < p_atol p -> p_rtol p <= 1 -> p_atol p <= pnorm n L A b x ->
  exists x' m, gmres p mul pl pr mode restart b x st prev = Ok (x', m) /\
    ((m_iters m <= restart)%nat -> minimiser n L A Rt b x x' (m_iters m)).
Proof. exact @gmres_minimal. Qed.
Print Assumptions C80_minimal.
Theorem C80_terminates :
  forall n mul pl pr A L Rt b p mode restart x st prev,
  is_op n mul A -> linear n A -> is_pc n pl L -> is_pc n pr Rt -> injective n (chain n L A Rt) -> length b = n -> length x = n ->
  (1 <= n <= restart)%nat -> (n + 2 <= p_maxit p)%nat -> 0 < p_atol p -> p_rtol p <= 1 -> p_atol p <= pnorm n L A b x ->
  exists x' m, gmres p mul pl pr mode restart b x st prev = Ok (x', m) /\
    m_status m = SUCCESS /\ (1 <= m_iters m <= n)%nat /\ pnorm n L A b x' < threshold p (pnorm n L A b x).
Proof. exact @gmres_terminates. Qed.
Print Assumptions C80_terminates.
(** An assembled matrix is such an operator. *)
Theorem C80_matrix_linear :
  forall n C,
  linear n (ax n C).
Proof. exact @ax_linear. Qed.
Print Assumptions C80_matrix_linear.

(** C09 for this solver: the limit is never reported. *)
Theorem C09_gmres_limit_refuted :
  forall st prev,
  exists x' m,
  gmres (swap_params 3) swap_mul None None 0 20 [1; 0] [0; 0] st prev = Ok (x', m) /\
  m_status m = RUNNING /\ m_iters m = 1%nat /\ threshold (swap_params 3) (pnorm 2 idop swap_op [1; 0] [0; 0]) <= pnorm 2 idop swap_op [1; 0] x'.
Proof. exact @gmres_limit_refuted. Qed.
Print Assumptions C09_gmres_limit_refuted.

(** A system meeting all hypotheses. *)
Example C80_case : is_op 2 swap_mul swap_op /\ linear 2 swap_op /\ is_pc 2 None idop /\ injective 2 (chain 2 idop swap_op idop) /\
  (forall st prev, exists x' m, gmres (swap_params 4) swap_mul None None 0 20 [1; 0] [0; 0] st prev = Ok (x', m) /\ m_status m = SUCCESS /\ (m_iters m <= 2)%nat).
Proof.
  split; [apply swap_is_op|]. split; [apply swap_linear|]. split; [apply id_pc|]. split; [apply swap_injective|]. apply gmres_swap_solved.
Qed.
Example C10_case : exists y, compute_y 2 (fun i j => if (i <=? j)%nat then INR (1 + i + j) else 7) (fun i => INR (3 + i)) (fun _ => 0) = Ok y /\
  y 1%nat = 4 / 3 /\ y 0%nat = 1 / 3.
Proof.
  destruct (@compute_y_ok 2 (fun i j => if (i <=? j)%nat then INR (1 + i + j) else 7) (fun i => INR (3 + i)) (fun _ => 0)) as (y & E & H).
  { intros i Hi. rewrite Nat.leb_refl. apply not_0_INR. lia. }
  exists y. split; [exact E|]. pose proof (H 0%nat ltac:(lia)) as H0. pose proof (H 1%nat ltac:(lia)) as H1. cbn in H0, H1. split; lra.
Qed.
