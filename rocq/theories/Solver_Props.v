(** * Solver_Props *)
From Verif Require Import Base BaseR Matrix_Model Matrix_Spec Vector_Model Vector_Spec Solver_Model Solver_Spec
  Solver_Proofs Precond_Proofs.
Open Scope R_scope.

(** C08 *)
Theorem C08_jacobi :
  forall n C w b x,
  system n C b -> w <> 0 -> length x = n ->
  exists y, jacobi_step C w b x = Ok y /\ (y = x <-> solves n C b x).
Proof. exact @jacobi_fixed_point. Qed.
Print Assumptions C08_jacobi.
Theorem C08_gauss_seidel :
  forall n C w b x old,
  system n C b -> w <> 0 -> length x = n -> length old = n ->
  exists y, gs_step C w b x old = Ok y /\ (y = x <-> solves n C b x).
Proof. exact @gs_fixed_point. Qed.
Print Assumptions C08_gauss_seidel.
Theorem C08_richardson :
  forall n mul op w b x,
  is_op n mul op -> w <> 0 -> length b = n -> length x = n ->
  exists B y, rich_rhs None w b = Ok B /\ rich_step mul None w B x = Ok y /\ (y = x <-> forall i, (i < n)%nat -> op x i = cmp b i).
Proof. exact @rich_fixed_point. Qed.
Print Assumptions C08_richardson.
(** The assembled matrix is such an operator. *)
Theorem C08_matrix_operator :
  forall n C,
  csr_wf n n C -> is_op n (multiply C) (ax n C).
Proof. exact @multiply_is_op. Qed.
Print Assumptions C08_matrix_operator.
Theorem C08_jacobi_keeps :
  forall p succ n C w b x prev,
  system n C b -> plain (p_norm p) -> (2 <= p_maxit p)%nat -> length x = n ->
  solves n C b x -> exists m, jacobi p succ C w b x prev = Ok (x, m).
Proof. exact @jacobi_keeps. Qed.
Print Assumptions C08_jacobi_keeps.
Theorem C08_gauss_seidel_keeps :
  forall p succ n C w b x prev,
  system n C b -> plain (p_norm p) -> (2 <= p_maxit p)%nat -> length x = n ->
  solves n C b x -> exists m, gauss_seidel p succ C w b x prev = Ok (x, m).
Proof. exact @gs_keeps. Qed.
Print Assumptions C08_gauss_seidel_keeps.
Theorem C08_richardson_keeps :
  forall p n mul op w b x prev,
  is_op n mul op -> plain (p_norm p) -> (2 <= p_maxit p)%nat -> length b = n -> length x = n ->
  (forall i, (i < n)%nat -> op x i = cmp b i) -> exists m, richardson p mul None w b x prev = Ok (x, m).
Proof. exact @rich_keeps. Qed.
Print Assumptions C08_richardson_keeps.
Example C08_case : system 2 ex2 [2; 3] /\ solves 2 ex2 [2; 3] [1; 1] /\ ~ solves 2 ex2 [2; 3] [1; 0] /\
  is_op 2 (multiply ex2) (ax 2 ex2).
Proof.
  destruct ex2_entries as (E00 & E01 & E10 & E11).
  split; [apply ex2_system; reflexivity|]. split; [|split].
  - intros i Hi. unfold ax, cmp. destruct i as [|[|i]]; [| |lia]; cbn [rsum nth]; rewrite ?E00, ?E01, ?E10, ?E11; ring.
  - intros H. specialize (H 0%nat ltac:(lia)). unfold ax, cmp in H. cbn [rsum nth] in H. rewrite E00, E01 in H. lra.
  - apply multiply_is_op. apply (ex2_system (b := [2; 3]) eq_refl).
Qed.

(** C09 *)
Theorem C09_jacobi_partial :
  forall p succ n C w b x prev,
  system n C b -> plain (p_norm p) -> (2 <= p_maxit p)%nat -> length x = n ->
  exists x' m, jacobi p succ C w b x prev = Ok (x', m) /\ length x' = n /\
    report p (gnorm L2 n (resid n C b x)) (fun u v r => jacobi_update n C w b u v /\ resnorm p succ n C b u v r) x x' m.
Proof. exact @jacobi_solve. Qed.
Print Assumptions C09_jacobi_partial.
Theorem C09_gauss_seidel_partial :
  forall p succ n C w b x prev,
  system n C b -> plain (p_norm p) -> (2 <= p_maxit p)%nat -> length x = n ->
  exists x' m, gauss_seidel p succ C w b x prev = Ok (x', m) /\ length x' = n /\
    report p (gnorm L2 n (resid n C b x)) (fun u v r => gs_update n C w b u v /\ resnorm p succ n C b u v r) x x' m.
Proof. exact @gs_solve. Qed.
Print Assumptions C09_gauss_seidel_partial.
Theorem C09_richardson_partial :
  forall p n mul op w b x prev,
  is_op n mul op -> plain (p_norm p) -> (2 <= p_maxit p)%nat -> length b = n -> length x = n ->
  let r0 := Rabs w * gnorm L2 n (fun i => op x i - cmp b i) in
  exists x' m, richardson p mul None w b x prev = Ok (x', m) /\ length x' = n /\
    (r0 < p_atol p -> x' = x /\ m_status m = SUCCESS /\ m_iters m = m_iters prev) /\
    (p_atol p <= r0 -> report p r0
       (fun u v r => rich_update n op w b u v /\ r = Rabs w * gnorm (p_norm p) n (fun i => op u i - cmp b i)) x x' m).
Proof. exact @rich_solve. Qed.
Print Assumptions C09_richardson_partial.
Theorem C09_jacobi_success :
  forall p n C w b x prev x' m,
  system n C b -> plain (p_norm p) -> (2 <= p_maxit p)%nat -> length x = n ->
  jacobi p false C w b x prev = Ok (x', m) -> m_status m = SUCCESS ->
  gnorm (p_norm p) n (resid n C b x') < threshold p (gnorm L2 n (resid n C b x)).
Proof. exact @jacobi_success. Qed.
Print Assumptions C09_jacobi_success.
Theorem C09_gauss_seidel_success :
  forall p n C w b x prev x' m,
  system n C b -> plain (p_norm p) -> (2 <= p_maxit p)%nat -> length x = n ->
  gauss_seidel p false C w b x prev = Ok (x', m) -> m_status m = SUCCESS ->
  gnorm (p_norm p) n (resid n C b x') < threshold p (gnorm L2 n (resid n C b x)).
Proof. exact @gs_success. Qed.
Print Assumptions C09_gauss_seidel_success.
Theorem C09_richardson_success :
  forall p n mul op w b x prev x' m,
  is_op n mul op -> plain (p_norm p) -> (2 <= p_maxit p)%nat ->
  length b = n -> length x = n -> richardson p mul None w b x prev = Ok (x', m) -> m_status m = SUCCESS ->
  let r0 := Rabs w * gnorm L2 n (fun i => op x i - cmp b i) in
  exists u, length u = n /\ (u = x' \/ rich_update n op w b u x') /\
    (Rabs w * gnorm (p_norm p) n (fun i => op u i - cmp b i) < threshold p r0 \/
     (u = x' /\ Rabs w * gnorm L2 n (fun i => op u i - cmp b i) < p_atol p)).
Proof. exact @rich_success. Qed.
Print Assumptions C09_richardson_success.
Theorem C09_limit_refuted :
  exists p b x x' m, p_maxit p = 1%nat /\ p_norm p = L1 /\ system 2 ex2 b /\
  gauss_seidel p false ex2 1 b x {| m_status := RUNNING; m_iters := 0; m_res := [] |} = Ok (x', m) /\
  m_iters m = p_maxit p /\ threshold p (nth 0 (m_res m) 0) <= gnorm (p_norm p) 2 (resid 2 ex2 b x') /\ m_status m <> MAXIT.
Proof. exact @limit_one_refuted. Qed.
Print Assumptions C09_limit_refuted.
Theorem C09_iterations_refuted :
  exists p mul op b x x' m prev, is_op 1 mul op /\ (2 <= p_maxit p)%nat /\
  richardson p mul None 1 b x prev = Ok (x', m) /\ m_status m = SUCCESS /\ x' = x /\ m_iters m = 7%nat.
Proof. exact @stale_iterations_refuted. Qed.
Print Assumptions C09_iterations_refuted.
Example C09_case :
  let p := {| p_atol := 1 / 10; p_rtol := 0; p_maxit := 20; p_diverge := true; p_norm := L1 |} in
  plain (p_norm p) /\ (2 <= p_maxit p)%nat /\ system 2 ex2 [2; 3] /\ threshold p 5 = 1 / 10.
Proof.
  cbn. split; [constructor|]. split; [lia|]. split; [apply ex2_system; reflexivity|].
  unfold threshold. cbn. rewrite Rmult_0_l, Rmax_right by lra. reflexivity.
Qed.

(** C11 *)
Theorem C11_factor_partial :
  forall n C b,
  system n C b ->
  exists P, ilu0 C = Ok P /\ system n P b /\ forall i j, (i < n)%nat -> (i <= j)%nat -> mentry P i j = mentry C i j.
Proof. exact @ilu0_upper. Qed.
Print Assumptions C11_factor_partial.
Theorem C11_apply_partial :
  forall n P b x y0,
  system n P b -> length x = n -> length y0 = n ->
  exists z y, ilu0_apply P b x y0 = Ok z /\ length z = n /\
    (forall i, (i < n)%nat -> rsum n (fun j => low P i j * cmp y j) = cmp b i) /\
    (forall i, (i < n)%nat -> rsum n (fun j => upp P i j * cmp z j) = (1 - mentry P i i) * cmp y i).
Proof. exact @ilu0_apply_char. Qed.
Print Assumptions C11_apply_partial.
Theorem C11_apply_wrong :
  forall n P b x y0 z,
  system n P b -> length x = n -> length y0 = n -> ilu0_apply P b x y0 = Ok z ->
  (exists i, (i < n)%nat /\ cmp b i <> 0) -> ~ (forall i, (i < n)%nat -> lux n P z i = cmp b i).
Proof. exact @ilu0_apply_wrong. Qed.
Print Assumptions C11_apply_wrong.
Theorem C11_factor_refuted :
  exists P, ilu0 ex2 = Ok P /\ c_vals P = [1; 1; 1 / 1; 2] /\ lu 2 P 1 1 = 3 /\ mentry ex2 1 1 = 2.
Proof. exact @ilu0_ex2. Qed.
Print Assumptions C11_factor_refuted.
Theorem C11_refuted :
  exists b P z,
  system 2 ex2 b /\ (exists x, solves 2 ex2 b x /\ length x = 2%nat) /\ ilu0 ex2 = Ok P /\ ilu0_apply P b [0; 0] [0; 0] = Ok z /\
  ~ solves 2 ex2 b z.
Proof. exact @ilu0_solve_wrong. Qed.
Print Assumptions C11_refuted.

(** C12 *)
Theorem C12_apply :
  forall n C b x,
  csr_wf n n C -> one_diag n C -> length b = n -> length x = n ->
  exists P y, pcjacobi_new C = Ok P /\ pcjacobi_apply P b x = Ok y /\ length y = n /\
    forall i, (i < n)%nat ->
      (mentry C i i <> 0 -> mentry C i i * cmp y i = cmp b i) /\ (mentry C i i = 0 -> cmp y i = cmp b i).
Proof. exact @pcjacobi_apply_ok. Qed.
Print Assumptions C12_apply.
Theorem C12_linear :
  forall n C a c u v x,
  csr_wf n n C -> one_diag n C -> length u = n -> length v = n -> length x = n ->
  exists P w yu yv yw, pcjacobi_new C = Ok P /\ vaxpy (vscale u a) c v = Ok w /\
    pcjacobi_apply P u x = Ok yu /\ pcjacobi_apply P v x = Ok yv /\ pcjacobi_apply P w x = Ok yw /\
    vaxpy (vscale yu a) c yv = Ok yw.
Proof. exact @pcjacobi_linear. Qed.
Print Assumptions C12_linear.
Theorem C12_diagonal :
  forall n C b x,
  csr_wf n n C -> one_diag n C -> diag_nz n C -> length b = n -> length x = n ->
  (forall i j, (i < n)%nat -> (j < n)%nat -> i <> j -> mentry C i j = 0) ->
  exists P y, pcjacobi_new C = Ok P /\ pcjacobi_apply P b x = Ok y /\ solves n C b y.
Proof. exact @pcjacobi_diagonal. Qed.
Print Assumptions C12_diagonal.
Example C12_case : exists P y, pcjacobi_new ex2 = Ok P /\ pcjacobi_apply P [3; 5] [0; 0] = Ok y /\ cmp y 0 = 3 /\ cmp y 1 = 5 / 2.
Proof.
  destruct ex2_entries as (E00 & E01 & E10 & E11). pose proof (ex2_system (b := [3; 5]) eq_refl) as (W & O & D & _).
  destruct (pcjacobi_apply_ok (b := [3; 5]) (x := [0; 0]) W O eq_refl eq_refl) as (P & y & E1 & E2 & L & H).
  exists P, y. split; auto. split; auto.
  pose proof (proj1 (H 0%nat ltac:(lia)) ltac:(rewrite E00; lra)) as H0.
  pose proof (proj1 (H 1%nat ltac:(lia)) ltac:(rewrite E11; lra)) as H1.
  rewrite E00 in H0. rewrite E11 in H1. unfold cmp in *. cbn [nth] in H0, H1. split; lra.
Qed.

(** C78 *)
Theorem C78_ilut_inverts :
  forall n P b x,
  system n P b -> length x = n ->
  exists z, ilut_apply P b x = Ok z /\ length z = n /\ forall i, (i < n)%nat -> lux n P z i = cmp b i.
Proof. exact @ilut_inverts. Qed.
Print Assumptions C78_ilut_inverts.
Example C78_case : exists z, ilut_apply ex2 [1; 3] [0; 0] = Ok z /\ lux 2 ex2 z 0 = 1 /\ lux 2 ex2 z 1 = 3 /\ cmp z 1 = 1.
Proof.
  destruct (ilut_inverts (x := [0; 0]) (ex2_system (b := [1; 3]) eq_refl) eq_refl) as (z & E & L & H). exists z. split; auto.
  pose proof (H 0%nat ltac:(lia)) as H0. pose proof (H 1%nat ltac:(lia)) as H1. split; [exact H0|]. split; [exact H1|].
  destruct ex2_entries as (E00 & E01 & E10 & E11).
  unfold lux, low, upp in H0, H1. cbn [rsum Nat.ltb Nat.leb Nat.eqb] in H0, H1. rewrite ?E00, ?E01, ?E11 in H0, H1. rewrite E10 in H1.
  unfold cmp in *. cbn [nth] in H0, H1. lra.
Qed.

(** C79 *)
Theorem C79_direct_partial :
  forall P (q : P) s side req,
  left_pc (set_preconditioner q LEFT s) = Some q /\
  left_pc (set_operators req side (set_preconditioner q LEFT s)) = match req with Some r => Some r | None => Some q end.
Proof. exact @direct_pc_used. Qed.
Print Assumptions C79_direct_partial.
Theorem C79_refuted :
  exists (P : Type) (q : P) side, side <> NONE /\
  ls_pc (set_operators (Some q) side (ls_new P)) = Some q /\ left_pc (set_operators (Some q) side (ls_new P)) = None.
Proof. exact @db_pc_refuted. Qed.
Print Assumptions C79_refuted.
