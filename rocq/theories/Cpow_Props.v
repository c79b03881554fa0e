(** * Cpow_Props *)
From Verif Require Import Base BaseR Vector_Model Cpow_Model Cpow_Spec Cpow_Proofs Cpow_Proofs2.
From Coq Require Import Lra.
Open Scope R_scope.

(** C103.  Full statement: when the power method reports success, the residual of
    the pair it returns is below the tolerance; when it reports that the maximum
    number of iterations was reached, the residual was never below it.  The
    second half holds.  Of the first, what holds is that the residual of the
    previous iterate was below the tolerance; the pair returned is its image, with
    the eigenvalue within the tolerance and a residual of at most 2 C / lambda
    times the tolerance for a matrix with column sums C. *)
Theorem C103_success_partial n mul slv T s x x0 r : realises n mul slv T ->
  length (if (length x0 =? 0)%nat then repeat 1 (length x) else x0) = n -> (ps_maxit s <= length (ps_hist s))%nat ->
  power_solve mul slv s x x0 = Ok r ->
  (pr_status r = SUCCESS ->
    exists x' l', length x' = n /\ size1 n x' = 1 /\ 0 < l' /\ resid n T l' x' < ps_tol s /\ nth (pr_it r) (pr_hist r) 0 = resid n T l' x' /\
      length (pr_x r) = n /\ size1 n (pr_x r) = 1 /\ 0 < pr_lambda r /\ pr_x0 r = pr_x r /\
      (forall i, (i < n)%nat -> image n T x' i = pr_lambda r * nth i (pr_x r) 0) /\
      Rabs (pr_lambda r - l') < ps_tol s /\ resid n T (pr_lambda r) x' < 2 * ps_tol s /\
      pr_lambda r * dist1 n (pr_x r) x' < 2 * ps_tol s /\
      forall C, 0 < C -> (forall j, (j < n)%nat -> rsum n (fun i => Rabs (T i j)) <= C) ->
        pr_lambda r * resid n T (pr_lambda r) (pr_x r) < C * (2 * ps_tol s)) /\
  (pr_status r = MAXIT -> forall j, (j < ps_maxit s)%nat -> ps_tol s <= nth j (pr_hist r) 0).
Proof. exact (@solve_sound n mul slv T s x x0 r). Qed.
Print Assumptions C103_success_partial.

(** Starting at an eigenvector of a positive eigenvalue, the method stays there. *)
Theorem C103_fixed n mul slv T s x x0 l : realises n mul slv T -> length x0 = n -> (0 < n)%nat -> (ps_maxit s <= length (ps_hist s))%nat ->
  0 < ps_tol s -> (2 <= ps_maxit s)%nat -> 0 < l -> size1 n x0 <> 0 ->
  (forall i, (i < n)%nat -> image n T x0 i = l * nth i x0 0) ->
  exists r, power_solve mul slv s x x0 = Ok r /\ pr_status r = SUCCESS /\ pr_lambda r = l /\ (pr_it r <= 1)%nat /\
    forall i, (i < n)%nat -> nth i (pr_x r) 0 = nth i x0 0 / size1 n x0.
Proof.
  intros RZ LX N0. assert (G : guess x x0 = x0) by (unfold guess; destruct (Nat.eqb_spec (length x0) 0); [lia|auto]).
  intros. destruct (@solve_fixed n mul slv T s x x0 l) as (r & A1 & A2 & A3 & A4 & A5); rewrite ?G; auto.
  exists r. rewrite G in A5. auto.
Qed.
Print Assumptions C103_fixed.

(** For matrices with rows alike up to a bounded factor: a unique positive
    eigenvalue, geometric convergence to it, and success for every tolerance. *)
Theorem C103_converges n mul slv T e u d x x0 : realises n mul slv T -> mixing n T e u d -> length x0 = n -> (0 < n)%nat ->
  (forall i, (i < n)%nat -> 0 <= nth i x0 0) -> 0 < rsum n (fun j => u j * nth j x0 0) ->
  exists l w K q, 0 < l /\ 0 <= q < 1 /\ eigenpair n T l w /\ (forall l' w', eigenpair n T l' w' -> l' <> 0 -> l' = l) /\
    (forall s, (ps_maxit s <= length (ps_hist s))%nat -> exists r, power_solve mul slv s x x0 = Ok r /\
       ((1 <= pr_it r)%nat -> Rabs (pr_lambda r - l) <= q ^ (pr_it r - 1) * K /\
          forall c, (c < n)%nat -> Rabs (pr_lambda r * nth c (pr_x r) 0 - l * nth c w 0) <= q ^ (pr_it r - 1) * K)) /\
    (forall tol, 0 < tol -> exists M, forall s r, ps_tol s = tol -> (M <= ps_maxit s <= length (ps_hist s))%nat ->
       power_solve mul slv s x x0 = Ok r -> pr_status r = SUCCESS).
Proof.
  intros RZ MX LX N0 XN XP. assert (G : guess x x0 = x0) by (unfold guess; destruct (Nat.eqb_spec (length x0) 0); [lia|auto]).
  apply (@solve_converges n mul slv T e u d x x0); rewrite ?G; auto.
Qed.
Print Assumptions C103_converges.

(** Success with a residual above the tolerance: diag(1, 3) from (9/10, 1/10). *)
Theorem C103_residual_refuted : exists n mul slv T s x x0 r, realises n mul slv T /\ length x0 = n /\ (ps_maxit s <= length (ps_hist s))%nat /\
  power_solve mul slv s x x0 = Ok r /\ pr_status r = SUCCESS /\ ps_tol s < resid n T (pr_lambda r) (pr_x r).
Proof.
  destruct d_early as (r & E & S & L & R). exists 2%nat, dmul, None, dmat, (power_new (1 / 4) 1), [0; 0], [9 / 10; 1 / 10], r.
  split; [apply d_realises|]. split; [reflexivity|]. split; [cbn; lia|]. split; [exact E|]. split; [exact S|]. rewrite R. cbn. lra.
Qed.
Print Assumptions C103_residual_refuted.

(** Allowing more iterations than the constructor was told writes past the end of
    the residual history. *)
Theorem C103_storage_refuted : exists mul tol maxit tol' maxit' x x0, (forall x, exists y, mul x = Ok y) /\
  power_solve mul None (set_tolerances (power_new tol maxit) tol' maxit') x x0 = UB.
Proof.
  exists one_mul, 1, 0%nat, (/ 4), 2%nat, [0], [1]. split; [|exact storage_ub]. intros x. eexists. reflexivity.
Qed.
Print Assumptions C103_storage_refuted.

(** A case: the matrix 2 1 / 1 1 from (1, 1). *)
Example C103_case : realises 2 mmul None mmat /\ mixing 2 mmat (fun _ => 2) (fun _ => 1) (1 / 2) /\
  (forall i, (i < 2)%nat -> 0 <= nth i [1; 1] 0) /\ 0 < rsum 2 (fun j => 1 * nth j [1; 1] 0) /\
  (ps_maxit (power_new 1 5) <= length (ps_hist (power_new 1 5)))%nat.
Proof.
  split; [apply m_realises|]. split; [apply m_mixing|]. split; [|split; [cbn; lra|cbn; lia]].
  intros i Hi. destruct i as [|[|i]]; cbn; [lra|lra|lia].
Qed.
