(** * The Davidson eigensolver and the dense eigensolver: C111 and C112. *)
From Verif Require Import Base BaseR Loop Vector_Model Vector_Spec Vector_Proofs Solver_Spec Gmres_Model Gmres_Spec Gmres_Proofs Matrix_Model Dense_Model Dense_Spec Rom_Spec Davidson_Model Davidson_Spec Davidson_Proofs2 Davidson_Proofs3.
From Coq Require Import Lra.
Set Implicit Arguments. Unset Strict Implicit.
Open Scope nat_scope.

(** ** C111 *)
(** Whatever the status, the vector has length one, the eigenvalue is its Rayleigh quotient (the residual is orthogonal
    to the vector) and the last residual reported is that of the pair; success means it is below the tolerance. *)
Theorem C111_report : forall n mulA mulB opA opB P psolve s maxit tol u x0 hist res,
  is_op n mulA opA -> linear n opA -> is_op n mulB opB -> linear n opB -> sized n P -> unit_pairs psolve ->
  length u = n -> length x0 = n -> 0 < maxit ->
  davidson mulA mulB P psolve s maxit tol u x0 hist = Ok res ->
  length (dr_u res) = n /\ inner n (cmp (dr_u res)) (cmp (dr_u res)) = 1%R /\ inner n (cmp (dr_u res)) (gap opA opB (dr_lambda res) (dr_u res)) = 0%R /\
  nth (dr_it res) (dr_hist res) 0%R = gnorm L2 n (gap opA opB (dr_lambda res) (dr_u res)) /\
  (dr_status res = DSUCCESS -> (gnorm L2 n (gap opA opB (dr_lambda res) (dr_u res)) < tol)%R) /\ dr_it res <= maxit /\ dr_solves res <= s * (maxit / s + 1).
Proof.
  intros n mulA mulB opA opB P psolve s maxit tol u x0 hist res HA LA HB LB HP HS Lu Lx Hm E.
  destruct (@davidson_reports n mulA mulB opA opB P psolve s maxit tol HA LA HB LB HP HS u x0 hist res Lu Lx Hm E) as ((K1 & K2 & K3 & K4) & K5 & K6 & K7). auto 8.
Qed.
Print Assumptions C111_report.

(** With as many vectors as unknowns a run that does not break down ends. *)
Theorem C111_ends : forall n mulA mulB opA opB P psolve s maxit tol u x0 hist res,
  is_op n mulA opA -> linear n opA -> is_op n mulB opB -> linear n opB -> sized n P -> unit_pairs psolve ->
  length u = n -> length x0 = n -> n <= s -> n < maxit -> (0 < tol)%R ->
  davidson mulA mulB P psolve s maxit tol u x0 hist = Ok res -> dr_status res = DSUCCESS /\ dr_it res <= n /\ dr_solves res = dr_it res.
Proof. intros n mulA mulB opA opB P psolve s maxit tol u x0 hist res HA LA HB LB HP HS. apply (@davidson_ends n mulA mulB opA opB P psolve s maxit tol); auto. Qed.
Print Assumptions C111_ends.
(** Two steps to the eigenvalue 1 of the exchange. *)
Example C111_case : exists res, davidson ex_mul id_mul (fun _ r _ => Ok r) two_pair 2 10 (1 / 2) [0; 0]%R [1; 0]%R (repeat 0%R 11) = Ok res /\ dr_status res = DSUCCESS /\ dr_it res = 2 /\ dr_lambda res = 1%R /\
  is_op 2 ex_mul ex_op /\ linear 2 ex_op /\ is_op 2 id_mul cmp /\ linear 2 cmp /\ unit_pairs two_pair.
Proof.
  destruct two_steps as (r & E & S1 & S2 & S3). exists r. do 4 (split; auto). split; [apply ex_is|]. split; [apply ex_linear|]. split; [apply id_is|]. split; [|apply two_units].
  intros x y w a _ _ _ E' i Hi. apply E'. auto.
Qed.

(** With the default preconditioner solved exactly, a run of two vectors or more ends at its first iteration or breaks down. *)
Theorem C111_breakdown : forall n mulA mulB opA opB P psolve s maxit tol u x0 hist res,
  is_op n mulA opA -> linear n opA -> is_op n mulB opB -> linear n opB -> sized n P -> unit_pairs psolve -> exact_pc n opA opB P ->
  length u = n -> length x0 = n -> 2 <= s -> 0 < maxit ->
  davidson mulA mulB P psolve s maxit tol u x0 hist = Ok res -> dr_it res = 1 /\ dr_solves res = 1.
Proof. intros n mulA mulB opA opB P psolve s maxit tol u x0 hist res HA LA HB LB HP HS. apply (@davidson_exact n mulA mulB opA opB P psolve s maxit tol); auto. Qed.
Print Assumptions C111_breakdown.

(** With one vector nothing is ever improved. *)
Theorem C111_one_vector : forall n mulA mulB opA opB P psolve maxit tol u x0 hist res,
  is_op n mulA opA -> linear n opA -> is_op n mulB opB -> linear n opB -> sized n P -> unit_pairs psolve ->
  length u = n -> length x0 = n -> 0 < maxit ->
  davidson mulA mulB P psolve 1 maxit tol u x0 hist = Ok res ->
  dr_it res = 1 /\ exists g, (g = 1 \/ g = -1)%R /\ forall e, e < n -> cmp (dr_u res) e = (g * (cmp x0 e / norm L2 x0))%R.
Proof. intros n mulA mulB opA opB P psolve maxit tol u x0 hist res HA LA HB LB HP HS Lu Lx Hm. eapply (@davidson_one n mulA mulB opA opB P psolve 1 maxit tol); eauto. Qed.
Print Assumptions C111_one_vector.

(** The default preconditioner, solved exactly: the second iteration divides by zero. *)
Theorem C111_default_refuted : exists n mulA mulB opA opB P psolve s maxit tol u x0 hist,
  is_op n mulA opA /\ is_op n mulB opB /\ sized n P /\ unit_pairs psolve /\ exact_pc n opA opB P /\ length u = n /\ length x0 = n /\ length hist = S maxit /\ n <= s /\ n < maxit /\ (0 < tol)%R /\
  norm L2 x0 <> 0%R /\ davidson mulA mulB P psolve s maxit tol u x0 hist = UB.
Proof.
  exists 2, ex_mul, id_mul, ex_op, cmp, ex_pc, one_pair, 2, 10, (1 / 2)%R, [0; 0]%R, [1; 0]%R, (repeat 0%R 11).
  split; [apply ex_is|]. split; [apply id_is|]. split; [apply ex_pc_sized|]. split; [apply one_units|]. split; [apply ex_exact|]. do 3 (split; [reflexivity|]). split; [lia|]. split; [lia|]. split; [lra|].
  split; [rewrite nrm10; lra|]. apply exact_breaks.
Qed.
Print Assumptions C111_default_refuted.

(** Three projected problems are solved under a limit of two, with one iteration reported and no convergence. *)
Theorem C111_limit_refuted : exists n mulA mulB opA opB P psolve s maxit tol u x0 hist res,
  is_op n mulA opA /\ is_op n mulB opB /\ sized n P /\ unit_pairs psolve /\ length u = n /\ length x0 = n /\ length hist = S maxit /\
  davidson mulA mulB P psolve s maxit tol u x0 hist = Ok res /\ dr_status res = DMAXIT /\ dr_it res < maxit < dr_solves res.
Proof.
  destruct one_vector_stays as (r & E & S1 & S2 & S3 & _). exists 2, ex_mul, id_mul, ex_op, cmp, ex_pc, one_pair, 1, 2, (1 / 2)%R, [0; 0]%R, [1; 0]%R, (repeat 0%R 3), r.
  split; [apply ex_is|]. split; [apply id_is|]. split; [apply ex_pc_sized|]. split; [apply one_units|]. do 3 (split; [reflexivity|]). split; [exact E|]. split; auto. lia.
Qed.
Print Assumptions C111_limit_refuted.

(** ** C112 *)
(** The pair of largest (or smallest) real part, scaled to length one; a pair of the problem when its imaginary part is zero. *)
Theorem C112_dense_partial : forall which M W out x l v, dwf M -> (forall W', W = Some W' -> dwf W' /\ dn W' = dn M /\ dm W' = dm M) -> dm M = dn M -> 0 < dn M -> length x = dn M -> spectrum M W out ->
  eis_solve which (dn M) out x = Ok (l, v) ->
  length v = dn M /\ gnorm L2 (dn M) (cmp v) = 1%R /\ exists i, i < dn M /\ l = cmp (eo_R out) i /\
    (which = 1 -> forall j, j < dn M -> (cmp (eo_R out) j <= l)%R) /\ (which = 0 -> forall j, j < dn M -> (l <= cmp (eo_R out) j)%R) /\
    (cmp (eo_I out) i = 0%R -> reduced_pair M W l v).
Proof. exact dense_pair. Qed.
Print Assumptions C112_dense_partial.
Example C112_case : exists M out x l v, dwf M /\ dm M = dn M /\ dn M = 2 /\ length x = 2 /\ spectrum M None out /\ eis_solve 1 2 out x = Ok (l, v) /\ l = 3%R /\ v = [0; 1]%R.
Proof.
  exists (D 2 2 [2; 0; 0; 3]%R), {| eo_V := D 2 2 [5; 0; 0; 4]%R; eo_R := [2; 3]%R; eo_I := [0; 0]%R |}, [0; 0]%R, 3%R, [0; 1]%R.
  do 4 (split; [reflexivity|]). split; [|split; auto].
  - split; [reflexivity|]. do 4 (split; [reflexivity|]). intros i Hi _. cbn [dn] in Hi. destruct i as [|[|i]]; [| |lia].
    + split; [exists 0; split; [cbn; lia|cbn; lra]|]. eexists _, _. split; [cbn; reflexivity|]. split; [reflexivity|]. split; [reflexivity|]. intros [|[|i]] Hj; cbn [dm] in Hj; [| |lia]; unfold cmp; cbn; ring.
    + split; [exists 1; split; [cbn; lia|cbn; lra]|]. eexists _, _. split; [cbn; reflexivity|]. split; [reflexivity|]. split; [reflexivity|]. intros [|[|i]] Hj; cbn [dm] in Hj; [| |lia]; unfold cmp; cbn; ring.
  - unfold eis_solve, eis_pick. cbn. destruct (Rlt_dec 2 3); [|lra]. cbn.
    assert (N : sqrt (0 + 0 * 0 + 4 * 4) = 4%R) by (replace (0 + 0 * 0 + 4 * 4)%R with (4 * 4)%R by ring; apply sqrt_square; lra). rewrite N. destruct (Req_EM_T 4 0); [lra|].
    unfold vscale. cbn. f_equal. f_equal. f_equal; [field|]. f_equal. field.
Qed.

(** A complex eigenvalue is reported by its real part, with half of its vector. *)
Theorem C112_complex_refuted : exists M out x l v, dwf M /\ dm M = 2 /\ dn M = 2 /\ length x = 2 /\ spectrum M None out /\ eis_solve 1 2 out x = Ok (l, v) /\ ~ reduced_pair M None l v.
Proof. exact complex_wrong. Qed.
Print Assumptions C112_complex_refuted.

(** Solving A x = l x after A x = l B x still solves the latter. *)
Theorem C112_stale_refuted : exists (A B : dense) ops l x, eis_set (eis_set (None, None) A (Some B)) A None = ops /\ fst ops = Some A /\
  reduced_pair A (snd ops) l x /\ ~ reduced_pair A None l x.
Proof.
  exists (D 1 1 [2%R]), (D 1 1 [2%R]), (Some (D 1 1 [2%R]), Some (D 1 1 [2%R])), 1%R, [1%R]. split; [reflexivity|]. split; [reflexivity|]. split.
  - eexists _, _. split; [cbn; reflexivity|]. split; [cbn; reflexivity|]. split; [reflexivity|]. intros [|i] Hi; cbn [dm] in Hi; [|lia]. unfold cmp. cbn. ring.
  - intros (y & z & Ey & Ez & _ & H). injection Ez as <-. specialize (H 0 ltac:(cbn; lia)). cbn in Ey. injection Ey as <-. unfold cmp in H. cbn in H. lra.
Qed.
Print Assumptions C112_stale_refuted.
