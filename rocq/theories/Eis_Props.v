(** * Eis_Props: calls of the dense eigensolver (C112). *)
From Coq Require Import Lra Lia.
From Verif Require Import Base BaseR Loop Vector_Model Vector_Spec Vector_Proofs Solver_Spec Gmres_Model Gmres_Spec Gmres_Proofs Matrix_Model Dense_Model Dense_Spec Rom_Spec Davidson_Model Davidson_Spec Davidson_Proofs2 Davidson_Proofs3 Davidson_Props Eis_Model.
Open Scope nat_scope.

(** A solver given its operators once solves their problem.  Missing: complex
    eigenvalues and a second call without a right-hand matrix (refuted). *)
Theorem C112_call_partial : forall rg which A B x, dwf A -> (forall W, B = Some W -> dwf W /\ dn W = dn A /\ dm W = dm A) -> dm A = dn A -> 0 < dn A ->
  length x = dn A -> spectrum A B (rg A B) ->
  forall st l v, eis_call rg which (eis_set (None, None) A B) x = Ok (st, l, v) ->
  length v = dn A /\ gnorm L2 (dn A) (cmp v) = 1%R /\ exists i, i < dn A /\ l = cmp (eo_R (rg A B)) i /\
    (which = 1 -> forall j, j < dn A -> (cmp (eo_R (rg A B)) j <= l)%R) /\ (which = 0 -> forall j, j < dn A -> (l <= cmp (eo_R (rg A B)) j)%R) /\
    (cmp (eo_I (rg A B)) i = 0%R -> reduced_pair A B l v).
Proof.
  intros rg which A B x WA WB SQ N Lx SP st l v E. unfold eis_call, eis_set in E. cbn [fst snd] in E.
  assert (EB : match B with Some B => Some B | None => None end = B) by (destruct B; reflexivity). rewrite EB in E.
  destruct (eis_solve which (dn A) (rg A B) x) as [[l' v']| |] eqn:ES; cbn [bind fst snd] in E; try discriminate. injection E as _ <- <-.
  exact (C112_dense_partial WA WB SQ N Lx SP ES).
Qed.
Print Assumptions C112_call_partial.

(** Every solve that ends is reported as not converged, so also those that found
    the wanted pair. *)
Definition diag : dense := D 2 2 [2; 0; 0; 3]%R.
Definition diag_out : eis_out := {| eo_V := D 2 2 [5; 0; 0; 4]%R; eo_R := [2; 3]%R; eo_I := [0; 0]%R |}.
Theorem C112_status_refuted :
  (forall rg which ops x st l v, eis_call rg which ops x = Ok (st, l, v) -> st = DMAXIT) /\
  exists rg A x st l v, dwf A /\ spectrum A None (rg A None) /\ eis_call rg 1 (eis_set (None, None) A None) x = Ok (st, l, v) /\
    reduced_pair A None l v /\ (forall j, j < dn A -> (cmp (eo_R (rg A None)) j <= l)%R) /\ st <> DSUCCESS.
Proof.
  split.
  - intros rg which [[A|] B] x st l v E; unfold eis_call in E; cbn [fst snd] in E; [|discriminate].
    destruct (eis_solve _ _ _ _) as [p| |]; cbn [bind] in E; congruence.
  - assert (SP : spectrum diag None diag_out).
    { split; [reflexivity|]. do 4 (split; [reflexivity|]). intros i Hi _. cbn [diag dn] in Hi. destruct i as [|[|i]]; [| |lia].
      + split; [exists 0; split; [cbn; lia|cbn; lra]|]. eexists _, _. split; [cbn; reflexivity|]. split; [reflexivity|]. split; [reflexivity|]. intros [|[|i]] Hj; cbn [dm diag] in Hj; [| |lia]; unfold cmp; cbn; ring.
      + split; [exists 1; split; [cbn; lia|cbn; lra]|]. eexists _, _. split; [cbn; reflexivity|]. split; [reflexivity|]. split; [reflexivity|]. intros [|[|i]] Hj; cbn [dm diag] in Hj; [| |lia]; unfold cmp; cbn; ring. }
    assert (ES : eis_solve 1 2 diag_out [0; 0]%R = Ok (3%R, [0; 1]%R)).
    { unfold eis_solve, eis_pick. cbn. destruct (Rlt_dec 2 3); [|lra]. cbn.
      assert (N : sqrt (0 + 0 * 0 + 4 * 4) = 4%R) by (replace (0 + 0 * 0 + 4 * 4)%R with (4 * 4)%R by ring; apply sqrt_square; lra). rewrite N. destruct (Req_EM_T 4 0); [lra|].
      unfold vscale. cbn. f_equal. f_equal. f_equal; [field|]. f_equal. field. }
    assert (EC : eis_call (fun _ _ => diag_out) 1 (eis_set (None, None) diag None) [0; 0]%R = Ok (DMAXIT, 3%R, [0; 1]%R)).
    { unfold eis_call, eis_set. cbn [fst snd]. change (dn diag) with 2. rewrite ES. reflexivity. }
    assert (MX : forall j, j < dn diag -> (cmp (eo_R diag_out) j <= 3)%R).
    { intros [|[|j]] Hj; cbn [diag dn] in Hj; [| |lia]; unfold cmp; cbn; lra. }
    exists (fun _ _ => diag_out), diag, [0; 0]%R, DMAXIT, 3%R, [0; 1]%R. split; [reflexivity|]. split; [exact SP|]. split; [exact EC|]. split; [|split; [exact MX|discriminate]].
    destruct (C112_call_partial (fun _ _ => diag_out) 1 diag None [0; 0]%R) with (st := DMAXIT) (l := 3%R) (v := [0; 1]%R) as (_ & _ & i & Hi & _ & _ & _ & P); auto; try reflexivity.
    + discriminate.
    + cbn. lia.
    + apply P. cbn [diag dn] in Hi. destruct i as [|[|i]]; [reflexivity|reflexivity|lia].
Qed.
Print Assumptions C112_status_refuted.
