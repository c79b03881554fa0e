(** * Theorems on the managers (C116) *)
From Coq Require Import String.
From Verif Require Import Base BaseR Util_Model Manager_Model Manager_Spec Manager_Proofs.
Open Scope string_scope.
Open Scope nat_scope.

(** C116 *)
Theorem C116_solve :
  forall (Sub Q F : Type) (parts : db Sub -> nat -> disc -> res unit) (details : db Sub -> kind -> res unit)
         (run : solver Q -> R -> F -> F) (zero : F) (dim : nat) (mult fis : bool)
         (cs : list (call Sub Q)) h (M : manager Q F) (k : R) M',
  calls parts details run zero cs (new_manager Q zero dim mult fis) = Ok (h, M) ->
  (exists b' M2, solve run k M = Ok (b', M2)) /\
  (solve run k M = Ok (true, M') ->
   exists pre d0 mid d post s,
     (h = pre ++ (Setup d0, true) :: mid ++ (SetSolver d, true) :: post)%list /\
     never (@is_setup Sub Q) mid /\ never (@is_setup Sub Q) post /\ never (@is_build Sub Q) post /\
     named d0 d dim (s_kind s) /\ s_sources s = given (pre ++ mid) /\
     s_state s = setups h /\ s_fission s = (if mult || fis then Some (setups h) else None) /\
     s_mult s = mult /\ M' = with_flux M (run s k (g_flux M))) /\
  (solve run k M = Ok (false, M') ->
   M' = M /\ forall pre d post, (h = pre ++ (SetSolver d, true) :: post)%list ->
     ~ never (@is_setup Sub Q) post).
Proof.
  intros. split; [eapply solve_returns; eauto|]. split; intros; [eapply solve_true; eauto|eapply solve_false; eauto].
Qed.
Print Assumptions C116_solve.

Theorem C116_flux :
  forall (Sub Q F : Type) (parts : db Sub -> nat -> disc -> res unit) (details : db Sub -> kind -> res unit)
         (run : solver Q -> R -> F -> F) (zero : F) (cs : list (call Sub Q)) (M : manager Q F) h M',
  calls parts details run zero cs M = Ok (h, M') ->
  never (fun e : call Sub Q * bool => match e with (Solve _, true) => true | _ => false end) h ->
  g_flux M' = g_flux M \/ g_flux M' = zero.
Proof. exact @flux_only_solve. Qed.
Print Assumptions C116_flux.

Theorem C116_late_source_refuted :
  exists cs h M M', w_calls cs w_new = Ok (h, M) /\ given h = [7] /\
    solve w_run 1%R M = Ok (true, M') /\ g_flux M' = [].
Proof. exact late_source. Qed.
Print Assumptions C116_late_source_refuted.

Theorem C116_stale_solver_refuted :
  exists cs d h M M', w_calls cs w_new = Ok (h ++ [(SetSolver d, false)], M)%list /\
    solve w_run 1%R M = Ok (true, M') /\ g_flux M' = [3] /\ g_flux M <> [3].
Proof. exact stale_solver. Qed.
Print Assumptions C116_stale_solver_refuted.

Theorem C116_moc_refuted :
  forall (Sub Q F : Type) (parts : db Sub -> nat -> disc -> res unit) (details : db Sub -> kind -> res unit)
         (zero : F) (d : db Sub) (M M1 M' : manager Q F) eq,
  eq = "scmoc" \/ eq = "ddmoc" -> says d "equation" "dd" eq ->
  setup parts zero d M = Ok M1 ->
  g_disc M1 = MOC /\ set_solver details d M1 <> Ok (true, M').
Proof. exact @moc_never. Qed.
Print Assumptions C116_moc_refuted.

Theorem C116_eigen_partial :
  forall (Sub Q F : Type) (parts : db Sub -> nat -> disc -> res unit) (details : db Sub -> kind -> res unit)
         (zero : F) (eig : string -> manager Q F -> F) (d : db Sub) (dim : nat) (M : manager Q F),
  eigen_manager Q parts details zero d dim = Ok M ->
  says d "equation" "dd" "diffusion" \/
    (exists o, (o = "GS" \/ o = "CMFD" \/ o = "GMRES") /\ says d "outer_solver" "GS" o) ->
  (g_ready M = true /\ g_state M = 1 /\
   exists s, g_solver M = Some s /\ named d d dim (s_kind s) /\ s_state s = 1 /\
     s_fission s = Some 1 /\ s_sources s = [] /\ s_mult s = false) /\
  forall (d' : db Sub) M', eigen_solve eig d' M = Ok (true, M') ->
    exists name, says d' "eigen_solver" "PI" name /\ M' = with_flux M (eig name M) /\
      (name = "PI" \/ name = "arnoldi" \/ (name = "diffusion" /\ g_disc M = DIFF) \/
       (exists s i w, name = "cmfd" /\ g_solver M = Some s /\ s_kind s = Transport OuterCMFD i w) \/
       (exists s i w, name = "GD" /\ g_disc M <> DIFF /\ g_solver M = Some s /\ s_kind s = Transport OuterGMRES i w)).
Proof. intros. split; [eapply eigen_ready; eauto|intros; eapply eigen_method; eauto]. Qed.
Print Assumptions C116_eigen_partial.

Theorem C116_eigen_refuted :
  exists d M, eigen_manager nat w_parts w_details [0] d 2 = Ok M /\
    (forall k, solve w_run k M = Ok (false, M)) /\
    (forall eig : string -> manager nat (list nat) -> list nat,
       exists M', eigen_solve eig d M = Ok (true, M')).
Proof. exact eigen_not_ready. Qed.
Print Assumptions C116_eigen_refuted.
