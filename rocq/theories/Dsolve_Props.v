(** * Dsolve_Props *)
From Verif Require Import Base BaseR Util_Model Mesh_Model Mesh_Spec Material_Model Material_Spec Matrix_Model Matrix_Spec Matrix_Proofs
  Diffusion_Model Diffusion_Spec Diffusion_Proofs Dsolve_Model Dsolve_Spec Dsolve_Proofs Dsolve_Proofs2 Dsolve_Proofs3.
From Coq Require Import Lra.
Open Scope nat_scope.

(** C101.  Full statement: after every call of solve() the fluxes in the state solve
    the multigroup diffusion problem with the given sources, boundary conditions,
    incident currents and keff; the outgoing currents written to the boundary and
    the currents written to the state are those of the solution.  The balance
    holds; the outgoing currents hold at vacuum sides only, adjoint problems hold
    for the initial keff only, and the currents in the state are not those of the
    solution. *)
Theorem C101_balance_partial P srt lin : prob_ok P -> is_sort srt -> exact lin ->
  forall calls s i k r, keffs_ok P (map snd calls ++ [k]) -> (forall i k, In (i, k) calls -> call_ok P i) -> call_ok P i ->
  d_runs srt lin P calls = Ok s -> d_solve srt lin P s i k = Ok r ->
  exists J, (forall g, g < ng (q_mat P) -> currents P i (r_out r) g (fun c => nth c (nth g (r_phi r) []) 0%R) (J g)) /\
    balanced P i k (r_phi r) J /\ balanced_total P i k (r_phi r) J.
Proof. intros. eapply solve_balances; eauto. Qed.
Print Assumptions C101_balance_partial.

Theorem C101_safe :
  forall P srt lin,
  prob_ok P -> is_sort srt -> exact lin -> (forall A b x, lin A b x <> UB) ->
  forall calls s i k, keffs_ok P (map snd calls ++ [k]) -> (forall i k, In (i, k) calls -> call_ok P i) -> call_ok P i ->
  d_runs srt lin P calls = Ok s -> d_solve srt lin P s i k <> UB.
Proof. exact @solve_no_ub. Qed.
Print Assumptions C101_safe.

(** Reflecting sides: the incoming and outgoing currents have to agree. *)
Theorem C101_reflect_refuted srt : is_sort srt -> exists P i lin s r, prob_ok P /\ call_ok P i /\ exact lin /\ q_fill P = true /\
  d_new srt P = Ok s /\ d_solve srt lin P s i 1 = Ok r /\ q_bc P 0 = Some true /\ outer (q_mesh P) 0 0 /\
  at_face (q_mesh P) (r_out r) 0 0 0 <> at_face (q_mesh P) (i_in i) 0 0 0.
Proof.
  intros HS. destruct (case_reflect HS) as (s & r & A & B & C).
  exists (case_prob (fun _ => Some true) false false), (case_input 1 0), (oracle [1; / 2]%R), s, r.
  split; [apply case_prob_ok|]. split; [apply case_call_ok|]. split; [apply oracle_exact|]. split; [reflexivity|].
  split; [exact A|]. split; [exact B|]. split; [reflexivity|]. split.
  - exists 0. left. split; [reflexivity|]. exists 0, 0, 0. split; [|split; reflexivity]. repeat split; cbn; lia.
  - change (q_mesh (case_prob (fun _ => Some true) false false)) with one_cell. rewrite C. unfold at_face. cbn. lra.
Qed.
Print Assumptions C101_reflect_refuted.

(** Adjoint problems: a call with another keff has no solution, whatever the solver. *)
Theorem C101_adjoint_keff_partial :
  forall P srt lin s i k,
  prob_ok P -> is_sort srt -> exact lin -> call_ok P i ->
  q_adj P = true -> 1 < ng (q_mat P) -> d_new srt P = Ok s -> k <> 1%R ->
  forall r, d_solve srt lin P s i k <> Ok r.
Proof. exact @adjoint_fails. Qed.
Print Assumptions C101_adjoint_keff_partial.
Theorem C101_adjoint_refuted srt : is_sort srt -> exists P i s, prob_ok P /\ call_ok P i /\ q_adj P = true /\ d_new srt P = Ok s /\
  forall lin r, exact lin -> d_solve srt lin P s i 2 <> Ok r.
Proof.
  intros HS. destruct (new_good (case_prob_ok (fun _ => Some true) false true) HS) as (s & E & _).
  exists (case_prob (fun _ => Some true) false true), (case_input 1 0), s.
  split; [apply case_prob_ok|]. split; [apply case_call_ok|]. split; [reflexivity|]. split; [exact E|].
  intros lin r HL. eapply adjoint_fails; eauto; try apply case_prob_ok; try apply case_call_ok; try (cbn; lia). lra.
Qed.
Print Assumptions C101_adjoint_refuted.

(** Stored currents: two unit cells with vacuum on both sides, a flux and its mirror
    image; the current in a cell and in its mirror image have to agree. *)
Theorem C101_current_refuted : exists P a b, (0 < a)%R /\ (0 < b)%R /\ q_mesh P = two_cells /\ q_bc P 0 = q_bc P 1 /\
  cell_current P 0 (pair a b) 0 <> cell_current P 0 (pair b a) 1.
Proof.
  exists mirror_prob, 1%R, 2%R. split; [lra|split; [lra|split; [reflexivity|split; [reflexivity|]]]].
  destruct (@mirror_currents 1 2) as [-> ->]; try lra. rewrite !Rabs_pos_eq by lra. lra.
Qed.
Print Assumptions C101_current_refuted.

(** A case: vacuum on both sides, an incident current on the left. *)
Example C101_case : prob_ok (case_prob (fun _ => Some false) false false) /\ call_ok (case_prob (fun _ => Some false) false false) (case_input 0 1) /\
  exact (oracle [8 / 9; 20 / 81]%R) /\ keffs_ok (case_prob (fun _ => Some false) false false) [1%R].
Proof. split; [apply case_prob_ok|]. split; [apply case_call_ok|]. split; [apply oracle_exact|]. left. reflexivity. Qed.
Theorem C101_case_solve srt : is_sort srt -> exists s r,
  d_new srt (case_prob (fun _ => Some false) false false) = Ok s /\
  d_solve srt (oracle [8 / 9; 20 / 81]%R) (case_prob (fun _ => Some false) false false) s (case_input 0 1) 1 = Ok r /\
  nth 0 (nth 0 (r_phi r) []) 0%R = (8 / 9)%R /\ nth 0 (nth 1 (r_phi r) []) 0%R = (20 / 81)%R /\
  at_face one_cell (r_out r) 0 0 0 = (- (11 / 45))%R /\ at_face one_cell (r_out r) 1 0 0 = (16 / 45)%R.
Proof. exact (@case_vacuum srt). Qed.
Print Assumptions C101_case_solve.
