(** * Dpos_Props *)
From Verif Require Import Base BaseR Mesh_Model Mesh_Spec Material_Model Matrix_Model Matrix_Spec Diffusion_Model Diffusion_Spec Diffusion_Proofs
  Dsolve_Model Dsolve_Spec Dsolve_Proofs Dsolve_Proofs2 Dsolve_Proofs3 Dpos_Spec Dpos_Proofs Dpos_Proofs2 Dpos_Proofs3.
From Coq Require Import Lra.
Open Scope nat_scope.

(** C102.  Where every material absorbs more than fission gives back, the fluxes
    that solve() returns exist, are unique, grow with the sources, and are positive
    exactly in the groups that neutrons reach. *)
Theorem C102_exists P k i srt : prob_ok P -> absorbing P k -> is_sort srt -> keffs_ok P [k] -> call_ok P i ->
  exists phi, returned P i k phi.
Proof. intros PK AB. apply returned_exists; auto. Qed.
Print Assumptions C102_exists.

Theorem C102_monotone P k i i' phi phi' : prob_ok P -> absorbing P k -> weaker P i i' ->
  returned P i k phi -> returned P i' k phi' ->
  forall g c, g < ng (q_mat P) -> c < ncells (q_mesh P) -> (phi g c <= phi' g c)%R.
Proof. intros PK AB. apply returned_mono; auto. Qed.
Print Assumptions C102_monotone.

Theorem C102_unique P k i phi phi' : prob_ok P -> absorbing P k ->
  returned P i k phi -> returned P i k phi' ->
  forall g c, g < ng (q_mat P) -> c < ncells (q_mesh P) -> phi g c = phi' g c.
Proof. intros PK AB. apply returned_unique; auto; intros g Hg; split; intros; lra. Qed.
Print Assumptions C102_unique.

Theorem C102_positive P k i phi : prob_ok P -> absorbing P k -> nonnegative P i -> returned P i k phi ->
  forall g, g < ng (q_mat P) ->
    (reached P i g -> forall c, c < ncells (q_mesh P) -> (0 < phi g c)%R) /\
    (~ reached P i g -> forall c, c < ncells (q_mesh P) -> phi g c = 0%R).
Proof. intros PK AB. apply returned_reached; auto. Qed.
Print Assumptions C102_positive.

(** The condition is needed: with more fission than absorption the solver returns
    a negative flux for a positive source, without complaint. *)
Theorem C102_sharp srt : is_sort srt -> exists P i phi, prob_ok P /\ nonnegative P i /\ reached P i 0 /\ returned P i 1 phi /\ (phi 0%nat 0%nat < 0)%R.
Proof.
  intros HS. exists fissile_prob, (case_input 1 0), (fun g _ => if g =? 0 then - / 2 else - / 4)%R.
  split; [apply fissile_ok|]. split; [apply fissile_nonneg|]. split.
  - apply reached_source with (c := 0); try (cbn; lia). unfold vsource. cbn. lra.
  - split; [apply (fissile_returned HS)|]. cbn. lra.
Qed.
Print Assumptions C102_sharp.

(** A case: one cell, two groups, source in the first.  Forward, the second group
    is fed by the first; in the adjoint problem it is empty. *)
Example C102_case : prob_ok (case_prob (fun _ => Some true) false false) /\ absorbing (case_prob (fun _ => Some true) false false) 1 /\
  nonnegative (case_prob (fun _ => Some true) false false) (case_input 1 0) /\
  reached (case_prob (fun _ => Some true) false false) (case_input 1 0) 1 /\
  absorbing (case_prob (fun _ => Some true) false true) 1 /\
  ~ reached (case_prob (fun _ => Some true) false true) (case_input 1 0) 1.
Proof.
  split; [apply case_prob_ok|]. split; [apply case_absorbing|]. split; [apply case_nonneg; lra|]. split; [apply case_reached; lra|].
  split; [apply case_absorbing|apply case_unreached].
Qed.
