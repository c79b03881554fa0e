(** * Ediff_Props *)
From Verif Require Import Base BaseR Mesh_Model Material_Model Matrix_Model Matrix_Spec Diffusion_Model Diffusion_Spec Dsolve_Model Dsolve_Spec
  Dpos_Spec Cpow_Model Ediff_Model Ediff_Spec Ediff_Proofs Ediff_Proofs2 Ediff_Proofs3 Ediff_Proofs4.
From Coq Require Import Lra.
Open Scope nat_scope.

(** C104.  Full statement: the diffusion eigenvalue solver converges to the
    multiplication factor and its flux, in forward and in adjoint problems.  It
    holds for forward problems. *)
Theorem C104_forward_partial P srt s lin : prob_ok P -> absorbing P 1 -> q_adj P = false -> fission_ok P -> chain P ->
  is_sort srt -> d_new srt P = Ok s -> solver_for lin (s_M s) (d_size P) ->
  exists k phi K q, (0 <= q < 1)%R /\ critical P k phi /\
    (forall k' phi', critical P k' phi' -> k' = k /\ forall g c, g < ng (q_mat P) -> c < ncells (q_mesh P) -> phi' g c = phi g c) /\
    (forall g c, g < ng (q_mat P) -> c < ncells (q_mesh P) -> (0 < phi g c)%R <-> exists q c', fissile_in P q c' /\ reached P (born P c') g) /\
    (forall tol maxit E, e_new srt P tol maxit = Ok E -> exists r, e_solve lin P E = Ok r /\
       (1 <= er_it r -> (Rabs (er_k r - k) <= q ^ (er_it r - 1) * K)%R /\
          forall g c, g < ng (q_mat P) -> c < ncells (q_mesh P) -> (Rabs (er_k r * flux (er_phi r) g c - k * phi g c) <= q ^ (er_it r - 1) * K)%R)) /\
    (forall tol, (0 < tol)%R -> exists M, forall maxit E r, M <= maxit -> e_new srt P tol maxit = Ok E -> e_solve lin P E = Ok r -> er_status r = SUCCESS).
Proof. intros PK AB A FO CH HS NEW LIN. exact (e_converges PK AB HS NEW LIN A FO CH). Qed.
Print Assumptions C104_forward_partial.

(** What success means: the flux times k is what the fixed source solver returns
    for the fissions of a flux psi, from which it differs by less than the
    tolerance. *)
Theorem C104_success_partial P srt s lin tol maxit E r : prob_ok P -> absorbing P 1 -> q_adj P = false ->
  is_sort srt -> d_new srt P = Ok s -> solver_for lin (s_M s) (d_size P) ->
  e_new srt P tol maxit = Ok E -> e_solve lin P E = Ok r -> er_status r = SUCCESS ->
  exists psi k', total P (fun g c => Rabs (psi g c)) = 1%R /\ total P (fun g c => Rabs (flux (er_phi r) g c)) = 1%R /\ (0 < er_k r)%R /\
    returned P (source_of P (fissions P psi)) 1 (fun g c => er_k r * flux (er_phi r) g c)%R /\
    (distance P (fun g c => er_k r * flux (er_phi r) g c) (fun g c => k' * psi g c) < tol)%R /\ (Rabs (er_k r - k') < tol)%R.
Proof. intros PK AB A HS NEW LIN EN ES SU. exact (e_success PK AB HS NEW LIN A EN ES SU). Qed.
Print Assumptions C104_success_partial.

(** The constructor succeeds, and linear solvers as assumed exist. *)
Theorem C104_constructs P srt : prob_ok P -> absorbing P 1 -> is_sort srt ->
  exists s lin, d_new srt P = Ok s /\ solver_for lin (s_M s) (d_size P) /\ forall tol maxit, exists E, e_new srt P tol maxit = Ok E.
Proof.
  intros PK AB HS. destruct (Dsolve_Proofs2.new_good PK HS) as (s & NEW & _). destruct (solver_exists PK AB HS NEW) as (lin & LIN).
  exists s, lin. split; [auto|]. split; [auto|]. intros tol maxit. destruct (e_new_ok HS NEW tol maxit) as (F & _ & EN). eauto.
Qed.
Print Assumptions C104_constructs.

(** Adjoint problems: the loss operator is the adjoint one, the gain operator is
    not.  For this cell forward and adjoint factor are 5/2, and the solver reports
    success with 2. *)
Theorem C104_adjoint_refuted : exists P P', q_adj P = true /\ q_adj P' = false /\ q_mesh P = q_mesh P' /\ q_mat P = q_mat P' /\
  prob_ok P /\ absorbing P 1 /\ fission_ok P /\ chain P /\
  forall srt, is_sort srt -> (exists phi, critical P (5 / 2) phi) /\ (exists phi, critical P' (5 / 2) phi) /\
    forall s lin tol maxit E, d_new srt P = Ok s -> solver_for lin (s_M s) (d_size P) -> (0 < tol)%R -> 2 <= maxit -> e_new srt P tol maxit = Ok E ->
      exists r, e_solve lin P E = Ok r /\ er_status r = SUCCESS /\ er_k r = 2%R.
Proof.
  exists (duo_prob true), (duo_prob false). repeat (split; [reflexivity|]). split; [apply duo_ok|]. split; [apply duo_absorbing|]. split; [apply duo_fission|].
  split; [apply duo_chain|]. intros srt HS. split; [eexists; apply (duo_adjoint HS)|]. split; [eexists; apply (duo_forward HS)|].
  intros s lin tol maxit E NEW LIN T0 M2 EN. exact (duo_wrong HS NEW LIN T0 M2 EN).
Qed.
Print Assumptions C104_adjoint_refuted.

(** A case of the hypotheses: the same cell forward. *)
Example C104_case : prob_ok (duo_prob false) /\ absorbing (duo_prob false) 1 /\ fission_ok (duo_prob false) /\ chain (duo_prob false).
Proof. split; [apply duo_ok|]. split; [apply duo_absorbing|]. split; [apply duo_fission|apply duo_chain]. Qed.
