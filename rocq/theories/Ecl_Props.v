(** * Ecl_Props: the accelerated eigenvalue solve (C129) *)
From Coquelicot Require Import Coquelicot.
From Verif Require Import Base BaseR Loop Mesh_Model Material_Model Matrix_Model Matrix_Spec Angle_Model Sweep_Model Tally_Model Diffusion_Model Diffusion_Spec Cmfd_Model Cmfd_Spec
  Ecmfd_Model Ecmfd_Spec Ecmfd_Proofs3 Ecl_Model Ecl_Spec Ecl_Proofs Ecl_Proofs2 Ecl_Proofs3.
Open Scope nat_scope.

(** C129: the solve makes passes from the density of nu sigma_f, at most the allowed
    number, and stops earlier only at the first pass that moves no share by the
    tolerance. *)
Theorem C129_run : forall sweep srt eig U C cur alpha tol max phi k' fd' phi' q,
  esolve sweep srt eig U C cur alpha tol max phi = Ok (k', fd', phi', q) ->
  exists (s : nat -> stage) (a : R), g_k (s 0) = 1%R /\ g_h (s 0) = None /\ g_phi (s 0) = phi /\ (0 < a)%R /\
    rsum (ncells (u_mesh U)) (fun c => Rabs (nth c (g_fd (s 0)) 0%R)) = 1%R /\
    (forall c, c < ncells (u_mesh U) -> (a * nth c (g_fd (s 0%nat)) 0)%R = rsum (ng (u_mat U)) (fun g => nsf (u_mat U) g (mt (u_mesh U) c))) /\
    (forall i, i < q -> pass sweep srt eig U C cur alpha (s i) (s (S i))) /\
    g_k (s q) = k' /\ g_fd (s q) = fd' /\ g_phi (s q) = phi' /\ q <= max /\
    (forall i, S i < q -> ~ close U tol (s i) (s (S i))) /\ (q < max -> exists i, q = S i /\ close U tol (s i) (s (S i))).
Proof. exact @solve_run. Qed.
Print Assumptions C129_run.
(** A flux that its shares reproduce is a mode, and its eigenvalue is the total
    production; and the other way round. *)
Theorem C129_still : forall U C phi fd T, shares U phi fd ->
  (swept_all U C (fun g c => scattering U phi g c + emitted U g c * nth c fd 0)%R phi T <-> mode U C (total_made U phi) phi T).
Proof. exact @still_mode. Qed.
Print Assumptions C129_still.
(** The solver returns it with that eigenvalue.  Missing: what C114 misses (three
    dimensions, adjoint of several groups, fission that misses a group). *)
Theorem C129_returned_partial : forall sweep srt eig U C level T cur alpha tol n k0 phi fd,
  is_sort srt -> keeps_modes eig -> problem_ok U ->
  coarse_mesh (Mesh_Model.dim (u_mesh U)) (grid_of U 0) level = Ok C -> Mesh_Model.dim (u_mesh U) < 3 ->
  positive_flux U phi -> current_ok U cur -> u_adj U = false \/ ng (u_mat U) = 1 -> fissile U -> (0 < tol)%R ->
  shares U phi fd -> sweep fd phi = Ok (phi, T) ->
  swept_all U C (fun g c => scattering U phi g c + emitted U g c * nth c fd 0)%R phi T ->
  epasses sweep srt eig U C cur alpha tol (S n) k0 fd None phi = Ok (total_made U phi, fd, phi, 1).
Proof. exact @still_returned. Qed.
Print Assumptions C129_returned_partial.
(** With a relaxation set it is kept for any tolerance and any number of passes;
    if the tolerance is not positive all of them are made. *)
Theorem C129_kept_partial : forall sweep srt eig U C level T cur a tol n k0 phi fd,
  is_sort srt -> keeps_modes eig -> problem_ok U ->
  coarse_mesh (Mesh_Model.dim (u_mesh U)) (grid_of U 0) level = Ok C -> Mesh_Model.dim (u_mesh U) < 3 ->
  positive_flux U phi -> current_ok U cur -> u_adj U = false \/ ng (u_mat U) = 1 -> fissile U ->
  shares U phi fd -> sweep fd phi = Ok (phi, T) ->
  swept_all U C (fun g c => scattering U phi g c + emitted U g c * nth c fd 0)%R phi T ->
  epasses sweep srt eig U C cur (Some a) tol (S n) k0 fd None phi = Ok (total_made U phi, fd, phi, if Rlt_dec 0 tol then 1 else S n).
Proof. exact @still_kept. Qed.
Print Assumptions C129_kept_partial.
(** Without cmfd_relaxation in the input no solve gets beyond one pass: one that
    returns made one (or none, if none is allowed) ... *)
Theorem C129_default_pass : forall sweep srt eig U C cur tol max phi k fd phi' q,
  esolve sweep srt eig U C cur None tol max phi = Ok (k, fd, phi', q) -> q <= 1 /\ q = Nat.min 1 max.
Proof. exact @default_one_pass. Qed.
Print Assumptions C129_default_pass.
(** ... and one that goes on reads the factor that was never set. *)
Theorem C129_default_refuted : exists U C level phi T, problem_ok U /\
  coarse_mesh (Mesh_Model.dim (u_mesh U)) (grid_of U 0) level = Ok C /\ Mesh_Model.dim (u_mesh U) = 1 /\ positive_flux U phi /\ u_adj U = false /\ fissile U /\
  mode U C (3 / 2) phi T /\ forall srt eig cur max, is_sort srt -> keeps_modes eig -> current_ok U cur ->
    esolve (fun _ _ => Ok (phi, T)) srt eig U C cur None 0 (S (S max)) phi = UB.
Proof.
  destruct case_solve as (U & C & l & phi & T & fd & A1 & A2 & A3 & A4 & A5 & A6 & A7 & A8 & A9 & A10 & A11 & A12).
  exists U, C, l, phi, T. do 6 (split; [assumption|]). split; [|exact A12]. rewrite <- A8. apply (still_mode C T A7). exact A10.
Qed.
Print Assumptions C129_default_refuted.

(** Case: two groups; the solve from the start returns k = 3/2 in one pass. *)
Example C129_case : exists U C level phi T fd, let sweep := fun _ _ => Ok (phi, T) in
  problem_ok U /\ coarse_mesh (Mesh_Model.dim (u_mesh U)) (grid_of U 0) level = Ok C /\ Mesh_Model.dim (u_mesh U) = 1 /\
  positive_flux U phi /\ u_adj U = false /\ fissile U /\ shares U phi fd /\ total_made U phi = (3 / 2)%R /\ ng (u_mat U) = 2 /\
  swept_all U C (fun g c => scattering U phi g c + emitted U g c * nth c fd 0)%R phi T /\
  (forall srt eig cur alpha tol max, is_sort srt -> keeps_modes eig -> current_ok U cur -> (0 < tol)%R ->
    esolve sweep srt eig U C cur alpha tol (S max) phi = Ok ((3 / 2)%R, fd, phi, 1)) /\
  (forall srt eig cur max, is_sort srt -> keeps_modes eig -> current_ok U cur ->
    esolve sweep srt eig U C cur None 0 (S (S max)) phi = UB).
Proof. exact case_solve. Qed.
