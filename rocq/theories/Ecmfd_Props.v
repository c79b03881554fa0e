(** * Ecmfd_Props *)
From Coquelicot Require Import Coquelicot.
From Verif Require Import Base BaseR Loop Mesh_Model Mesh_Spec Material_Model Matrix_Model Matrix_Spec Matrix_Proofs Angle_Model Angle_Spec
  Boundary_Model Boundary_Spec Cell_Spec Sweep_Model Sweep_Spec Region_Model Region_Spec Tally_Model Tally_Spec
  Diffusion_Model Diffusion_Spec Cmfd_Model Cmfd_Spec Ecmfd_Model Ecmfd_Spec Ecmfd_Proofs3.
Open Scope nat_scope.

(** C114.  Full statement: C114_steady_partial without the hypotheses on the
    dimension, the adjoint, [fissile] and the relaxation.  It fails in three
    dimensions, for fission that misses a group, and for the default relaxation. *)
Theorem C114_steady_partial :
  forall srt eig U C level T cur alpha phi k resweep q,
  is_sort srt -> keeps_modes eig -> problem_ok U ->
  coarse_mesh (Mesh_Model.dim (u_mesh U)) (grid_of U 0) level = Ok C -> Mesh_Model.dim (u_mesh U) < 3 ->
  positive_flux U phi -> current_ok U cur -> u_adj U = false \/ ng (u_mat U) = 1 -> fissile U ->
  (0 < k)%R -> mode U C k phi T -> resweep phi = (phi, T) -> alpha <> None \/ q <= 1 ->
  eupdates srt eig U C resweep cur alpha q None phi = Ok (repeat k q, phi).
Proof. exact @mode_kept. Qed.
Print Assumptions C114_steady_partial.
Theorem C114_default_refuted :
  forall srt eig U C level T cur phi k resweep q,
  is_sort srt -> keeps_modes eig -> problem_ok U ->
  coarse_mesh (Mesh_Model.dim (u_mesh U)) (grid_of U 0) level = Ok C -> Mesh_Model.dim (u_mesh U) < 3 ->
  positive_flux U phi -> current_ok U cur -> u_adj U = false \/ ng (u_mat U) = 1 -> fissile U ->
  (0 < k)%R -> mode U C k phi T -> resweep phi = (phi, T) ->
  eupdates srt eig U C resweep cur None (S (S q)) None phi = UB.
Proof. exact @default_unset. Qed.
Print Assumptions C114_default_refuted.
Theorem C114_3d_refuted :
  exists U C level k phi T,
  problem_ok U /\ coarse_mesh (Mesh_Model.dim (u_mesh U)) (grid_of U 0) level = Ok C /\ Mesh_Model.dim (u_mesh U) = 3 /\
  positive_flux U phi /\ u_adj U = false /\ fissile U /\ (0 < k)%R /\ mode U C k phi T /\
  forall srt cur alpha, is_sort srt -> current_ok U cur ->
  (forall eig k' phi' h, finds_modes eig -> eupdate srt eig U C T cur alpha None phi = Ok (k', phi', h) -> k' <> k) /\
  exists eig k' phi' h, finds_modes eig /\ eupdate srt eig U C T cur alpha None phi = Ok (k', phi', h).
Proof. exact @no_leakage_mode. Qed.
Print Assumptions C114_3d_refuted.
Theorem C114_spectrum_refuted :
  exists U C level k phi T,
  problem_ok U /\ coarse_mesh (Mesh_Model.dim (u_mesh U)) (grid_of U 0) level = Ok C /\ Mesh_Model.dim (u_mesh U) = 1 /\
  positive_flux U phi /\ u_adj U = false /\ (0 < k)%R /\ mode U C k phi T /\
  (exists X, forall g i, chi (u_mat U) g i = X g) /\
  forall srt cur alpha, is_sort srt -> current_ok U cur ->
  (forall eig k' phi' h, finds_modes eig -> eupdate srt eig U C T cur alpha None phi = Ok (k', phi', h) -> k' = 0%R) /\
  exists eig k' phi' h, finds_modes eig /\ eupdate srt eig U C T cur alpha None phi = Ok (k', phi', h).
Proof. exact @spectrum_dropped. Qed.
Print Assumptions C114_spectrum_refuted.

(** A case: two groups, k = 3/2; and a solver that keeps eigenvectors. *)
Example C114_case : exists U C level k phi T,
  problem_ok U /\ coarse_mesh (Mesh_Model.dim (u_mesh U)) (grid_of U 0) level = Ok C /\ Mesh_Model.dim (u_mesh U) = 1 /\
  positive_flux U phi /\ u_adj U = false /\ fissile U /\ k = (3 / 2)%R /\ mode U C k phi T /\ ng (u_mat U) = 2 /\
  (born U phi 0 0 <> scattering U phi 1 0)%R.
Proof. exact case_mode. Qed.
Example C114_case_solver : exists eig, keeps_modes eig.
Proof. exists quotient_solver. exact quotient_keeps. Qed.
Example C114_case_finder : exists eig, finds_modes eig.
Proof. exists checked_solver. exact checked_finds. Qed.
