(** * Cmfd_Props *)
From Coquelicot Require Import Coquelicot.
From Verif Require Import Base BaseR Loop Mesh_Model Mesh_Spec Material_Model Matrix_Model Matrix_Spec Matrix_Proofs Angle_Model Angle_Spec
  Boundary_Model Boundary_Spec Cell_Spec Sweep_Model Sweep_Spec Region_Model Region_Spec Tally_Model Tally_Spec
  Diffusion_Model Diffusion_Spec Cmfd_Model Cmfd_Spec Cmfd_Proofs6.
Open Scope nat_scope.

(** C96.  Full statement: C96_residual_partial and C96_fixed_point_partial without
    the hypotheses on the dimension and [conserving].  It fails in three
    dimensions, for fission with keff other than 1, and for the adjoint. *)
Theorem C96_residual_partial :
  forall srt U C level T q cur keff alpha phi s,
  is_sort srt -> problem_ok U ->
  coarse_mesh (Mesh_Model.dim (u_mesh U)) (grid_of U 0) level = Ok C -> Mesh_Model.dim (u_mesh U) < 3 ->
  positive_flux U phi -> shape U q -> current_ok U cur -> conserving U keff -> swept_all U C s phi T ->
  exists cm cmap A b x0 y,
  coarse_problem srt U C T q cur keff alpha phi = Ok (cm, cmap, (A, b, x0)) /\
  ncells cm = cm_n C 0 * cm_n C 1 * cm_n C 2 /\
  length b = ng (u_mat U) * ncells cm /\ length x0 = ng (u_mat U) * ncells cm /\ length y = ng (u_mat U) * ncells cm /\ multiply A x0 = Ok y /\
  forall g I J L, g < ng (u_mat U) -> I < cm_n C 0 -> J < cm_n C 1 -> L < cm_n C 2 ->
  let c := Mesh_Model.index (cm_n C 0) (cm_n C 1) I J L in
  (0 < vol cm c)%R /\
  (vol cm c * (nth (c + g * ncells cm) b 0 - nth (c + g * ncells cm) y 0) =
   coarse_total C (grid_of U g) I J L (fun i => source_of U keff q phi g i - s g i))%R.
Proof. exact @residual_of_sweep. Qed.
Print Assumptions C96_residual_partial.
Theorem C96_fixed_point_partial :
  forall srt solve U C level T q cur keff alpha phi,
  is_sort srt -> problem_ok U ->
  coarse_mesh (Mesh_Model.dim (u_mesh U)) (grid_of U 0) level = Ok C -> Mesh_Model.dim (u_mesh U) < 3 ->
  positive_flux U phi -> shape U q -> current_ok U cur -> conserving U keff -> transport_solution U C keff q phi T ->
  keeps_solutions solve -> update srt solve U C T q cur keff alpha phi = Ok phi.
Proof. exact @solution_fixed. Qed.
Print Assumptions C96_fixed_point_partial.
Theorem C96_keff_refuted :
  exists U C level keff q phi T,
  problem_ok U /\ coarse_mesh (Mesh_Model.dim (u_mesh U)) (grid_of U 0) level = Ok C /\ Mesh_Model.dim (u_mesh U) = 1 /\
  positive_flux U phi /\ shape U q /\ transport_solution U C keff q phi T /\
  u_adj U = false /\ one_spectrum U /\ (0 < keff)%R /\ moved U C keff q phi T.
Proof. exact @keff_ignored. Qed.
Print Assumptions C96_keff_refuted.
Theorem C96_adjoint_refuted :
  exists U C level keff q phi T,
  problem_ok U /\ coarse_mesh (Mesh_Model.dim (u_mesh U)) (grid_of U 0) level = Ok C /\ Mesh_Model.dim (u_mesh U) = 1 /\
  positive_flux U phi /\ shape U q /\ transport_solution U C keff q phi T /\
  u_adj U = true /\ u_mult U = false /\ moved U C keff q phi T.
Proof. exact @adjoint_moves. Qed.
Print Assumptions C96_adjoint_refuted.
Theorem C96_3d_refuted :
  exists U C level keff q phi T,
  problem_ok U /\ coarse_mesh (Mesh_Model.dim (u_mesh U)) (grid_of U 0) level = Ok C /\ Mesh_Model.dim (u_mesh U) = 3 /\
  positive_flux U phi /\ shape U q /\ transport_solution U C keff q phi T /\
  conserving U keff /\ moved U C keff q phi T.
Proof. exact @no_leakage_3d. Qed.
Print Assumptions C96_3d_refuted.

(** A case: two groups on two cells, with transfer between the groups in one of them. *)
Example C96_case : exists U C level keff q phi T,
  problem_ok U /\ coarse_mesh (Mesh_Model.dim (u_mesh U)) (grid_of U 0) level = Ok C /\ Mesh_Model.dim (u_mesh U) = 1 /\
  positive_flux U phi /\ shape U q /\ transport_solution U C keff q phi T /\ conserving U keff /\
  ng (u_mat U) = 2 /\ scattering U phi 1 0 = (5 / 16)%R.
Proof. exact case_fixed. Qed.
Example C96_case_sort : is_sort isort. Proof. exact isort_is_sort. Qed.
Example C96_case_solver : keeps_solutions (fun _ _ x => Ok x). Proof. intros A b x _. reflexivity. Qed.
