(** * Fcl_Props: the accelerated multigroup solve (C130) *)
From Coquelicot Require Import Coquelicot.
From Verif Require Import Base BaseR Loop Mesh_Model Material_Model Matrix_Model Matrix_Spec Sweep_Model Tally_Model Diffusion_Model Cmfd_Model Cmfd_Spec
  Cmfd_Proofs6 Fcl_Model Fcl_Spec Fcl_Proofs.
Open Scope nat_scope.

(** C130: sweeps and updates alternate.  Either the first sweep that moves no flux
    by the tolerance is the last thing done, and its flux is left; or limit + 1
    sweeps are made and the flux left is that of an update. *)
Theorem C130_run : forall sweep srt solve U C q keff alpha tol max phi0 f sw up, shaped U sweep ->
  fsolve sweep srt solve U C q keff alpha tol max phi0 = Ok (f, sw, up) ->
  exists phi p : nat -> list (list R), phi 0 = phi0 /\ up <= S max /\ accelerated sweep srt solve U C q keff alpha tol up phi p /\
    ((sw = S max /\ up = S max /\ f = phi (S max)) \/
     (sw = S up /\ sw <= S max /\ (exists T cur, sweep (phi up) = Ok (f, T, cur)) /\ near U tol f (phi up))).
Proof. intros sweep srt solve U C q keff alpha tol max phi0 f sw up SH E. exact (passes_accelerated SH E). Qed.
Print Assumptions C130_run.
(** A solution of the transport problem is left as it is.  Missing: what C96 misses
    (three dimensions, keff other than 1, adjoint of several groups). *)
Theorem C130_solution_partial : forall sweep srt solve U C level T q cur keff alpha tol max phi, is_sort srt -> problem_ok U ->
  coarse_mesh (Mesh_Model.dim (u_mesh U)) (grid_of U 0) level = Ok C -> Mesh_Model.dim (u_mesh U) < 3 ->
  positive_flux U phi -> shape U q -> current_ok U cur -> conserving U keff -> transport_solution U C keff q phi T ->
  keeps_solutions solve -> sweep phi = Ok (phi, T, cur) ->
  fsolve sweep srt solve U C q keff alpha tol max phi = if Rlt_dec 0 tol then Ok (phi, 1, 0) else Ok (phi, S max, S max).
Proof. exact @solution_left. Qed.
Print Assumptions C130_solution_partial.
(** The number of sweeps is not bounded by the limit: one more is made.  The case
    also meets the hypotheses of the theorems above. *)
Theorem C130_limit_refuted : exists U C level keff q phi T, problem_ok U /\ coarse_mesh (Mesh_Model.dim (u_mesh U)) (grid_of U 0) level = Ok C /\ Mesh_Model.dim (u_mesh U) = 1 /\
  positive_flux U phi /\ transport_solution U C keff q phi T /\ shaped U (fun _ => Ok (phi, T, None)) /\
  forall srt solve alpha max, is_sort srt -> keeps_solutions solve ->
  (forall tol, (0 < tol)%R -> fsolve (fun _ => Ok (phi, T, None)) srt solve U C q keff alpha tol max phi = Ok (phi, 1, 0)) /\
  fsolve (fun _ => Ok (phi, T, None)) srt solve U C q keff alpha 0 max phi = Ok (phi, S max, S max).
Proof. exact case_limit. Qed.
Print Assumptions C130_limit_refuted.
