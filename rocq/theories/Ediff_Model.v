(** * Model of the diffusion eigenvalue solver
    Source: /repo/src/solvers/eigen/EigenDiffusion.cc and Eigensolver.cc.
    The multigroup solver is the one of Dsolve_Model.v, created without
    multiplication (EigenvalueManager.cc 48, 69); the eigensolver is the power
    method of Cpow_Model.v (the default of EigenSolverCreator.cc 29).
    Simplifications: those of these models; tolerance and limit of the database are
    parameters; the linear solver is a parameter (operator, right hand side,
    initial guess); the update of the fission density is not modelled. *)
From Verif Require Import Base BaseR Mesh_Model Material_Model Matrix_Model Diffusion_Model Dsolve_Model Cpow_Model.
Open Scope nat_scope.

(** d_M, d_F, d_phi, d_work and d_eigensolver *)
Record esolver := { e_M : csr; e_F : csr; e_phi : list R; e_work : list R; e_pow : psolver }.

(** EigenDiffusion.cc 37.  The adjoint flag is that of the base class, false
    (Solver.hh 158); Eigensolver.cc 17-42 does not read it from the input. *)
Definition e_gain (P : dprob) : gain := {| f_mesh := q_mesh P; f_mat := q_mat P; f_adj := false |}.

(** EigenDiffusion.cc 17-49 *)
Definition e_new (srt : list triplet -> list triplet) (P : dprob) (tol : R) (maxit : nat) : res esolver :=
  do s <- d_new srt P;
  do F <- build srt (gain_caps (e_gain P)) (gain_ops (e_gain P));
  Ok {| e_M := s_M s; e_F := F; e_phi := repeat 0%R (d_size P); e_work := repeat 1%R (d_size P); e_pow := power_new tol maxit |}.

(** Eigenvalue and fluxes in the state, and what the eigensolver reports. *)
Record eresult := { er_k : R; er_phi : list (list R); er_status : pstatus; er_it : nat; er_solver : esolver }.

(** 53-70: the loop that fills the fluxes is that of MGDiffusionSolver.cc 243-254. *)
Definition e_solve (lin : csr -> list R -> list R -> res (list R)) (P : dprob) (E : esolver) : res eresult :=
  do r <- power_solve (multiply (e_F E)) (Some (lin (e_M E))) (e_pow E) (e_phi E) (e_work E);
  do phi <- fill_state P (pr_x r);
  Ok {| er_k := pr_lambda r; er_phi := phi; er_status := pr_status r; er_it := pr_it r;
        er_solver := {| e_M := e_M E; e_F := e_F E; e_phi := pr_x r; e_work := pr_x0 r;
                        e_pow := {| ps_tol := ps_tol (e_pow E); ps_maxit := ps_maxit (e_pow E); ps_hist := pr_hist r |} |} |}.
