(** * Fcl_Model: the outer loop of the coarse mesh accelerated multigroup solver
    Source: /repo/src/solvers/mg/MGSolverCMFD.cc 79-127 (solve) and 131-139
    (energy_sweep), with the update of Cmfd_Model.
    Simplifications: [sweep] is energy_sweep with the fission source scaled by
    1/keff: it gets the flux and gives the flux, the tallies and the currents that
    weight the diffusion coefficient; the groups of range(d_lower, d_upper) are all
    groups and their order does not matter to the norm; printing. *)
From Verif Require Import Base BaseR Loop Util_Model Mesh_Model Material_Model Matrix_Model Sweep_Model Tally_Model Diffusion_Model Cmfd_Model.
Open Scope nat_scope.

Definition fsweep := list (list R) -> res (list (list R) * (nat -> tally) * option (list (list R))).
(** MGSolverCMFD.cc 106-110: largest change of each group, and the largest of them;
    MathUtilities.hh 91-93 reads y at every position of x *)
Definition fchange (G : nat) (new old : list (list R)) : res R :=
  do nres <- mapM (fun g => do a <- rd new g; do b <- rd old g;
                            if length a <=? length b then norm_residual a b Linf else UB) (seq 0 G);
  norm nres Linf.
(** MGSolverCMFD.cc 96-120: [n] sweeps are left; the result is the flux, the number
    of sweeps and of updates. *)
Fixpoint fpasses (sweep : fsweep) (srt : list triplet -> list triplet) (solve : csr -> list R -> list R -> res (list R))
    (U : problem) (C : cmesh) (q : list (list R)) (keff alpha tol : R) (n : nat) (phi : list (list R)) : res (list (list R) * nat * nat) :=
  match n with
  | 0 => Ok (phi, 0, 0)
  | S n =>
      do s <- sweep phi;
      let '(p, tal, cur) := s in
      do e <- fchange (ng (u_mat U)) p phi;
      if Rlt_dec e tol then Ok (p, 1, 0)
      else do phi' <- update srt solve U C tal q cur keff alpha p;
           do r <- fpasses sweep srt solve U C q keff alpha tol n phi';
           let '(f, sw, up) := r in Ok (f, S sw, S up)
  end.
(** MGSolverCMFD.cc 79-127: iterations 0 to d_maximum_iterations, both included *)
Definition fsolve (sweep : fsweep) (srt : list triplet -> list triplet) (solve : csr -> list R -> list R -> res (list R))
    (U : problem) (C : cmesh) (q : list (list R)) (keff alpha tol : R) (max : nat) (phi : list (list R)) : res (list (list R) * nat * nat) :=
  fpasses sweep srt solve U C q keff alpha tol (S max) phi.
