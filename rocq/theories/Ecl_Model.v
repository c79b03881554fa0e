(** * Ecl_Model: the outer loop of the coarse mesh accelerated eigenvalue solver
    Source: /repo/src/solvers/eigen/EigenCMFD.cc 36-95 (solve), with
    /repo/src/transport/FissionSource.cc 41-60 (initialize) and
    /repo/src/transport/FissionSource.i.hh 32-45 (update).
    Simplifications: [sweep] is setup_outer(1.0) and energy_sweep: it gets the
    fission density and the flux and gives the flux and the tallies; the loops of
    the fission source are sums over a state of the right size (Source_Model has
    them in full); a density that is 0 everywhere, which becomes 0/0, is undefined
    behaviour at once; error_k is only printed and left out with the printing. *)
From Verif Require Import Base BaseR Loop Util_Model Mesh_Model Material_Model Matrix_Model Sweep_Model Tally_Model Diffusion_Model Cmfd_Model Ecmfd_Model.
Open Scope nat_scope.

(** FissionSource.i.hh 32-45 *)
Definition edensity (U : problem) (phi : list (list R)) : list R :=
  map (fun c => rsum (ng (u_mat U)) (fun g => nth c (nth g phi []) 0 *
    (if u_adj U then chi (u_mat U) g (mt (u_mesh U) c) else nsf (u_mat U) g (mt (u_mesh U) c))))%R (seq 0 (ncells (u_mesh U))).
(** EigenCMFD.cc 69: vec_scale(fd, 1.0 / norm(fd, "L1")); FissionSource.cc 58-60 *)
Definition enormal (d : list R) : res (list R) :=
  do s <- norm d L1;
  if Req_EM_T s 0 then UB else Ok (map (Rmult (1 / s)) d).
(** FissionSource.cc 41-60 *)
Definition efirst (U : problem) : res (list R) :=
  enormal (map (fun c => rsum (ng (u_mat U)) (fun g => nsf (u_mat U) g (mt (u_mesh U) c))) (seq 0 (ncells (u_mesh U)))).

Definition esweep := list R -> list (list R) -> res (list (list R) * (nat -> tally)).
(** EigenCMFD.cc 55-82; [n] passes are left; the result is keff, the density, the
    flux and the number of passes made. *)
Fixpoint epasses (sweep : esweep) (srt : list triplet -> list triplet) (eig : csr -> csr -> list R -> res (list R * R))
    (U : problem) (C : cmesh) (cur : option (list (list R))) (alpha : option R) (tol : R)
    (n : nat) (keff : R) (fd : list R) (h : option hist) (phi : list (list R)) : res (R * list R * list (list R) * nat) :=
  match n with
  | 0 => Ok (keff, fd, phi, 0)
  | S n =>
      do s <- sweep fd phi;
      do r <- eupdate srt eig U C (snd s) cur alpha h (fst s);
      let '(k, phi', h') := r in
      do fd' <- enormal (edensity U phi');
      do e <- norm_residual fd' fd Linf;
      if Rlt_dec e tol then Ok (k, fd', phi', 1)
      else do q <- epasses sweep srt eig U C cur alpha tol n k fd' (Some h') phi'; Ok (fst q, S (snd q))
  end.
(** EigenCMFD.cc 36-95 *)
Definition esolve (sweep : esweep) (srt : list triplet -> list triplet) (eig : csr -> csr -> list R -> res (list R * R))
    (U : problem) (C : cmesh) (cur : option (list (list R))) (alpha : option R) (tol : R) (max : nat) (phi : list (list R))
    : res (R * list R * list (list R) * nat) :=
  do fd <- efirst U;
  epasses sweep srt eig U C cur alpha tol max 1%R fd None phi.
