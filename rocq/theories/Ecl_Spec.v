(** * Ecl_Spec: passes of the accelerated eigenvalue solver, and where they stand still. *)
From Coquelicot Require Import Coquelicot.
From Verif Require Import Base BaseR Loop Mesh_Model Material_Model Matrix_Model Angle_Model Sweep_Model Tally_Model Diffusion_Model Diffusion_Spec Cmfd_Model Cmfd_Spec
  Ecmfd_Model Ecmfd_Spec Ecl_Model.
Open Scope nat_scope.

(** Neutrons made by fission in cell c (for the adjoint, their importance), their
    total, and what is born in group g for each of them. *)
Definition made (U : problem) (phi : list (list R)) (c : nat) : R :=
  rsum (ng (u_mat U)) (fun g => (if u_adj U then chi (u_mat U) g (mt (u_mesh U) c) else nsf (u_mat U) g (mt (u_mesh U) c)) * val2 phi g c)%R.
Definition total_made (U : problem) (phi : list (list R)) : R := rsum (ncells (u_mesh U)) (fun c => Rabs (made U phi c)).
Definition emitted (U : problem) (g c : nat) : R := if u_adj U then nsf (u_mat U) g (mt (u_mesh U) c) else chi (u_mat U) g (mt (u_mesh U) c).
(** fd is the share of the cells in what phi makes. *)
Definition shares (U : problem) (phi : list (list R)) (fd : list R) : Prop :=
  length fd = ncells (u_mesh U) /\ (0 < total_made U phi)%R /\
  forall c, c < ncells (u_mesh U) -> nth c fd 0%R = (made U phi c / total_made U phi)%R.

Record stage := { g_k : R; g_fd : list R; g_h : option hist; g_phi : list (list R) }.
(** One pass: a sweep with the density as fission source, the coarse update of the
    swept flux, and the shares of the new flux. *)
Definition pass (sweep : esweep) srt eig (U : problem) (C : cmesh) cur alpha (a b : stage) : Prop :=
  exists p T h, sweep (g_fd a) (g_phi a) = Ok (p, T) /\ eupdate srt eig U C T cur alpha (g_h a) p = Ok (g_k b, g_phi b, h) /\
    g_h b = Some h /\ shares U (g_phi b) (g_fd b).
Definition close (U : problem) (tol : R) (a b : stage) : Prop :=
  forall c, c < ncells (u_mesh U) -> (Rabs (nth c (g_fd b) 0 - nth c (g_fd a) 0) < tol)%R.
