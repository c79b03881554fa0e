(** * Ecmfd_Spec: modes of the transport problem, and eigensolvers. *)
From Coquelicot Require Import Coquelicot.
From Verif Require Import Base BaseR Loop Mesh_Model Material_Model Matrix_Model Angle_Model Sweep_Model Tally_Model Diffusion_Model Diffusion_Spec Cmfd_Model Cmfd_Spec.
Open Scope nat_scope.

(** Fission neutrons born in group g in cell c. *)
Definition born (U : problem) (phi : list (list R)) (g c : nat) : R :=
  rsum (ng (u_mat U)) (fun gp => birth (u_adj U) (u_mat U) g gp (mt (u_mesh U) c) * val2 phi gp c)%R.
(** phi is a mode with eigenvalue k: sweeping with its scattering source and its
    fission source over k gives phi; T is what that sweep tallied. *)
Definition mode (U : problem) (C : cmesh) (k : R) (phi : list (list R)) (T : nat -> tally) : Prop :=
  swept_all U C (fun g c => scattering U phi g c + / k * born U phi g c)%R phi T.

(** Every material fissions in every group, with one spectrum, or does not fission;
    some cell fissions and some group gets neutrons. *)
Definition fissile_in (x : mtl) (X : nat -> R) (k : nat) : Prop :=
  forall g, g < ng x -> (0 < sf x g k)%R /\ (0 < nsf x g k)%R /\ chi x g k = X g.
Definition barren_in (x : mtl) (k : nat) : Prop := forall g, g < ng x -> sf x g k = 0%R /\ nsf x g k = 0%R.
Definition fissile (U : problem) : Prop :=
  exists X, (forall k, k < nm (u_mat U) -> fissile_in (u_mat U) X k \/ barren_in (u_mat U) k) /\
    (exists c, c < ncells (u_mesh U) /\ fissile_in (u_mat U) X (mt (u_mesh U) c)) /\
    (exists g, g < ng (u_mat U) /\ (0 < X g)%R) /\ forall g, g < ng (u_mat U) -> (0 <= X g)%R.

Definition nonzero (v : list R) : Prop := exists i, i < length v /\ nth i v 0%R <> 0%R.
(** k is the eigenvalue of M x = k L x for the vector x. *)
Definition eigenpair (M L : csr) (x : list R) (k : R) : Prop :=
  exists y, multiply L x = Ok y /\ multiply M x = Ok (map (Rmult k) y) /\ nonzero y.
(** A solver that keeps a starting vector that is an eigenvector, up to a positive factor. *)
Definition keeps_modes (eig : csr -> csr -> list R -> res (list R * R)) : Prop :=
  forall M L x k, eigenpair M L x k -> exists a, (0 < a)%R /\ eig M L x = Ok (map (Rmult a) x, k).
(** A solver that only returns eigenpairs. *)
Definition finds_modes (eig : csr -> csr -> list R -> res (list R * R)) : Prop :=
  forall M L x y k, eig M L x = Ok (y, k) -> length y = length x /\ eigenpair M L y k.
