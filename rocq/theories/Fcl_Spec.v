(** * Fcl_Spec: sweeps and updates of the accelerated multigroup solver. *)
From Coquelicot Require Import Coquelicot.
From Verif Require Import Base BaseR Loop Mesh_Model Material_Model Matrix_Model Tally_Model Cmfd_Model Cmfd_Spec Fcl_Model.
Open Scope nat_scope.

(** No flux differs by the tolerance. *)
Definition near (U : problem) (tol : R) (p phi : list (list R)) : Prop :=
  forall g c, g < ng (u_mat U) -> c < ncells (u_mesh U) -> (Rabs (val2 p g c - val2 phi g c) < tol)%R.
(** Sweeps leave a flux of every group in every cell. *)
Definition shaped (U : problem) (sweep : fsweep) : Prop := forall phi p T cur, sweep phi = Ok (p, T, cur) -> shape U p.
(** phi i is the flux before sweep i, p i what that sweep gives; n sweeps are not
    near and each is followed by an update. *)
Definition accelerated (sweep : fsweep) srt solve (U : problem) (C : cmesh) q keff alpha tol (n : nat) (phi p : nat -> list (list R)) : Prop :=
  forall i, i < n -> exists T cur, sweep (phi i) = Ok (p i, T, cur) /\ ~ near U tol (p i) (phi i) /\
    update srt solve U C T q cur keff alpha (p i) = Ok (phi (S i)).
