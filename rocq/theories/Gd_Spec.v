(** * Gd_Spec: the k-eigenvalue problem for the fluxes of all groups. *)
From Verif Require Import Base BaseR Angle_Model Boundary_Model Boundary_Spec Material_Model Source_Model Source_Spec Sweep_Model Sweep_Spec
  Iter_Model Iter_Spec Wg_Spec Mgk_Spec.
Open Scope nat_scope.

(** Nothing enters from outside. *)
Definition vacuum_boundary (b : bsn) : Prop := forall s, s < 2 * q_dim (b_q b) -> b_bc b s = Vacuum.
(** The problem without any given source in which the fissions the fluxes cause,
    divided by k, are the source. *)
Definition eigen_problem (x : swp) (k : R) : swp :=
  {| ssrc := ssrc x; ext := []; dext := [];
     fiss := match fiss x with
             | Some q => Some {| fsrc := fsrc q; dens := dens q; fsource := fsource q; fscale := (1 / k)%R |}
             | None => None end;
     implicit := true; fixed := fixed x; scat := scat x |}.
(** The vector of all fluxes, group after group. *)
Definition by_groups (n k : nat) (v : list R) : list (list R) := map (part v n) (seq 0 k).
(** All groups solve their transport equation. *)
Definition k_mode (w : sweeper) (t : tstate) (k : R) (v : list R) : Prop :=
  mg_flux w (eigen_problem (t_x t) k) (t_b t) (fun g => g < ng (mat (ssrc (t_x t))))
    (by_groups (cells (ssrc (t_x t))) (ng (mat (ssrc (t_x t)))) v).
