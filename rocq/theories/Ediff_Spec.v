(** * Specification vocabulary for the diffusion eigenvalue solver *)
From Verif Require Import Base BaseR Mesh_Model Mesh_Spec Material_Model Matrix_Model Diffusion_Model Diffusion_Spec Dsolve_Model Dsolve_Spec Dpos_Spec.
Open Scope nat_scope.

(** A fixed source problem with the source q and nothing entering. *)
Definition source_of (P : dprob) (q : nat -> nat -> R) : dinput :=
  {| i_ext := [Some (fun c g => q g c)]; i_fis := None;
     i_in := btab_new (q_mesh P) (ng (q_mat P)); i_out := btab_new (q_mesh P) (ng (q_mat P)) |}.
(** The neutrons that fissions by the flux phi make (in adjoint problems their
    adjoint). *)
Definition fissions (P : dprob) (phi : nat -> nat -> R) (g c : nat) : R :=
  production (q_adj P) (q_mat P) (mt (q_mesh P) c) (fun q => phi q c) g.
(** The flux total over groups and cells. *)
Definition total (P : dprob) (phi : nat -> nat -> R) : R :=
  rsum (ng (q_mat P)) (fun g => rsum (ncells (q_mesh P)) (fun c => phi g c)).
Definition distance (P : dprob) (phi psi : nat -> nat -> R) : R := total P (fun g c => Rabs (phi g c - psi g c)).

(** k is the multiplication factor and phi its flux: phi is not negative, has
    total 1, and is what the fixed source solver returns for the source made by
    its own fissions divided by k. *)
Definition critical (P : dprob) (k : R) (phi : nat -> nat -> R) : Prop :=
  (0 < k)%R /\ (forall g c, g < ng (q_mat P) -> c < ncells (q_mesh P) -> (0 <= phi g c)%R) /\ total P phi = 1%R /\
  returned P (source_of P (fun g c => / k * fissions P phi g c)%R) 1 phi.

(** Fission data that make sense, and the cells in which fissions occur. *)
Definition fission_ok (P : dprob) : Prop :=
  forall g c, g < ng (q_mat P) -> c < ncells (q_mesh P) ->
    (0 <= chi (q_mat P) g (mt (q_mesh P) c) /\ 0 <= nsf (q_mat P) g (mt (q_mesh P) c))%R.
Definition fissile_in (P : dprob) (g c : nat) : Prop :=
  g < ng (q_mat P) /\ c < ncells (q_mesh P) /\ (0 < nsf (q_mat P) g (mt (q_mesh P) c))%R.
(** The source of fission neutrons born in cell c. *)
Definition born (P : dprob) (c : nat) : dinput :=
  source_of P (fun g c' => if c' =? c then chi (q_mat P) g (mt (q_mesh P) c) else 0%R).
(** Fission neutrons of all fissile cells reach the same groups, and one of these
    has fissions. *)
Definition chain (P : dprob) : Prop :=
  (forall q c q' c' g, fissile_in P q c -> fissile_in P q' c' -> reached P (born P c) g -> reached P (born P c') g) /\
  exists q c g c', fissile_in P q c /\ reached P (born P c) g /\ fissile_in P g c'.

(** A linear solver that solves every system with the matrix. *)
Definition solver_for (lin : csr -> list R -> list R -> res (list R)) (A : csr) (n : nat) : Prop :=
  forall b x0, length b = n -> length x0 = n -> exists x, lin A b x0 = Ok x /\ length x = n /\ multiply A x = Ok b.
(** The fluxes as a function. *)
Definition flux (phi : list (list R)) (g c : nat) : R := nth c (nth g phi []) 0%R.
