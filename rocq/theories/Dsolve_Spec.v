(** * Specification vocabulary for the multigroup diffusion solver *)
From Verif Require Import Base BaseR Mesh_Model Mesh_Spec Material_Model Matrix_Model Diffusion_Model Diffusion_Spec Dsolve_Model.
Open Scope nat_scope.

(** The linear solver returns vectors of the size of its initial guess, and only
    solutions. *)
Definition exact (lin : csr -> list R -> list R -> res (list R)) : Prop :=
  forall A b x0 x, lin A b x0 = Ok x -> length x = length x0 /\ multiply A x = Ok b.

(** A table with the sizes the boundary constructor gives it. *)
Definition table_of (m : mesh) (G : nat) (b : btab) : Prop :=
  b_g b = G /\ (forall s, b_r b s = b_r (btab_new m G) s) /\ (forall s, b_c b s = b_c (btab_new m G) s).
(** The entry of a table for the outer face of cell c on side s: in 1-D the only
    one, in 2-D the one at the index of the cell along the side, in 3-D the one in
    the row of the last and the column of the first axis along the side. *)
Definition at_face (m : mesh) (b : btab) (s g c : nat) : R :=
  match dim m, (s / 2)%nat with
  | 1, _ => b_v b s g 0 0
  | 2, 0 => b_v b s g 0 (coord m 1 c)
  | 2, _ => b_v b s g 0 (coord m 0 c)
  | _, 0 => b_v b s g (coord m 2 c) (coord m 1 c)
  | _, 1 => b_v b s g (coord m 2 c) (coord m 0 c)
  | _, _ => b_v b s g (coord m 1 c) (coord m 0 c)
  end.
(** Side 2a is the lower and 2a+1 the upper one along axis a. *)
Definition outer (m : mesh) (s c : nat) : Prop :=
  exists a, (s = 2 * a /\ low_edge m a c) \/ (s = 2 * a + 1 /\ high_edge m a c).

(** The volume source: the external sources present and, unless fission is part
    of the operator, the fission source. *)
Definition vsource (P : dprob) (i : dinput) (c g : nat) : R :=
  (sumR (map (fun e => match e with Some f => f c g | None => 0%R end) (i_ext i)) +
   match i_fis i with Some f => if q_mult P then 0 else f c g | None => 0 end)%R.

(** The operator of the problem over all groups. *)
Definition full_loss (P : dprob) (keff : R) : loss := d_loss P (if q_adj P then ng (q_mat P) - 1 else 0) keff.

(** Diffusion at an outer face with incident partial current Jin: the net current
    J leaving the cell follows from the flux pf at the face by Fick's law, is
    the difference of the partial currents, and pf is twice their sum. *)
Definition partial_law (D W phi J Jin Jout : R) : Prop :=
  exists pf, (J = 2 * D * (phi - pf) / W /\ J = Jout - Jin /\ pf = 2 * (Jout + Jin))%R.

(** Net currents J of group g for the flux phi: continuous and Fick's law at
    inner faces, partial currents at vacuum sides, and the albedo condition at the
    other sides when nothing enters there. *)
Definition currents (P : dprob) (i : dinput) (out : btab) (g : nat) (phi : nat -> R) (J : nat -> nat -> R) : Prop :=
  let m := q_mesh P in let D := fun c => dc (q_mat P) g (mt m c) in
  (forall a c c', a < 3 -> adjacent m a c c' ->
     J c' (2 * a) = (- J c (2 * a + 1)%nat)%R /\
     exists pf, J c (2 * a + 1) = (2 * D c * (phi c - pf) / wid m a c)%R /\
                J c (2 * a + 1) = (2 * D c' * (pf - phi c') / wid m a c')%R) /\
  (forall s c, s < 2 * dim m -> outer m s c -> q_bc P s = None \/ (q_bc P s = Some false /\ q_zero P = false) ->
     exists Jout, partial_law (D c) (wid m (s / 2) c) (phi c) (J c s) (at_face m (i_in i) s g c) Jout /\
       (q_fill P = true -> at_face m out s g c = Jout)) /\
  (forall s c be, s < 2 * dim m -> outer m s c ->
     (q_bc P s = Some true /\ be = 1%R) \/ (q_bc P s = Some false /\ q_zero P = true /\ be = (-1)%R) ->
     at_face m (i_in i) s g c = 0%R ->
     exists pf, J c s = (2 * D c * (phi c - pf) / wid m (s / 2) c)%R /\ albedo_law be (J c s) pf) /\
  (forall s c, 2 * dim m <= s -> s < 6 -> outer m s c -> J c s = 0%R).

(** Balance in every cell. *)
Definition balanced (P : dprob) (i : dinput) (keff : R) (phi : list (list R)) (J : nat -> nat -> nat -> R) : Prop :=
  let m := q_mesh P in
  forall g c, g < ng (q_mat P) -> c < ncells m ->
    (leakage m (J g) c + reactions (full_loss P keff) (fun g c => nth c (nth g phi []) 0) g c = vsource P i c g)%R.
(** Balance over the mesh: what leaves through the boundary and by reactions is
    what the source makes. *)
Definition balanced_total (P : dprob) (i : dinput) (keff : R) (phi : list (list R)) (J : nat -> nat -> nat -> R) : Prop :=
  let m := q_mesh P in
  forall g, g < ng (q_mat P) ->
    (outflow m (J g) + rsum (ncells m) (fun c => vol m c * reactions (full_loss P keff) (fun g c => nth c (nth g phi []) 0) g c) =
     rsum (ncells m) (fun c => vol m c * vsource P i c g))%R.

(** A well-formed problem and well-formed calls. *)
Definition prob_ok (P : dprob) : Prop := loss_ok (full_loss P 1).
Definition call_ok (P : dprob) (i : dinput) : Prop :=
  table_of (q_mesh P) (ng (q_mat P)) (i_in i) /\ table_of (q_mesh P) (ng (q_mat P)) (i_out i).
(** keff of the calls: any in forward problems, the initial one in adjoint ones. *)
Definition keffs_ok (P : dprob) (ks : list R) : Prop := q_adj P = false \/ forall k, In k ks -> k = 1%R.
