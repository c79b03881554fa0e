(** * Specification vocabulary for diffusion preconditioners *)
From Verif Require Import Base BaseR Vector_Spec Solver_Spec Gmres_Model Gmres_Spec Mesh_Model Material_Model Diffusion_Model Diffusion_Spec Source_Model Source_Spec.
Open Scope nat_scope.

(** The source object x and the diffusion operator L describe one problem. *)
Definition describes (x : src) (L : loss) : Prop :=
  problem x /\ mat x = l_mat L /\ adj x = l_adj L /\ cells x = ncells (l_mesh L) /\
  forall c, c < ncells (l_mesh L) -> mat_of x c = mt (l_mesh L) c.

(** y is what diffusion without any source of neutrons makes of the flux V: leakage by
    Fick's law and collisions. *)
Definition unscattered (m : mesh) (xs : mtl) (first act : nat) (be : nat -> R) (V y : list R) : Prop :=
  let n := ncells m in
  exists J, (forall p, p < act -> fick m (fun c => dc xs (first + p) (mt m c)) be (part n V p) (J p)) /\
    forall p c, p < act -> c < n -> part n y p c = (leakage m (J p) c + st xs (first + p) (mt m c) * part n V p c)%R.

(** An exact solver of the linear system with matrix C and N unknowns. *)
Definition solves (C : Matrix_Model.csr) (N : nat) (lin : vop) : Prop :=
  forall b, length b = N -> exists e, lin b = Ok e /\ length e = N /\ Matrix_Model.multiply C e = Ok b.

(** Everywhere the same material, within reflecting sides. *)
Definition infinite (L : loss) (k : nat) : Prop :=
  reflecting (dim (l_mesh L)) (l_bc L) /\ forall c, c < ncells (l_mesh L) -> mt (l_mesh L) c = k.
(** Neutrons born in group p from the fluxes phi of the active groups: by scattering, and
    by fission with 1/k = w. *)
Definition born (L : loss) (w : R) (k : nat) (phi : nat -> R) (p : nat) : R :=
  rsum (active L) (fun q => (into (l_adj L) (l_mat L) (first_group L + p) (first_group L + q) k +
    (if l_fis L then w * birth (l_adj L) (l_mat L) (first_group L + p) (first_group L + q) k else 0)) * phi q)%R.
(** Every group of every material loses more than it gives to the active groups. *)
Definition lossy (L : loss) : Prop :=
  (l_fis L = true -> forall g k, (0 <= chi (l_mat L) g k)%R /\ (0 <= nsf (l_mat L) g k)%R) /\
  forall q k, q < active L -> k < nm (l_mat L) ->
   (rsum (active L) (fun p => into (l_adj L) (l_mat L) (first_group L + p) (first_group L + q) k +
     (if l_fis L then birth (l_adj L) (l_mat L) (first_group L + p) (first_group L + q) k else 0)) < st (l_mat L) (first_group L + q) k)%R.

(** Powers of an operator on n-vectors, and what is left of b after solving approximately
    with X instead of the inverse of A. *)
Fixpoint power (n : nat) (E : list R -> nat -> R) (k : nat) (b : list R) : list R :=
  match k with O => b | S k => vec n (E (power n E k b)) end.
Definition left_over (n : nat) (A X : list R -> nat -> R) (b : list R) (i : nat) : R := (cmp b i - A (vec n (X b)) i)%R.
