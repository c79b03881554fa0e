(** * Specification vocabulary for the diffusion matrices *)
From Verif Require Import Base BaseR Mesh_Model Mesh_Spec Material_Model Material_Spec Matrix_Model Diffusion_Model.
Open Scope nat_scope.

(** ** Geometry, in terms of the indices of a cell *)

Definition inside (m : mesh) (i j k : nat) : Prop := i < ncx m /\ j < ncy m /\ k < ncz m.
Definition cell (m : mesh) (i j k : nat) : nat := i + ncx m * (j + ncy m * k).
Definition crd (a i j k : nat) : nat := match a with 0 => i | 1 => j | _ => k end.
(** c' follows c along axis a. *)
Definition adjacent (m : mesh) (a c c' : nat) : Prop :=
  exists i j k, inside m i j k /\ c = cell m i j k /\
    match a with
    | 0 => S i < ncx m /\ c' = cell m (S i) j k
    | 1 => S j < ncy m /\ c' = cell m i (S j) k
    | _ => S k < ncz m /\ c' = cell m i j (S k)
    end.
Definition low_edge (m : mesh) (a c : nat) : Prop :=
  exists i j k, inside m i j k /\ c = cell m i j k /\ crd a i j k = 0.
Definition high_edge (m : mesh) (a c : nat) : Prop :=
  exists i j k, inside m i j k /\ c = cell m i j k /\
    S (crd a i j k) = match a with 0 => ncx m | 1 => ncy m | _ => ncz m end.
(** Index of a cell along an axis, its width, its volume and the area of its faces. *)
Definition coord (m : mesh) (a c : nat) : nat :=
  match a with 0 => c mod ncx m | 1 => (c / ncx m) mod ncy m | _ => c / ncx m / ncy m end.
Definition wid (m : mesh) (a c : nat) : R :=
  nth (coord m a c) (match a with 0 => mdx m | 1 => mdy m | _ => mdz m end) 0%R.
Definition vol (m : mesh) (c : nat) : R := (wid m 0 c * wid m 1 c * wid m 2 c)%R.
Definition area (m : mesh) (a c : nat) : R :=
  match a with
  | 0 => (wid m 1 c * wid m 2 c)%R
  | 1 => (wid m 0 c * wid m 2 c)%R
  | _ => (wid m 0 c * wid m 1 c)%R
  end.

(** ** Fick's law
    [J c (2a)] and [J c (2a+1)] are the net currents leaving cell c through its
    lower and upper face normal to axis a.  Across an inner face there is a face
    flux pf for which the two half-cell difference quotients agree; at an outer
    face the current and the face flux obey the albedo condition. *)
Definition albedo_law (be J pf : R) : Prop := (2 * (1 + be) * J = (1 - be) * pf)%R.
Definition fick (m : mesh) (D : nat -> R) (be : nat -> R) (phi : nat -> R) (J : nat -> nat -> R) : Prop :=
  (forall a c c', a < 3 -> adjacent m a c c' ->
     J c' (2 * a) = (- J c (2 * a + 1)%nat)%R /\
     exists pf, J c (2 * a + 1) = (2 * D c * (phi c - pf) / wid m a c)%R /\
                J c (2 * a + 1) = (2 * D c' * (pf - phi c') / wid m a c')%R) /\
  (forall a c, a < 3 -> low_edge m a c ->
     exists pf, J c (2 * a) = (2 * D c * (phi c - pf) / wid m a c)%R /\ albedo_law (be (2 * a)) (J c (2 * a)) pf) /\
  (forall a c, a < 3 -> high_edge m a c ->
     exists pf, J c (2 * a + 1) = (2 * D c * (phi c - pf) / wid m a c)%R /\
                albedo_law (be (2 * a + 1)) (J c (2 * a + 1)) pf).

(** Net leakage out of a cell per unit volume. *)
Definition leakage (m : mesh) (J : nat -> nat -> R) (c : nat) : R :=
  rsum 3 (fun a => (J c (2 * a)%nat + J c (2 * a + 1)%nat) / wid m a c)%R.

(** Total net current leaving the mesh. *)
Definition outflow (m : mesh) (J : nat -> nat -> R) : R :=
  rsum (ncells m) (fun c => rsum 3 (fun a =>
    (if (coord m a c =? 0)%nat then area m a c * J c (2 * a)%nat else 0) +
    (if (S (coord m a c) =? match a with 0 => ncx m | 1 => ncy m | _ => ncz m end)%nat
     then area m a c * J c (2 * a + 1)%nat else 0)))%R.

(** Component (p, c) of a block vector with blocks of n. *)
Definition part (n : nat) (x : list R) (p c : nat) : R := nth (c + p * n) x 0%R.

(** Boundary albedos: reflecting 1, vacuum 0, zero flux -1; 1 in the directions
    in which the problem is infinite. *)
Definition is_albedo (d : nat) (bc : nat -> option bool) (zero : bool) (be : nat -> R) : Prop :=
  forall s, (2 * d <= s -> be s = 1%R) /\ (s < 2 * d -> bc s = Some true -> be s = 1%R) /\
    (s < 2 * d -> bc s = Some false -> be s = if zero then (-1)%R else 0%R) /\
    (s < 2 * d -> bc s = None -> be s = 0%R).

(** Volume-weighted inner product of two block vectors with P blocks. *)
Definition vdotv (m : mesh) (P : nat) (x y : list R) : R :=
  rsum P (fun p => rsum (ncells m) (fun c => vol m c * part (ncells m) x p c * part (ncells m) y p c))%R.
(** The vector with a single one. *)
Definition unit (N i : nat) : list R := map (fun j => if (j =? i)%nat then 1%R else 0%R) (seq 0 N).

(** ** Data of a multigroup problem *)

Definition material_ok (m : mesh) (x : mtl) : Prop :=
  (forall c, c < ncells m -> mt m c < nm x) /\
  (forall g k, g < ng x -> k < nm x -> (0 < dc x g k)%R) /\
  (forall g gp k, g < ng x -> gp < ng x -> k < nm x -> (0 <= ss x g gp k)%R) /\
  bounds_complete x /\ bounds_attained x.
Definition loss_ok (L : loss) : Prop :=
  mesh_good (l_mesh L) /\ l_cut L < ng (l_mat L) /\ material_ok (l_mesh L) (l_mat L).

(** Groups of the problem: forward cut, .., ng-1; adjoint 0, .., cut. *)
Definition first_group (L : loss) : nat := if l_adj L then 0 else l_cut L.
Definition active (L : loss) : nat := if l_adj L then S (l_cut L) else ng (l_mat L) - l_cut L.
(** Transfer into g from gp, and production in g from gp. *)
Definition into (adj : bool) (x : mtl) (g gp k : nat) : R := if adj then ss x gp g k else ss x g gp k.
Definition birth (adj : bool) (x : mtl) (g gp k : nat) : R :=
  (if adj then chi x gp k * nsf x g k else chi x g k * nsf x gp k)%R.
(** Reactions: total minus scattering (and production) in the active groups. *)
Definition reactions (L : loss) (phi : nat -> nat -> R) (p c : nat) : R :=
  let g := first_group L + p in let k := mt (l_mesh L) c in
  (st (l_mat L) g k * phi p c -
   (if l_sf L =? 0 then
      rsum (active L) (fun q => into (l_adj L) (l_mat L) g (first_group L + q)%nat k * phi q c) +
      (if l_fis L then / l_keff L * rsum (active L) (fun q => birth (l_adj L) (l_mat L) g (first_group L + q)%nat k * phi q c)
       else 0)
    else 0))%R.

(** The adjoint problem over all groups. *)
Definition adjoint_of (L : loss) : loss :=
  {| l_mesh := l_mesh L; l_mat := l_mat L; l_cut := ng (l_mat L) - 1; l_fis := l_fis L; l_adj := true;
     l_keff := l_keff L; l_sf := l_sf L; l_bc := l_bc L; l_zero := l_zero L |}.

(** Removal from group g. *)
Definition removal (L : loss) (g k : nat) : R :=
  (if l_sf L =? 0 then st (l_mat L) g k - ss (l_mat L) g g k else st (l_mat L) g k)%R.
(** Reflection at every side. *)
Definition reflecting (d : nat) (bc : nat -> option bool) : Prop := forall s, s < 2 * d -> bc s = Some true.

(** ** Within-group operator *)
Definition wg_ok (W : wgloss) : Prop :=
  mesh_good (w_mesh W) /\ w_group W < ng (w_mat W) /\
  (forall c, c < ncells (w_mesh W) -> mt (w_mesh W) c < nm (w_mat W)) /\
  (forall k, k < nm (w_mat W) -> (0 < dc (w_mat W) (w_group W) k)%R).
Definition wg_removal (W : wgloss) (c : nat) : R :=
  let k := mt (w_mesh W) c in (st (w_mat W) (w_group W) k - ss (w_mat W) (w_group W) (w_group W) k)%R.

(** ** Gain operator *)
(** Production in group p: forward chi_p sum nu sigma_f,q phi_q, adjoint
    nu sigma_f,p sum chi_q phi_q. *)
Definition production (adj : bool) (x : mtl) (k : nat) (phi : nat -> R) (p : nat) : R :=
  rsum (ng x) (fun q => birth adj x p q k * phi q)%R.
Definition gain_ok (F : gain) : Prop :=
  mesh_good (f_mesh F).

(** ** CMFD operator *)
(** The diffusion problem with the same data, over all groups. *)
Definition k_loss (K : cmfd) : loss :=
  {| l_mesh := k_mesh K; l_mat := k_mat K; l_cut := if k_adj K then ng (k_mat K) - 1 else 0; l_fis := k_fis K;
     l_adj := k_adj K; l_keff := k_keff K; l_sf := 0; l_bc := k_bc K; l_zero := k_zero K |}.
(** Net tallied current in the positive direction of axis a, through the lower
    ([up = false]) or upper face of cell c. *)
Definition tallied (K : cmfd) (g c a : nat) (up : bool) : R :=
  let s := fun b => coord (k_mesh K) b c + (if (b =? a) && up then 1 else 0) in
  (k_cur K (s 0%nat) (s 1%nat) (s 2%nat) g a true - k_cur K (s 0%nat) (s 1%nat) (s 2%nat) g a false)%R.
(** Two operators of the same problem; currents, fluxes, keff, relaxation and
    boundary conditions may differ. *)
Definition same_problem (K K' : cmfd) : Prop :=
  k_mesh K' = k_mesh K /\ k_mat K' = k_mat K /\ k_fis K' = k_fis K /\ k_adj K' = k_adj K.
(** States of the matrix after calls of construct(). *)
Inductive cmfd_reach srt (K : cmfd) : option csr -> Prop :=
| cmfd_new : cmfd_reach srt K None
| cmfd_next K' prev phi C : cmfd_reach srt K prev -> same_problem K K' ->
    cmfd_construct srt K' prev phi = Ok C -> cmfd_reach srt K (Some C).
(** The matrix applied to the flux it was built from: leakage by the tallied
    currents, plus the reactions. *)
Definition reproduces_tally (K : cmfd) (phi : nat -> nat -> R) (C : csr) : Prop :=
  let m := k_mesh K in let n := ncells m in let G := ng (k_mat K) in
  forall v, length v = G * n -> (forall g c, g < G -> c < n -> nth (c + g * n) v 0%R = phi g c) ->
    (k_init K = true \/ k_alpha K = 1%R) -> (forall g c, g < G -> c < n -> (0 < phi g c)%R) ->
    exists y, multiply C v = Ok y /\ length y = G * n /\
      forall g c, g < G -> c < n ->
        (vol m c * part n y g c =
         rsum (dim m) (fun a => tallied K g c a true - tallied K g c a false) +
         vol m c * reactions (k_loss K) phi g c)%R.
