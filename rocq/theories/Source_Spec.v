(** * Specification vocabulary for sources *)
From Verif Require Import Base BaseR Material_Model Source_Model.
Open Scope nat_scope.

(** A consistent problem: every cell has a valid material; a flux of at least
    the mesh size for every group. *)
Definition flux_ok (n groups : nat) (phi : list (list R)) : Prop :=
  length phi = groups /\ forall g, g < groups -> n <= length (nth g phi []).
Definition problem (x : src) : Prop :=
  cells x <= length (mmap x) /\ (forall c, c < cells x -> nth c (mmap x) 0 < nm (mat x)) /\
  flux_ok (cells x) (ng (mat x)) (flux x).

Definition phi_of (phi : list (list R)) (g c : nat) : R := nth c (nth g phi []) 0%R.
Definition mat_of (x : src) (c : nat) : nat := nth c (mmap x) 0.

(** Cross section for a transfer from gp to g; the adjoint swaps the groups. *)
Definition transfer_xs (x : src) (c g gp : nat) : R :=
  if adj x then ss (mat x) gp g (mat_of x c) else ss (mat x) g gp (mat_of x c).
(** The scattering source of group g over the groups selected by [sel]. *)
Definition scatter_sum (x : src) (phi : list (list R)) (sel : nat -> bool) (g c : nat) : R :=
  rsum (ng (mat x)) (fun gp => if sel gp then (phi_of phi gp c * transfer_xs x c g gp)%R else 0%R).
Definition all_groups (_ : nat) : bool := true.

Definition fission_xs (x : src) (c g gp : nat) : R :=
  if adj x then (nsf (mat x) g (mat_of x c) * chi (mat x) gp (mat_of x c))%R
  else (chi (mat x) g (mat_of x c) * nsf (mat x) gp (mat_of x c))%R.
Definition fission_sum (x : src) (phi : list (list R)) (sel : nat -> bool) (g c : nat) : R :=
  rsum (ng (mat x)) (fun gp => if sel gp then (phi_of phi gp c * fission_xs x c g gp)%R else 0%R).

(** s' is s with v added cell by cell. *)
Definition added (n : nat) (v : nat -> R) (s s' : list R) : Prop :=
  length s' = length s /\
  forall c, c < length s -> nth c s' 0%R = (if c <? n then nth c s 0 + v c else nth c s 0)%R.

(** Scattering cross sections without negative entries. *)
Definition nonneg_scatter (m : mtl) : Prop :=
  forall g gp k, (0 <= ss m g gp k)%R.

(** All entries of all stored flux moments and angular fluxes. *)
Definition every_moment (P : nat -> nat -> R -> Prop) (x : state) : Prop :=
  forall g i, g < length (moments x) -> i < length (nth g (moments x) []) ->
    P g i (nth i (nth g (moments x) []) 0%R).
(** Containers sized as the constructor sizes them. *)
Definition state_shaped (nmom : nat) (x : state) : Prop :=
  length (moments x) = sgroups x /\
  (forall g, g < sgroups x -> length (nth g (moments x) []) = scells x * nmom) /\
  (store_psi x = true ->
     length (psi x) = sgroups x /\
     forall g, g < sgroups x -> length (nth g (psi x) []) = sangles x /\
       forall a, a < sangles x -> length (nth a (nth g (psi x) []) []) = scells x).

(** A sweep source whose parts describe one problem. *)
Definition fission_ready (y : src) (q : fis) : Prop :=
  fsrc q = y /\ length (fsource q) = ng (mat y) /\
  forall g, g < ng (mat y) -> cells y <= length (nth g (fsource q) []).
Definition sweep_ready (x : swp) : Prop :=
  problem (ssrc x) /\ cells (ssrc x) <= length (fixed x) /\ cells (ssrc x) <= length (scat x) /\
  (forall q, fiss x = Some q -> fission_ready (ssrc x) q) /\
  (implicit x = true -> fiss x <> None).
(** External and fission contributions to the isotropic source. *)
Definition external (x : swp) (g c : nat) : R := sumR (map (fun e : nat -> nat -> R => e c g) (ext x)).
Definition explicit_fission (x : swp) (g c : nat) : R :=
  match fiss x with
  | Some q => if implicit x then 0%R else nth c (nth g (fsource q) []) 0%R
  | None => 0%R
  end.
Definition implicit_fission (x : swp) (sel : nat -> bool) (g c : nat) : R :=
  match fiss x with
  | Some q => if implicit x then (fscale q * fission_sum (ssrc x) (flux (ssrc x)) sel g c)%R else 0%R
  | None => 0%R
  end.
Definition discrete (x : swp) (g angle c : nat) : R :=
  sumR (map (fun e : nat -> nat -> nat -> R => e c g angle) (dext x)).

(** Groups solved before the cutoff block. *)
Definition below (x : src) (cutoff gp : nat) : bool := if adj x then cutoff <? gp else gp <? cutoff.

(** Entries of the containers. *)
Definition psi3 (p : list (list (list R))) (g a i : nat) : R := nth i (nth a (nth g p []) []) 0%R.
Definition mom2 (m : list (list R)) (g i : nat) : R := nth i (nth g m []) 0%R.
