(** * Spc_Spec: infinite medium spectra. *)
From Verif Require Import Base BaseR.
Open Scope R_scope.

(** What a neutron of group h causes in group g: scattering, and, if [fis],
    fission with the production cross section [prod], divided by k. *)
Definition emit (s : nat -> nat -> R) (chi prod : nat -> R) (fis : bool) (k : R) (g h : nat) : R :=
  s g h + (if fis then chi g * prod h / k else 0).
(** Balance of the infinite medium with the source b. *)
Definition balance (n : nat) (t : nat -> R) (e : nat -> nat -> R) (b x : nat -> R) : Prop :=
  forall g, (g < n)%nat -> t g * x g - rsum n (fun h => e g h * x h) = b g.
Definition unit_vec (n : nat) (x : nat -> R) : Prop := rsum n (fun g => x g * x g) = 1.
(** A mode of Gauss-Seidel iteration in the infinite medium: neutrons from the
    groups below, the mode l times what is left in the groups down to this. *)
Definition gs_pair (n : nat) (t : nat -> R) (e : nat -> nat -> R) (l : R) (x : nat -> R) : Prop :=
  forall g, (g < n)%nat ->
  rsum n (fun h => if (g <? h)%nat then e g h * x h else 0) =
  l * (t g * x g - rsum n (fun h => if (g <? h)%nat then 0 else e g h * x h)).
(** The slowest one. *)
Definition gs_mode (n : nat) (t : nat -> R) (e : nat -> nat -> R) (x : nat -> R) : Prop :=
  unit_vec n x /\ exists l, gs_pair n t e l x /\
  forall l' y, unit_vec n y -> gs_pair n t e l' y -> l' <= l.

(** A solver of A x = b, and one of U x = l L x for the greatest l. *)
Definition apply (n : nat) (A : nat -> nat -> R) (x : nat -> R) (g : nat) : R := rsum n (fun h => A g h * x h).
Definition solves (n : nat) (A : nat -> nat -> R) (b x : nat -> R) : Prop := forall g, (g < n)%nat -> apply n A x g = b g.
Definition greatest (n : nat) (U L : nat -> nat -> R) (x : nat -> R) : Prop :=
  unit_vec n x /\ exists l, (forall g, (g < n)%nat -> apply n U x g = l * apply n L x g) /\
  forall l' y, unit_vec n y -> (forall g, (g < n)%nat -> apply n U y g = l' * apply n L y g) -> l' <= l.
(** What is put into group g from below, and what leaves it less what stays above. *)
Definition from_below (n : nat) (e : nat -> nat -> R) (x : nat -> R) (g : nat) : R := rsum n (fun h => if (g <? h)%nat then e g h * x h else 0).
Definition remainder (n : nat) (t : nat -> R) (e : nat -> nat -> R) (x : nat -> R) (g : nat) : R :=
  t g * x g - rsum n (fun h => if (g <? h)%nat then 0 else e g h * x h).
Definition loss (n : nat) (t : nat -> R) (e : nat -> nat -> R) (x : nat -> R) (g : nat) : R := t g * x g - rsum n (fun h => e g h * x h).
(** The eigenvalue solver and the linear solver do their work on the equations of the medium. *)
Definition finds_mode (n : nat) (t : nat -> R) (e : nat -> nat -> R) (eig : (nat -> nat -> R) -> (nat -> nat -> R) -> nat -> R) : Prop :=
  forall U L, (forall y g, (g < n)%nat -> apply n U y g = from_below n e y g) ->
  (forall y g, (g < n)%nat -> apply n L y g = remainder n t e y g) -> greatest n U L (eig U L).
Definition finds_flux (n : nat) (t : nat -> R) (e : nat -> nat -> R) (b : nat -> R) (lin : (nat -> nat -> R) -> (nat -> R) -> (nat -> R) -> nat -> R) : Prop :=
  forall A x0, (forall y g, (g < n)%nat -> apply n A y g = loss n t e y g) -> solves n A b (lin A b x0).
