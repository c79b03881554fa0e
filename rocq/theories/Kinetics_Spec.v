(** * Specification vocabulary for kinetics *)
From Verif Require Import Base BaseR Material_Model Kinetics_Model.
Open Scope R_scope.

(** Polynomial with the given coefficients, lowest first. *)
Fixpoint peval (p : list R) (x : R) : R := match p with [] => 0 | a :: p => a + x * peval p x end.

(** v is the value at t of the function that is linear between the points
    (times i, f i) and constant outside. *)
Definition interpolates (times : list R) (f : nat -> R) (t v : R) : Prop :=
  let T i := nth i times 0 in
  (t <= T 0%nat -> v = f 0%nat) /\
  (T (length times - 1)%nat <= t -> v = f (length times - 1)%nat) /\
  (forall i, (S i < length times)%nat -> T i <= t <= T (S i) ->
     v = f i + (f (S i) - f i) * ((t - T i) / (T (S i) - T i))).
Definition increasing (times : list R) : Prop :=
  forall i, (S i < length times)%nat -> nth i times 0 < nth (S i) times 0.

(** Every tabulated quantity that a material interpolates. *)
Inductive quantity := QSt (g : nat) | QSa (g : nat) | QSf (g : nat) | QNu (g : nat) | QChi (g : nat) | QDc (g : nat)
  | QSs (g gp : nat) | QBeta (i : nat) | QChid (g i : nat).
Definition value (q : quantity) (x : kmtl) (m : nat) : R :=
  match q with
  | QSt g => st (kb x) g m | QSa g => sa (kb x) g m | QSf g => sf (kb x) g m | QNu g => nu (kb x) g m
  | QChi g => chi (kb x) g m | QDc g => dc (kb x) g m | QSs g gp => ss (kb x) g gp m
  | QBeta i => beta x i m | QChid g i => chid x g i m
  end.
Definition defined (q : quantity) (x : kmtl) : Prop :=
  match q with
  | QSt g | QSa g | QSf g | QNu g | QChi g | QDc g => (g < ng (kb x))%nat
  | QSs g gp => (g < ng (kb x))%nat /\ (gp < ng (kb x))%nat
  | QBeta i => (i < np x)%nat
  | QChid g i => (g < ng (kb x))%nat /\ (i < np x)%nat
  end.

Definition between (a b v : R) : Prop := Rmin a b <= v <= Rmax a b.

(** The quantity varies in time as its backward difference of order q says:
    [past j] is the value j+1 steps ago. *)
Definition bdf_rate (a : nat -> R) (order : nat) (dt y : R) (past : nat -> R) : R :=
  (a 0%nat * y - rsum order (fun j => a (S j) * past j)) / dt.
(** [a] are the coefficients of the given order. *)
Definition coefs (order : nat) (a : nat -> R) : Prop := forall j, (j <= order)%nat -> bdf order j = Ok (a j).

(** Data of one cell. *)
Definition at2 (l : list (list R)) (i c : nat) : R := nth c (nth i l []) 0.
(** Delayed neutron balance of group i in cell c: production minus decay. *)
Definition precursor_eq (a : nat -> R) (order : nat) (dt be la fd C : R) (past : nat -> R) : Prop :=
  bdf_rate a order dt C past = be * fd - la * C.
(** Balance of group g: [lk] stands for leakage and collisions other than
    [sig]*flux minus all other sources; [cp] is the prompt spectrum times the
    prompt fraction. *)
Definition flux_eq (a : nat -> R) (order : nat) (dt v lk sig cp fd delayed y : R) (past : nat -> R) : Prop :=
  bdf_rate a order dt y past / v + lk + sig * y = cp * fd + delayed.
(** Sizes of the containers of n cells, groups and precursors. *)
Definition sized (rows n : nat) (l : list (list R)) : Prop :=
  length l = rows /\ forall i, (i < rows)%nat -> (n <= length (nth i l []))%nat.
Definition history (k rows n : nat) (h : list (list (list R))) : Prop :=
  (k <= length h)%nat /\ forall j, (j < k)%nat -> sized rows n (nth j h []).

(** Steps that are taken as half a step and extrapolated: all steps of the
    implicit midpoint scheme, and unless switched off the first step of a
    scheme of higher order. *)
Definition half_step (imp no_extrap : bool) (n q : nat) : bool :=
  (imp || (negb no_extrap && (n =? 1)%nat && (2 <=? q)%nat))%bool.
(** The multistep method: the result is the list of solutions, latest first.
    Step n of size h ends at time n*h, has order min(n,q), and is given the
    earlier solutions, latest first; [solve1] finds the solution from a guess. *)
Fixpoint multistep {X} (step : R -> R -> nat -> bool -> (nat -> X) -> X -> res X) (solve1 : (X -> res X) -> X -> res X)
  (q : nat) (imp no_extrap : bool) (h : R) (d : X) (n : nat) : res (list X) :=
  match n with
  | O => Ok [d]
  | S k =>
      do past <- multistep step solve1 q imp no_extrap h d k;
      let half := half_step imp no_extrap n q in
      do y <- solve1 (step (INR n * h) (if half then h / 2 else h) (Nat.min n q) half (fun j => nth j past d)) (nth 0 past d);
      Ok (y :: past)
  end.
(** The step reads no more than [order] earlier solutions. *)
Definition reads_order {X} (step : R -> R -> nat -> bool -> (nat -> X) -> X -> res X) : Prop :=
  forall t dt order half h1 h2 y, (forall j, (j < order)%nat -> h1 j = h2 j) -> step t dt order half h1 y = step t dt order half h2 y.
(** Precursor vectors exist unless the material has no precursors. *)
Definition precursors_ok (order : nat) (x : kmtl) (n : nat) (prec : list concs) : Prop :=
  (prec = [] /\ np x = 0%nat) \/ history order (np x) n prec.
Definition map_ok (x : kmtl) (n : nat) (mt : list nat) : Prop :=
  (n <= length mt)%nat /\ forall c, (c < n)%nat -> (nth c mt 0 < nm (kb x))%nat.
Definition positive_data (x : kmtl) : Prop :=
  (forall i, (i < np x)%nat -> 0 < lam x i) /\ (forall g, (g < ng (kb x))%nat -> 0 < vel x g).
(** Prompt part of the fission spectrum. *)
Definition prompt (x : kmtl) (g m : nat) : R := (1 - rsum (np x) (fun i => beta x i m)) * chi (kb x) g m.
(** k applications of f. *)
Fixpoint iterate {X} (f : X -> res X) (k : nat) (y : X) : res X := match k with O => Ok y | S k => do z <- iterate f k y; f z end.
