(** * Harm_Spec: Legendre polynomials, moments on the sphere, sums over the
    directions of a quadrature. *)
From Verif Require Import Base BaseR Angle_Model Angle_Spec.
Open Scope nat_scope.

(** Legendre polynomials by Bonnet's recursion: (P_n, P_(n+1)). *)
Fixpoint leg_pair (n : nat) (x : R) : R * R :=
  match n with
  | O => (1, x)%R
  | S n => let (p, p1) := leg_pair n x in
           (p1, ((2 * INR n + 3) * x * p1 - (INR n + 1) * p) / (INR n + 2))%R
  end.
Definition legendre (n : nat) (x : R) : R := fst (leg_pair n x).

(** 1 * 3 * ... * (2 k - 1) *)
Fixpoint odd_fact (k : nat) : Z :=
  match k with O => 1%Z | S k => (Z.of_nat (2 * k + 1) * odd_fact k)%Z end.
(** The mean of mu^p eta^q xi^r over the unit sphere:
    (p-1)!! (q-1)!! (r-1)!! / (p+q+r+1)!! for even powers, 0 otherwise. *)
Definition sphere_mean (p q r : nat) : R :=
  if Nat.even p && Nat.even q && Nat.even r
  then (IZR (odd_fact (p / 2) * odd_fact (q / 2) * odd_fact (r / 2)) / IZR (odd_fact ((p + q + r) / 2 + 1)))%R
  else 0%R.

(** A direction cosine as a number. *)
Definition num (x : res R) : R := match x with Ok v => v | _ => 0%R end.
Definition mu_of (q : quad) (o a : nat) : R := num (cosine q 0 o a).
Definition eta_of (q : quad) (o a : nat) : R := num (cosine q 1 o a).
Definition xi_of (q : quad) (o a : nat) : R := num (cosine q 2 o a).
Definition wt_of (q : quad) (a : nat) : R := nth a (q_wt q) 0%R.
(** The quadrature sum of a function of octant and angle. *)
Definition qsum (q : quad) (f : nat -> nat -> R) : R :=
  rsum (q_noct q) (fun o => rsum (q_nao q) (fun a => (wt_of q a * f o a)%R)).

(** A quadrature object of the class: sizes agree, octant signs are the class's,
    every direction is a unit vector (with xi >= 0 in 2-D, where only the upper
    half is stored). *)
Definition well_formed (q : quad) : Prop :=
  (q_dim q = 2 \/ q_dim q = 3) /\ q_noct q = 2 ^ q_dim q /\ q_nang q = q_noct q * q_nao q /\ q_sign q = octant_sign /\
  length (q_mu q) = q_nao q /\ length (q_eta q) = q_nao q /\ length (q_xi q) = q_nao q /\ length (q_wt q) = q_nao q /\
  forall a, a < q_nao q -> (0 <= nth a (q_xi q) 0)%R /\
    on_sphere (nth a (q_mu q) 0%R) (nth a (q_eta q) 0%R) (nth a (q_xi q) 0%R).
(** The same for the 1-D quadratures. *)
Definition well_formed1 (q : quad) : Prop :=
  q_dim q = 1 /\ q_noct q = 2 /\ q_nang q = q_noct q * q_nao q /\ q_sign q = octant_sign /\ length (q_mu q) = q_nao q.
(** Monomials of degree at most D are integrated over the sphere up to eps; in
    2-D those that are even in xi. *)
Definition integrates (q : quad) (D : nat) (eps : R) : Prop :=
  forall i j k, i + j + k <= D -> (q_dim q = 2 -> Nat.even k = true) ->
  (Rabs (qsum q (fun o a => mu_of q o a ^ i * eta_of q o a ^ j * xi_of q o a ^ k) - 4 * PI * sphere_mean i j k) <= eps)%R.
(** The same on [-1, 1] for the 1-D quadratures, whose weights sum to 2. *)
Definition integrates1 (q : quad) (D : nat) (eps : R) : Prop :=
  forall i, i <= D ->
  (Rabs (qsum q (fun o a => mu_of q o a ^ i) - (if Nat.even i then 2 / INR (i + 1) else 0)) <= eps)%R.
(** The sum over m = -l, ..., l. *)
Definition over_m (l : nat) (f : Z -> R) : R := rsum (2 * l + 1) (fun k => f (Z.of_nat k - Z.of_nat l)%Z).
