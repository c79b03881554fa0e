(** * Tables_Spec: what a level-symmetric set is. *)
From Verif Require Import Base BaseR Angle_Model Angle_Spec Harm_Spec.
Open Scope nat_scope.

(** The largest degree up to which the set of 2 np levels integrates every
    polynomial over the sphere. *)
Definition ls_degree (np : nat) : nat :=
  match np with 6 | 8 | 9 | 10 | 11 | 12 => 2 * np - 2 | _ => 2 * np end.
(** Angle b is angle a with two coordinates exchanged and has the same weight. *)
Definition swapped_mu_eta (q : quad) (a b : nat) : Prop :=
  nth b (q_mu q) 0%R = nth a (q_eta q) 0%R /\ nth b (q_eta q) 0%R = nth a (q_mu q) 0%R /\
  nth b (q_xi q) 0%R = nth a (q_xi q) 0%R /\ wt_of q b = wt_of q a.
Definition swapped_mu_xi (q : quad) (eps : R) (a b : nat) : Prop :=
  (Rabs (nth b (q_mu q) 0 - nth a (q_xi q) 0) <= eps)%R /\ nth b (q_eta q) 0%R = nth a (q_eta q) 0%R /\
  (Rabs (nth b (q_xi q) 0 - nth a (q_mu q) 0) <= eps)%R /\ wt_of q b = wt_of q a.

(** The integral of sin^k theta over the polar cosine from 0 to 1. *)
Fixpoint half_range (k : nat) : R :=
  match k with
  | 0 => 1%R
  | 1 => (PI / 4)%R
  | S (S k) => ((INR k + 2) / (INR k + 3) * half_range k)%R
  end.
(** The integral of cos^k phi from 0 to pi/2. *)
Fixpoint quarter (k : nat) : R :=
  match k with
  | 0 => (PI / 2)%R
  | 1 => 1%R
  | S (S k) => ((INR k + 1) / (INR k + 2) * quarter k)%R
  end.
(** A rule on [-1, 1] symmetric about 0: increasing nonzero abscissae within
    (-1, 1), positive weights. *)
Definition polar_rule (n : nat) (x w : list R) : Prop :=
  length x = n /\ length w = n /\
  (forall i, i < n -> (nth i x 0 = - nth (n - 1 - i) x 0 /\ nth i w 0 = nth (n - 1 - i) w 0 /\ 0 < nth i w 0 /\ -1 < nth i x 0 < 1)%R) /\
  (forall i, S i < n -> (nth i x 0 < nth (S i) x 0)%R).
(** The weighted sum of the k-th powers. *)
Definition power_sum (x w : list R) (k : nat) : R := sumR (map (fun t => (fst t * snd t ^ k)%R) (combine w x)).
(** A rule on the azimuth from 0 to pi/2: increasing angles strictly inside,
    positive weights, and mirrored about pi/4. *)
Definition azimuth_rule (n : nat) (phi w : list R) (eps : R) : Prop :=
  length phi = n /\ length w = n /\
  (forall i, i < n -> (0 < nth i phi 0 < PI / 2 /\ 0 < nth i w 0 /\ nth i w 0 = nth (n - 1 - i) w 0 /\
     Rabs (cos (nth i phi 0) ^ 2 + cos (nth (n - 1 - i) phi 0) ^ 2 - 1) <= eps)%R) /\
  (forall i, S i < n -> (nth i phi 0 < nth (S i) phi 0)%R).
