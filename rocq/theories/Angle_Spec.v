(** * Angle_Spec: statements about directions, independent of the model. *)
From Verif Require Import Base BaseR Angle_Model.
Open Scope nat_scope.

(** Sides in order west, east, south, north, bottom, top: side s bounds axis s/2,
    and the inward normal is positive on the even sides. *)
Definition points_inward (s : nat) (c : R) : Prop := if Nat.even s then (0 < c)%R else (c < 0)%R.
Definition points_outward (s : nat) (c : R) : Prop := if Nat.even s then (c < 0)%R else (0 < c)%R.

(** The moments of a dimension: m = 0 only in 1-D, l + m even in 2-D, |m| <= l. *)
Definition valid_lm (dim L l : nat) (m : Z) : Prop :=
  l <= L /\ (- Z.of_nat l <= m <= Z.of_nat l)%Z /\
  match dim with 1 => m = 0%Z | 2 => Z.Even (m + Z.of_nat l) | _ => True end.

(** On the sphere. *)
Definition on_sphere (x y z : R) : Prop := (x * x + y * y + z * z = 1)%R.

(** Looking along the in-plane direction (fx,fy), the component to the right. *)
Definition rightward (fx fy mu eta : R) : R := (fy * mu - fx * eta)%R.
(** The in-plane direction in which one looks: across vertical side s, into the
    domain or out of it. *)
Definition facing (s : nat) (inward : bool) : R * R :=
  let sg := if inward then 1%R else (-1)%R in
  match s with
  | 0 => (sg, 0%R)
  | 1 => (- sg, 0)%R
  | 2 => (0%R, sg)
  | _ => (0, - sg)%R
  end.

(** [T az p] is a bijection between the slots of side s and the (octant, angle)
    pairs whose octant is listed in [octs]; s_io locates the octant in the list. *)
Definition table_bijection (naz npo nang : nat) (octs : list nat) (T : nat -> nat -> res slot) : Prop :=
  (forall az p, az < naz -> p < npo -> exists x, T az p = Ok x /\ s_ang x < nang /\ nth_error octs (s_io x) = Some (s_oct x)) /\
  (forall o a, In o octs -> a < nang -> exists az p x, az < naz /\ p < npo /\ T az p = Ok x /\ s_oct x = o /\ s_ang x = a /\
     forall az' p' x', az' < naz -> p' < npo -> T az' p' = Ok x' -> s_oct x' = o -> s_ang x' = a -> az' = az /\ p' = p).

(** Stored cosines of a product set: positive; mu decreases and eta increases
    with the azimuth, xi increases with the polar index (what verify checks). *)
Definition product_ordered (na np : nat) (mu eta xi : nat -> R) : Prop :=
  (forall a, a < na * np -> (0 < mu a)%R /\ (0 < eta a)%R /\ (0 < xi a)%R) /\
  (forall p a a', p < np -> a < a' -> a' < na ->
     (mu (angle_of np a' p) < mu (angle_of np a p))%R /\ (eta (angle_of np a p) < eta (angle_of np a' p))%R) /\
  (forall a p p', a < na -> p < p' -> p' < np -> (xi (angle_of np a p) < xi (angle_of np a p'))%R).
(** Signs of octants 0..7, counter-clockwise from (+,+,+), then below. *)
Definition octant_signs (o axis : nat) : Z :=
  match axis with
  | 0 => if (o mod 4 =? 1) || (o mod 4 =? 2) then (-1)%Z else 1%Z
  | 1 => if (o mod 4 =? 2) || (o mod 4 =? 3) then (-1)%Z else 1%Z
  | _ => if o <? 4 then 1%Z else (-1)%Z
  end.
(** Azimuth in (0, 2 pi) of a direction of octant o whose first-quadrant azimuth is phi. *)
Definition octant_azimuth (o : nat) (phi : R) : R :=
  match o mod 4 with 0 => phi | 1 => (PI - phi)%R | 2 => (PI + phi)%R | _ => (2 * PI - phi)%R end.
(** The signed cosine of a slot. *)
Definition slot_cos (c : nat -> R) (axis : nat) (x : slot) : R := (IZR (octant_signs (s_oct x) axis) * c (s_ang x))%R.

