(** * Boundary_Spec: directions at a side, independent of the model's tables. *)
From Verif Require Import Base BaseR Angle_Model Angle_Spec Boundary_Model.
Open Scope nat_scope.

(** A discrete ordinates quadrature: what every constructor leaves behind (C24, C26). *)
Definition sn_quad (q : quad) : Prop :=
  0 < q_dim q < 4 /\ q_noct q = 2 ^ q_dim q /\ q_nang q = q_noct q * q_nao q /\
  q_inc q = incident_table (q_dim q) /\ q_out q = outgoing_table (q_dim q).

(** Octant o enters (leaves) through side s: the inward normal of side s is
    positive along axis s/2 on even sides. *)
Definition enters (dim s o : nat) : Prop := o < 2 ^ dim /\ octant_signs o (s / 2) = (if Nat.even s then 1 else -1)%Z.
Definition leaves (dim s o : nat) : Prop := o < 2 ^ dim /\ octant_signs o (s / 2) = (if Nat.even s then -1 else 1)%Z.
(** o' is o with only the component normal to side s reversed. *)
Definition mirrored (dim s o o' : nat) : Prop :=
  o' < 2 ^ dim /\ forall axis, axis < dim ->
  octant_signs o' axis = if axis =? s / 2 then (- octant_signs o axis)%Z else octant_signs o axis.
(** The side across the domain. *)
Definition opposite (s s' : nat) : Prop := s' / 2 = s / 2 /\ s' <> s.

(** The flux of side s, octant o, angle a, group g. *)
Definition flux (b : bsn) (s o a g : nat) : face := b_flux b s g (index (b_q b) o a).
(** A valid argument list. *)
Definition valid (b : bsn) (s o a g : nat) : Prop :=
  s < 2 * q_dim (b_q b) /\ o < q_noct (b_q b) /\ a < q_nao (b_q b) /\ g < b_ng b.
(** Everything but the fluxes is the same. *)
Definition same_setup (b b' : bsn) : Prop := b_q b' = b_q b /\ b_ng b' = b_ng b /\ b_bc b' = b_bc b.
(** Rectangular fluxes of the allocated shape. *)
Definition shaped (b : bsn) (nx ny nz : nat) : Prop :=
  forall s o a g, valid b s o a g ->
  map (@length R) (flux b s o a g) =
  repeat (face_cols (q_dim (b_q b)) nx ny nz s) (face_rows (q_dim (b_q b)) nx ny nz s).
(** The entries psi transfers. *)
Definition selected (b : bsn) (out onlyref : bool) (s o : nat) : Prop :=
  (onlyref = true -> b_bc b s = Reflect) /\
  (if out then leaves (q_dim (b_q b)) s o else enters (q_dim (b_q b)) s o).
