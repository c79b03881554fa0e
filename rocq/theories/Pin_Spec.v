(** * Pin_Spec: what a meshed pin cell and its regions must be *)
From Verif Require Import Base BaseR Loop Mesh_Model Mesh_Spec Csg_Model Pin_Model.
Open Scope nat_scope.

(** A pin cell the constructor has accepted. *)
Definition made (P : pincell) : Prop :=
  exists pitch mats radii division center, pincell_new pitch mats radii division center = Ok P.
Definition square (P : pincell) : Prop := py (pc_pitch P) = px (pc_pitch P).
(** pin_center is the offset of the pin from the middle of the cell. *)
Definition centred (P : pincell) : Prop := px (pc_center P) = 0%R /\ py (pc_center P) = 0%R.
(** The pin fits into the cell. *)
Definition pin_inside (P : pincell) : Prop :=
  forall r, In r (pc_radii P) -> (2 * r <= px (pc_pitch P) /\ 2 * r <= py (pc_pitch P))%R.

(** Distance of (x, y) from the axis of the pin. *)
Definition off_axis (P : pincell) (x y : R) : R :=
  let X := (x - (px (pc_pitch P) / 2 + px (pc_center P)))%R in
  let Y := (y - (py (pc_pitch P) / 2 + py (pc_center P)))%R in
  sqrt (X * X + Y * Y).
(** (x, y) is in ring k, counted from the axis outward. *)
Definition in_ring (P : pincell) (x y : R) (k : nat) : Prop :=
  k <= length (pc_radii P) /\
  (k < length (pc_radii P) -> (off_axis P x y < nth k (pc_radii P) 0)%R) /\
  forall i, i < k -> (nth i (pc_radii P) 0 <= off_axis P x y)%R.

(** The best fit: a square of side L with a step of width L/2 and depth delta in
    the middle of each face (PinCell.hh 97-110). *)
Definition stair_L (r : R) : R := (1.60496875 * r)%R.
Definition stair_d (r : R) : R := (0.176223981031790 * r)%R.
Definition in_stair (r X Y : R) : Prop :=
  let L := stair_L r in let d := stair_d r in
  (Rabs X < L / 2 /\ Rabs Y < L / 2)%R \/
  (Rabs X < L / 2 + d /\ Rabs Y < L / 4)%R \/ (Rabs X < L / 4 /\ Rabs Y < L / 2 + d)%R.

(** Cells of size pitch over n that fit into a length w; at least one. *)
Definition share (p : R) (n : nat) (w : R) : Z := Z.max 1 (Int_part (INR n * w / p)).
(** Enough cells are left for the middle part, and they are not fewer than its own
    share less one. *)
Definition fits (p r : R) (n : nat) : Prop :=
  let L := stair_L r in let d := stair_d r in
  let used := (2 * (share p n (p / 2 - L / 2 - d) + share p n d + share p n (L / 4)))%Z in
  (used < Z.of_nat n)%Z /\ (Int_part (INR n * (L / 2) / p) - 1 <= Z.of_nat n - used)%Z.

(** Area of the cells marked k. *)
Definition region_area (m : mesh) (reg : list Z) (k : Z) : R :=
  rsum (ncy m) (fun j => rsum (ncx m) (fun i =>
    if Z.eqb (nth (Mesh_Model.index (ncx m) (ncy m) i j 0) reg (-1)%Z) k then (nth i (mdx m) 0 * nth j (mdy m) 0)%R else 0%R)).

(** Strictly between the edges of fine cell i. *)
Definition inside (w : list R) (i : nat) (x : R) : Prop := (left_edge w i < x < left_edge w (S i))%R.

(** An n by n mesh of the whole cell; the material is that of the region. *)
Definition covers (P : pincell) (n : nat) (m : mesh) (reg : list Z) : Prop :=
  mesh_good m /\ dim m = 2 /\ ncx m = n /\ ncy m = n /\ ncz m = 1 /\ mdz m = [1%R] /\
  twx m = px (pc_pitch P) /\ twy m = py (pc_pitch P) /\ volumes_total m (px (pc_pitch P) * py (pc_pitch P))%R /\
  length reg = n * n /\ length (mat m) = n * n /\
  forall c, c < n * n -> exists k, k <= length (pc_radii P) /\ nth c reg (-1)%Z = Z.of_nat k /\ nth c (mat m) 0%Z = nth k (pc_mat P) 0%Z.
(** The map has all symmetries of the square. *)
Definition symmetric (n : nat) (reg : list Z) : Prop :=
  forall i j, i < n -> j < n ->
  nth (i + j * n) reg (-1)%Z = nth (j + i * n) reg (-1)%Z /\ nth (i + j * n) reg (-1)%Z = nth ((n - 1 - i) + j * n) reg (-1)%Z.

(** ** Regions *)
(** Cells without height have no bounds in z. *)
Definition flat (P : pincell) : Prop := (pz (pc_pitch P) <= 0)%R.
Definition in_pin_cell (P : pincell) (p : point) : Prop :=
  (0 <= px p < px (pc_pitch P) /\ 0 <= py p < py (pc_pitch P) /\ (0 < pz (pc_pitch P) -> 0 <= pz p < pz (pc_pitch P)))%R.
(** The division schemes (PinCell.hh 26-51): none, quarters, diagonal quarters,
    eighths; counter-clockwise. *)
Definition sectors (div : nat) : nat := nth div [1; 4; 4; 8] 0.
Definition in_sector (div a : nat) (u v : R) : Prop :=
  match div with
  | 0 => True
  | 1 => match a with 0 => 0 <= u /\ 0 <= v | 1 => u < 0 /\ 0 <= v | 2 => u < 0 /\ v < 0 | _ => 0 <= u /\ v < 0 end
  | 2 => match a with 0 => u < v /\ 0 <= u + v | 1 => u < v /\ u + v < 0 | 2 => v <= u /\ u + v < 0 | _ => v <= u /\ 0 <= u + v end
  | _ => match a with
         | 0 => 0 <= v /\ v <= u | 1 => u < v /\ 0 <= u | 2 => u < 0 /\ 0 <= u + v | 3 => u + v < 0 /\ 0 <= v
         | 4 => v < 0 /\ u < v | 5 => v <= u /\ u < 0 | 6 => 0 <= u /\ u + v < 0 | _ => 0 <= u + v /\ v < 0
         end
  end%R.
(** Coordinates relative to the axis of the pin, in units of the pitch. *)
Definition rel_x (P : pincell) (p : point) : R := ((px p - px (pc_center P)) / px (pc_pitch P) - / 2)%R.
Definition rel_y (P : pincell) (p : point) : R := ((py p - py (pc_center P)) / py (pc_pitch P) - / 2)%R.

(** Region i and no other contains p. *)
Definition only_region (rs : list region) (p : point) (i : nat) : Prop :=
  i < length rs /\ forall j r, nth_error rs j = Some r -> region_contains r p = Ok (j =? i).
Definition no_region (rs : list region) (p : point) : Prop := forall r, In r rs -> region_contains r p = Ok false.

(** The pins of an assembly have the pitch of the first. *)
Definition same_pitch (P Q : pincell) : Prop := px (pc_pitch P) = px (pc_pitch Q) /\ py (pc_pitch P) = py (pc_pitch Q).
