(** * Specification vocabulary for meshes *)
From Verif Require Import Base BaseR Loop Mesh_Model.
Open Scope nat_scope.

(** Valid coarse description of one axis: nonempty, positive counts, one more
    edge than intervals, increasing edges. *)
Definition axis_ok (fm : list nat) (cme : list R) : Prop :=
  fm <> [] /\ (forall f, In f fm -> 0 < f) /\ length cme = length fm + 1 /\
  forall i, i < length fm -> (nth i cme 0 < nth (S i) cme 0)%R.

(** Fine cell x lies in coarse interval I. *)
Definition in_coarse (fm : list nat) (I x : nat) : Prop :=
  I < length fm /\ psum fm I <= x < psum fm (S I).

(** Left edge of fine cell x. *)
Definition left_edge (w : list R) (x : nat) : R := rsum x (fun i => nth i w 0%R).

Definition in_cell (w : list R) (i : nat) (x : R) : Prop :=
  i < length w /\ (left_edge w i <= x <= left_edge w (S i))%R.

(** A consistent mesh. *)
Definition mesh_good (m : mesh) : Prop :=
  length (mdx m) = ncx m /\ length (mdy m) = ncy m /\ length (mdz m) = ncz m /\
  (forall w, In w (mdx m) \/ In w (mdy m) \/ In w (mdz m) -> 0 < w)%R /\
  left_edge (mdx m) (ncx m) = twx m /\ left_edge (mdy m) (ncy m) = twy m /\ left_edge (mdz m) (ncz m) = twz m /\
  0 < ncx m /\ 0 < ncy m /\ 0 < ncz m /\
  1 <= dim m <= 3 /\ (dim m < 2 -> ncy m = 1) /\ (dim m < 3 -> ncz m = 1).

(** Widths of one axis derived from its coarse description. *)
Definition axis_widths (fm : list nat) (cme w : list R) : Prop :=
  length w = list_sum fm /\
  (forall I x, in_coarse fm I x ->
     nth x w 0 = ((nth (S I) cme 0 - nth I cme 0) / INR (nth I fm 0%nat)))%R /\
  (left_edge w (list_sum fm) = nth (length fm) cme 0 - nth 0 cme 0)%R.

Definition coarse_map_ok (xf yf zf : list nat) (mm r : list Z) : Prop :=
  forall I J K x y z, in_coarse xf I x -> in_coarse yf J y -> in_coarse zf K z ->
    nth (index (list_sum xf) (list_sum yf) x y z) r 0%Z =
    nth (index (length xf) (length yf) I J K) mm 0%Z.

(** Total of the cell volumes. *)
Definition volumes_total (m : mesh) (V : R) : Prop :=
  exists vs, mapM (volume m) (seq 0 (ncells m)) = Ok vs /\ sumR vs = V.

(** ** Tilings *)

Definition pin_ok (p : nat) (q : pin) : Prop :=
  pnx q = p /\ pny q = p /\ length (pdy q) = p /\ length (pmat q) = p * p /\ length (preg q) = p * p.
Definition apart_ok (p : nat) (q : apart) : Prop :=
  anx q = p /\ any q = p /\ length (ady q) = p /\ length (amat q) = p * p /\
  length (areg q) = p * p /\ length (apin q) = p * p.

(** Fine cell (x,y) of the tile in column I and row J of an n x n tiling of
    p x p tiles. *)
Definition tile_cell (n p I J x y : nat) : nat := (I * p + x) + (J * p + y) * (p * n).

(** [r] is tiled: fine cell (x,y) of tile (I,J) carries [val I J (x + y p)]. *)
Definition tiled (n p : nat) (r : list Z) (val : nat -> nat -> nat -> Z) : Prop :=
  length r = p * n * (p * n) /\
  forall I J x y, I < n -> J < n -> x < p -> y < p ->
    nth (tile_cell n p I J x y) r 0%Z = val I J (x + y * p).

(** Edges built from row widths. *)
Definition edges_of (n p : nat) (ed : list R) (dy : nat -> list R) : Prop :=
  length ed = p * n + 1 /\ nth 0 ed 0%R = 0%R /\
  forall J y, J < n -> y < p ->
    nth (J * p + y + 1) ed 0%R = (nth (J * p + y) ed 0 + nth y (dy J) 0)%R.
