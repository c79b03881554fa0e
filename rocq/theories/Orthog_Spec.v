(** * Specification vocabulary for the orthogonal bases *)
From Verif Require Import Base BaseR Vector_Model Orthog_Model.
Open Scope R_scope.

(** Weight at a point; no weights means 1. *)
Definition wgt (w : option (list R)) (i : nat) : R :=
  match w with None => 1 | Some l => nth i l 0 end.
(** Weighted inner product of two functions on [0, n). *)
Definition wdot (n : nat) (W f g : nat -> R) : R := rsum n (fun i => W i * f i * g i).
(** Entry i of column l. *)
Definition col (cols : list (list R)) (l i : nat) : R := nth i (nth l cols []) 0.
Definition at_ (v : list R) (i : nat) : R := nth i v 0.
(** K functions, pairwise orthogonal, none of them of zero or negative norm. *)
Definition orthogonal (n K : nat) (W : nat -> R) (P : nat -> nat -> R) : Prop :=
  (forall l k, (l < K)%nat -> (k < K)%nat -> l <> k -> wdot n W (P l) (P k) = 0) /\
  (forall l, (l < K)%nat -> 0 < wdot n W (P l) (P l)).
Definition orthonormal (n K : nat) (W : nat -> R) (P : nat -> nat -> R) : Prop :=
  forall l k, (l < K)%nat -> (k < K)%nat -> wdot n W (P l) (P k) = if (l =? k)%nat then 1 else 0.
(** Linear combination. *)
Definition combo (K : nat) (c : nat -> R) (P : nat -> nat -> R) (i : nat) : R := rsum K (fun l => c l * P l i).
Definition in_span (n K : nat) (P : nat -> nat -> R) (f : nat -> R) : Prop :=
  exists c, forall i, (i < n)%nat -> f i = combo K c P i.
(** No vector is a combination of those before it. *)
Definition independent (n K : nat) (V : nat -> nat -> R) : Prop :=
  forall l, (l < K)%nat -> ~ in_span n l V (V l).

(** Array sizes of a basis. *)
Definition shaped (b : obasis) : Prop :=
  length (ob_basis b) = S (ob_order b) /\
  (forall c, In c (ob_basis b) -> length c = ob_size b) /\
  (forall w, ob_w b = Some w -> length w = ob_size b).

(** The inner product a basis uses. *)
Definition bdot (b : obasis) : (nat -> R) -> (nat -> R) -> R := wdot (ob_size b) (wgt (ob_w b)).

(** transform undoes inverse, for every coefficient vector. *)
Definition round_trip (b : obasis) : Prop :=
  forall c f0 c0, length c = S (ob_order b) -> length c0 = S (ob_order b) -> length f0 = ob_size b ->
  exists f, inverse b c f0 = Ok f /\ transform b f c0 = Ok c.

(** inverse after transform is the orthogonal projection on the span of the columns. *)
Definition projects (b : obasis) : Prop :=
  forall f f0 c0, length f = ob_size b -> length c0 = S (ob_order b) -> length f0 = ob_size b ->
  exists c g, transform b f c0 = Ok c /\ inverse b c f0 = Ok g /\
    length g = ob_size b /\
    in_span (ob_size b) (S (ob_order b)) (col (ob_basis b)) (at_ g) /\
    (forall l, (l <= ob_order b)%nat ->
       bdot b (fun i => at_ f i - at_ g i) (col (ob_basis b) l) = 0) /\
    ((forall i, (i < ob_size b)%nat -> 0 <= wgt (ob_w b) i) ->
     forall h, in_span (ob_size b) (S (ob_order b)) (col (ob_basis b)) h ->
       bdot b (fun i => at_ f i - at_ g i) (fun i => at_ f i - at_ g i) <=
       bdot b (fun i => at_ f i - h i) (fun i => at_ f i - h i)) /\
    (in_span (ob_size b) (S (ob_order b)) (col (ob_basis b)) (at_ f) -> g = f).

(** inverse undoes transform, for every vector. *)
Definition complete (b : obasis) : Prop :=
  forall f f0 c0, length f = ob_size b -> length c0 = S (ob_order b) -> length f0 = ob_size b ->
  exists c, transform b f c0 = Ok c /\ inverse b c f0 = Ok f.

(** A polynomial of degree at most d, on the integers 0 .. n-1. *)
Definition poly_on (n d : nat) (f : nat -> R) : Prop :=
  exists c, forall j, (j < n)%nat -> f j = rsum (S d) (fun k => c k * INR j ^ k).
(** The discrete Legendre polynomial of degree l on n points, up to a factor:
    of degree l and orthogonal to all polynomials of lower degree. *)
Definition discrete_legendre (n l : nat) (f : nat -> R) : Prop :=
  poly_on n l f /\
  (forall d g, (d < l)%nat -> poly_on n d g -> rsum n (fun j => f j * g j) = 0) /\
  exists j, (j < n)%nat /\ f j <> 0.

(** A polynomial of degree at most d on the real line. *)
Definition poly (d : nat) (f : R -> R) : Prop :=
  exists c, forall x, f x = rsum (S d) (fun k => c k * x ^ k).
(** A quadrature rule on [lo, hi] that integrates polynomials of degree D exactly. *)
Definition exact_rule (n : nat) (xs ws : list R) (lo hi : R) (D : nat) : Prop :=
  forall f F, poly D f -> (forall x, derivable_pt_lim F x (f x)) ->
  rsum n (fun i => nth i ws 0 * f (nth i xs 0)) = F hi - F lo.

(** Legendre polynomials, by Bonnet's recursion. *)
Definition is_legendre (P : nat -> R -> R) : Prop :=
  (forall x, P 0%nat x = 1) /\ (forall x, P 1%nat x = x) /\
  (forall l x, INR (l + 2) * P (l + 2)%nat x = (2 * INR l + 3) * x * P (l + 1)%nat x - (INR l + 1) * P l x).

(** The vectors TransformedBasis orthogonalises: the zeroth one is the zeroth
    column times x; with option 1 the others are multiplied by it, normalised. *)
Definition trans_input (n : nat) (option1 : bool) (x : nat -> R) (P : nat -> nat -> R) (l i : nat) : R :=
  let z := fun i => P 0%nat i * x i in
  match l with
  | O => z i
  | _ => if option1 then P l i * (z i / sqrt (rsum n (fun i => z i * z i))) else P l i
  end.

(** v is the value at cos th of the Chebyshev polynomial of the second kind of degree l
    (both sides vanish where sin th = 0). *)
Definition cheb_value (l : nat) (v : R) (th : R) : Prop := v * sin th = sin ((INR l + 1) * th).

(** Enough abscissas and weights, on an interval. *)
Definition sized (p : oparams) : Prop :=
  (op_size p <= length (op_x p))%nat /\ (op_size p <= length (op_qw p))%nat /\ op_lower p < op_upper p.
