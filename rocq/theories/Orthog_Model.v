(** * Model of the orthogonal bases
    Source: /repo/src/orthog (OrthogonalBasis.cc, OrthogonalBasis.i.hh, DLP.cc,
    DCT.cc, DCP.cc, CLP.cc, ChebyshevU.cc, Jacobi01.cc, DDF.cc, UserBasis.cc,
    TransformedBasis.cc, ContinuousOrthogonalBasis.cc) and
    /repo/src/callow/matrix/MatrixDense.i.hh (multiply, multiply_transpose).
    Simplifications: [double] is [R] and the literal for pi is [PI]; the dense
    matrix is the list of its columns ([MATRIXDENSE_COLMAJ] is defined in
    MatrixDense.hh:20, so [d_values] is their concatenation and the running
    index p of the products walks column after column; the address of entry (0,l) is
    the storage of column l); the Boost and PETSc variants are not modelled;
    [Require]/[Assert] are not checks. *)
From Verif Require Import Base BaseR Loop Vector_Model.
Open Scope R_scope.

(** OrthogonalBasisParameters.hh 25-75; [op_user] stands for the database
    entries "vec0", "vec1", ... read by UserBasis. *)
Record oparams := mk_oparams {
  op_order : nat; op_size : nat; op_orthonormal : bool; op_even_only : bool;
  op_x : list R; op_qw : list R; op_w : list R; op_lower : R; op_upper : R;
  op_option : nat; op_user : list (list R) }.

(** OrthogonalBasis.hh: protected data. *)
Record obasis := mk_obasis {
  ob_order : nat; ob_size : nat; ob_orthonormal : bool;
  ob_w : option (list R); ob_basis : list (list R); ob_a : option (list R) }.

(** ** MatrixDense products *)
(** MatrixDense.i.hh 64-88: v_out.scale(0); for j: temp = v_in[j]; for i: v_out[i] += temp * d_values[p] *)
Definition md_multiply (m : nat) (cols : list (list R)) (v_in v_out : list R) : res (list R) :=
  for_ 0 (length cols) (vscale v_out 0) (fun j o =>
    do temp <- rd v_in j; do c <- rd cols j;
    for_ 0 m o (fun i o => do a <- rd o i; do b <- rd c i; wr o i (a + temp * b))).
(** MatrixDense.i.hh 91-117 *)
Definition md_multiply_transpose (m : nat) (cols : list (list R)) (v_in v_out : list R) : res (list R) :=
  for_ 0 (length cols) (vscale v_out 0) (fun j o =>
    do c <- rd cols j;
    do temp <- for_ 0 m 0 (fun i t => do a <- rd v_in i; do b <- rd c i; Ok (t + a * b));
    wr o j temp).

(** ** OrthogonalBasis *)
(** OrthogonalBasis.cc 40-53: the weights are copied if any are given. *)
Definition base_weights (p : oparams) : res (option (list R)) :=
  match op_w p with
  | [] => Ok None
  | w => do l <- mapM (rd w) (seq 0 (op_size p)); Ok (Some l)
  end.

(** if (d_w) u.multiply(d_w), and the same with d_a. *)
Definition times_opt (u : list R) (w : option (list R)) : res (list R) :=
  match w with Some w => vmul u w | None => Ok u end.

(** OrthogonalBasis.cc 80-86: the value 1 / (column, W column). *)
Definition col_val (w : option (list R)) (c : list R) : res R :=
  do tmp <- times_opt c w; do d <- vdot tmp c; Ok (1 / d).

(** OrthogonalBasis.cc 70-100.  State: (columns, d_a). *)
Definition compute_a (b : obasis) : res obasis :=
  do s <- for_ 0 (S (ob_order b)) (ob_basis b, repeat 1 (S (ob_order b))) (fun i s =>
    let '(cols, a) := s in
    do c <- rd cols i;
    do val <- col_val (ob_w b) c;
    if ob_orthonormal b
    then do cols' <- wr cols i (vscale c (sqrt val)); Ok (cols', a)
    else do a' <- wr a i val; Ok (cols, a'));
  Ok (mk_obasis (ob_order b) (ob_size b) (ob_orthonormal b) (ob_w b) (fst s) (Some (snd s))).

(** OrthogonalBasis.i.hh 16-27.  The column view has d_size entries. *)
Definition fold_ (b : obasis) (column : nat) (V : list R) : res R :=
  do Y <- times_opt V (ob_w b);
  do c <- rd (ob_basis b) column;
  vdot (firstn (ob_size b) c) Y.

(** OrthogonalBasis.i.hh 68-75 *)
Definition transform (b : obasis) (f ftilde : list R) : res (list R) :=
  do wf <- times_opt f (ob_w b);
  md_multiply_transpose (ob_size b) (ob_basis b) wf ftilde.

(** OrthogonalBasis.i.hh 89-98.  The loop that sums d_a (its result is unused)
    dereferences d_a even when it was never allocated. *)
Definition inverse (b : obasis) (ftilde f : list R) : res (list R) :=
  match ob_a b with
  | None => UB
  | Some a => do aft <- vmul ftilde a; md_multiply (ob_size b) (ob_basis b) aft f
  end.

(** OrthogonalBasis.i.hh 68-75 and 76-86: the shared-pointer and std::vector
    overloads of transform forward their arguments in order (a Vector built
    from a std::vector refers to its storage, Vector.cc 103-119).
    Each returns the final contents of (first argument, second argument). *)
Definition transform_sp (b : obasis) (x y : list R) : res (list R * list R) :=
  do y' <- transform b x y; Ok (x, y').
Definition transform_std (b : obasis) (x y : list R) : res (list R * list R) :=
  do y' <- transform b x y; Ok (x, y').
(** OrthogonalBasis.i.hh 99-103: the body of [inverse(SP ftilde, SP f)] calls inverse with f first and ftilde second:
    the second argument is the input and the first one the output. *)
Definition inverse_sp (b : obasis) (x y : list R) : res (list R * list R) :=
  do x' <- inverse b y x; Ok (x', y).
(** OrthogonalBasis.i.hh 104-110: F wraps the second argument, Ftilde the first. *)
Definition inverse_std (b : obasis) (x y : list R) : res (list R * list R) :=
  do y' <- inverse b x y; Ok (x, y').

(** OrthogonalBasis.i.hh 41-54.  [P_l = d_basis->operator()(row, i)] assigns a double to
    a Vector: the value is converted to int and a temporary Vector of that size
    is built ([Vector(const int n, double v = 0)], Vector.hh:45, is not
    explicit), then copied member by member (there is no copy assignment).
    - size < 0: [new double[n]] throws;
    - size = 0: P_l becomes empty, the loop ends and the dot product is 0;
    - size > 0: P_l points to the storage the temporary has just freed, which
      the dot product then reads: UB. *)
Definition unfold_ (b : obasis) (row : nat) (V : list R) : res R :=
  do Y <- times_opt V (ob_a b);
  if (ob_size b =? 0)%nat then Ok 0 else
  do c <- rd (ob_basis b) 0;
  do v <- rd c row;
  if Rle_lt_dec v (-1) then Err
  else if Rlt_le_dec v 1 then Ok 0
  else UB.

(** OrthogonalBasis.i.hh 113-119 *)
Definition entry (b : obasis) (i j : nat) : res R :=
  do c <- rd (ob_basis b) j; do v <- rd c i;
  match ob_a b with None => Ok v | Some a => do s <- rd a j; Ok (v * s) end.

(** ** 32-bit arithmetic of DLP ([size_t] is [unsigned int], Definitions.hh:19) *)
Definition u32 (z : Z) : Z := (z mod 4294967296)%Z.
Definition s32 (z : Z) : Z := ((z + 2147483648) mod 4294967296 - 2147483648)%Z.

(** ** DLP *)
(** DLP.cc 32-34: products of an int with an unsigned int are unsigned, then converted to int. *)
Definition dlp_C0 (N i : nat) : Z := s32 (u32 ((Z.of_nat i - 1) * u32 (u32 (Z.of_nat N - 1) + Z.of_nat i)))%Z.
Definition dlp_C1 (N i j : nat) : Z :=
  s32 (u32 ((2 * Z.of_nat i - 1) * u32 (u32 (Z.of_nat N - 1) - 2 * Z.of_nat j)))%Z.
Definition dlp_C2 (N i : nat) : Z := s32 (u32 (Z.of_nat i * u32 (Z.of_nat N - Z.of_nat i)))%Z.
(** DLP.cc 22-39; the inner loops over j read other columns only. *)
Definition dlp_columns (N order : nat) : res (list (list R)) :=
  let cols := repeat (repeat 1 N) (S order) in
  if (0 <? order)%nat then
    do cols <- wr cols 1 (map (fun j => (IZR (u32 (Z.of_nat N - 1)) - 2 * INR j) / IZR (u32 (Z.of_nat N - 1))) (seq 0 N));
    for_ 2 (S order) cols (fun i cs =>
      do p1 <- rd cs (i - 1); do p2 <- rd cs (i - 2);
      do c <- mapM (fun j =>
        do a <- rd p1 j; do b <- rd p2 j;
        Ok ((IZR (dlp_C1 N i j) * a - IZR (dlp_C0 N i) * b) / IZR (dlp_C2 N i))) (seq 0 N);
      wr cs i c)
  else Ok cols.

(** ** DCT *)
(** DCT.cc 25-27 *)
Definition dct_columns (N order : nat) : list (list R) :=
  map (fun i => map (fun j => cos ((PI / INR N) * (INR j + / 2) * INR i)) (seq 0 N)) (seq 0 (S order)).

(** ** DCP *)
(** DCP.cc 32-49: one column, given the entry 0 of the previous one.
    [c] is the column as allocated (ones). *)
Definition dcp_column (N i : nat) (prev0 : R) (c : list R) : res (list R) :=
  let n := INR N in let ii := INR i in
  let g := - sqrt ((n - ii) / (n + ii)) * sqrt ((2 * ii + 1) / (2 * ii - 1)) in
  do c <- wr c 0 (g * prev0);
  do c00 <- rd c 0;
  do c <- wr c 1 ((1 + (ii * (ii + 1)) / (1 - n)) * c00);
  let mid := if (N mod 2 =? 0)%nat then (N / 2)%nat else ((N + 1) / 2)%nat in
  do c <- (if (2 <? N)%nat then
    for_ 2 mid c (fun j c =>
      let jj := INR j in
      let g1 := (- (ii * (ii + 1)) - (2 * jj - 1) * (jj - n - 1) - jj) / (jj * (n - jj)) in
      let g2 := (jj - 1) * (jj - n - 1) / (jj * (n - jj)) in
      do a <- rd c (j - 1); do b <- rd c (j - 2);
      wr c j (g1 * a + g2 * b))
    else Ok c);
  foldM (fun c j => do v <- rd c (N - j - 1); wr c j ((1 - 2 * INR (i mod 2)) * v))
    (rev (seq mid (N - mid))) c.
(** DCP.cc 22-50 *)
Definition dcp_columns (N order : nat) : res (list (list R)) :=
  for_ 1 (S order) (repeat (repeat 1 N) (S order)) (fun i cs =>
    do p <- rd cs (i - 1); do p0 <- rd p 0;
    do c <- rd cs i;
    do c <- dcp_column N i p0 c;
    wr cs i c).

(** DLP.cc 15-42, DCT.cc 17-30, DCP.cc 16-53, DDF.cc 16-27 *)
Definition discrete (p : oparams) (cols : res (list (list R))) : res obasis :=
  do w <- base_weights p; do cols <- cols;
  compute_a (mk_obasis (op_order p) (op_size p) (op_orthonormal p) w cols None).
Definition DLP (p : oparams) := discrete p (dlp_columns (op_size p) (op_order p)).
Definition DCT (p : oparams) := discrete p (Ok (dct_columns (op_size p) (op_order p))).
Definition DCP (p : oparams) := discrete p (dcp_columns (op_size p) (op_order p)).
(** DDF.cc: compute_a is not called, so d_a stays null. *)
Definition DDF (p : oparams) : res obasis :=
  do w <- base_weights p;
  if (op_order p + 1 =? op_size p)%nat
  then Ok (mk_obasis (op_order p) (op_size p) (op_orthonormal p) w
        (map (fun j => map (fun i => if (i =? j)%nat then 1 else 0) (seq 0 (op_size p))) (seq 0 (op_size p))) None)
  else Err.

(** UserBasis.cc 16-35: d_orthonormal is forced; a missing entry of the database throws. *)
Definition UserBasis (p : oparams) : res obasis :=
  do w <- base_weights p;
  do cols <- mapM (fun l => match nth_error (op_user p) l with
      | None => Err | Some u => mapM (rd u) (seq 0 (op_size p)) end) (seq 0 (S (op_order p)));
  compute_a (mk_obasis (op_order p) (op_size p) true w cols None).

(** ** Continuous bases *)
(** CLP.cc 44, ChebyshevU.cc 31, Jacobi01.cc 47 *)
Definition scaled (p : oparams) (x : R) : R := 2 * (x - op_lower p) / (op_upper p - op_lower p) - 1.
(** CLP.cc 42-46 and the like: the abscissas and the weights, both of d_size entries. *)
Definition points (p : oparams) : res (list R) :=
  mapM (fun i => do x <- rd (op_x p) i; Ok (scaled p x)) (seq 0 (op_size p)).
Definition weights (p : oparams) (f : R -> R) (ys : list R) : res (list R) :=
  mapM (fun i => do q <- rd (op_qw p) i; do y <- rd ys i; Ok (q * f y)) (seq 0 (op_size p)).
(** One entry per abscissa. *)
Definition on_points (f : nat -> R -> R) (order : nat) (ys : list R) : list (list R) :=
  map (fun l => map (f l) ys) (seq 0 (S order)).

(** CLP.cc 16-24: the recursion, as the pair (P_l, P_(l+1)). *)
Fixpoint LP2 (l : nat) (x : R) : R * R :=
  match l with
  | O => (1, x)
  | S k => let '(a, b) := LP2 k x in
           (b, ((2 * (INR (k + 2) - 1) + 1) * x * b - (INR (k + 2) - 1) * a) / INR (k + 2))
  end.
Definition LP (l : nat) (x : R) : R := fst (LP2 l x).
(** CLP.cc 31-59 *)
Definition CLP (p : oparams) : res obasis :=
  do ys <- points p; do w <- weights p (fun _ => 1) ys;
  Ok (mk_obasis (op_order p) (op_size p) (op_orthonormal p) (Some w)
        (on_points LP (op_order p) ys)
        (Some (map (fun l => (2 * INR l + 1) / 2) (seq 0 (S (op_order p)))))).

(** ChebyshevU.cc 46-74: closed forms up to 8 *)
Definition cheby_low (l : nat) (x : R) : R :=
  match l with
  | 0%nat => 1
  | 1%nat => 2 * x
  | 2%nat => -1 + 4 * x * x
  | 3%nat => 8 * x ^ 3 - 4 * x
  | 4%nat => 1 + 16 * x ^ 4 - 12 * x * x
  | 5%nat => 32 * x ^ 5 - 32 * x ^ 3 + 6 * x
  | 6%nat => -1 + 64 * x ^ 6 - 80 * x ^ 4 + 24 * x * x
  | 7%nat => 128 * x ^ 7 - 192 * x ^ 5 + 80 * x ^ 3 - 8 * x
  | _ => 1 + 256 * x ^ 8 - 448 * x ^ 6 + 240 * x ^ 4 - 40 * x * x
  end.
(** ChebyshevU.cc 71-72, as the pair (value at l - 1, value at l) for l >= 8 *)
Fixpoint cheby_high (k : nat) (x : R) : R * R :=
  match k with
  | O => (cheby_low 7 x, cheby_low 8 x)
  | S k => let '(a, b) := cheby_high k x in (b, 2 * b - a)
  end.
Definition cheby_u (l : nat) (x : R) : R :=
  if (l <=? 8)%nat then cheby_low l x else snd (cheby_high (l - 8) x).
(** ChebyshevU.cc 15-43 *)
Definition ChebyshevU (p : oparams) : res obasis :=
  let even := if op_even_only p then 2%nat else 1%nat in
  do ys <- points p; do w <- weights p (fun y => sqrt (1 - y * y)) ys;
  compute_a (mk_obasis (op_order p) (op_size p) (op_orthonormal p) (Some w)
    (on_points (fun l => cheby_u (even * l)) (op_order p) ys) None).

(** Jacobi01.cc 15-26 *)
Definition jacobi_coefs : list (list R) :=
  [ [1; 0; 0; 0; 0; 0; 0; 0];
    [-5/10; 15/10; 0; 0; 0; 0; 0; 0];
    [-5/10; -1; 25/10; 0; 0; 0; 0; 0];
    [375/1000; -1875/1000; -1875/1000; 4375/1000; 0; 0; 0; 0];
    [375/1000; 15/10; -525/100; -35/10; 7875/1000; 0; 0; 0];
    [-3125/10000; 21875/10000; 4375/1000; -131250/10000; -65625/10000; 144375/10000; 0; 0];
    [-3125/10000; -1875/1000; 84375/10000; 1125/100; -309375/10000; -123750/10000; 268125/10000; 0];
    [2734375/10000000; -24609375/10000000; -73828125/10000000; 2707031250/100000000; 270703125/10000000;
     -703828125/10000000; -234609375/10000000; 5027343750/100000000] ].
(** Jacobi01.cc 56-60 *)
Definition jacobi (l : nat) (x : R) : R :=
  fold_left (fun s j => s + nth j (nth l jacobi_coefs []) 0 * x ^ j * sqrt (INR (l + 1))) (seq 0 (S l)) 0.
(** Jacobi01.cc 29-64 *)
Definition Jacobi01 (p : oparams) : res obasis :=
  if (op_order p <? 8)%nat then
    do ys <- points p; do w <- weights p (fun y => / 2 * (y + 1)) ys;
    compute_a (mk_obasis (op_order p) (op_size p) (op_orthonormal p) (Some w)
      (on_points jacobi (op_order p) ys) None)
  else Err.

(** ** TransformedBasis *)
(** TransformedBasis.cc 60-65: remove from column l its components along the previous columns, one after the other. *)
Definition sweep_out (cols : list (list R)) (l : nat) (b : list R) : res (list R) :=
  for_ 0 l b (fun m b => do bm <- rd cols m; do c <- vdot bm b; vaxpy b (- c) bm).
(** TransformedBasis.cc 41-67; [P] are the columns of the basis being transformed. *)
Definition gram_schmidt (order : nat) (option1 : bool) (x : list R) (P : list (list R)) : res (list (list R)) :=
  do p0 <- rd P 0;
  do b0 <- vmul p0 x;
  let b0 := vscale b0 (1 / norm L2 b0) in
  do cols <- wr P 0 b0;
  for_ 1 (S order) cols (fun l cols =>
    do b <- rd cols l;
    do z <- rd cols 0;
    do b <- (if option1 then vmul b z else Ok b);
    do b <- sweep_out cols l b;
    wr cols l (vscale b (1 / norm L2 b))).
(** TransformedBasis.cc 20-70, given the basis made from the key. *)
Definition TransformedBasis (p : oparams) (original : obasis) : res obasis :=
  do w <- base_weights p;
  do x <- mapM (rd (op_x p)) (seq 0 (op_size p));
  do cols <- gram_schmidt (op_order p) (op_option p =? 1)%nat x (ob_basis original);
  compute_a (mk_obasis (op_order p) (op_size p) true w cols None).
