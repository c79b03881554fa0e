(** * Ilut_Model: the incomplete LU factorisation with thresholds.

    callow PCILUT (constructor) and the SparseRow it works on.  Column numbers are
    [nat]: the rows come from an assembled matrix, whose columns are not negative.
    Applying the factors is [ilut_apply] in Solver_Model.  Not modelled: printing,
    SparseRow::insert with INSERT, the construction from an array. *)
From Verif Require Import Base BaseR Loop Matrix_Model Solver_Model.
Open Scope nat_scope.

(** SparseRow.hh 38-39: a row is a vector of (column, value). *)
Definition srow := list (nat * R).

(** SparseRow.cc 36-50: construction from row i of an assembled matrix *)
Definition row_of (C : csr) (i : nat) : res srow :=
  do a <- rd (c_rows C) i; do b <- rd (c_rows C) (S i);
  mapM (fun k => do v <- rd (c_vals C) k; do j <- rd (c_cols C) k; Ok (Z.to_nat j, v)) (seq a (b - a)).

(** SparseRow.cc 223-233: find.  [None] stands for -1. *)
Fixpoint find (i : nat) (l : srow) : option nat :=
  match l with
  | [] => None
  | e :: r => if fst e =? i then Some 0 else match find i r with Some p => Some (S p) | None => None end
  end.

(** SparseRow.cc 178-195: operator[](i), the value in column i.  When the column is
    absent the code reads the element before the first; [stray] is what comes of
    that: [UB], or [Ok v] when the read is harmless and yields v. *)
Definition sr_at (stray : res R) (l : srow) (i : nat) : res R :=
  match find i l with Some p => do e <- rd l p; Ok (snd e) | None => stray end.

(** SparseRow.cc 237-241: delete_value(p) *)
Definition delete_value (l : srow) (p : nat) : res srow :=
  if p <? length l then Ok (firstn p l ++ skipn (S p) l) else UB.

(** SparseRow.cc 82-117: insert(i, v, ADD) *)
Fixpoint add1 (i : nat) (v : R) (l : srow) : srow :=
  match l with
  | [] => [(i, v)]
  | e :: r =>
      if i <? fst e then (i, v) :: l
      else if i =? fst e then (if Req_EM_T (v + snd e) 0 then r else (fst e, v + snd e)%R :: r)
      else e :: add1 i v r
  end.

(** SparseRow.cc 244-288: range(a, b), as first and last position *)
Fixpoint range_lo (a b p : nat) (l : srow) : option nat :=
  match l with
  | [] => None
  | e :: r => if b <? fst e then None else if a <=? fst e then Some p else range_lo a b (S p) r
  end.
Fixpoint range_len (b : nat) (l : srow) : nat :=
  match l with [] => 0 | e :: r => if b <=? fst e then 0 else S (range_len b r) end.
Definition range (a b : nat) (l : srow) : nat * nat :=
  match range_lo a b 0 l with
  | None => (length l, length l)
  | Some s => (s, S s + range_len b (skipn (S s) l))
  end.
Definition slice (lo hi : nat) (l : srow) : srow := firstn (hi - lo) (skipn lo l).

(** SparseRow.cc 120-138: insert(a, b, r, v, ADD) *)
Definition add_range (a b : nat) (r : srow) (v : R) (l : srow) : srow :=
  let (lo, hi) := range a b r in fold_left (fun l e => add1 (fst e) (snd e * v) l) (slice lo hi r) l.

(** PCILUT.cc 23-31: drop_t(r, idx, t).  [idx] is used as a column in the test and
    as a position in the deletion. *)
Definition drop_t (stray : res R) (l : srow) (idx : nat) (t : R) : res (bool * srow) :=
  do v <- sr_at stray l idx;
  if Rlt_dec (Rabs v) t then do l <- delete_value l idx; Ok (false, l) else Ok (true, l).

(** PCILUT.cc 36-42; the loop ends at the current number of elements, which never
    grows, so that the initial number is enough fuel. *)
Fixpoint drop_small (stray : res R) (fuel idx : nat) (t : R) (l : srow) : res srow :=
  match fuel with
  | O => Ok l
  | S f => if idx <? length l then do x <- drop_t stray l idx t; drop_small stray f (S idx) t (snd x) else Ok l
  end.

Section Sorts.
  (** std::sort with compare_v (decreasing magnitude) and compare_c (increasing
      column): any functions that do what the standard says (Ilut_Spec). *)
  Variables sv sc : srow -> srow.
  Variable stray : res R.

  (** PCILUT.cc 59-63: sorting a range of columns by magnitude *)
  Definition sort_range (a b : nat) (q : srow) : srow :=
    let (lo, hi) := range a b q in firstn lo q ++ sv (slice lo hi q) ++ skipn hi q.

  (** PCILUT.cc 33-83: drop_p(r, d, p, t) for a row of logical size n *)
  Definition drop_p (n : nat) (r : srow) (d p : nat) (t : R) : res srow :=
    do r <- (if Rlt_dec 0 t then drop_small stray (length r) 0 t r else Ok r);
    let cL := length (filter (fun e => fst e <? d) r) in
    let cU := length r - 1 - cL in
    let q := sort_range (d + 1) n (sort_range 0 d r) in
    let (q, cL) := if p <? cL then (skipn (cL - p) q, p) else (q, cL) in
    let q := if p <? cU then firstn (cL + 1) q ++ skipn (cL + 1 + (cU - p)) q else q in
    Ok (sc q).

  (** PCILUT.cc 110-135: one step of the elimination of row i *)
  Definition eliminate (n : nat) (rows : list srow) (t : R) (k : nat) (row : srow) : res srow :=
    match find k row with
    | None => Ok row
    | Some p =>
        do row_U <- rd rows k;
        do diag_val <- sr_at UB row_U k;
        do e <- rd row p;
        let row := upd row p (fst e, snd e / diag_val)%R in
        do x <- drop_t stray row p t;
        if fst x then do e <- rd (snd x) p; Ok (add_range (k + 1) n row_U (- snd e) (snd x))
        else Ok (snd x)
    end.
  (** PCILUT.cc 107-139: the rows of the factors *)
  Definition factor_row (C : csr) (n p : nat) (t : R) (i : nat) (rows : list srow) : res (list srow) :=
    do row <- row_of C i;
    do row <- for_ 0 i row (eliminate n rows t);
    do row <- drop_p n row i p t;
    Ok (rows ++ [row]).
  Definition factor (C : csr) (n p : nat) (t : R) : res (list srow) := for_ 0 n [] (factor_row C n p t).
End Sorts.

(** PCILUT.cc 141-150: the rows are inserted in a matrix with 2p+1 places per row;
    the result of insert is ignored. *)
Definition insert_row (i : nat) (r : srow) (A : coo) : res coo :=
  foldM (fun A e => do x <- insert A i (Z.of_nat (fst e)) (snd e) INSERT; Ok (snd x)) r A.
(** PCILUT.cc 87-153: the constructor; the matrix is square, n = csr_n C.  [srt] is
    the sort of Matrix::assemble. *)
Definition ilut_new (srt : list triplet -> list triplet) (sv sc : srow -> srow) (stray : res R) (C : csr) (p : nat) (t : R) : res csr :=
  let n := csr_n C in
  do rows <- factor sv sc stray C n p t;
  do A <- for_ 0 n (preallocate (repeat (2 * p + 1) n)) (fun i A => do r <- rd rows i; insert_row i r A);
  assemble srt n A.
