(** * Model of callow::Matrix (sparse COO -> CSR matrix)
    Source: /repo/src/callow/matrix/Matrix.{hh,cc,i.hh}, Triplet.hh.
    Simplifications: [double] is [R]; row indices are [nat] (a negative row is
    not representable), column indices are [Z] (the -1 sentinel is needed);
    PETSc branches are not modelled; [Require] is not a check. *)
From Verif Require Import Base BaseR.
Open Scope R_scope.

(** Triplet.hh 19-28: struct triplet, default (-1,-1,0). *)
Record triplet := T { ti : Z; tj : Z; tv : R }.
Definition tdefault : triplet := T (-1) (-1) 0.

(** Triplet.hh 31-38: compare_triplet, "leave -1's on the right". *)
Definition compare_triplet (x y : triplet) : bool :=
  if (tj x =? -1)%Z then false
  else if (tj y =? -1)%Z then true
  else (tj x <? tj y)%Z.

(** Insertion type, MatrixBase INSERT / ADD. *)
Inductive itype := INSERT | ADD.

(** Storage before assembly: d_aij[i] (a vector of fixed size = capacity) and
    d_counter[i], for every row. *)
Definition row := (list triplet * nat)%type.
Definition coo := list row.

(** Matrix.cc 104-117: preallocate(int *x): each row is resized to its capacity
    with default triplets, counters are zero.  (Matrix.cc 92-101,
    preallocate(int), is the case of equal capacities.) *)
Definition preallocate (caps : list nat) : coo :=
  map (fun c => (repeat tdefault c, 0%nat)) caps.

(** Matrix.i.hh 165-172 (and 196-204): first position with column j. *)
Fixpoint find_col (j : Z) (l : list triplet) : option nat :=
  match l with
  | [] => None
  | t :: r => if (tj t =? j)%Z then Some O
              else match find_col j r with Some p => Some (S p) | None => None end
  end.

(** Matrix.i.hh 169: d_aij[i][p].v += v. *)
Definition add_at (l : list triplet) (p : nat) (v : R) : list triplet :=
  match nth_error l p with
  | Some t => upd l p (T (ti t) (tj t) (tv t + v))
  | None => l
  end.

(** Matrix.i.hh 175-181: append if the counter is below the capacity. *)
Definition row_append (i : nat) (j : Z) (v : R) (rw : row) : bool * row :=
  let '(l, c) := rw in
  if (length l <=? c)%nat then (false, rw)
  else (true, (upd l c (T (Z.of_nat i) j v), S c)).

(** Matrix.i.hh 156-182: insert(i, j, v, type), restricted to row i. *)
Definition row_insert (i : nat) (j : Z) (v : R) (ty : itype) (rw : row) : bool * row :=
  match ty with
  | ADD => match find_col j (fst rw) with
           | Some p => (true, (add_at (fst rw) p v, snd rw))
           | None => row_append i j v rw
           end
  | INSERT => row_append i j v rw
  end.

(** Matrix.i.hh 156-182 on the whole matrix; d_aij[i] out of range is UB. *)
Definition insert (A : coo) (i : nat) (j : Z) (v : R) (ty : itype) : res (bool * coo) :=
  do rw <- rd A i;
  let '(b, rw') := row_insert i j v ty rw in
  Ok (b, upd A i rw').

(** Matrix.i.hh 193-209: the ADD branch of the row overload; it stops at the
    first entry that can not be stored, keeping the earlier ones. *)
Fixpoint row_add_many (i : nat) (es : list (Z * R)) (rw : row) : bool * row :=
  match es with
  | [] => (true, rw)
  | (j, v) :: r =>
      let '(b, rw') := row_insert i j v ADD rw in
      if b then row_add_many i r rw' else (false, rw')
  end.

(** Matrix.i.hh 214-223: unconditional appends (capacity was checked before);
    writing past the capacity is UB. *)
Fixpoint row_push_many (i : nat) (es : list (Z * R)) (rw : row) : res row :=
  match es with
  | [] => Ok rw
  | (j, v) :: r =>
      do l' <- wr (fst rw) (snd rw) (T (Z.of_nat i) j v);
      row_push_many i r (l', S (snd rw))
  end.

(** Matrix.i.hh 185-224: insert(i, int *j, double *v, n, type). *)
Definition insert_row (A : coo) (i : nat) (es : list (Z * R)) (ty : itype) : res (bool * coo) :=
  do rw <- rd A i;
  match ty with
  | ADD => let '(b, rw') := row_add_many i es rw in Ok (b, upd A i rw')
  | INSERT =>
      if (length (fst rw) <? snd rw + length es)%nat then Ok (false, A)
      else do rw' <- row_push_many i es rw; Ok (true, upd A i rw')
  end.

(** Matrix.i.hh 259-265 / 234-239: the capacity test of the triplet and column
    overloads looks at each entry separately. *)
Fixpoint each_fits (A : coo) (es : list (nat * (Z * R))) : res bool :=
  match es with
  | [] => Ok true
  | (i, _) :: r =>
      do rw <- rd A i;
      if (length (fst rw) <? snd rw + 1)%nat then Ok false else each_fits A r
  end.

(** Matrix.i.hh 267-273 / 241-247. *)
Fixpoint push_all (A : coo) (es : list (nat * (Z * R))) : res coo :=
  match es with
  | [] => Ok A
  | (i, (j, v)) :: r =>
      do rw <- rd A i;
      do l' <- wr (fst rw) (snd rw) (T (Z.of_nat i) j v);
      push_all (upd A i (l', S (snd rw))) r
  end.

(** Matrix.i.hh 252-275: insert(int *i, int *j, double *v, n, type); ADD is an
    [Insist] failure. *)
Definition insert_triplets (A : coo) (es : list (nat * (Z * R))) (ty : itype) : res (bool * coo) :=
  match ty with
  | ADD => Err
  | INSERT =>
      do fits <- each_fits A es;
      if fits then (do A' <- push_all A es; Ok (true, A')) else Ok (false, A)
  end.

(** Matrix.i.hh 227-249: insert(int *i, int j, double *v, n, type): one column. *)
Definition insert_col (A : coo) (j : Z) (es : list (nat * R)) (ty : itype) : res (bool * coo) :=
  insert_triplets A (map (fun p => (fst p, (j, snd p))) es) ty.

(** ** Assembly *)

Section Assemble.
  (** [std::sort] with compare_triplet: any function; the theorems require of
      it only what the C++ standard guarantees (see Matrix_Spec.v). *)
  Variable srt : list triplet -> list triplet.

  (** Matrix.cc 155-156: while ((end()-1)->j == -1) pop_back().  Reaching the
      empty vector dereferences before its beginning: UB. *)
  Fixpoint pop_rev (l : list triplet) : res (list triplet) :=
    match l with
    | [] => UB
    | t :: r => if (tj t =? -1)%Z then pop_rev r else Ok (t :: r)
    end.
  Definition pop_empty (l : list triplet) : res (list triplet) :=
    do r <- pop_rev (rev l); Ok (rev r).

  (** Matrix.cc 164-179: the scan for the diagonal.  Returns the value of d
      after the loop, before the decrement of line 180. *)
  Fixpoint diag_scan (d : nat) (l : list triplet) : nat :=
    match l with
    | [] => d
    | t :: r =>
        if (tj t =? ti t)%Z then 0%nat
        else if (ti t <? tj t)%Z then S d
        else diag_scan (S d) r
    end.

  (** vector::insert at position p *)
  Definition insert_at (l : list triplet) (p : nat) (t : triplet) : list triplet :=
    firstn p l ++ t :: skipn p l.

  (** Matrix.cc 162-187 *)
  Definition fix_diag (n i : nat) (l : list triplet) : list triplet :=
    if (i <? n)%nat then
      match diag_scan 0 l with
      | O => l
      | S d => srt (insert_at l d (T (Z.of_nat i) (Z.of_nat i) 0))
      end
    else l.

  (** Matrix.cc 145-193, one row *)
  Definition assemble_row (n i : nat) (rw : row) : res (list triplet) :=
    do l <- pop_empty (srt (fst rw));
    Ok (fix_diag n i l).

  Fixpoint assemble_rows (n i : nat) (A : coo) : res (list (list triplet)) :=
    match A with
    | [] => Ok []
    | rw :: r => do l <- assemble_row n i rw;
                 do ls <- assemble_rows n (S i) r;
                 Ok (l :: ls)
    end.

  (** CSR storage, Matrix.cc 196-218.  d_diagonals[i] is uninitialised
      ([None]) when no entry of row i has column i. *)
  Record csr := {
    c_rows : list nat;              (* d_rows, length m+1 *)
    c_cols : list Z;                (* d_columns *)
    c_vals : list R;                (* d_values *)
    c_diag : list (option nat)      (* d_diagonals *)
  }.

  (** Matrix.cc 209-215: position of the last entry with column i. *)
  Fixpoint diag_pos (i : nat) (p : nat) (l : list triplet) (acc : option nat) : option nat :=
    match l with
    | [] => acc
    | t :: r => diag_pos i (S p) r (if (tj t =? Z.of_nat i)%Z then Some p else acc)
    end.

  Fixpoint fill (i p : nat) (ls : list (list triplet)) : list nat * list (option nat) :=
    match ls with
    | [] => ([], [])
    | l :: r =>
        let p' := (p + length l)%nat in
        let '(rs, ds) := fill (S i) p' r in
        (p' :: rs, diag_pos i p l None :: ds)
    end.

  Definition csr_of (ls : list (list triplet)) : csr :=
    let '(rs, ds) := fill 0 0 ls in
    {| c_rows := 0%nat :: rs;
       c_cols := map tj (concat ls);
       c_vals := map tv (concat ls);
       c_diag := ds |}.

  (** Matrix.cc 126-230 *)
  Definition assemble (n : nat) (A : coo) : res csr :=
    do ls <- assemble_rows n 0 A; Ok (csr_of ls).
End Assemble.

(** ** Using the assembled matrix *)

(** x[j] for a column number *)
Definition rdz (x : list R) (j : Z) : res R :=
  if (j <? 0)%Z then UB else rd x (Z.to_nat j).

(** Matrix.i.hh 115-119: temp += x[d_columns[p]] * d_values[p] for p in [a,b). *)
Definition mult_row (C : csr) (x : list R) (a b : nat) : res R :=
  foldM (fun temp p =>
           do j <- rd (c_cols C) p;
           do v <- rd (c_vals C) p;
           do xj <- rdz x j;
           Ok (temp + xj * v)) (seq a (b - a)) 0.

(** Matrix.i.hh 96-123: multiply. y.scale(0) makes every temp start at 0
    (exact arithmetic).  The loop has no cross-row dependence. *)
Definition multiply (C : csr) (x : list R) : res (list R) :=
  mapM (fun i =>
          do a <- rd (c_rows C) i;
          do b <- rd (c_rows C) (S i);
          mult_row C x a b) (seq 0 (length (c_rows C) - 1)).

(** Matrix.i.hh 126-149: multiply_transpose *)
Definition multiply_transpose (n : nat) (C : csr) (x : list R) : res (list R) :=
  foldM (fun y i =>
           do a <- rd (c_rows C) i;
           do b <- rd (c_rows C) (S i);
           foldM (fun y p =>
                    do j <- rd (c_cols C) p;
                    do v <- rd (c_vals C) p;
                    do xi <- rd x i;
                    do yj <- rdz y j;
                    wr y (Z.to_nat j) (yj + xi * v)) (seq a (b - a)) y)
        (seq 0 (length (c_rows C) - 1)) (repeat 0 n).

(** Matrix.i.hh 79-80 / 84-85: search of columns in positions [a,b). *)
Fixpoint search_cols (C : csr) (j : Z) (ps : list nat) : res R :=
  match ps with
  | [] => Ok 0
  | p :: r => do c <- rd (c_cols C) p;
              if (c =? j)%Z then rd (c_vals C) p else search_cols C j r
  end.

(** Matrix.i.hh 69-89: operator()(i,j) *)
Definition get (C : csr) (i j : nat) : res R :=
  do od <- rd (c_diag C) i;
  match od with
  | None => UB                       (* uninitialised d_diagonals[i] *)
  | Some d =>
      if (i =? j)%nat then rd (c_vals C) d
      else if (i <? j)%nat then
        do a <- rd (c_rows C) i;
        search_cols C (Z.of_nat j) (seq a (d - a))
      else
        do b <- rd (c_rows C) (S i);
        search_cols C (Z.of_nat j) (seq (S d) (b - S d))
  end.
