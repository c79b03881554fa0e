(** * Model of callow::MatrixDense and callow::SparseRow
    Source: /repo/src/callow/matrix/MatrixDense.{hh,cc,i.hh}, SparseRow.{hh,cc}.
    Simplifications: [double] is [R]; PETSc branches not modelled; [Require] is
    not a check. *)
From Verif Require Import Base BaseR Matrix_Model.
Open Scope R_scope.

(** MatrixDense: d_m, d_n and the array d_values of length m*n. *)
Record dense := D { dm : nat; dn : nat; dv : list R }.

(** MatrixDense.cc 15-33: constructor, all entries equal to v. *)
Definition dense_new (m n : nat) (v : R) : dense := D m n (repeat v (m * n)).

(** MatrixDense.i.hh 16: MDIDX(i,j) = i + j*d_m (MATRIXDENSE_COLMAJ is defined
    in MatrixDense.hh 20). *)
Definition mdidx (A : dense) (i j : nat) : nat := (i + j * dm A)%nat.

(** MatrixDense.i.hh 26-40: operator()(i,j). *)
Definition dget (A : dense) (i j : nat) : res R := rd (dv A) (mdidx A i j).

(** MatrixDense.i.hh 120-133: insert(i,j,v,type). *)
Definition dinsert (A : dense) (i j : nat) (v : R) (ty : itype) : res dense :=
  do old <- rd (dv A) (mdidx A i j);
  do l <- wr (dv A) (mdidx A i j) (match ty with ADD => old + v | INSERT => v end);
  Ok (D (dm A) (dn A) l).

(** MatrixDense.i.hh 136-145: insert_row. *)
Definition dinsert_row (A : dense) (i : nat) (v : list R) (ty : itype) : res dense :=
  foldM (fun A j => do x <- rd v j; dinsert A i j x ty) (seq 0 (dn A)) A.

(** MatrixDense.i.hh 148-157: insert_col. *)
Definition dinsert_col (A : dense) (j : nat) (v : list R) (ty : itype) : res dense :=
  foldM (fun A i => do x <- rd v i; dinsert A i j x ty) (seq 0 (dm A)) A.

(** MatrixDense.i.hh 64-86: multiply, with the running position p. *)
Definition dmultiply (A : dense) (x : list R) : res (list R) :=
  do s <- foldM (fun s j =>
            do temp <- rd x j;
            foldM (fun (s : nat * list R) i =>
                     let '(p, y) := s in
                     do a <- rd (dv A) p;
                     do yi <- rd y i;
                     do y' <- wr y i (yi + temp * a);
                     Ok (S p, y')) (seq 0 (dm A)) s)
          (seq 0 (dn A)) (0%nat, repeat 0 (dm A));
  Ok (snd s).

(** MatrixDense.i.hh 89-113: multiply_transpose. *)
Definition dmultiply_transpose (A : dense) (x : list R) : res (list R) :=
  do s <- foldM (fun (s : nat * list R) j =>
            let '(p, y) := s in
            do t <- foldM (fun (t : nat * R) i =>
                      let '(p, temp) := t in
                      do xi <- rd x i;
                      do a <- rd (dv A) p;
                      Ok (S p, temp + xi * a)) (seq 0 (dm A)) (p, 0);
            do y' <- wr y j (snd t);
            Ok (fst t, y'))
          (seq 0 (dn A)) (0%nat, repeat 0 (dn A));
  Ok (snd s).

(** ** SparseRow: d_elements, a vector of (column, value). *)
Definition srow := list (Z * R).

(** SparseRow.cc 84-112: the search loop and the insertion. *)
Fixpoint sr_loop (i : Z) (v : R) (ty : itype) (l : srow) : bool * srow :=
  match l with
  | [] => (true, [(i, v)])
  | (c, w) :: r =>
      if (i <? c)%Z then (true, (i, v) :: l)
      else if (i =? c)%Z then
        match ty with
        | INSERT => (true, (c, v) :: r)
        | ADD => if Req_EM_T (v + w) 0 then (false, r) else (true, (c, v + w) :: r)
        end
      else let '(b, r') := sr_loop i v ty r in (b, (c, w) :: r')
  end.

(** SparseRow.cc 78-113: insert(i, v, type).  Inserting zero is a no-op. *)
Definition sr_insert (i : Z) (v : R) (ty : itype) (l : srow) : bool * srow :=
  match ty with
  | INSERT => if Req_EM_T v 0 then (true, l) else sr_loop i v INSERT l
  | ADD => sr_loop i v ADD l
  end.

(** SparseRow.cc 216-226: find, -1 when absent. *)
Fixpoint sr_find_from (p : nat) (i : Z) (l : srow) : Z :=
  match l with
  | [] => (-1)%Z
  | (c, _) :: r => if (c =? i)%Z then Z.of_nat p else sr_find_from (S p) i r
  end.
Definition sr_find (i : Z) (l : srow) : Z := sr_find_from 0 i l.

(** SparseRow.cc 176-193: operator[]; index -1 is out of bounds. *)
Definition sr_get (i : Z) (l : srow) : res R :=
  let p := sr_find i l in
  if (p <? 0)%Z then UB else do e <- rd l (Z.to_nat p); Ok (snd e).

(** SparseRow.cc 250-255: elements following the first one, while column < b. *)
Fixpoint sr_take (b : Z) (l : srow) : srow :=
  match l with
  | [] => []
  | (c, w) :: r => if (b <=? c)%Z then [] else (c, w) :: sr_take b r
  end.

(** SparseRow.cc 237-257: range(a,b), the elements between the iterators. *)
Fixpoint sr_range (a b : Z) (l : srow) : srow :=
  match l with
  | [] => []
  | (c, w) :: r =>
      if (b <? c)%Z then []
      else if (a <=? c)%Z then (c, w) :: sr_take b r
      else sr_range a b r
  end.

(** SparseRow.cc 116-132: insert(a, b, r, v, type). *)
Definition sr_insert_range (a b : Z) (r : srow) (v : R) (ty : itype) (l : srow) : srow :=
  fold_left (fun l e => snd (sr_insert (fst e) (snd e * v) ty l)) (sr_range a b r) l.
