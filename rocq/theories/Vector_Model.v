(** * Model of callow::Vector
    Source: /repo/src/callow/vector/Vector.i.hh, /repo/src/callow/utils/CallowDefinitions.hh.
    Simplifications: [double] is [R]; a vector is the list of its values (the
    size is the length); PETSc branches are not modelled; [Require] is not a
    check, reading past the end of the argument is UB. *)
From Verif Require Import Base BaseR.
Open Scope R_scope.

(** CallowDefinitions.hh 40-43 *)
Inductive norm_type := L1 | L2 | LINF | L1GRID | L2GRID | L1REL | L2REL | LINFREL.

(** for (i < d_size) d_value[i] = f(d_value[i], x[i]) *)
Definition vzip (f : R -> R -> R) (u x : list R) : res (list R) :=
  mapM (fun i => do a <- rd u i; do b <- rd x i; Ok (f a b)) (seq 0 (length u)).
(** Vector.i.hh 167-175 *)
Definition vset (u : list R) (v : R) : list R := map (fun _ => v) u.
(** Vector.i.hh 178-186 *)
Definition vscale (u : list R) (v : R) : list R := map (fun a => a * v) u.
(** Vector.i.hh 189-200 *)
Definition vdot (u x : list R) : res R :=
  foldM (fun s i => do a <- rd u i; do b <- rd x i; Ok (s + a * b)) (seq 0 (length u)) 0.
(** Vector.i.hh 209-218 *)
Definition vadd := vzip Rplus.
(** Vector.i.hh 227-236 *)
Definition vaxpy (u : list R) (a : R) (x : list R) : res (list R) := vzip (fun ui xi => ui + a * xi) u x.
(** Vector.i.hh 245-254 *)
Definition vsub := vzip Rminus.
(** Vector.i.hh 263-273 *)
Definition vmul := vzip Rmult.
(** Vector.i.hh 282-292 *)
Definition vdiv := vzip Rdiv.
(** Vector.i.hh 301-310 *)
Definition vcopy := vzip (fun _ b => b).

(** Vector.i.hh 72-106 (non-PETSc branch): unsupported types leave val = 0. *)
Definition norm (ty : norm_type) (v : list R) : R :=
  let l1 := fold_left (fun s a => s + Rabs a) v 0 in
  let l2 := sqrt (fold_left (fun s a => s + a * a) v 0) in
  match ty with
  | L1 => l1
  | L1GRID => l1 / INR (length v)
  | L2 => l2
  | L2GRID => l2 / sqrt (INR (length v))
  | LINF => fold_left (fun s a => Rmax s (Rabs a)) v 0
  | _ => 0
  end.

(** Vector.i.hh 109-158 (non-PETSc branch); the grid norms throw. *)
Definition norm_residual (ty : norm_type) (v x : list R) : res R :=
  let over f := foldM (fun s i => do a <- rd v i; do b <- rd x i; Ok (f s a b)) (seq 0 (length v)) 0 in
  match ty with
  | L1 => over (fun s a b => s + Rabs (a - b))
  | L2 => do s <- over (fun s a b => s + (a - b) * (a - b)); Ok (sqrt s)
  | LINF => over (fun s a b => Rmax s (Rabs (a - b)))
  | L1REL => over (fun s a b => s + Rabs ((a - b) / a))
  | L2REL => do s <- over (fun s a b => s + ((a - b) / a) * ((a - b) / a)); Ok (sqrt s)
  | LINFREL => over (fun s a b => Rmax s (Rabs (a - b)))
  | _ => Err
  end.
