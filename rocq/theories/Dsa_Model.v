(** * Dsa_Model: diffusion synthetic acceleration as a preconditioner.
    Source: /repo/src/solvers/mg/MGDSA.cc (constructor, apply), wg/PC_DSA.i.hh (apply) and
    mg/MGTCDSA.cc (both apply functions), with the sources of Source_Model, the vectors of
    callow (Vector_Model) and GMRES (Gmres_Model) as it calls them.
    Simplifications: double is R; the linear solver of the diffusion equation and the
    operators are functions that may fail; the Vector written to is given by its size.
    Not modelled: reading the input, printing, the coarse quadrature of MGTCDSA (its
    operator is an argument). *)
From Verif Require Import Base BaseR Loop Util_Model Vector_Model Material_Model Gmres_Model Cpc_Model Source_Model.
Open Scope nat_scope.

(** phi[g][i] = v *)
Definition wr2 (phi : list (list R)) (g i : nat) (v : R) : res (list (list R)) :=
  do row <- rd phi g; do row <- wr row i v; wr phi g row.

(** MGDSA.cc 69-73: the multigroup flux; all of the groups from the cutoff upward,
    whether or not the problem is adjoint *)
Definition dsa_fluxes (x : src) (cut : nat) (V : list R) : res (list (list R)) :=
  let n := cells x in
  for_ cut (ng (mat x)) (repeat (repeat 0%R n) (ng (mat x))) (fun g phi =>
    for_ 0 n phi (fun i phi => do v <- rd V ((g - cut) * n + i); wr2 phi g i v)).

(** MGDSA.cc 79-90: S_V, of size number_cells * number_active_groups *)
Definition dsa_source (x : src) (f : fis) (inc : bool) (cut : nat) (phi : list (list R)) : res (list R) :=
  let n := cells x in
  for_ cut (ng (mat x)) (repeat 0%R (n * active_groups (ng (mat x)) (adj x) cut)) (fun g Q =>
    do s <- scat_total x g cut phi (repeat 0%R n);
    do s <- (if inc then fis_total f g phi s else Ok s);
    for_ 0 n Q (fun i Q => do v <- rd s i; wr Q ((g - cut) * n + i) v)).

(** MGDSA.cc 62-105: apply; [lin] solves the diffusion equation, [size] is the size of V_out *)
Definition mgdsa_apply (x : src) (f : fis) (inc : bool) (cut : nat) (lin : vop) (size : nat) (V : list R) : res (list R) :=
  let n := cells x in
  do phi <- dsa_fluxes x cut V;
  do q <- dsa_source x f inc cut phi;
  do e <- lin q;
  for_ 0 (n * active_groups (ng (mat x)) (adj x) cut) (repeat 0%R size) (fun i o =>
    do a <- rd V i; do b <- rd e i; wr o i (a + b)%R).

(** PC_DSA.i.hh 16-65: apply of the within-group preconditioner, for the group set *)
Definition pcdsa_apply (x : src) (g : nat) (lin : vop) (V_in : list R) : res (list R) :=
  let n := cells x in
  do V <- for_ 0 n (repeat 0%R n) (fun i V => do v <- rd V_in i; wr V i v);
  do q <- scat_within x g V (repeat 0%R n);
  do e <- lin q;
  for_ 0 n V_in (fun i o => do a <- rd o i; do b <- rd e i; wr o i (a + b)%R).

(** MGTCDSA.cc 118-135: apply with k coarse corrections *)
Fixpoint tc_apply (At P : vop) (k : nat) (x : list R) : res (list R) :=
  match k with
  | O => P x
  | S k =>
      do z <- tc_apply At P k x;
      do y <- At z;
      do y <- vaxpy y (-2)%R x;
      tc_apply At P k (vscale y (-1)%R)
  end.
(** MGTCDSA.cc 87-104: apply with the optional fine correction *)
Definition tcdsa_apply (A At P : vop) (k : nat) (fine : bool) (b : list R) : res (list R) :=
  do x <- tc_apply At P k b;
  if fine then
    do y <- A x;
    do y <- vaxpy y (-2)%R b;
    tc_apply At P k (vscale y (-1)%R)
  else Ok x.
