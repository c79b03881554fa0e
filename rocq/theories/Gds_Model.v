(** * Gds_Model: a solve by the generalised Davidson route.
    Source: /repo/src/solvers/eigen/EigenGD.cc 34-35 (vectors), 127-145 (solve).
    Simplifications: as in Gd_Model; the eigensolver (Davidson_Model) is a
    parameter that gets the transport state its operators work on, the vector for
    the result and the guess; its status is not looked at in the code. *)
From Verif Require Import Base BaseR Loop Material_Model Source_Model Sweep_Model Iter_Model Mgk_Model Gd_Model.
Open Scope nat_scope.

Definition gd_eigen := tstate -> list R -> list R -> res (tstate * list R * R).
(** EigenGD.cc 133-141: entry k of the vector goes to the next cell of the next
    group; n is moments_size *)
Definition gd_fill (G n : nat) (x : list R) (phi : list (list R)) : res (list (list R) * nat) :=
  for_ 0 G (phi, 0) (fun g s =>
    do row <- rd (fst s) g;
    do f <- seg x (snd s) n;
    do row <- put_seg row 0 f;
    do phi <- wr (fst s) g row;
    Ok (phi, snd s + n)).
(** EigenGD.cc 127-143; [rows] is the number of rows of the transport operator *)
Definition gd_solve (es : gd_eigen) (rows : nat) (t : tstate) : res (tstate * R) :=
  do r <- es t (repeat 1%R rows) (repeat 1%R rows);
  let t := fst (fst r) in
  do f <- gd_fill (ng (mat (ssrc (t_x t)))) (cells (ssrc (t_x t))) (snd (fst r)) (phis t);
  Ok (with_x t (with_phis (t_x t) (fst f)), snd r).
