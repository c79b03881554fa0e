(** * Eis_Model: a call of the dense eigensolver.
    Source: /repo/src/callow/solver/EigenSolver.cc 59-74 (solve) with
    Eispack.cc 95-131 (solve_impl, in Davidson_Model) and its operators.
    Simplifications: as in Davidson_Model; EISPACK's rg and rgg are a function
    of the operators.  Not modelled: printing. *)
From Verif Require Import Base BaseR Matrix_Model Dense_Model Davidson_Model.

(** EigenSolver.cc 59-74: insist on an operator; the status is set before
    solve_impl, which for Eispack never calls monitor; [rg] is solve_complete. *)
Definition eis_call (rg : dense -> option dense -> eis_out) (which : nat) (ops : option dense * option dense) (x : list R) : res (dstat * R * list R) :=
  match fst ops with
  | None => Err
  | Some A =>
      let status := DMAXIT in
      do r <- eis_solve which (dn A) (rg A (snd ops)) x;
      Ok (status, fst r, snd r)
  end.
