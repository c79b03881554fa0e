(** * Specification vocabulary for the Davidson eigensolver *)
From Verif Require Import Base BaseR Vector_Model Vector_Spec Matrix_Model Dense_Model Gmres_Model Gmres_Spec Rom_Spec.
From Verif Require Dense_Spec Davidson_Model.
Open Scope R_scope.

(** Component i of A u - lambda B u. *)
Definition gap (opA opB : list R -> nat -> R) (lambda : R) (u : list R) (i : nat) : R := opA u i - lambda * opB u i.
(** The projected solver returns an eigenpair with a vector of length one. *)
Definition unit_pairs (psolve : dense -> dense -> res (R * list R)) : Prop :=
  forall M W ly, dm M = dn M -> psolve M W = Ok ly -> reduced_pair M (Some W) (fst ly) (snd ly) /\ gnorm L2 (dn M) (cmp (snd ly)) = 1.
(** A preconditioner gives vectors of the length it gets. *)
Definition sized (n : nat) (P : R -> list R -> list R -> res (list R)) : Prop :=
  forall l r u w, length r = n -> length u = n -> P l r u = Ok w -> length w = n.
(** The preconditioner solves (A - lambda B) w = r exactly, and that system has one solution. *)
Definition exact_pc (n : nat) (opA opB : list R -> nat -> R) (P : R -> list R -> list R -> res (list R)) : Prop := forall l r u w, length r = n -> length u = n -> P l r u = Ok w ->
  length w = n /\ (forall e, (e < n)%nat -> gap opA opB l w e = cmp r e) /\ injective n (gap opA opB l).
(** What EISPACK gives: the columns of real eigenvalues are eigenvectors. *)
Definition spectrum (M : dense) (W : option dense) (out : Davidson_Model.eis_out) : Prop :=
  let V := Davidson_Model.eo_V out in
  Dense_Spec.dwf V /\ dm V = dn M /\ dn V = dn M /\ length (Davidson_Model.eo_R out) = dn M /\ length (Davidson_Model.eo_I out) = dn M /\
  forall i, (i < dn M)%nat -> cmp (Davidson_Model.eo_I out) i = 0 ->
    (exists e, (e < dn M)%nat /\ entry V e i <> 0) /\ reduced_pair M W (cmp (Davidson_Model.eo_R out) i) (vec (dn M) (fun e => entry V e i)).
