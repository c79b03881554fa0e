(** * Specification vocabulary for walks along a track (C126) *)
From Verif Require Import Base.

(** The body applied to the elements of a list one after the other: the final
    state and the changed elements in the same order. *)
Fixpoint in_order {A S} (body : S -> A -> res (S * A)) (l : list A) (s : S) : res (S * list A) :=
  match l with
  | [] => Ok (s, [])
  | a :: t => do r <- body s a; do q <- in_order body t (fst r); Ok (fst q, snd r :: snd q)
  end.
(** The segments of a track or of its reverse. *)
Definition seen {A} (reversed : bool) (l : list A) : list A := if reversed then rev l else l.
