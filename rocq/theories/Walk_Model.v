(** * Model of the iterators over a track
    Source: /repo/src/utilities/Iterators.{hh,i.hh}, geometry/Track.{hh,cc}.
    Simplifications: an iterator is a position, of any sign, in the vector it
    was made for (in the standard, forming the position before the first is
    already undefined; only dereferencing it is here); iterators of different
    vectors are not compared. *)
From Verif Require Import Base.
Open Scope Z_scope.
Set Implicit Arguments.

Record iter := { pos : Z; inc : Z }.

(** Iterators.i.hh 16-30; [n] is the size of the container. *)
Definition iter_new (n : nat) (forward : bool) : iter :=
  if forward then {| pos := 0; inc := 1 |} else {| pos := Z.of_nat n - 1; inc := -1 |}.

(** The member functions give the new value of the object and the result. *)
(** Iterators.i.hh 33-38: operator+ *)
Definition plus (i : iter) (k : Z) : iter * iter :=
  let j := {| pos := pos i + inc i * k; inc := inc i |} in (j, j).
(** 41-46: prefix and 49-54: postfix ++ *)
Definition pre (i : iter) : iter * iter := let j := {| pos := pos i + inc i; inc := inc i |} in (j, j).
Definition post (i : iter) : iter * iter := let j := {| pos := pos i + inc i; inc := inc i |} in (j, j).
(** 57-68 *)
Definition same_place (i j : iter) : bool := pos i =? pos j.
(** 71-75 *)
Definition deref {A} (v : list A) (i : iter) : res A := if pos i <? 0 then UB else rd v (Z.to_nat (pos i)).
Definition store {A} (v : list A) (i : iter) (x : A) : res (list A) := if pos i <? 0 then UB else wr v (Z.to_nat (pos i)) x.
(** Iterators.hh 55-78 *)
Definition begin_ (n : nat) (i : iter) : iter * iter :=
  let j := {| pos := if inc i =? -1 then Z.of_nat n - 1 else 0; inc := inc i |} in (j, j).
Definition end_ (n : nat) (i : iter) : iter * iter :=
  let j := {| pos := if inc i =? 1 then Z.of_nat n else -1; inc := inc i |} in (j, j).

(** Track.cc 80-89 *)
Definition track_begin (n : nat) (reversed : bool) : iter := snd (begin_ n (iter_new n (negb reversed))).
Definition track_end (n : nat) (reversed : bool) : iter := snd (end_ n (iter_new n (negb reversed))).

Section Loop.
  Context {A S : Type}.
  (** A loop body: reads the element, goes on with a new state and may change
      the element through the reference. *)
  Variable body : S -> A -> res (S * A).

  (** for (it = track.begin(); it != track.end(); ++it): the end is asked for
      anew each time; out of fuel counts as undefined. *)
  Fixpoint loop (fuel : nat) (reversed : bool) (v : list A) (i : iter) (s : S) : res (S * list A) :=
    match fuel with
    | O => UB
    | Datatypes.S f =>
        if same_place i (track_end (length v) reversed) then Ok (s, v)
        else do a <- deref v i; do r <- body s a; do v <- store v i (snd r); loop f reversed v (fst (pre i)) (fst r)
    end.
  Definition walk (fuel : nat) (reversed : bool) (v : list A) (s : S) : res (S * list A) :=
    loop fuel reversed v (track_begin (length v) reversed) s.

  (** for (; it != it.end(); ++it): the object on the left has been moved by
      end() when the two are compared. *)
  Fixpoint self_loop (fuel : nat) (v : list A) (i : iter) (s : S) : res (S * list A) :=
    match fuel with
    | O => UB
    | Datatypes.S f =>
        let '(i, e) := end_ (length v) i in
        if same_place i e then Ok (s, v)
        else do a <- deref v i; do r <- body s a; do v <- store v i (snd r); self_loop f v (fst (pre i)) (fst r)
    end.
End Loop.
