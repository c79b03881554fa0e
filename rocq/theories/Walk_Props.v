(** * Theorems on walks along a track (C126) *)
From Coq Require Import ZArith Lia.
From Verif Require Import Base Walk_Model Walk_Spec Walk_Proofs.
Open Scope Z_scope.

(** C126 *)
Theorem C126_walk :
  forall (A S : Type) (body : S -> A -> res (S * A)) v reversed fuel s, (length v < fuel)%nat ->
  walk body fuel reversed v s = do q <- in_order body (seen reversed v) s; Ok (fst q, seen reversed (snd q)).
Proof. exact @walk_in_order. Qed.
Print Assumptions C126_walk.

(** Three segments walked backwards: collected and doubled. *)
Example C126_case :
  walk (fun (s : list Z) a => Ok (s ++ [a], 2 * a)) 4 true [1; 2; 3] [] = Ok ([3; 2; 1], [2; 4; 6]).
Proof. reflexivity. Qed.

Theorem C126_element :
  forall A (v : list A) reversed k, (k < length v)%nat ->
  deref v (snd (plus (track_begin (length v) reversed) (Z.of_nat k))) = rd (seen reversed v) k.
Proof. exact @nth_of_track. Qed.
Print Assumptions C126_element.

Theorem C126_postfix_refuted :
  forall A (v : list A) k a b, nth_error v k = Some a -> nth_error v (S k) = Some b ->
  let i := {| pos := Z.of_nat k; inc := 1 |} in
  deref v i = Ok a /\ deref v (snd (post i)) = Ok b /\ deref v (fst (post i)) = Ok b.
Proof. exact @post_is_next. Qed.
Print Assumptions C126_postfix_refuted.

Theorem C126_postfix_last_refuted :
  forall A (v : list A) a, let w := v ++ [a] in
  let i := {| pos := Z.of_nat (length v); inc := 1 |} in deref w i = Ok a /\ deref w (snd (post i)) = UB.
Proof. exact @post_last. Qed.
Print Assumptions C126_postfix_last_refuted.

Theorem C126_plus_refuted :
  forall i k, inc i <> 0 -> k <> 0 -> same_place (fst (plus i k)) i = false /\ fst (plus i k) = snd (plus i k).
Proof. exact plus_moves. Qed.
Print Assumptions C126_plus_refuted.

Theorem C126_self_end_refuted :
  forall (A S : Type) (body : S -> A -> res (S * A)) v i fuel s, (0 < fuel)%nat -> self_loop body fuel v i s = Ok (s, v).
Proof. exact @self_loop_empty. Qed.
Print Assumptions C126_self_end_refuted.
