(** * Proofs on walks (no model content) *)
From Coq Require Import ZArith Lia.
From Verif Require Import Base Walk_Model Walk_Spec.
Open Scope Z_scope.
Set Implicit Arguments. Unset Strict Implicit.

Section Walk.
Context {A S : Type}.
Variable body : S -> A -> res (S * A).

Lemma deref_at (l1 : list A) a l2 i : pos i = Z.of_nat (length l1) -> deref (l1 ++ a :: l2) i = Ok a.
Proof.
  intros P. unfold deref. rewrite P. destruct (Z.ltb_spec (Z.of_nat (length l1)) 0); [lia|]. rewrite Nat2Z.id.
  unfold rd. rewrite nth_error_app2 by lia. rewrite Nat.sub_diag. reflexivity.
Qed.
Lemma upd_at (l1 : list A) a b l2 : upd (l1 ++ a :: l2) (length l1) b = l1 ++ b :: l2.
Proof. induction l1 as [|x l1 IH]; cbn; auto. rewrite IH. reflexivity. Qed.
Lemma store_at (l1 : list A) a b l2 i : pos i = Z.of_nat (length l1) -> store (l1 ++ a :: l2) i b = Ok (l1 ++ b :: l2).
Proof.
  intros P. unfold store. rewrite P. destruct (Z.ltb_spec (Z.of_nat (length l1)) 0); [lia|]. rewrite Nat2Z.id.
  unfold wr. rewrite app_length. cbn [length]. destruct (Nat.ltb_spec (length l1) (length l1 + Datatypes.S (length l2))); [|lia]. rewrite upd_at. reflexivity.
Qed.

Lemma forward_loop rest : forall done fuel s, (length rest < fuel)%nat ->
  loop body fuel false (done ++ rest) {| pos := Z.of_nat (length done); inc := 1 |} s =
  do q <- in_order body rest s; Ok (fst q, done ++ snd q).
Proof.
  induction rest as [|a t IH]; intros done [|fuel] s F; cbn [length] in F; try lia; cbn [loop in_order bind].
  - unfold same_place, track_end. cbn. rewrite app_nil_r, Z.eqb_refl. reflexivity.
  - unfold same_place, track_end. cbn [snd end_ iter_new negb inc pos Z.eqb]. rewrite app_length. cbn [length].
    destruct (Z.eqb_spec (Z.of_nat (length done)) (if Pos.eqb 1 1 then Z.of_nat (length done + Datatypes.S (length t)) else -1)) as [E|E].
    { cbn in E. lia. }
    rewrite deref_at by reflexivity. cbn [bind]. destruct (body s a) as [[s1 b]| |]; cbn [bind fst snd]; auto.
    rewrite store_at by reflexivity. cbn [bind]. replace (done ++ b :: t) with ((done ++ [b]) ++ t) by (rewrite <- app_assoc; reflexivity).
    cbn [pre fst pos inc]. replace (Z.of_nat (length done) + 1) with (Z.of_nat (length (done ++ [b]))) by (rewrite app_length; cbn; lia).
    rewrite IH by lia. destruct (in_order body t s1) as [[s2 l]| |]; cbn [bind fst snd]; auto. rewrite <- app_assoc. reflexivity.
Qed.

Lemma backward_loop rest : forall done fuel s, (length rest < fuel)%nat ->
  loop body fuel true (rev rest ++ done) {| pos := Z.of_nat (length rest) - 1; inc := -1 |} s =
  do q <- in_order body rest s; Ok (fst q, rev (snd q) ++ done).
Proof.
  induction rest as [|a t IH]; intros done [|fuel] s F; cbn [length] in F; try lia; cbn [loop in_order bind].
  - reflexivity.
  - unfold same_place, track_end. cbn [snd end_ iter_new negb inc pos]. cbn [length].
    destruct (Z.eqb_spec (Z.of_nat (Datatypes.S (length t)) - 1) (if -1 =? 1 then Z.of_nat (length (rev (a :: t) ++ done)) else -1)) as [E|E].
    { change (-1 =? 1) with false in E. cbv iota in E. lia. }
    cbn [rev]. rewrite <- app_assoc. cbn [app].
    rewrite deref_at by (cbn [pos]; rewrite rev_length; lia). cbn [bind]. destruct (body s a) as [[s1 b]| |]; cbn [bind fst snd]; auto.
    rewrite store_at by (cbn [pos]; rewrite rev_length; lia). cbn [bind].
    cbn [pre fst pos inc]. replace (Z.of_nat (Datatypes.S (length t)) - 1 + -1) with (Z.of_nat (length t) - 1) by lia.
    rewrite IH by lia. destruct (in_order body t s1) as [[s2 l]| |]; cbn [bind fst snd rev]; auto. rewrite <- app_assoc. reflexivity.
Qed.

Theorem walk_in_order v reversed fuel s : (length v < fuel)%nat ->
  walk body fuel reversed v s = do q <- in_order body (seen reversed v) s; Ok (fst q, seen reversed (snd q)).
Proof.
  intros F. unfold walk, track_begin. destruct reversed; cbn [negb iter_new begin_ snd inc pos seen].
  - pose proof (@backward_loop (rev v) [] fuel s) as E. rewrite rev_length, rev_involutive, app_nil_r in E.
    cbn [Z.eqb Pos.eqb]. rewrite E by auto. destruct (in_order body (rev v) s); cbn [bind]; auto. rewrite app_nil_r. reflexivity.
  - pose proof (@forward_loop v [] fuel s F) as E. cbn in E |- *. rewrite E. reflexivity.
Qed.

(** Asking an iterator for its end moves it there. *)
Theorem self_loop_empty v i fuel s : (0 < fuel)%nat -> self_loop body fuel v i s = Ok (s, v).
Proof.
  destruct fuel; [lia|]. intros _. cbn [self_loop end_]. unfold same_place. rewrite Z.eqb_refl. reflexivity.
Qed.
End Walk.

(** *it++ *)
Theorem post_is_next A (v : list A) k a b : nth_error v k = Some a -> nth_error v (S k) = Some b ->
  let i := {| pos := Z.of_nat k; inc := 1 |} in
  deref v i = Ok a /\ deref v (snd (post i)) = Ok b /\ deref v (fst (post i)) = Ok b.
Proof.
  intros H1 H2 i. assert (D : forall j x, nth_error v j = Some x -> forall q, pos q = Z.of_nat j -> deref v q = Ok x).
  { intros j x H q Q. unfold deref. rewrite Q. destruct (Z.ltb_spec (Z.of_nat j) 0); [lia|]. rewrite Nat2Z.id. unfold rd. rewrite H. reflexivity. }
  repeat split; [eapply D; eauto|eapply D; [exact H2|]|eapply D; [exact H2|]]; cbn; lia.
Qed.
Theorem post_last A (v : list A) a : let w := v ++ [a] in
  let i := {| pos := Z.of_nat (length v); inc := 1 |} in deref w i = Ok a /\ deref w (snd (post i)) = UB.
Proof.
  cbn zeta. split; [apply deref_at; reflexivity|]. unfold deref. cbn [post snd pos inc].
  destruct (Z.ltb_spec (Z.of_nat (length v) + 1) 0); [reflexivity|].
  assert (E : nth_error (v ++ [a]) (Z.to_nat (Z.of_nat (length v) + 1)) = None).
  { apply nth_error_None. rewrite app_length. cbn [length]. lia. }
  unfold rd. rewrite E. reflexivity.
Qed.
(** it + k *)
Theorem plus_moves i k : inc i <> 0 -> k <> 0 -> same_place (fst (plus i k)) i = false /\ fst (plus i k) = snd (plus i k).
Proof. intros I K. split; auto. unfold same_place, plus. cbn. apply Z.eqb_neq. nia. Qed.

(** begin() + k *)
Theorem nth_of_track A (v : list A) reversed k : (k < length v)%nat ->
  deref v (snd (plus (track_begin (length v) reversed) (Z.of_nat k))) = rd (seen reversed v) k.
Proof.
  intros K. assert (D : forall j q, pos q = Z.of_nat j -> deref v q = rd v j).
  { intros j q Q. unfold deref. rewrite Q. destruct (Z.ltb_spec (Z.of_nat j) 0); [lia|]. rewrite Nat2Z.id. reflexivity. }
  destruct reversed; unfold track_begin; cbn [negb iter_new begin_ plus snd inc pos seen].
  - rewrite (D (length v - 1 - k)%nat) by (cbn [pos]; change (-1 =? -1) with true; cbv iota; lia).
    unfold rd. replace (nth_error (rev v) k) with (nth_error v (length v - 1 - k)); auto.
    destruct v as [|d v]; [cbn in K; lia|].
    rewrite (nth_error_nth' (rev (d :: v)) d) by (rewrite rev_length; lia). rewrite rev_nth by lia.
    rewrite (nth_error_nth' (d :: v) d) by lia. do 2 f_equal. lia.
  - rewrite (D k) by (cbn [pos]; change (1 =? -1) with false; cbv iota; lia). reflexivity.
Qed.
