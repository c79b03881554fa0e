(** * Base: small utilities shared by all areas (no model content). *)
From Coq Require Export List Arith ZArith Lia Bool Permutation Sorted.
From Coq Require Import ZifyBool.
Export ListNotations.
Set Implicit Arguments.

(** Outcome of a modelled C++ call.  [UB] is undefined behaviour (out of
    bounds access, null dereference, reading a missing map entry); [Err] is a
    thrown exception ([THROW]/[Insist], always active). *)
Inductive res (A : Type) : Type :=
| Ok (a : A)
| Err
| UB.
Arguments Ok {A} a.
Arguments Err {A}.
Arguments UB {A}.

Definition bind {A B} (x : res A) (f : A -> res B) : res B :=
  match x with Ok a => f a | Err => Err | UB => UB end.

Notation "'do' x <- e ; f" := (bind e (fun x => f))
  (at level 200, x pattern, e at level 100, f at level 200).

(** Checked read of a [std::vector]. *)
Definition rd {A} (l : list A) (n : nat) : res A :=
  match nth_error l n with Some a => Ok a | None => UB end.

(** Functional update of position [n]. *)
Fixpoint upd {A} (l : list A) (n : nat) (x : A) : list A :=
  match l, n with
  | [], _ => []
  | _ :: t, O => x :: t
  | h :: t, S k => h :: upd t k x
  end.

(** Checked write of a [std::vector]. *)
Definition wr {A} (l : list A) (n : nat) (x : A) : res (list A) :=
  if n <? length l then Ok (upd l n x) else UB.

(** Monadic map. *)
Fixpoint mapM {A B} (f : A -> res B) (l : list A) : res (list B) :=
  match l with
  | [] => Ok []
  | a :: t => do b <- f a; do bs <- mapM f t; Ok (b :: bs)
  end.

(** Monadic left fold. *)
Fixpoint foldM {A S} (f : S -> A -> res S) (l : list A) (s : S) : res S :=
  match l with
  | [] => Ok s
  | a :: t => do s' <- f s a; foldM f t s'
  end.

Lemma upd_length A (l : list A) n x : length (upd l n x) = length l.
Proof. revert n; induction l as [|h t IH]; intros [|n]; simpl; auto. Qed.

Lemma nth_error_upd_eq A (l : list A) n x :
  n < length l -> nth_error (upd l n x) n = Some x.
Proof.
  revert n; induction l as [|h t IH]; intros [|n] H; simpl in *; try lia; auto.
  apply IH; lia.
Qed.

Lemma nth_error_upd_neq A (l : list A) n k x :
  n <> k -> nth_error (upd l n x) k = nth_error l k.
Proof.
  revert n k; induction l as [|h t IH]; intros [|n] [|k] H; simpl in *; auto; try lia.
Qed.

Lemma nth_upd_eq A (l : list A) n x d : n < length l -> nth n (upd l n x) d = x.
Proof.
  revert n; induction l as [|h t IH]; intros [|n] H; simpl in *; try lia; auto.
  apply IH; lia.
Qed.

Lemma nth_upd_neq A (l : list A) n k x d : n <> k -> nth k (upd l n x) d = nth k l d.
Proof.
  revert n k; induction l as [|h t IH]; intros [|n] [|k] H; simpl in *; auto; try lia.
Qed.

Lemma upd_split A (l : list A) n x : n < length l ->
  upd l n x = firstn n l ++ x :: skipn (S n) l.
Proof.
  revert n; induction l as [|h t IH]; intros [|n] H; simpl in *; try lia; auto.
  f_equal. apply IH. lia.
Qed.

Lemma nth_error_nth' A (l : list A) n d : n < length l -> nth_error l n = Some (nth n l d).
Proof.
  revert n; induction l as [|h t IH]; intros [|n] H; simpl in *; try lia; auto.
  apply IH; lia.
Qed.

Lemma rd_ok A (l : list A) n d : n < length l -> rd l n = Ok (nth n l d).
Proof. intros H. unfold rd. rewrite nth_error_nth' with (d := d); auto. Qed.

Lemma rd_inv A (l : list A) n a : rd l n = Ok a -> nth_error l n = Some a /\ n < length l.
Proof.
  unfold rd. destruct (nth_error l n) eqn:E; intros H; inversion H; subst.
  split; auto. apply nth_error_Some. congruence.
Qed.

Lemma mapM_ok A B (f : A -> res B) g l :
  (forall a, In a l -> f a = Ok (g a)) -> mapM f l = Ok (map g l).
Proof.
  induction l as [|a t IH]; intros H; simpl; auto.
  rewrite H by (simpl; auto). simpl. rewrite IH; auto.
  intros b Hb. apply H. simpl; auto.
Qed.

Lemma list_ext A (l1 l2 : list A) :
  length l1 = length l2 -> (forall i, nth_error l1 i = nth_error l2 i) -> l1 = l2.
Proof.
  revert l2; induction l1 as [|a t IH]; intros [|b u] HL H; simpl in *; try discriminate; auto.
  pose proof (H 0) as H0. simpl in H0. inversion H0; subst. f_equal.
  apply IH; auto. intros i. apply (H (S i)).
Qed.

Lemma list_ext_nth A (d : A) (l1 l2 : list A) :
  length l1 = length l2 -> (forall i, i < length l1 -> nth i l1 d = nth i l2 d) -> l1 = l2.
Proof.
  intros HL H. apply list_ext; auto. intros i.
  destruct (lt_dec i (length l1)) as [Hi|Hi].
  - rewrite !nth_error_nth' with (d := d) by lia. f_equal. auto.
  - replace (nth_error l1 i) with (@None A) by (symmetry; apply nth_error_None; lia).
    symmetry. apply nth_error_None. lia.
Qed.

Lemma nth_map_seq A (f : nat -> A) n i d : i < n -> nth i (map f (seq 0 n)) d = f i.
Proof.
  intros H. rewrite nth_indep with (d' := f 0) by (rewrite map_length, seq_length; lia).
  rewrite map_nth with (d := 0). rewrite seq_nth; auto.
Qed.

Lemma nth_repeat_lt A (a d : A) n k : (k < n)%nat -> nth k (repeat a n) d = a.
Proof. revert k; induction n as [|n IH]; intros [|k] H; simpl; auto; try lia. apply IH. lia. Qed.
