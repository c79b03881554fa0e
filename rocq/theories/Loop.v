(** * Loop: counted loops and the rules used to reason about them (no model content). *)
From Verif Require Import Base.
Set Implicit Arguments. Unset Strict Implicit.

(** for (i = lo; i < hi; ++i) s = body(i, s) *)
Definition for_ {S} (lo hi : nat) (s : S) (body : nat -> S -> res S) : res S :=
  foldM (fun s i => body i s) (seq lo (hi - lo)) s.

Lemma for_inv S (P : nat -> S -> Prop) lo hi s body : lo <= hi -> P lo s ->
  (forall i s, lo <= i < hi -> P i s -> exists s', body i s = Ok s' /\ P (Datatypes.S i) s') ->
  exists s', for_ lo hi s body = Ok s' /\ P hi s'.
Proof.
  intros Hle. unfold for_. remember (hi - lo) as n eqn:En.
  revert lo s Hle En. induction n as [|n IH]; intros lo s Hle En HP HB.
  - simpl. exists s. split; auto. replace hi with lo by lia. auto.
  - simpl. destruct (HB lo s ltac:(lia) HP) as (s1 & E1 & P1). rewrite E1. simpl.
    apply IH; auto; try lia. intros i s' Hi. apply HB. lia.
Qed.

Lemma for_S S lo n (s : S) body : lo <= n ->
  for_ lo (Datatypes.S n) s body = bind (for_ lo n s body) (body n).
Proof.
  intros H. unfold for_. replace (Datatypes.S n - lo) with (Datatypes.S (n - lo)) by lia.
  rewrite seq_S.
  assert (G : forall l s, foldM (fun s i => body i s) (l ++ [lo + (n - lo)]) s =
     bind (foldM (fun s i => body i s) l s) (body n)).
  { clear -H. induction l as [|a l IH]; intros s; simpl.
    - replace (lo + (n - lo)) with n by lia. destruct (body n s); auto.
    - destruct (body a s); simpl; auto. }
  apply G.
Qed.

(** [holds N F D a]: array [a] has length N and every index of [D] has a value
    related by [F]. *)
Definition holds {V} (N : nat) (F : nat -> V -> Prop) (D : nat -> Prop) (a : list V) : Prop :=
  length a = N /\ forall c, c < N -> D c -> exists v, nth_error a c = Some v /\ F c v.

Lemma holds_none V N (F : nat -> V -> Prop) a : length a = N -> holds N F (fun _ => False) a.
Proof. intros H. split; auto. intros c _ []. Qed.

Lemma holds_weaken V N (F : nat -> V -> Prop) (D D' : nat -> Prop) a :
  holds N F D a -> (forall c, c < N -> D' c -> D c) -> holds N F D' a.
Proof. intros [L H] HD. split; auto. Qed.

Lemma holds_wr V N (F : nat -> V -> Prop) (D : nat -> Prop) a c v :
  holds N F D a -> c < N -> F c v ->
  exists a', wr a c v = Ok a' /\ holds N F (fun x => D x \/ x = c) a'.
Proof.
  intros [L H] Hc Hv. unfold wr. rewrite L, (proj2 (Nat.ltb_lt c N) Hc).
  eexists. split; [reflexivity|]. split; [rewrite upd_length; auto|].
  intros x Hx HD. destruct (Nat.eq_dec x c) as [->|Ne].
  - exists v. split; auto. apply nth_error_upd_eq. lia.
  - rewrite nth_error_upd_neq by auto. apply H; auto. tauto.
Qed.

(** A loop whose i-th iteration establishes F on A i. *)
Lemma for_holds V N (F : nat -> V -> Prop) (A : nat -> nat -> Prop) (D : nat -> Prop) lo hi a body :
  lo <= hi ->
  (forall i D a, lo <= i < hi -> holds N F D a ->
     exists a', body i a = Ok a' /\ holds N F (fun c => D c \/ A i c) a') ->
  holds N F D a ->
  exists a', for_ lo hi a body = Ok a' /\
    holds N F (fun c => D c \/ exists i, lo <= i < hi /\ A i c) a'.
Proof.
  intros Hle HB H0.
  destruct (@for_inv _ (fun n a => holds N F (fun c => D c \/ exists i, lo <= i < n /\ A i c) a)
              lo hi a body Hle) as (a' & E & H).
  - eapply holds_weaken; eauto. intros c _ [HD|(i & Hi & _)]; auto. lia.
  - intros i s Hi Hs. destruct (HB i _ s Hi Hs) as (s' & E & H). exists s'. split; auto.
    eapply holds_weaken; eauto. intros c _ [HD|(k & Hk & Ha)]; auto.
    destruct (Nat.eq_dec k i) as [->|]; auto. left. right. exists k. split; auto. lia.
  - exists a'. auto.
Qed.

(** The same with a further loop-carried variable whose value is known. *)
Lemma for_holds_st V T N (F : nat -> V -> Prop) (A : nat -> nat -> Prop) (st : nat -> T) (D : nat -> Prop) lo hi a body :
  lo <= hi ->
  (forall i D a, lo <= i < hi -> holds N F D a ->
     exists a', body i (a, st i) = Ok (a', st (S i)) /\ holds N F (fun c => D c \/ A i c) a') ->
  holds N F D a ->
  exists a', for_ lo hi (a, st lo) body = Ok (a', st hi) /\
    holds N F (fun c => D c \/ exists i, lo <= i < hi /\ A i c) a'.
Proof.
  intros Hle HB H0.
  destruct (@for_inv _ (fun n p => snd p = st n /\ holds N F (fun c => D c \/ exists i, lo <= i < n /\ A i c) (fst p))
              lo hi (a, st lo) body Hle) as ([a' t'] & E & Et & H).
  - split; auto. eapply holds_weaken; eauto. intros c _ [HD|(i & Hi & _)]; auto. lia.
  - intros i [s t] Hi [Ht Hs]. simpl in *. subst t.
    destruct (HB i _ s Hi Hs) as (s' & E & H). exists (s', st (S i)). split; auto. split; auto.
    eapply holds_weaken; eauto. intros c _ [HD|(k & Hk & Ha)]; auto.
    destruct (Nat.eq_dec k i) as [->|]; auto. left. right. exists k. split; auto. lia.
  - simpl in *. subst t'. exists a'. auto.
Qed.

(** Sum of the first n entries (std::accumulate). *)
Definition psum (l : list nat) (n : nat) : nat := list_sum (firstn n l).

Lemma psum_0 l : psum l 0 = 0.
Proof. reflexivity. Qed.
Lemma psum_S l n : psum l (S n) = psum l n + nth n l 0.
Proof.
  unfold psum. revert n. induction l as [|a r IH]; intros n; [destruct n; reflexivity|].
  destruct n as [|n]; [simpl; lia|].
  assert (E : forall k, list_sum (firstn (S k) (a :: r)) = a + list_sum (firstn k r)) by reflexivity.
  rewrite (E (S n)), (E n), IH. simpl. lia.
Qed.
Lemma psum_mono l n m : n <= m -> psum l n <= psum l m.
Proof. induction 1; auto. rewrite psum_S. lia. Qed.
Lemma psum_all l : psum l (length l) = list_sum l.
Proof. unfold psum. rewrite firstn_all. auto. Qed.
Lemma psum_block_unique l i j x :
  psum l i <= x < psum l (S i) -> psum l j <= x < psum l (S j) -> i = j.
Proof.
  intros H1 H2. destruct (lt_eq_lt_dec i j) as [[L|E]|L]; auto.
  - assert (psum l (S i) <= psum l j) by (apply psum_mono; lia). lia.
  - assert (psum l (S j) <= psum l i) by (apply psum_mono; lia). lia.
Qed.
Lemma psum_block_exists l x : x < list_sum l -> exists i, i < length l /\ psum l i <= x < psum l (S i).
Proof.
  intros H. rewrite <- psum_all in H.
  assert (G : forall n, n <= length l -> x < psum l n -> exists i, i < n /\ psum l i <= x < psum l (S i)).
  { induction n as [|n IH]; intros Hn Hx; [rewrite psum_0 in Hx; lia|].
    destruct (lt_dec x (psum l n)) as [L|L].
    - destruct IH as (i & Hi & H'); auto; [lia|]. exists i. split; auto.
    - exists n. split; auto. lia. }
  apply G; auto.
Qed.

(** Row-major index arithmetic. *)
Lemma idx2 i j nx : i < nx -> (i + j * nx) mod nx = i /\ (i + j * nx) / nx = j.
Proof.
  intros H. split.
  - rewrite Nat.mod_add by lia. apply Nat.mod_small. auto.
  - rewrite Nat.div_add by lia. rewrite Nat.div_small by auto. auto.
Qed.
Lemma idx2_lt i j nx ny : i < nx -> j < ny -> i + j * nx < nx * ny.
Proof. intros. nia. Qed.
Lemma idx2_inj i j i' j' nx : i < nx -> i' < nx -> i + j * nx = i' + j' * nx -> i = i' /\ j = j'.
Proof.
  intros H H' E. destruct (@idx2 i j nx H) as [A B]. destruct (@idx2 i' j' nx H') as [A' B'].
  rewrite E in A, B. rewrite A' in A. rewrite B' in B. auto.
Qed.

Lemma skipn_cons A (l : list A) n a r d : skipn n l = a :: r -> nth n l d = a /\ skipn (S n) l = r.
Proof.
  revert n. induction l as [|b l IH]; intros [|n] H; simpl in *; try discriminate.
  - inversion H; auto.
  - apply IH in H. destruct H as [H1 H2]. split; auto.
Qed.
