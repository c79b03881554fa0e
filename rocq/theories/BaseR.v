(** * BaseR: sums of reals (no model content). *)
From Coq Require Export Reals Lra Psatz.
From Verif Require Export Base.
Set Implicit Arguments.
Open Scope R_scope.

(** Sum of a list. *)
Definition sumR (l : list R) : R := fold_right Rplus 0 l.

(** [rsum n f] is f 0 + ... + f (n-1). *)
Fixpoint rsum (n : nat) (f : nat -> R) : R :=
  match n with O => 0 | S k => rsum k f + f k end.

Lemma sumR_app l1 l2 : sumR (l1 ++ l2) = sumR l1 + sumR l2.
Proof. induction l1 as [|a t IH]; simpl; [ring | rewrite IH; ring]. Qed.

Lemma sumR_perm l1 l2 : Permutation l1 l2 -> sumR l1 = sumR l2.
Proof. induction 1; simpl; lra. Qed.

Lemma sumR_cons a l : sumR (a :: l) = a + sumR l.
Proof. reflexivity. Qed.

Lemma fold_left_Rplus A (f : A -> R) l s :
  fold_left (fun acc a => acc + f a) l s = s + sumR (map f l).
Proof.
  revert s; induction l as [|a t IH]; intros s; simpl; [ring | rewrite IH; ring].
Qed.

Lemma rsum_ext n f g : (forall i, (i < n)%nat -> f i = g i) -> rsum n f = rsum n g.
Proof.
  induction n as [|n IH]; intros H; simpl; auto.
  rewrite IH by (intros; apply H; lia). rewrite H by lia. reflexivity.
Qed.

Lemma rsum_sumR n f : rsum n f = sumR (map f (seq 0 n)).
Proof.
  induction n as [|n IH]; auto.
  rewrite seq_S, map_app, sumR_app. simpl rsum. rewrite IH. simpl. ring.
Qed.

Lemma rsum_plus n f g : rsum n (fun i => f i + g i) = rsum n f + rsum n g.
Proof. induction n as [|n IH]; simpl; [ring | rewrite IH; ring]. Qed.

Lemma rsum_minus n f g : rsum n (fun i => f i - g i) = rsum n f - rsum n g.
Proof. induction n as [|n IH]; simpl; [ring | rewrite IH; ring]. Qed.

Lemma rsum_scal n c f : rsum n (fun i => c * f i) = c * rsum n f.
Proof. induction n as [|n IH]; simpl; [ring | rewrite IH; ring]. Qed.

Lemma rsum_scal_r n c f : rsum n (fun i => f i * c) = rsum n f * c.
Proof. induction n as [|n IH]; simpl; [ring | rewrite IH; ring]. Qed.

Lemma rsum_zero n f : (forall i, (i < n)%nat -> f i = 0) -> rsum n f = 0.
Proof.
  induction n as [|n IH]; intros H; simpl; auto.
  rewrite IH by (intros; apply H; lia). rewrite H by lia. ring.
Qed.

Lemma rsum_const n c : rsum n (fun _ => c) = INR n * c.
Proof. induction n as [|n IH]; [simpl; ring|]. rewrite S_INR. simpl rsum. rewrite IH. ring. Qed.

Lemma rsum_swap n m (f : nat -> nat -> R) :
  rsum n (fun i => rsum m (fun j => f i j)) = rsum m (fun j => rsum n (fun i => f i j)).
Proof.
  induction n as [|n IH]; simpl.
  - symmetry. apply rsum_zero. auto.
  - rewrite IH. rewrite <- rsum_plus. reflexivity.
Qed.

Lemma rsum_delta n k c : (k < n)%nat ->
  rsum n (fun i => if Nat.eqb i k then c else 0) = c.
Proof.
  induction n as [|n IH]; intros H; [lia|]. simpl.
  destruct (Nat.eqb_spec n k) as [E|E].
  - subst. rewrite rsum_zero; [ring|]. intros i Hi.
    destruct (Nat.eqb_spec i k); [lia|auto].
  - rewrite IH by lia. ring.
Qed.

Lemma rsum_split n m f : rsum (n + m) f = rsum n f + rsum m (fun i => f (n + i)%nat).
Proof.
  induction m as [|m IH]; simpl.
  - rewrite Nat.add_0_r. ring.
  - rewrite Nat.add_succ_r. simpl. rewrite IH. ring.
Qed.

Lemma rsum_le n f g : (forall i, (i < n)%nat -> f i <= g i) -> rsum n f <= rsum n g.
Proof.
  induction n as [|n IH]; intros H; simpl; [lra|].
  assert (rsum n f <= rsum n g) by (apply IH; intros; apply H; lia).
  assert (f n <= g n) by (apply H; lia). lra.
Qed.

Lemma rsum_nonneg n f : (forall i, (i < n)%nat -> 0 <= f i) -> 0 <= rsum n f.
Proof.
  intros H. rewrite <- (rsum_zero (n := n) (fun _ => 0)) by auto. apply rsum_le; auto.
Qed.

Lemma rsum_rev n f : rsum n f = rsum n (fun i => f (n - 1 - i)%nat).
Proof.
  rewrite !rsum_sumR. apply sumR_perm.
  assert (E : map (fun i => f (n - 1 - i)%nat) (seq 0 n) = map f (rev (seq 0 n))).
  { rewrite <- (map_map (fun i => (n - 1 - i)%nat) f). f_equal.
    apply list_ext_nth with (d := 0%nat).
    - rewrite map_length, rev_length. auto.
    - intros i Hi. rewrite map_length, seq_length in Hi.
      rewrite nth_map_seq by auto.
      rewrite rev_nth by (rewrite seq_length; auto).
      rewrite seq_length, seq_nth by lia. lia. }
  rewrite E. apply Permutation_map. apply Permutation_rev.
Qed.

Lemma sumR_nth l : sumR l = rsum (length l) (fun i => nth i l 0).
Proof.
  rewrite rsum_sumR. f_equal. apply list_ext_nth with (d := 0).
  - rewrite map_length, seq_length. auto.
  - intros i Hi. rewrite nth_map_seq; auto.
Qed.

Lemma sumR_map_const A (l : list A) c : sumR (map (fun _ => c) l) = INR (length l) * c.
Proof. induction l as [|a t IH]; [simpl; ring|]. simpl length. rewrite S_INR. simpl. rewrite IH. ring. Qed.

Lemma sumR_map_plus A (f g : A -> R) l :
  sumR (map (fun a => f a + g a) l) = sumR (map f l) + sumR (map g l).
Proof. induction l as [|a t IH]; simpl; [ring | rewrite IH; ring]. Qed.

Lemma sumR_map_scal A (f : A -> R) c l :
  sumR (map (fun a => c * f a) l) = c * sumR (map f l).
Proof. induction l as [|a t IH]; simpl; [ring | rewrite IH; ring]. Qed.

Lemma sumR_map_ext A (f g : A -> R) l :
  (forall a, In a l -> f a = g a) -> sumR (map f l) = sumR (map g l).
Proof.
  induction l as [|a t IH]; intros H; simpl; auto.
  rewrite H by (simpl; auto). rewrite IH; auto. intros b Hb; apply H; simpl; auto.
Qed.

Lemma sumR_map_zero A (f : A -> R) l : (forall a, In a l -> f a = 0) -> sumR (map f l) = 0.
Proof.
  induction l as [|a t IH]; intros H; simpl; auto.
  rewrite H by (simpl; auto). rewrite IH; [ring|]. intros b Hb; apply H; simpl; auto.
Qed.

Lemma rd0 (l : list R) n : (n < length l)%nat -> rd l n = Ok (nth n l 0%R).
Proof. apply rd_ok. Qed.
Arguments rd0 {l n} _.
