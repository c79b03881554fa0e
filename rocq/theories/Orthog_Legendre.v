(** * Discrete Legendre polynomials: recurrence, difference equation, orthogonality
    (mathematics used by Orthog_Discrete.v; no model content) *)
From Verif Require Import Base BaseR Orthog_Model Orthog_Spec Orthog_Proofs.
From Coq Require Import Lra.
Set Implicit Arguments. Unset Strict Implicit.
Open Scope R_scope.

(** Pair (P_i, P_(i+1)) at x = n - 2 j, for n + 1 points. *)
Fixpoint dl2 (n : R) (i : nat) (x : R) : R * R :=
  match i with
  | O => (1, x / n)
  | S k => let '(a, b) := dl2 n k x in
    (b, ((2 * INR k + 3) * x * b - (INR k + 1) * (n + INR k + 2) * a) / ((INR k + 2) * (n - INR k - 1)))
  end.
Definition dl (n : R) (i : nat) (x : R) : R := fst (dl2 n i x).
Definition dlj (n : R) (i : nat) (j : R) : R := dl n i (n - 2 * j).

Lemma dl_snd n i x : snd (dl2 n i x) = dl n (S i) x.
Proof. unfold dl. cbn [dl2]. destruct (dl2 n i x). reflexivity. Qed.
Lemma dl_0 n x : dl n 0 x = 1. Proof. reflexivity. Qed.
Lemma dl_1 n x : dl n 1 x = x / n. Proof. reflexivity. Qed.
Lemma dl_SS n i x : dl n (S (S i)) x =
  ((2 * INR i + 3) * x * dl n (S i) x - (INR i + 1) * (n + INR i + 2) * dl n i x) / ((INR i + 2) * (n - INR i - 1)).
Proof.
  rewrite <- dl_snd. cbn [dl2]. rewrite <- dl_snd. unfold dl. destruct (dl2 n i x). reflexivity.
Qed.

(** Bonnet-like recurrence without division. *)
Lemma dl_rec n i x : INR i + 1 < n ->
  (INR i + 2) * (n - INR i - 1) * dl n (S (S i)) x =
  (2 * INR i + 3) * x * dl n (S i) x - (INR i + 1) * (n + INR i + 2) * dl n i x.
Proof. intros H. rewrite dl_SS. pose proof (pos_INR i). field. split; lra. Qed.

Lemma dl_end n i : INR i <= n -> 0 < n -> dl n i n = 1.
Proof.
  intros H Hn. assert (G : forall i, INR (S i) <= n -> dl n i n = 1 /\ dl n (S i) n = 1).
  { clear i H. induction i as [|i IH]; intros H.
    - split; [reflexivity|]. rewrite dl_1. field. lra.
    - rewrite S_INR in H. destruct IH as (A & B); [lra|]. split; auto.
      rewrite dl_SS, A, B. rewrite S_INR in H. pose proof (pos_INR i). field. split; lra. }
  destruct i as [|i]; [reflexivity|]. apply G. auto.
Qed.

Lemma dl_parity n i x : dl n i (- x) = (-1) ^ i * dl n i x.
Proof.
  assert (G : forall i, dl n i (- x) = (-1) ^ i * dl n i x /\ dl n (S i) (- x) = (-1) ^ (S i) * dl n (S i) x).
  { clear i. induction i as [|i (A & B)].
    - split; [rewrite !dl_0; simpl; ring|rewrite !dl_1; simpl; unfold Rdiv; ring].
    - split; auto. rewrite !dl_SS, A, B. simpl. unfold Rdiv. ring. }
  apply G.
Qed.

Definition aj (n j : R) : R := (j + 1) * (n - j).
Definition bj (n j : R) : R := j * (n + 1 - j).

(** Shift relations. *)
Lemma shifts n i j : INR (S i) <= n -> 0 < n ->
  let a := aj n j in let b := bj n j in let x := n - 2 * j in let k := INR i in
  let p := dlj n i j in let q := dlj n (S i) j in
  2 * a * dlj n i (j + 1) = (a + b - k * (k + 1) - k * x) * p + (k + 1) * (n - k) * q /\
  2 * b * dlj n i (j - 1) = (a + b - k * (k + 1) + k * x) * p - (k + 1) * (n - k) * q /\
  2 * a * dlj n (S i) (j + 1) = (a + b - (k + 1) * (k + 2) + (k + 2) * x) * q - (k + 1) * (n + k + 2) * p /\
  2 * b * dlj n (S i) (j - 1) = (a + b - (k + 1) * (k + 2) - (k + 2) * x) * q + (k + 1) * (n + k + 2) * p.
Proof.
  intros H Hn. revert H. induction i as [|i IH]; intros H; cbv zeta.
  - unfold dlj. rewrite !dl_0, !dl_1. unfold aj, bj. cbn [INR].
    repeat split; field; lra.
  - rewrite S_INR in H. assert (H' : INR (S i) <= n) by lra. specialize (IH H'). cbv zeta in IH.
    rewrite S_INR in H'. destruct IH as (T1 & T2 & S1 & S2).
    rewrite !S_INR in *.
    set (k := INR i) in *. set (a := aj n j) in *. set (b := bj n j) in *. set (x := n - 2 * j) in *.
    assert (Hk : 0 <= k) by (apply pos_INR).
    assert (R0 : forall y, (k + 2) * (n - k - 1) * dlj n (S (S i)) y =
       (2 * k + 3) * (n - 2 * y) * dlj n (S i) y - (k + 1) * (n + k + 2) * dlj n i y).
    { intros y. unfold dlj. apply dl_rec. fold k. lra. }
    assert (Nz : (k + 2) * (n - k - 1) <> 0).
    { apply Rmult_integral_contrapositive. split; lra. }
    pose proof (R0 j) as Rj. pose proof (R0 (j + 1)) as Rp. pose proof (R0 (j - 1)) as Rm.
    set (p := dlj n i j) in *. set (q := dlj n (S i) j) in *. set (r := dlj n (S (S i)) j) in *.
    fold x in Rj.
    replace (n - 2 * (j + 1)) with (x - 2) in Rp by (unfold x; ring).
    replace (n - 2 * (j - 1)) with (x + 2) in Rm by (unfold x; ring).
    split; [|split; [|split]].
    + rewrite S1. replace ((k + 1 + 1) * (n - (k + 1)) * r) with ((k + 2) * (n - k - 1) * r) by ring. rewrite Rj. ring.
    + rewrite S2. replace ((k + 1 + 1) * (n - (k + 1)) * r) with ((k + 2) * (n - k - 1) * r) by ring. rewrite Rj. ring.
    + apply (Rmult_eq_reg_l ((k + 2) * (n - k - 1))); auto.
      transitivity (2 * a * ((k + 2) * (n - k - 1) * dlj n (S (S i)) (j + 1))); [ring|]. rewrite Rp.
      transitivity ((2 * k + 3) * (x - 2) * (2 * a * dlj n (S i) (j + 1)) - (k + 1) * (n + k + 2) * (2 * a * dlj n i (j + 1))); [ring|].
      rewrite S1, T1.
      transitivity ((a + b - (k + 2) * (k + 3) + (k + 3) * x) * ((k + 2) * (n - k - 1) * r) - (k + 2) * (n - k - 1) * ((k + 2) * (n + k + 3) * q)); [|ring].
      rewrite Rj. unfold a, b, aj, bj, x. ring.
    + apply (Rmult_eq_reg_l ((k + 2) * (n - k - 1))); auto.
      transitivity (2 * b * ((k + 2) * (n - k - 1) * dlj n (S (S i)) (j - 1))); [ring|]. rewrite Rm.
      transitivity ((2 * k + 3) * (x + 2) * (2 * b * dlj n (S i) (j - 1)) - (k + 1) * (n + k + 2) * (2 * b * dlj n i (j - 1))); [ring|].
      rewrite S2, T2.
      transitivity ((a + b - (k + 2) * (k + 3) - (k + 3) * x) * ((k + 2) * (n - k - 1) * r) + (k + 2) * (n - k - 1) * ((k + 2) * (n + k + 3) * q)); [|ring].
      rewrite Rj. unfold a, b, aj, bj, x. ring.
Qed.

(** The difference equation. *)
Lemma eigen n i j : INR i <= n -> 0 < n ->
  aj n j * dlj n i (j + 1) + bj n j * dlj n i (j - 1) =
  (aj n j + bj n j - INR i * (INR i + 1)) * dlj n i j.
Proof.
  intros H Hn. destruct i as [|i].
  - unfold dlj. rewrite !dl_0. cbn [INR]. ring.
  - destruct (shifts (n := n) (i := i) j) as (_ & _ & A & B); auto. rewrite !S_INR.
    cbv zeta in A, B. lra.
Qed.

Lemma telescope m (v : nat -> R) : rsum m (fun j => v (S j) - v j) = v m - v 0%nat.
Proof. induction m as [|m IH]; cbn [rsum]; [lra|rewrite IH; lra]. Qed.

Section Grid.
  Variable N : nat.
  Hypothesis N2 : (2 <= N)%nat.
  Let n := INR N - 1.
  (** The values on the grid. *)
  Definition DL (i j : nat) : R := dlj (INR N - 1) i (INR j).

  Lemma n_pos : 0 < n.
  Proof. unfold n. apply le_INR in N2. simpl in N2. lra. Qed.
  Lemma i_le i : (i < N)%nat -> INR i <= n.
  Proof. intros H. unfold n. assert (INR (S i) <= INR N) by (apply le_INR; lia). rewrite S_INR in H0. lra. Qed.

  Lemma DL_orth l k : (l < N)%nat -> (k < N)%nat -> l <> k -> rsum N (fun j => DL l j * DL k j) = 0.
  Proof.
    intros Hl Hk Ne. unfold DL. fold n.
    pose proof n_pos as Hn. pose proof (i_le Hl) as Il. pose proof (i_le Hk) as Ik.
    set (v := fun j => bj n (INR j) * (dlj n l (INR j) * dlj n k (INR j - 1) - dlj n l (INR j - 1) * dlj n k (INR j))).
    assert (T : rsum N (fun j => (INR k * (INR k + 1) - INR l * (INR l + 1)) * (dlj n l (INR j) * dlj n k (INR j))) = 0).
    { transitivity (rsum N (fun j => v (S j) - v j)).
      - apply rsum_ext. intros j Hj. unfold v. rewrite S_INR.
        replace (INR j + 1 - 1) with (INR j) by ring.
        pose proof (@eigen n l (INR j) Il Hn) as El. pose proof (@eigen n k (INR j) Ik Hn) as Ek.
        replace (bj n (INR j + 1)) with (aj n (INR j)) by (unfold aj, bj; ring).
        set (a := aj n (INR j)) in *. set (b := bj n (INR j)) in *.
        set (pl := dlj n l (INR j)) in *. set (pk := dlj n k (INR j)) in *.
        assert (G : pk * (a * dlj n l (INR j + 1) + b * dlj n l (INR j - 1)) - pl * (a * dlj n k (INR j + 1) + b * dlj n k (INR j - 1))
           = (INR k * (INR k + 1) - INR l * (INR l + 1)) * (pl * pk)) by (rewrite El, Ek; ring).
        rewrite <- G. ring.
      - rewrite telescope. unfold v, bj. cbn [INR]. unfold n. ring. }
    rewrite rsum_scal in T. apply Rmult_integral in T. destruct T as [T|T]; auto.
    exfalso. assert (INR k <> INR l) by (intros E; apply INR_eq in E; auto).
    pose proof (pos_INR k). pose proof (pos_INR l).
    assert ((INR k - INR l) * (INR k + INR l + 1) = 0) as G by (ring_simplify; ring_simplify in T; lra).
    apply Rmult_integral in G. destruct G; lra.
  Qed.

  Lemma DL_0 i : (i < N)%nat -> DL i 0 = 1.
  Proof.
    intros H. unfold DL, dlj. cbn [INR]. replace (INR N - 1 - 2 * 0) with (INR N - 1) by ring.
    apply dl_end; [apply i_le; auto|apply n_pos].
  Qed.

  Lemma DL_norm i : (i < N)%nat -> 0 < rsum N (fun j => DL i j * DL i j).
  Proof.
    intros H.
    assert (G : rsum N (fun j => if (j =? 0)%nat then 1 else 0) <= rsum N (fun j => DL i j * DL i j)).
    { apply rsum_le. intros j Hj. destruct (Nat.eqb_spec j 0) as [->|_].
      - rewrite DL_0 by auto. lra.
      - apply Rle_0_sqr. }
    rewrite (rsum_delta (n := N) (k := 0) 1) in G by lia. lra.
  Qed.

  Lemma DL_sym i j : (j < N)%nat -> DL i (N - 1 - j) = (-1) ^ i * DL i j.
  Proof.
    intros H. unfold DL, dlj. rewrite <- dl_parity. f_equal.
    rewrite !minus_INR by lia. cbn [INR]. ring.
  Qed.

  (** Recurrence in the form "x times P_i". *)
  Lemma DL_x i j : (S i < N)%nat -> (2 * INR i + 1) * (n - 2 * INR j) * DL i j =
    (INR i + 1) * (n - INR i) * DL (S i) j + INR i * (n + 1 + INR i) * DL (Nat.pred i) j.
  Proof.
    intros H. unfold DL, dlj. fold n. destruct i as [|i].
    - rewrite dl_0, dl_1. cbn [INR]. pose proof n_pos. field. lra.
    - cbn [Nat.pred]. pose proof (i_le H) as G. rewrite !S_INR in *.
      pose proof (@dl_rec n i (n - 2 * INR j)) as E.
      replace ((INR i + 1 + 1) * (n - (INR i + 1)) * dl n (S (S i)) (n - 2 * INR j))
        with ((INR i + 2) * (n - INR i - 1) * dl n (S (S i)) (n - 2 * INR j)) by ring.
      rewrite E by lra. ring.
  Qed.

  (** ** Span *)
  Lemma span_ext K P f g : (forall i, (i < N)%nat -> f i = g i) -> in_span N K P f -> in_span N K P g.
  Proof. intros H (c & E). exists c. intros i Hi. rewrite <- H by auto. apply E; auto. Qed.
  Lemma span_plus K P f g : in_span N K P f -> in_span N K P g -> in_span N K P (fun i => f i + g i).
  Proof.
    intros (c & E) (d & F). exists (fun l => c l + d l). intros i Hi. rewrite E, F by auto.
    unfold combo. rewrite <- rsum_plus. apply rsum_ext. intros. ring.
  Qed.
  Lemma span_scal K P s f : in_span N K P f -> in_span N K P (fun i => s * f i).
  Proof.
    intros (c & E). exists (fun l => s * c l). intros i Hi. rewrite E by auto.
    unfold combo. rewrite <- rsum_scal. apply rsum_ext. intros. ring.
  Qed.
  Lemma span_zero K P : in_span N K P (fun _ => 0).
  Proof. exists (fun _ => 0). intros i Hi. unfold combo. symmetry. apply (rsum_zero (n := K)). intros. ring. Qed.
  Lemma span_mem K P l : (l < K)%nat -> in_span N K P (P l).
  Proof.
    intros H. exists (fun k => if (k =? l)%nat then 1 else 0). intros i Hi. unfold combo.
    rewrite (@rsum_ext K _ (fun k => if (k =? l)%nat then P l i else 0)).
    - symmetry. apply rsum_delta; auto.
    - intros k Hk. destruct (Nat.eqb_spec k l) as [->|_]; ring.
  Qed.
  Lemma span_sum K P M (F : nat -> nat -> R) : (forall l, (l < M)%nat -> in_span N K P (F l)) ->
    in_span N K P (fun i => rsum M (fun l => F l i)).
  Proof.
    clear N2. induction M as [|M IH]; intros H; cbn [rsum]; [apply span_zero|].
    apply span_plus; [apply IH; intros; apply H; lia|apply H; lia].
  Qed.
  Lemma span_mono K K' P f : (K <= K')%nat -> in_span N K P f -> in_span N K' P f.
  Proof.
    clear N2. intros H (c & E). apply (@span_ext K' P (combo K c P)); [intros; symmetry; auto|].
    unfold combo. apply span_sum. intros l Hl. apply span_scal, span_mem. lia.
  Qed.

  Lemma DL_shift_span k f : (S k < N)%nat -> in_span N (S k) DL f ->
    in_span N (S (S k)) DL (fun j => INR j * f j).
  Proof.
    intros H (c & E).
    apply (@span_ext _ _ (fun j => rsum (S k) (fun l => c l * (INR j * DL l j)))).
    { intros j Hj. rewrite E by auto. unfold combo. rewrite <- rsum_scal. apply rsum_ext. intros. ring. }
    apply span_sum. intros l Hl. apply span_scal.
    apply (@span_ext _ _ (fun j => n / 2 * DL l j + (- / (2 * (2 * INR l + 1)) * ((INR l + 1) * (n - INR l)) * DL (S l) j
       + - / (2 * (2 * INR l + 1)) * (INR l * (n + 1 + INR l)) * DL (Nat.pred l) j))).
    { intros j Hj. pose proof (@DL_x l j ltac:(lia)) as G. pose proof (pos_INR l).
      transitivity (n / 2 * DL l j - / (2 * (2 * INR l + 1)) * ((2 * INR l + 1) * (n - 2 * INR j) * DL l j)).
      - rewrite G. ring.
      - field. lra. }
    apply span_plus; [apply span_scal, span_mem; lia|].
    apply span_plus; apply span_scal, span_mem; lia.
  Qed.

  Lemma monomial_span k : (k < N)%nat -> in_span N (S k) DL (fun j => INR j ^ k).
  Proof.
    induction k as [|k IH]; intros H.
    - apply (@span_ext _ _ (DL 0)); [intros; reflexivity|]. apply span_mem. lia.
    - cbn [pow]. apply DL_shift_span; auto. apply IH. lia.
  Qed.

  Lemma poly_span d g : (d < N)%nat -> poly_on N d g -> in_span N (S d) DL g.
  Proof.
    intros H (c & E). apply (@span_ext _ _ (fun j => rsum (S d) (fun k => c k * INR j ^ k))).
    { intros; symmetry; auto. }
    apply span_sum. intros k Hk. apply span_scal. apply (@span_mono (S k)); [lia|]. apply monomial_span. lia.
  Qed.

  (** ** Degree *)
  Definition mono (k j : nat) : R := INR j ^ k.
  Lemma poly_is_span d f : poly_on N d f <-> in_span N (S d) mono f.
  Proof. split; intros (c & E); exists c; exact E. Qed.
  Lemma mono_shift d f : in_span N (S d) mono f -> in_span N (S (S d)) mono (fun j => INR j * f j).
  Proof.
    intros (c & E). apply (@span_ext _ _ (fun j => rsum (S d) (fun k => c k * mono (S k) j))).
    { intros j Hj. rewrite E by auto. unfold combo. rewrite <- rsum_scal. apply rsum_ext. intros. unfold mono. cbn [pow]. ring. }
    apply span_sum. intros k Hk. apply span_scal, span_mem. lia.
  Qed.

  Lemma DL_degree i : (i < N)%nat -> poly_on N i (DL i).
  Proof.
    intros H. apply poly_is_span.
    assert (G : forall i, (S i < N)%nat -> in_span N (S i) mono (DL i) /\ in_span N (S (S i)) mono (DL (S i))).
    { clear i H. induction i as [|i IH]; intros H.
      - split.
        + apply (@span_ext _ _ (mono 0)); [intros; reflexivity|apply span_mem; lia].
        + apply (@span_ext _ _ (fun j => 1 * mono 0 j + - (2 / n) * mono 1 j)).
          * intros j Hj. unfold mono, DL, dlj. fold n. rewrite dl_1. cbn [pow]. pose proof n_pos. field. lra.
          * apply span_plus; apply span_scal, span_mem; lia.
      - destruct IH as (A & B); [lia|]. split; auto.
        pose proof (i_le H) as G. rewrite !S_INR in G. pose proof (pos_INR i).
        set (D := (INR i + 2) * (n - INR i - 1)).
        apply (@span_ext _ _ (fun j => (2 * INR i + 3) * n / D * DL (S i) j
              + (- (2 * (2 * INR i + 3)) / D * (INR j * DL (S i) j) + - ((INR i + 1) * (n + INR i + 2)) / D * DL i j))).
        { intros j Hj. unfold DL at 4, dlj. fold n. rewrite dl_SS. unfold DL, dlj, D. fold n. field. split; lra. }
        apply span_plus; [apply span_scal, (span_mono (K := S (S i))); auto|].
        apply span_plus; apply span_scal.
        + apply mono_shift; auto.
        + apply (span_mono (K := S i)); auto. }
    destruct i as [|i]; [|apply G; auto].
    apply (@span_ext _ _ (mono 0)); [intros; reflexivity|apply span_mem; lia].
  Qed.

  Lemma DL_legendre s i f : (i < N)%nat -> s <> 0 -> (forall j, (j < N)%nat -> f j = s * DL i j) ->
    discrete_legendre N i f.
  Proof.
    intros H Hs E. split; [|split].
    - apply poly_is_span. apply (@span_ext _ _ (fun j => s * DL i j)); [intros; symmetry; auto|].
      apply span_scal. apply poly_is_span, DL_degree. auto.
    - intros d g Hd G. destruct (@poly_span d g) as (c & C); [lia|auto|].
      transitivity (rsum (S d) (fun l => s * c l * rsum N (fun j => DL i j * DL l j))).
      + rewrite (@rsum_ext N _ (fun j => rsum (S d) (fun l => s * c l * (DL i j * DL l j)))).
        * rewrite rsum_swap. apply rsum_ext. intros l Hl. apply rsum_scal.
        * intros j Hj. rewrite E, C by auto. unfold combo. rewrite <- rsum_scal. apply rsum_ext. intros. ring.
      + apply (rsum_zero (n := S d)). intros l Hl. rewrite DL_orth by lia. ring.
    - exists 0%nat. split; [lia|]. rewrite E, DL_0 by lia. lra.
  Qed.
End Grid.
