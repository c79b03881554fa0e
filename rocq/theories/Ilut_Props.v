(** * Ilut_Props *)
From Verif Require Import Base BaseR Matrix_Model Matrix_Spec Vector_Model Vector_Spec Vector_Proofs Solver_Model Solver_Spec Precond_Proofs Ilut_Model Ilut_Spec Ilut_Proofs Ilut_Proofs4 Ilut_Proofs5.
From Coq Require Import Lra.
Open Scope nat_scope.

(** C106.  Full statement: PCILUT(A, p, t) is the factorisation of its documentation:
    entries smaller than t are dropped, then all but the p largest on either side of
    the diagonal; without dropping (t = 0, p not less than the size) it is the LU
    factorisation and applying it solves A z = b.

    Without dropping it is so if the factor L has no zeros below the diagonal, or if
    the stray reads of the code are harmless. *)
Theorem C106_exact_partial srt sv sc stray C n p t L U : is_sort srt -> sort_by_size sv -> sort_by_column sc ->
  csr_wf n n C -> strict_rows n C -> (t <= 0)%R -> n <= p + 1 -> factors n C L U -> (forall k, k < n -> U k k <> 0%R) ->
  (exists v, stray = Ok v) \/ (forall i k, i < n -> k < i -> L i k <> 0%R) ->
  exists P, ilut_new srt sv sc stray C p t = Ok P /\ (forall i j, i < n -> j < n -> mentry P i j = if j <? i then L i j else U i j) /\
    forall b x, length b = n -> length x = n -> exists z, ilut_apply P b x = Ok z /\ length z = n /\ solves n C b z.
Proof. intros HS HV HC W SR Ht Hp. exact (@ilut_exact srt sv sc stray C n p t HS HV HC W SR Ht Hp L U). Qed.
Print Assumptions C106_exact_partial.

(** Whatever the matrix, if the constructor returns and no pivot is zero, the product
    of the factors is the matrix and applying them solves the system. *)
Theorem C106_returns_partial srt sv sc stray C n p t P : is_sort srt -> sort_by_size sv -> sort_by_column sc ->
  csr_wf n n C -> strict_rows n C -> (t <= 0)%R -> n <= p + 1 -> ilut_new srt sv sc stray C p t = Ok P -> diag_nz n P ->
  (forall i j, i < n -> j < n -> lu n P i j = mentry C i j) /\
  forall b x, length b = n -> length x = n -> exists z, ilut_apply P b x = Ok z /\ length z = n /\ solves n C b z.
Proof. intros HS HV HC W SR Ht Hp. exact (@ilut_returns srt sv sc stray C n p t HS HV HC W SR Ht Hp P). Qed.
Print Assumptions C106_returns_partial.

(** But an element before the first one of a row is read, whatever p and t, when a row
    has no entry in column 0 and one in another column left of the diagonal. *)
Theorem C106_stray srt sv sc C n p t i k : csr_wf n n C -> strict_rows n C -> i < n -> 0 < k < i -> stored_at C i k -> ~ stored_at C i 0 ->
  forall P, ilut_new srt sv sc UB C p t <> Ok P.
Proof. intros W SR Hi Hk S1 S0 P. exact (@ilut_gap srt sv sc C n p t P i k W SR Hi Hk S1 S0). Qed.
Print Assumptions C106_stray.
(** A tridiagonal matrix with an LU factorisation is an example. *)
Theorem C106_refuted : exists n C L U, csr_wf n n C /\ strict_rows n C /\ factors n C L U /\ (forall k, k < n -> U k k <> 0%R) /\
  forall srt sv sc p t P, ilut_new srt sv sc UB C p t <> Ok P.
Proof. exact tri_refuted. Qed.
Print Assumptions C106_refuted.

(** With a threshold, other entries than the small ones are dropped. *)
Theorem C106_threshold_refuted : exists n C p t, csr_wf n n C /\ strict_rows n C /\ n <= p + 1 /\ (0 < t)%R /\
  forall srt sv sc stray, is_sort srt -> sort_by_size sv -> sort_by_column sc -> exists P, ilut_new srt sv sc stray C p t = Ok P /\
    ~ first_row_threshold n C P t /\ exists j, j < n /\ (t <= Rabs (mentry C 0 j))%R /\ mentry P 0 j = 0%R.
Proof. exact threshold_refuted. Qed.
Print Assumptions C106_threshold_refuted.

(** With a limit, the p smallest entries are kept on either side, not the largest:
    for every row [r] with a diagonal entry, *)
Theorem C106_smallest sv sc stray n r d v p t : sort_by_size sv -> sort_by_column sc -> fine n r -> In (d, v) r -> (t <= 0)%R ->
  exists q, drop_p sv sc stray n r d p t = Ok q /\ fine n q /\ In (d, v) q /\ (forall e, In e q -> In e r) /\
    length (filter (fun e => fst e <? d) q) = Nat.min p (length (filter (fun e => fst e <? d) r)) /\
    length (filter (fun e => d <? fst e) q) = Nat.min p (length (filter (fun e => d <? fst e) r)) /\
    (forall a b, In a q -> In b r -> ~ In b q -> (fst a < d /\ fst b < d \/ d < fst a /\ d < fst b) -> (Rabs (snd a) <= Rabs (snd b))%R).
Proof. exact (@drop_fill sv sc stray n r d v p t). Qed.
Print Assumptions C106_smallest.
(** and so the factors of a matrix are not those of the documentation. *)
Theorem C106_fill_refuted : exists n C p, csr_wf n n C /\ strict_rows n C /\
  forall srt sv sc stray, is_sort srt -> sort_by_size sv -> sort_by_column sc -> exists P, ilut_new srt sv sc stray C p 0 = Ok P /\ ~ first_row_largest n C P.
Proof. exact fill_refuted. Qed.
Print Assumptions C106_fill_refuted.

(** Sorting functions as assumed exist. *)
Fixpoint put_in (le : nat * R -> nat * R -> bool) (e : nat * R) (l : srow) : srow :=
  match l with [] => [e] | x :: r => if le e x then e :: l else x :: put_in le e r end.
Lemma put_in_perm le e l : Permutation (e :: l) (put_in le e l).
Proof. induction l as [|x r IH]; cbn; auto. destruct (le e x); auto. eapply perm_trans; [apply perm_swap|]. auto. Qed.
Lemma sort_ex (P : nat * R -> nat * R -> Prop) (le : nat * R -> nat * R -> bool) :
  (forall a b, le a b = true -> P a b) -> (forall a b, le a b = false -> P b a) -> (forall a b c, P a b -> P b c -> P a c) ->
  exists f : srow -> srow, forall l, Permutation l (f l) /\ StronglySorted P (f l).
Proof.
  intros H1 H2 H3. exists (fold_right (put_in le) []). induction l as [|e l (IP & IS)]; cbn [fold_right]; [split; constructor|]. split.
  - eapply perm_trans; [apply perm_skip, IP|apply put_in_perm].
  - revert IS. clear IP. generalize (fold_right (put_in le) [] l). intros m SM. induction SM as [|x r S IH F]; cbn; [repeat constructor|].
    destruct (le e x) eqn:E.
    + constructor; [constructor; auto|]. constructor; auto. eapply Forall_impl; [|exact F]. intros y Hy. eapply H3; [apply H1, E|exact Hy].
    + constructor; auto. eapply Permutation_Forall; [apply put_in_perm|]. constructor; auto.
Qed.
Example C106_sorts : (exists sv, sort_by_size sv) /\ (exists sc, sort_by_column sc).
Proof.
  split.
  - apply (@sort_ex (fun a b => (Rabs (snd b) <= Rabs (snd a))%R) (fun a b => if Rle_dec (Rabs (snd b)) (Rabs (snd a)) then true else false));
      intros a b; try (intros c; lra); destruct (Rle_dec (Rabs (snd b)) (Rabs (snd a))); intros; try discriminate; lra.
  - apply (@sort_ex (fun a b => fst a <= fst b) (fun a b => fst a <=? fst b)); intros a b; try (intros c; lia); destruct (Nat.leb_spec (fst a) (fst b)); intros; try discriminate; lia.
Qed.

(** Cases: the matrix [[1,1],[1,2]] with the default p = 1000 (here any p > 0), and
    the tridiagonal matrix where the stray reads are harmless. *)
Definition ex2_L (i k : nat) : R := match i, k with 0, 0 => 1 | 1, 0 => 1 | 1, 1 => 1 | _, _ => 0 end%R.
Definition ex2_U (i k : nat) : R := match i, k with 0, 0 => 1 | 0, 1 => 1 | 1, 1 => 1 | _, _ => 0 end%R.
Lemma ex2_strict : strict_rows 2 ex2.
Proof.
  intros i q r Hi H1 H2 H3. unfold row_lo, row_hi, col_at in *. destruct i as [|[|i]]; [| |lia]; cbn [nth c_rows c_cols ex2] in *;
    do 5 (destruct r as [|r]; [do 5 (destruct q as [|q]; [cbn; lia|]); lia|]); lia.
Qed.
Lemma ex2_factors : factors 2 ex2 ex2_L ex2_U.
Proof.
  destruct ex2_entries as (E00 & E01 & E10 & E11). split.
  - intros i k Hi Hk H. destruct i as [|[|i]], k as [|[|k]]; try lia; reflexivity.
  - intros [|[|i]] Hi; try lia; reflexivity.
  - intros k j Hk Hj H. destruct k as [|[|k]], j as [|[|j]]; try lia; reflexivity.
  - intros i j Hi Hj. destruct i as [|[|i]], j as [|[|j]]; try lia; rewrite ?E00, ?E01, ?E10, ?E11; cbn; lra.
Qed.
Example C106_case srt sv sc p : is_sort srt -> sort_by_size sv -> sort_by_column sc -> 1 <= p ->
  exists P, ilut_new srt sv sc UB ex2 p 0 = Ok P /\ mentry P 1 0 = 1%R /\ mentry P 1 1 = 1%R /\ exists z, ilut_apply P [3%R; 5%R] [0%R; 0%R] = Ok z /\ solves 2 ex2 [3%R; 5%R] z.
Proof.
  intros HS HV HC Hp. destruct (@ex2_system [3%R; 5%R] eq_refl) as (W & _).
  destruct (@C106_exact_partial srt sv sc UB ex2 2 p 0 ex2_L ex2_U HS HV HC W ex2_strict) as (P & E & M & A); auto; try lra; try lia; try apply ex2_factors.
  - intros [|[|k]] Hk; try lia; cbn; lra.
  - right. intros [|[|i]] [|k] Hi Hk; try lia; cbn; lra.
  - exists P. split; auto. rewrite !M by lia. split; [reflexivity|]. split; [reflexivity|]. destruct (A [3%R; 5%R] [0%R; 0%R] eq_refl eq_refl) as (z & Ez & _ & Sz). eauto.
Qed.
Example C106_case_tri srt sv sc v : is_sort srt -> sort_by_size sv -> sort_by_column sc ->
  exists P, ilut_new srt sv sc (Ok v) tri3 2 0 = Ok P /\ mentry P 2 1 = (-2 / 3)%R /\ mentry P 2 2 = (4 / 3)%R.
Proof.
  intros HS HV HC. destruct (@C106_exact_partial srt sv sc (Ok v) tri3 3 2 0 tri3_L tri3_U HS HV HC tri3_wf tri3_strict) as (P & E & M & _); eauto; try lra; try lia; try apply tri3_factors.
  - intros [|[|[|k]]] Hk; try lia; cbn; lra.
  - exists P. split; auto. rewrite !M by lia. split; reflexivity.
Qed.
