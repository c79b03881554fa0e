(** * Ilut_Proofs2: the elimination of all rows *)
From Verif Require Import Base BaseR Loop Matrix_Model Matrix_Spec Matrix_Proofs Vector_Model Vector_Spec Solver_Model Solver_Spec Solver_Proofs Ilut_Model Ilut_Spec Ilut_Proofs.
Set Implicit Arguments. Unset Strict Implicit.
Open Scope nat_scope.

Lemma for_inv_ok S (P : nat -> S -> Prop) lo hi s s' body : lo <= hi -> for_ lo hi s body = Ok s' -> P lo s ->
  (forall i s s', lo <= i < hi -> P i s -> body i s = Ok s' -> P (Datatypes.S i) s') -> P hi s'.
Proof.
  intros Hle. unfold for_. remember (hi - lo) as n eqn:En. revert lo s Hle En. induction n as [|n IH]; intros lo s Hle En E HP HB.
  - cbn in E. injection E as <-. replace hi with lo by lia. auto.
  - cbn in E. destruct (body lo s) as [s1| |] eqn:E1; try discriminate. cbn in E.
    apply (IH (Datatypes.S lo) s1); auto; try lia. { apply (HB lo s s1); auto. lia. } intros i a b Hi. apply HB. lia.
Qed.

Lemma sorted_map_seq A (R : A -> A -> Prop) (f : nat -> A) a len : (forall p q, a <= p -> p < q -> q < a + len -> R (f p) (f q)) -> StronglySorted R (map f (seq a len)).
Proof.
  revert a. induction len as [|len IH]; intros a H; cbn; constructor.
  - apply IH. intros p q Hp Hq Hl. apply H; lia.
  - rewrite Forall_forall. intros x Hx. apply in_map_iff in Hx. destruct Hx as (q & <- & Hq). apply in_seq in Hq. apply H; lia.
Qed.
Lemma seq_offset a m : map (fun k => a + k) (seq 0 m) = seq a m.
Proof.
  revert a. induction m as [|m IH]; intros a; cbn; auto. f_equal; [lia|]. rewrite <- (IH (S a)).
  rewrite <- seq_shift, map_map. apply map_ext. intros k. lia.
Qed.
Lemma look_sum n l j : fine n l -> look l j = sumR (map (fun e => if fst e =? j then snd e else 0%R) l).
Proof.
  induction l as [|x r IH]; intros F; cbn [look map]; [reflexivity|]. rewrite sumR_cons. destruct (sorted_cons F) as (FR & _). rewrite <- IH by auto.
  destruct (Nat.eqb_spec (fst x) j) as [<-|]; [|lra]. rewrite (look_lt F) by lia. lra.
Qed.
Lemma look_in n l e : fine n l -> In e l -> look l (fst e) = snd e.
Proof.
  induction l as [|x r IH]; intros F I; [destruct I|]. destruct (sorted_cons F) as (FR & _ & B). cbn. destruct I as [->|I]; [rewrite Nat.eqb_refl; auto|].
  rewrite Forall_forall in B. specialize (B e I). unfold before in B. destruct (Nat.eqb_spec (fst x) (fst e)); [lia|auto].
Qed.

Section Rows.
  Variables (n : nat) (C : csr).
  Hypotheses (W : csr_wf n n C) (SR : strict_rows n C).
  Lemma row_of_ok i : i < n -> exists r, row_of C i = Ok r /\ fine n r /\ (forall j, look r j = mentry C i j) /\ forall j, has r j <-> stored_at C i j.
  Proof.
    intros Hi. set (f := fun k => (Z.to_nat (col_at C k), val_at C k)).
    assert (LO : row_lo C i <= row_hi C i) by (pose proof (wf_row W Hi); lia).
    assert (CK : forall k, row_lo C i <= k < row_hi C i -> (0 <= col_at C k < Z.of_nat n)%Z) by (intros k Hk; apply (wf_col W Hi Hk)).
    exists (map f (seq (row_lo C i) (row_hi C i - row_lo C i))).
    assert (FR : fine n (map f (seq (row_lo C i) (row_hi C i - row_lo C i)))).
    { split.
      - apply sorted_map_seq. intros p q Hp Hq Hl. unfold before, f. cbn. pose proof (SR Hi Hp Hq ltac:(lia)). pose proof (CK p ltac:(lia)). pose proof (CK q ltac:(lia)). lia.
      - rewrite Forall_forall. intros e He. apply in_map_iff in He. destruct He as (k & <- & Hk). apply in_seq in Hk. cbn. pose proof (CK k ltac:(lia)). lia. }
    split; [|split; [exact FR|split]].
    - unfold row_of. rewrite (wf_rd_rows W) by lia. rewrite (wf_rd_rows W) by lia. cbn [bind]. fold (row_lo C i) (row_hi C i).
      apply mapM_ok. intros k Hk. apply in_seq in Hk. rewrite (wf_rd_val W Hi) by lia. rewrite (wf_rd_col W Hi) by lia. reflexivity.
    - intros j. rewrite (look_sum j FR). unfold mentry. rewrite rsum_sumR, map_map. f_equal.
      rewrite <- (map_map (fun k => row_lo C i + k) (fun k => if (col_at C k =? Z.of_nat j)%Z then val_at C k else 0%R)).
      assert (ES : map (fun k => row_lo C i + k) (seq 0 (row_hi C i - row_lo C i)) = seq (row_lo C i) (row_hi C i - row_lo C i)).
      { apply seq_offset. }
      rewrite ES. apply map_ext_in. intros k Hk. apply in_seq in Hk. pose proof (CK k ltac:(lia)). cbn [fst snd f].
      destruct (Nat.eqb_spec (Z.to_nat (col_at C k)) j), (Z.eqb_spec (col_at C k) (Z.of_nat j)); try lia; auto.
    - intros j. split.
      + intros (v & Hv). apply in_map_iff in Hv. destruct Hv as (k & E & Hk). apply in_seq in Hk. unfold f in E. injection E as E _.
        exists k. split; [lia|]. pose proof (CK k ltac:(lia)). lia.
      + intros (k & Hk & E). exists (val_at C k). apply in_map_iff. exists k. unfold f. rewrite E, Nat2Z.id. split; auto. apply in_seq. lia.
  Qed.
End Rows.

Section Elim.
  Variables (n : nat) (stray : res R) (t : R).
  Hypothesis Ht : (t <= 0)%R.
  Notation elim := (eliminate stray n).

  Lemma sorted_firstn l p : StronglySorted before l -> StronglySorted before (firstn p l).
  Proof.
    intros HS. revert p. induction HS as [|x r HS IH F]; intros [|p]; cbn; constructor; auto.
    rewrite <- (firstn_skipn p r) in F. apply Forall_app in F. tauto.
  Qed.
  Lemma pos_le l p j v : fine n l -> nth_error l p = Some (j, v) -> p <= j.
  Proof.
    intros (HS & _) E. assert (LP : p < length l) by (apply nth_error_Some; congruence).
    rewrite <- (firstn_length_le l (Nat.lt_le_incl _ _ LP)). apply fine_length. split; [apply sorted_firstn; auto|].
    rewrite Forall_forall. intros e He. apply In_nth_error in He. destruct He as (q & Eq).
    assert (Q : q < p). { assert (q < length (firstn p l)) by (apply nth_error_Some; congruence). rewrite firstn_length in *. lia. }
    assert (Eq' : nth_error l q = Some e). { rewrite <- (firstn_skipn p l), nth_error_app1; auto. rewrite firstn_length. lia. }
    apply (Sorted_nth HS Q Eq' E).
  Qed.
  Lemma elim_step rows k u row row' : k < n -> nth_error rows k = Some u -> fine n u -> fine n row -> elim rows t k row = Ok row' ->
    fine n row' /\ (forall c, look row' c = if c <? k then look row c else if c =? k then (look row k / look u k)%R else (look row c - look row k / look u k * look u c)%R).
  Proof.
    intros Hk Eu FU F. unfold eliminate. destruct (find k row) as [p|] eqn:E.
    - destruct (find_some E) as (Ep & Lp). unfold rd at 1. rewrite Eu. cbn [bind]. unfold sr_at at 1.
      destruct (find k u) as [pu|] eqn:EU; [|discriminate]. destruct (find_some EU) as (Epu & _).
      unfold rd at 1. rewrite Epu. cbn [bind snd]. unfold rd at 1. rewrite Ep. cbn [bind fst snd].
      set (row1 := upd row p (k, (look row k / look u k)%R)).
      destruct (@upd_fine n row k p (look row k / look u k)%R F E) as (F1 & L1 & E1 & _). fold row1 in F1, L1, E1.
      rewrite drop_t_none by exact Ht. destruct (sr_at stray row1 p); [|discriminate..]. cbn [bind fst snd].
      destruct (find_some E1) as (Ep1 & _). unfold rd. rewrite Ep1. cbn [bind snd]. intros H. injection H as <-.
      assert (LK : look row1 k = (look row k / look u k)%R) by (rewrite L1, Nat.eqb_refl; auto). rewrite LK.
      destruct (@add_range_ok n k u (- (look row k / look u k))%R row1 FU F1 Hk) as (A1 & A2). split; auto.
      intros c. rewrite A2, L1. destruct (Nat.ltb_spec c k), (Nat.ltb_spec k c), (Nat.eqb_spec c k); try lia; lra.
    - intros H. injection H as <-. destruct (find_none E) as (Z & _). split; auto. intros c. rewrite Z. unfold Rdiv. rewrite Rmult_0_l.
      destruct (c <? k); auto. destruct (Nat.eqb_spec c k) as [->|]; lra.
  Qed.
  Lemma elim_ok rows k u row : k < n -> nth_error rows k = Some u -> fine n row ->
    (exists v, stray = Ok v) \/ (forall c, c < k -> has row c) -> (has row k -> has u k) -> exists row', elim rows t k row = Ok row'.
  Proof.
    intros Hk Eu F HS HU. unfold eliminate. destruct (find k row) as [p|] eqn:E; [|eauto].
    destruct (find_some E) as (Ep & Lp). unfold rd at 1. rewrite Eu. cbn [bind].
    destruct (proj1 (find_has k u)) as (pu & EU). { apply HU. apply find_has. eauto. }
    unfold sr_at at 1. rewrite EU. destruct (find_some EU) as (Epu & _). unfold rd at 1. rewrite Epu. cbn [bind snd]. unfold rd at 1. rewrite Ep. cbn [bind fst snd].
    destruct (@upd_fine n row k p (look row k / look u k)%R F E) as (F1 & L1 & E1 & H1).
    rewrite drop_t_none by exact Ht. set (row1 := upd row p (k, (look row k / look u k)%R)) in *.
    assert (SA : exists v, sr_at stray row1 p = Ok v).
    { unfold sr_at. destruct (find p row1) as [q|] eqn:Eq.
      - destruct (find_some Eq) as (Eq' & _). unfold rd. rewrite Eq'. cbn. eauto.
      - destruct HS as [HS|HS]; [exact HS|]. exfalso. apply (find_none Eq). apply H1. pose proof (pos_le F Ep) as LE.
        destruct (Nat.eq_dec p k) as [->|]; [apply find_has; eauto|apply HS; lia]. }
    destruct SA as (v & ->). cbn [bind fst snd]. destruct (find_some E1) as (Ep1 & _). unfold rd. rewrite Ep1. cbn [bind]. eauto.
  Qed.

  (** The value left after k steps. *)
  Definition upper (rows : list srow) (k j : nat) : R := if j <? k then 0%R else look (nth k rows []) j.
  Definition stage (rows : list srow) (a : nat -> R) (k : nat) (row : srow) : Prop :=
    forall j, j < n -> a j = (rsum k (fun q => look row q * upper rows q j) + if j <? k then 0 else look row j)%R.
  Lemma stage_step rows a k u row row' : k < n -> nth_error rows k = Some u -> look u k <> 0%R ->
    (forall c, look row' c = if c <? k then look row c else if c =? k then (look row k / look u k)%R else (look row c - look row k / look u k * look u c)%R) ->
    stage rows a k row -> stage rows a (S k) row'.
  Proof.
    intros Hk Eu NZ L ST j Hj. rewrite (ST j Hj). cbn [rsum].
    rewrite (@rsum_ext k (fun q => look row' q * upper rows q j)%R (fun q => look row q * upper rows q j)%R).
    2:{ intros q Hq. rewrite L. destruct (Nat.ltb_spec q k); [auto|lia]. }
    rewrite !L, Nat.ltb_irrefl, Nat.eqb_refl. replace (upper rows k j) with (if j <? k then 0%R else look u j) by (unfold upper; rewrite (nth_error_nth rows k [] Eu); reflexivity).
    destruct (Nat.ltb_spec j k), (Nat.ltb_spec j (S k)), (Nat.eqb_spec j k); try lia; try lra.
    subst j. field. auto.
  Qed.
End Elim.
