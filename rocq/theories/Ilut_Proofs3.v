(** * Ilut_Proofs3: the rows of the factors and the matrix they are put in *)
From Verif Require Import Base BaseR Loop Matrix_Model Matrix_Spec Matrix_Proofs Vector_Model Vector_Spec Vector_Proofs Solver_Model Solver_Spec Solver_Proofs Precond_Proofs Ilut_Model Ilut_Spec Ilut_Proofs Ilut_Proofs2.
Set Implicit Arguments. Unset Strict Implicit.
Open Scope nat_scope.

Lemma upper_app rows r k j : k < length rows -> upper (rows ++ [r]) k j = upper rows k j.
Proof. intros H. unfold upper. rewrite app_nth1 by auto. reflexivity. Qed.
Lemma stage_app n rows r a k row : k <= length rows -> stage n rows a k row -> stage n (rows ++ [r]) a k row.
Proof. intros H ST j Hj. rewrite (ST j Hj). f_equal. apply rsum_ext. intros q Hq. rewrite upper_app by lia. reflexivity. Qed.
Lemma rsum_low n k f : k <= n -> (forall q, k <= q < n -> f q = 0%R) -> rsum n f = rsum k f.
Proof. intros Hk Z. replace n with (k + (n - k)) by lia. rewrite rsum_split, (@rsum_zero (n - k)); [lra|]. intros i Hi. apply Z. lia. Qed.

Section Factor.
  Variables (sv sc : srow -> srow) (stray : res R) (C : csr) (n p : nat) (t : R).
  Hypotheses (HV : sort_by_size sv) (HC : sort_by_column sc) (W : csr_wf n n C) (SR : strict_rows n C) (Ht : (t <= 0)%R) (Hp : n <= p + 1).

  Lemma factor_inv rows : factor sv sc stray C n p t = Ok rows -> length rows = n /\ (forall k, k < n -> fine n (nth k rows [])) /\
    ((forall k, k < n -> look (nth k rows []) k <> 0%R) -> forall i, i < n -> stage n rows (mentry C i) i (nth i rows [])).
  Proof.
    intros E. refine (@for_inv_ok (list srow) (fun i (rows : list srow) => length rows = i /\ (forall k, k < i -> fine n (nth k rows [])) /\
      ((forall k, k < i -> look (nth k rows []) k <> 0%R) -> forall i', i' < i -> stage n rows (mentry C i') i' (nth i' rows []))) 0 n [] rows _ (Nat.le_0_l n) E _ _).
    { split; [reflexivity|]. split; intros; lia. }
    clear rows E. intros i rows rows' Hi (LR & FR & ST) E. unfold factor_row in E.
    destruct (@row_of_ok n C W SR i ltac:(lia)) as (r0 & E0 & F0 & L0 & _). rewrite E0 in E. cbn [bind] in E.
    destruct (for_ 0 i r0 (eliminate stray n rows t)) as [r1| |] eqn:E1; try discriminate. cbn [bind] in E.
    assert (K : fine n r1 /\ ((forall k, k < i -> look (nth k rows []) k <> 0%R) -> stage n rows (mentry C i) i r1)).
    { refine (@for_inv_ok _ (fun k row => fine n row /\ ((forall k, k < i -> look (nth k rows []) k <> 0%R) -> stage n rows (mentry C i) k row)) 0 i r0 r1 _ (Nat.le_0_l i) E1 _ _).
      - split; auto. intros _ j Hj. cbn. rewrite L0. lra.
      - intros k row row' Hk (F & S1) EK.
        assert (Ek : nth_error rows k = Some (nth k rows [])) by (apply nth_error_nth'; lia).
        destruct (@elim_step n stray t Ht rows k (nth k rows []) row row' ltac:(lia) Ek (FR k ltac:(lia)) F EK) as (F' & L'). split; auto.
        intros NZ. refine (@stage_step n rows _ k (nth k rows []) row row' ltac:(lia) Ek (NZ k ltac:(lia)) L' (S1 NZ)). }
    destruct K as (F1 & S1). rewrite (@drop_p_all sv sc stray n r1 i p t) in E by (auto; lia). cbn [bind] in E. injection E as <-.
    split; [rewrite app_length, LR; cbn; lia|]. split.
    - intros k Hk. destruct (Nat.eq_dec k i) as [->|]; [rewrite app_nth2, LR, Nat.sub_diag by lia; exact F1|rewrite app_nth1 by lia; apply FR; lia].
    - intros NZ. assert (NZ' : forall k, k < i -> look (nth k rows []) k <> 0%R) by (intros k Hk; specialize (NZ k ltac:(lia)); rewrite app_nth1 in NZ by lia; exact NZ).
      intros i' Hi'. apply stage_app; [lia|]. destruct (Nat.eq_dec i' i) as [->|].
      + rewrite app_nth2, LR, Nat.sub_diag by lia. apply S1. auto.
      + rewrite app_nth1 by lia. apply ST; auto. lia.
  Qed.

  Lemma factor_ok L U : factors n C L U -> (forall k, k < n -> U k k <> 0%R) ->
    (exists v, stray = Ok v) \/ (forall i k, i < n -> k < i -> L i k <> 0%R) ->
    exists rows, factor sv sc stray C n p t = Ok rows /\ length rows = n /\
      forall k, k < n -> fine n (nth k rows []) /\ forall j, j < n -> look (nth k rows []) j = if j <? k then L k j else U k j.
  Proof.
    intros [FL FU FP FA] NZ HS.
    refine (@for_inv (list srow) (fun i (rows : list srow) => length rows = i /\ forall k, k < i -> fine n (nth k rows []) /\ forall j, j < n -> look (nth k rows []) j = if j <? k then L k j else U k j)
      0 n [] _ (Nat.le_0_l n) _ _).
    { split; [reflexivity|]. intros; lia. }
    intros i rows Hi (LR & FR). unfold factor_row.
    destruct (@row_of_ok n C W SR i ltac:(lia)) as (r0 & E0 & F0 & L0 & _). rewrite E0. cbn [bind].
    assert (UP : forall q j, q < i -> j < n -> upper rows q j = U q j).
    { intros q j Hq Hj. unfold upper. destruct (FR q Hq) as (_ & LQ). rewrite (LQ j Hj). destruct (Nat.ltb_spec j q); auto. rewrite FP; auto; lia. }
    destruct (@for_inv _ (fun k row => fine n row /\ stage n rows (mentry C i) k row /\ forall c, c < k -> look row c = L i c) 0 i r0 (eliminate stray n rows t) (Nat.le_0_l i))
      as (r1 & E1 & F1 & S1 & L1).
    { split; auto. split; [|intros; lia]. intros j Hj. cbn. rewrite L0. lra. }
    { intros k row Hk (F & ST & LK).
      assert (Ek : nth_error rows k = Some (nth k rows [])) by (apply nth_error_nth'; lia). destruct (FR k ltac:(lia)) as (FK & LKK).
      assert (DK : look (nth k rows []) k = U k k) by (rewrite LKK, Nat.ltb_irrefl by lia; auto).
      assert (VK : look row k = (L i k * U k k)%R).
      { specialize (ST k ltac:(lia)). rewrite Nat.ltb_irrefl in ST. rewrite <- FA in ST by lia.
        rewrite (@rsum_low n (S k)) in ST by (try lia; intros q Hq; rewrite (FP q k) by lia; lra). cbn [rsum] in ST.
        rewrite (@rsum_ext k (fun q => look row q * upper rows q k)%R (fun q => L i q * U q k)%R) in ST; [lra|].
        intros q Hq. rewrite LK by lia. rewrite UP by lia. reflexivity. }
      destruct (@elim_ok n stray t Ht rows k (nth k rows []) row ltac:(lia) Ek F) as (row' & E').
      { destruct HS as [HS|HS]; [left; exact HS|right]. intros c Hc. apply look_has. rewrite LK by lia. apply HS; lia. }
      { intros _. apply look_has. rewrite DK. apply NZ. lia. }
      exists row'. split; auto. destruct (@elim_step n stray t Ht rows k (nth k rows []) row row' ltac:(lia) Ek FK F E') as (F' & L'). split; auto. split.
      - refine (@stage_step n rows _ k (nth k rows []) row row' ltac:(lia) Ek _ L' ST). rewrite DK. apply NZ. lia.
      - intros c Hc. rewrite L'. destruct (Nat.ltb_spec c k); [apply LK; auto|]. replace c with k by lia. rewrite Nat.eqb_refl, VK, DK. field. apply NZ. lia. }
    rewrite E1. cbn [bind]. rewrite (@drop_p_all sv sc stray n r1 i p t) by (auto; lia). cbn [bind]. eexists. split; [reflexivity|].
    split; [rewrite app_length, LR; cbn; lia|]. intros k Hk. destruct (Nat.eq_dec k i) as [->|].
    - rewrite app_nth2, LR, Nat.sub_diag by lia. cbn [nth]. split; auto. intros j Hj. destruct (Nat.ltb_spec j i) as [Lt|Ge]; [apply L1; auto|].
      specialize (S1 j Hj). destruct (Nat.ltb_spec j i); [lia|]. rewrite <- FA in S1 by lia.
      rewrite (@rsum_low n (S i)) in S1 by (try lia; intros q Hq; rewrite (FL i q) by lia; lra). cbn [rsum] in S1. rewrite FU in S1 by lia.
      rewrite (@rsum_ext i (fun q => look r1 q * upper rows q j)%R (fun q => L i q * U q j)%R) in S1; [lra|].
      intros q Hq. rewrite L1 by lia. rewrite UP by lia. reflexivity.
    - rewrite app_nth1 by lia. apply FR. lia.
  Qed.
End Factor.

(** A row that begins between the first column and the diagonal. *)
Lemma for_prefix S m n (s s' : S) body : m <= n -> for_ 0 n s body = Ok s' -> exists s1, for_ 0 m s body = Ok s1.
Proof.
  revert s'. induction n as [|n IH]; intros s' Hm E; [replace m with 0 by lia; eauto|].
  destruct (Nat.eq_dec m (Datatypes.S n)) as [->|]; [eauto|]. rewrite for_S in E by lia.
  destruct (for_ 0 n s body) as [s2| |] eqn:E2; try discriminate. apply (IH s2); auto. lia.
Qed.
Lemma gap_row n rows t r0 m r : fine n r0 -> ~ has r0 0 -> for_ 0 m r0 (eliminate UB n rows t) = Ok r -> r = r0 /\ forall c, c < m -> ~ has r0 c.
Proof.
  intros F N0. revert r. induction m as [|m IH]; intros r E; [cbn in E; injection E as <-; split; auto; intros; lia|].
  rewrite for_S in E by lia. destruct (for_ 0 m r0 (eliminate UB n rows t)) as [r1| |]; try discriminate. cbn [bind] in E.
  destruct (IH r1 eq_refl) as (-> & NC). unfold eliminate in E. destruct (find m r0) as [q|] eqn:Eq.
  - exfalso. destruct (find_some Eq) as (Eq' & LQ).
    assert (q = 0).
    { destruct q as [|q]; auto. exfalso. destruct (nth_error r0 0) as [(c, v)|] eqn:E0; [|apply nth_error_None in E0; lia].
      pose proof (Sorted_nth (proj1 F) (Nat.lt_0_succ q) E0 Eq') as B. unfold before in B. cbn in B. apply (NC c B). exists v. apply (nth_error_In _ _ E0). }
    subst q. destruct (rd rows m); try discriminate. cbn [bind] in E. destruct (sr_at UB a m); try discriminate. cbn [bind] in E. unfold rd at 1 in E. rewrite Eq' in E. cbn [bind fst snd] in E.
    destruct (@upd_fine n r0 m 0 (look r0 m / a0)%R F Eq) as (_ & _ & _ & H1).
    unfold drop_t in E. unfold sr_at in E. destruct (find 0 (upd r0 0 (m, (look r0 m / a0)%R))) as [q|] eqn:E0; [|discriminate].
    apply N0, H1, find_has. eauto.
  - injection E as <-. split; auto. intros c Hc. destruct (Nat.eq_dec c m) as [->|]; [apply (find_none Eq)|apply NC; lia].
Qed.
Lemma factor_gap sv sc C n p t rows i k : csr_wf n n C -> strict_rows n C -> i < n -> 0 < k < i -> stored_at C i k -> ~ stored_at C i 0 ->
  factor sv sc UB C n p t <> Ok rows.
Proof.
  intros W SR Hi Hk S1 S0 E. unfold factor in E. destruct (@for_prefix _ (S i) n _ _ _ Hi E) as (s1 & E1). rewrite for_S in E1 by lia.
  destruct (for_ 0 i [] (factor_row sv sc UB C n p t)) as [rs| |]; try discriminate. cbn [bind] in E1. unfold factor_row in E1.
  destruct (@row_of_ok n C W SR i Hi) as (r0 & E0 & F0 & _ & H0). rewrite E0 in E1. cbn [bind] in E1.
  destruct (for_ 0 i r0 (eliminate UB n rs t)) as [r1| |] eqn:E2; try discriminate.
  destruct (@gap_row n rs t r0 i r1 F0 ltac:(rewrite H0; exact S0) E2) as (_ & NC). apply (NC k ltac:(lia)). apply H0. exact S1.
Qed.

(** The matrix of the rows. *)
Definition trip (i : nat) (e : nat * R) : triplet := T (Z.of_nat i) (Z.of_nat (fst e)) (snd e).
Lemma good_trip i n l : Forall (fun e => fst e < n) l -> Forall (good i n) (map (trip i) l).
Proof. intros F. rewrite Forall_forall in *. intros x Hx. apply in_map_iff in Hx. destruct Hx as (e & <- & He). apply F in He. split; cbn; auto. lia. Qed.
Lemma insert_row_ok n i r : forall A rw ents, nth_error A i = Some rw -> RI i n rw ents -> Forall (fun e => fst e < n) r ->
  length ents + length r <= length (fst rw) ->
  exists rw', insert_row i r A = Ok (upd A i rw') /\ RI i n rw' (ents ++ map (trip i) r) /\ length (fst rw') = length (fst rw).
Proof.
  induction r as [|e r IH]; intros A rw ents EA H F LE.
  - exists rw. cbn. rewrite upd_same by auto. rewrite app_nil_r. auto.
  - inversion F as [|? ? F1 F2]; subst. cbn [length] in LE. unfold insert_row. cbn [foldM]. unfold insert at 1. unfold rd at 1. rewrite EA. cbn [bind row_insert].
    destruct (@row_append_spec i n (Z.of_nat (fst e)) (snd e) rw ents H ltac:(lia)) as [(_ & L)|(rw1 & E1 & R1 & L1)]; [lia|]. rewrite E1. cbn [bind snd].
    assert (LA : i < length A) by (apply nth_error_Some; congruence).
    destruct (IH (upd A i rw1) rw1 _ ltac:(apply nth_error_upd_eq; exact LA) R1 F2) as (rw' & E2 & R2 & L2).
    { rewrite app_length. cbn. lia. }
    unfold insert_row in E2. rewrite E2. exists rw'. split; [|split; [|congruence]].
    + f_equal. clear. revert i. induction A as [|a A IH]; intros [|i]; cbn; auto. f_equal. auto.
    + cbn [map]. rewrite <- app_assoc in R2. exact R2.
Qed.

Section Matrix.
  Variables (srt : list triplet -> list triplet) (n p : nat) (rows : list srow).
  Hypotheses (HS : is_sort srt) (LR : length rows = n) (FR : forall k, k < n -> fine n (nth k rows [])) (CP : forall k, k < n -> length (nth k rows []) <= 2 * p + 1).
  Definition put (i : nat) (A : coo) : res coo := do r <- rd rows i; insert_row i r A.
  Lemma put_all : exists A, for_ 0 n (preallocate (repeat (2 * p + 1) n)) put = Ok A /\ length A = n /\ MI n A (fun i => map (trip i) (nth i rows [])).
  Proof.
    destruct (@for_inv _ (fun m A => length A = n /\ forall i rw, nth_error A i = Some rw -> length (fst rw) = 2 * p + 1 /\
      RI i n rw (if i <? m then map (trip i) (nth i rows []) else [])) 0 n (preallocate (repeat (2 * p + 1) n)) put (Nat.le_0_l n)) as (A & E & LA & H).
    - unfold preallocate. rewrite map_length, repeat_length. split; auto. intros i rw E. rewrite nth_error_map in E.
      destruct (nth_error (repeat (2 * p + 1) n) i) as [c|] eqn:Ec; [|discriminate]. cbn in E. injection E as <-.
      apply nth_error_In, repeat_spec in Ec. subst c. cbn [fst]. rewrite repeat_length. split; auto. exists (2 * p + 1). cbn. auto.
    - intros i A Hi (LA & H). unfold put. assert (Er : nth_error rows i = Some (nth i rows [])) by (apply nth_error_nth'; lia). unfold rd. rewrite Er. cbn [bind].
      assert (Ea : nth_error A i = Some (nth i A ([], 0))) by (apply nth_error_nth'; lia).
      destruct (H i _ Ea) as (LW & RW). rewrite Nat.ltb_irrefl in RW.
      destruct (@insert_row_ok n i (nth i rows []) A _ [] Ea RW (proj2 (@FR i ltac:(lia)))) as (rw' & E & R' & L'). { cbn [length Nat.add]. rewrite LW. apply CP. lia. }
      exists (upd A i rw'). split; auto. rewrite upd_length. split; auto. intros j rw Ej. destruct (Nat.eq_dec j i) as [->|Ne].
      + rewrite nth_error_upd_eq in Ej by lia. injection Ej as <-. rewrite (proj2 (Nat.ltb_lt i (S i))) by lia. split; [congruence|exact R'].
      + rewrite nth_error_upd_neq in Ej by auto. destruct (H j rw Ej) as (H1 & H2). split; auto.
        destruct (Nat.ltb_spec j i), (Nat.ltb_spec j (S i)); try lia; exact H2.
    - exists A. split; auto. split; auto. intros i rw Ei. destruct (H i rw Ei) as (_ & R).
      assert (i < n) by (rewrite <- LA; apply nth_error_Some; intros Z; pose proof (eq_trans (eq_sym Ei) Z); discriminate). destruct (Nat.ltb_spec i n); [exact R|lia].
  Qed.

  (** The matrix has the values of the rows if none is empty. *)
  Hypothesis NE : forall k, k < n -> nth k rows [] <> [].
  Lemma rows_matrix : exists P, (do A <- for_ 0 n (preallocate (repeat (2 * p + 1) n)) put; assemble srt n A) = Ok P /\
    csr_wf n n P /\ one_diag n P /\ forall i j, i < n -> j < n -> mentry P i j = look (nth i rows []) j.
  Proof.
    destruct put_all as (A & E & LA & HM). rewrite E. cbn [bind]. unfold assemble.
    destruct (@assemble_rows_spec srt n A HS 0 (fun i => map (trip i) (nth i rows []))) as (ls & Els & LL & HF).
    { intros k rw Ek. apply HM. auto. }
    { intros k Hk. cbn. pose proof (@NE k ltac:(lia)). destruct (nth k rows []); [tauto|discriminate]. }
    rewrite Els. cbn [bind]. exists (csr_of ls). split; [reflexivity|]. cbn [Nat.add] in HF.
    assert (LN : length ls = n) by lia.
    assert (W : csr_wf n n (csr_of ls)) by (rewrite <- LN at 1; apply (@csr_of_wf n ls _ HF)).
    assert (NR : forall i, i < n -> NoDup (map tj (map (trip i) (nth i rows [])))).
    { intros i Hi. rewrite map_map. cbn [trip tj]. rewrite <- (map_map fst Z.of_nat). apply FinFun.Injective_map_NoDup; [intros a b; lia|]. apply (fine_nodup (FR Hi)). }
    split; [exact W|]. split.
    - intros i q Hi Hq Ec.
      destruct (nth_error_ex (l := ls) (i := i)) as (l & Hl); [lia|].
      assert (HR : forall i, i <= length ls -> nth i (c_rows (csr_of ls)) 0 = offs ls i) by (intros k Hk; rewrite csr_rows, nth_map_seq; auto; lia).
      unfold row_lo, row_hi in Hq. rewrite !HR in Hq by lia. rewrite (offs_S Hl) in Hq.
      destruct (nth_error_ex (l := l) (i := q - offs ls i)) as (u & Hu); [lia|].
      unfold col_at in Ec. rewrite csr_cols in Ec. replace q with (offs ls i + (q - offs ls i)) in Ec by lia.
      erewrite nth_error_nth in Ec by (rewrite nth_error_map, (concat_nth Hl Hu); reflexivity).
      rewrite csr_diag, (fill_diag 0 0 Hl). cbn [Nat.add]. f_equal.
      destruct (@diag_pos_spec i l (offs ls i) None) as (q' & v & H1 & H2 & H3 & H4 & H5). { exists u. split; auto. eapply nth_error_In; eauto. }
      rewrite H1. f_equal. pose proof (H5 _ _ Hu Ec) as LE.
      assert (ND : NoDup (map tj l)).
      { destruct (HF i l Hl) as (_ & _ & _ & [PP|(PP & NI)] & _); eapply Permutation_NoDup; try apply (Permutation_map tj PP); auto.
        cbn [map tj]. constructor; auto. intros I. apply in_map_iff in I. destruct I as (w & Ew & Iw). apply (NI w Iw Ew). }
      assert (q - offs ls i = q').
      { apply (proj1 (NoDup_nth_error _) ND); [rewrite map_length; apply nth_error_Some; congruence|]. rewrite !nth_error_map, Hu, H3. cbn. congruence. }
      lia.
    - intros i j Hi Hj. destruct (nth_error_ex (l := ls) (i := i)) as (l & Hl); [lia|].
      set (x := vec n (fun c => if c =? j then 1%R else 0%R)).
      assert (LX : length x = n) by (unfold x, vec; rewrite map_length, seq_length; auto).
      assert (M1 := multiply_wf W LX). rewrite (@multiply_spec ls n x) in M1; auto. 2:{ intros k l' El. apply (HF k l' El). }
      injection M1 as M1. assert (M2 := f_equal (fun l => nth i l 0%R) M1). cbv beta in M2. rewrite nth_map_seq in M2 by lia. unfold vec in M2. rewrite nth_map_seq in M2 by lia.
      rewrite (nth_error_nth ls i [] Hl) in M2.
      assert (AX : ax n (csr_of ls) x i = mentry (csr_of ls) i j).
      { unfold ax. rewrite (@rsum_ext n _ (fun c => if c =? j then mentry (csr_of ls) i j else 0)%R).
        - apply rsum_delta. auto.
        - intros c Hc. unfold x, cmp, vec. rewrite nth_map_seq by auto. destruct (Nat.eqb_spec c j) as [->|]; lra. }
      rewrite <- AX, <- M2. rewrite (row_fine_sum (at_col x) (HF i l Hl)). unfold rowsum. rewrite map_map.
      rewrite (look_sum j (FR Hi)). f_equal. apply map_ext_in. intros e He. cbn [trip tv tj]. unfold at_col. rewrite Nat2Z.id.
      assert (fst e < n). { destruct (FR Hi) as (_ & FF). rewrite Forall_forall in FF. apply FF. auto. }
      unfold x, vec. rewrite nth_map_seq by auto. destruct (fst e =? j); lra.
  Qed.
End Matrix.
Lemma rows_nonempty srt n p rows P : is_sort srt -> length rows = n -> (forall k, k < n -> fine n (nth k rows [])) -> (forall k, k < n -> length (nth k rows []) <= 2 * p + 1) ->
  (do A <- for_ 0 n (preallocate (repeat (2 * p + 1) n)) (put rows); assemble srt n A) = Ok P -> forall k, k < n -> nth k rows [] <> [].
Proof.
  intros HS LR FR CP E k Hk Z. destruct (put_all LR FR CP) as (A & EA & LA & HM). rewrite EA in E. cbn [bind] in E. unfold assemble in E.
  rewrite (@assemble_rows_ub srt n A HS 0 (fun i => map (trip i) (nth i rows []))) in E; [discriminate| |].
  - intros i rw Ei. apply HM. auto.
  - exists k. split; [lia|]. cbn [Nat.add]. rewrite Z. reflexivity.
Qed.

