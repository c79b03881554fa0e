(** * Ilut_Proofs5: the threshold, and what the limit keeps *)
From Verif Require Import Base BaseR Loop Matrix_Model Matrix_Spec Matrix_Proofs Solver_Model Solver_Spec Solver_Proofs Ilut_Model Ilut_Spec Ilut_Proofs Ilut_Proofs2 Ilut_Proofs3 Ilut_Proofs4.
Set Implicit Arguments. Unset Strict Implicit.
Open Scope nat_scope.

Lemma fine_split n d v r : fine n r -> In (d, v) r -> exists lo hi, r = lo ++ (d, v) :: hi /\ Forall (fun e => fst e < d) lo /\ Forall (fun e => d < fst e < n) hi.
Proof.
  induction r as [|e r IH]; intros F I; [destruct I|]. destruct (sorted_cons F) as (F' & L & B). destruct I as [->|I].
  - exists [], r. split; [reflexivity|]. split; [constructor|]. apply Forall_forall. intros x Hx. rewrite Forall_forall in B. pose proof (B x Hx) as Q. unfold before in Q. cbn in Q.
    destruct F' as (_ & F'). rewrite Forall_forall in F'. pose proof (F' x Hx). cbv beta in *. lia.
  - destruct (IH F' I) as (lo & hi & -> & HL & HH). exists (e :: lo), hi. split; [reflexivity|]. split; auto. constructor; auto.
    rewrite Forall_forall in B. pose proof (B _ I) as Q. unfold before in Q. cbn in Q. exact Q.
Qed.
Lemma nodup_col n r a b : fine n r -> In a r -> In b r -> fst a = fst b -> a = b.
Proof. intros F Ha Hb E. pose proof (look_in F Ha) as E1. pose proof (look_in F Hb) as E2. rewrite E in E1. destruct a as [a1 a2], b as [b1 b2]. cbn in *. subst. congruence. Qed.
Lemma nodup_l A (a b : list A) : NoDup (a ++ b) -> NoDup a.
Proof. induction a; cbn; intros H; [constructor|]. inversion H; subst. constructor; auto. intros Q. apply H2. apply in_or_app. auto. Qed.
Lemma nodup_r A (a b : list A) : NoDup (a ++ b) -> NoDup b.
Proof. induction a; cbn; intros H; auto. inversion H; auto. Qed.
Lemma in_skipn A m (l : list A) x : In x (skipn m l) -> In x l.
Proof. intros H. rewrite <- (firstn_skipn m l). apply in_or_app. auto. Qed.
(** What is left of a row by a limit p without threshold. *)
Lemma drop_fill sv sc stray n r d v p t : sort_by_size sv -> sort_by_column sc -> fine n r -> In (d, v) r -> (t <= 0)%R ->
  exists q, drop_p sv sc stray n r d p t = Ok q /\ fine n q /\ In (d, v) q /\ (forall e, In e q -> In e r) /\
    length (filter (fun e => fst e <? d) q) = Nat.min p (length (filter (fun e => fst e <? d) r)) /\
    length (filter (fun e => d <? fst e) q) = Nat.min p (length (filter (fun e => d <? fst e) r)) /\
    (forall a b, In a q -> In b r -> ~ In b q -> (fst a < d /\ fst b < d \/ d < fst a /\ d < fst b) -> (Rabs (snd a) <= Rabs (snd b))%R).
Proof.
  intros HV HC F I Ht. assert (Hd : d < n) by (destruct F as (_ & F); rewrite Forall_forall in F; apply (F _ I)).
  destruct (fine_split F I) as (lo & hi & -> & HL & HH).
  rewrite drop_p_smallest; auto.
  assert (PV : forall l, Permutation l (sv l)) by (intros l; apply HV).
  set (lo' := skipn (length lo - p) (sv lo)). set (hi' := skipn (length hi - p) (sv hi)). set (w := lo' ++ (d, v) :: hi').
  destruct (HC w) as (PC & SC).
  assert (IL : forall e, In e lo' -> In e lo) by (intros e He; eapply Permutation_in; [symmetry; apply PV|]; eapply in_skipn; eauto).
  assert (IH : forall e, In e hi' -> In e hi) by (intros e He; eapply Permutation_in; [symmetry; apply PV|]; eapply in_skipn; eauto).
  assert (IW : forall e, In e w -> In e (lo ++ (d, v) :: hi)).
  { intros e He. apply in_app_or in He. apply in_or_app. destruct He as [He|[He|He]]; [left; auto|right; left; auto|right; right; auto]. }
  rewrite Forall_forall in HL, HH.
  assert (NL : NoDup (map fst w)).
  { pose proof (fine_nodup F) as ND. rewrite map_app in ND. cbn [map fst] in ND. 
    assert (N1 : NoDup (map fst lo)) by (eapply nodup_l; eauto). assert (N2 : NoDup (map fst hi)) by (apply nodup_r in ND; inversion ND; auto).
    assert (SK : forall m (l : srow), NoDup (map fst l) -> NoDup (map fst (skipn m l))).
    { intros m l Q. rewrite <- (firstn_skipn m l), map_app in Q. eapply nodup_r; eauto. }
    assert (N1' : NoDup (map fst lo')) by (apply SK; eapply Permutation_NoDup; [apply Permutation_map, PV|auto]).
    assert (N2' : NoDup (map fst hi')) by (apply SK; eapply Permutation_NoDup; [apply Permutation_map, PV|auto]).
    unfold w. rewrite map_app. cbn [map fst].
    assert (G : forall (A B : list nat), NoDup A -> NoDup B -> (forall x, In x A -> x < d) -> (forall x, In x B -> d < x) -> NoDup (A ++ d :: B)).
    { induction A as [|a A IHA]; intros B NA NB HA HB; cbn.
      - constructor; auto. intros Q. apply HB in Q. lia.
      - inversion NA; subst. constructor; [|apply IHA; auto; intros; apply HA; right; auto]. intros Q. pose proof (HA a ltac:(left; auto)). apply in_app_or in Q. destruct Q as [Q|[Q|Q]]; [auto|lia|apply HB in Q; lia]. }
    apply G; auto; intros x Hx; apply in_map_iff in Hx; destruct Hx as (e & <- & He); [apply (HL e)|apply (HH e)]; auto. }
  assert (Fq : fine n (sc w)).
  { split; [apply weak_strict; auto; eapply Permutation_NoDup; [apply Permutation_map, PC|auto]|]. apply Forall_forall. intros e He. destruct F as (_ & F). rewrite Forall_forall in F. apply F, IW. eapply Permutation_in; [symmetry; exact PC|auto]. }
  assert (FP : forall f (a b : srow), Permutation a b -> length (filter f a) = length (filter f b)).
  { intros f a b Q. induction Q; cbn; auto; repeat (match goal with |- context [if ?c then _ else _] => destruct c end; cbn); lia. }
  assert (F1 : forall (l : srow), (forall e, In e l -> fst e < d) -> filter (fun e => fst e <? d) l = l /\ filter (fun e => d <? fst e) l = []).
  { intros l Hl. split; [apply filter_all|apply filter_nothing]; apply Forall_forall; intros e He; pose proof (Hl e He); [apply Nat.ltb_lt|apply Nat.ltb_ge]; lia. }
  assert (F2 : forall (l : srow), (forall e, In e l -> d < fst e) -> filter (fun e => fst e <? d) l = [] /\ filter (fun e => d <? fst e) l = l).
  { intros l Hl. split; [apply filter_nothing|apply filter_all]; apply Forall_forall; intros e He; pose proof (Hl e He); [apply Nat.ltb_ge|apply Nat.ltb_lt]; lia. }
  assert (HH' : forall e, In e hi -> d < fst e) by (intros e He; apply HH; auto).
  destruct (F1 lo HL) as (A1 & A2), (F2 hi HH') as (B1 & B2), (F1 lo' ltac:(auto)) as (A3 & A4), (F2 hi' ltac:(auto)) as (B3 & B4).
  exists (sc w). split; [reflexivity|]. split; [exact Fq|].
  split. { eapply Permutation_in; [exact PC|]. apply in_or_app. right; left; auto. }
  split. { intros e He. apply IW. eapply Permutation_in; [symmetry; exact PC|auto]. }
  split. { rewrite <- (FP _ _ _ PC). unfold w. rewrite !filter_app. cbn [filter fst]. rewrite Nat.ltb_irrefl, A1, A3, B1, B3, !app_nil_r. unfold lo'. rewrite skipn_length, <- (Permutation_length (PV lo)). lia. }
  split. { rewrite <- (FP _ _ _ PC). unfold w. rewrite !filter_app. cbn [filter fst]. rewrite Nat.ltb_irrefl, A2, A4, B2, B4. cbn [app]. unfold hi'. rewrite skipn_length, <- (Permutation_length (PV hi)). lia. }
  intros a b Ha Hb Hn Hside. assert (Ha' : In a w) by (eapply Permutation_in; [symmetry; exact PC|auto]). assert (Hn' : ~ In b w) by (intros Q; apply Hn; eapply Permutation_in; eauto).
  apply in_app_or in Ha', Hb. unfold w in Hn'. rewrite in_app_iff in Hn'. cbn [In] in Ha', Hb, Hn'.
  destruct Hside as [(S1 & S2)|(S1 & S2)].
  - destruct Ha' as [Ha'|[<-|Ha']]; [|cbn in S1; lia|pose proof (HH' a (IH a Ha')); lia]. destruct Hb as [Hb|[<-|Hb]]; [|cbn in S2; lia|pose proof (HH' b Hb); lia].
    apply (@skipn_small sv lo (length lo - p) a b); auto.
  - destruct Ha' as [Ha'|[<-|Ha']]; [pose proof (HL a (IL a Ha')); lia|cbn in S1; lia|]. destruct Hb as [Hb|[<-|Hb]]; [pose proof (HL b Hb); lia|cbn in S2; lia|].
    apply (@skipn_small sv hi (length hi - p) a b); auto.
Qed.

Ltac big := match goal with |- context [Rlt_dec (Rabs ?a) ?b] => destruct (Rlt_dec (Rabs a) b) as [Q|Q]; [exfalso; revert Q; unfold Rabs; destruct (Rcase_abs a); lra|clear Q] end.
Ltac small := match goal with |- context [Rlt_dec (Rabs ?a) ?b] => destruct (Rlt_dec (Rabs a) b) as [Q|Q]; [clear Q|exfalso; apply Q; unfold Rabs; destruct (Rcase_abs a); lra] end.
Lemma drop_p_thr sv sc stray n r d p t : (0 < t)%R -> drop_p sv sc stray n r d p t = do r <- drop_small stray (length r) 0 t r; drop_p sv sc stray n r d p 0.
Proof. intros Ht. unfold drop_p. destruct (Rlt_dec 0 t); [|lra]. destruct (Rlt_dec 0 0); [lra|]. destruct (drop_small stray (length r) 0 t r); reflexivity. Qed.

Section Thr.
  Variables (sv sc : srow -> srow) (stray : res R).
  Hypotheses (HV : sort_by_size sv) (HC : sort_by_column sc).
  Let t := (1 / 10)%R.
  Lemma thr_keep r d : fine 4 r -> d < 4 -> drop_small stray (length r) 0 t r = Ok r -> drop_p sv sc stray 4 r d 3 t = Ok r.
  Proof. intros F Hd E. rewrite drop_p_thr by (unfold t; lra). rewrite E. cbn [bind]. apply drop_p_all; auto; lra || lia. Qed.
  Definition r0 : srow := [(0, 5%R); (2, (1 / 100)%R)].
  Lemma thr0 : drop_p sv sc stray 4 [(0, 5%R); (1, (1 / 100)%R); (2, (1 / 100)%R); (3, 7%R)] 0 3 t = Ok r0.
  Proof.
    rewrite drop_p_thr by (unfold t; lra). unfold t.
    cbn [length drop_small Nat.ltb Nat.leb]. unfold drop_t, sr_at, rd. cbn [find fst Nat.eqb nth_error bind snd].
    big. cbn [bind snd length Nat.ltb Nat.leb find fst Nat.eqb nth_error].
    small. unfold delete_value. cbn [bind snd length Nat.ltb Nat.leb find fst Nat.eqb nth_error firstn skipn app].
    small. cbn [bind snd length Nat.ltb Nat.leb find fst Nat.eqb nth_error firstn skipn app].
    apply drop_p_all; auto; [ |lra]. fine_small.
  Qed.
  Ltac run := cbn [bind snd fst length Nat.ltb Nat.leb find Nat.eqb nth_error firstn skipn app upd Nat.add Nat.sub fold_left add1 range range_lo range_len slice].
  Definition r1 : srow := [(0, 1%R); (1, 5%R)].
  Definition r2 : srow := [(0, 1%R); (1, 1%R); (2, (499 / 100)%R)].
  Definition r3 : srow := [(0, 1%R); (1, 1%R); (2, 1%R); (3, 5%R)].
  Lemma el0 r l : rd r 0 = Ok r0 -> eliminate stray 4 r t 0 ((0, 5%R) :: (1, 5%R) :: l) = Ok ((0, 1%R) :: (1, 5%R) :: add1 2 (- (1 / 100))%R l).
  Proof.
    intros E. unfold eliminate. run. rewrite E. unfold sr_at, rd, r0. run. unfold drop_t, sr_at, rd. run. unfold t. replace (5 / 5)%R with 1%R by field. big. run.
    unfold add_range. run. replace (1 / 100 * - (1))%R with (- (1 / 100))%R by field. reflexivity.
  Qed.
  Lemma el1 r l : rd r 1 = Ok r1 -> eliminate stray 4 r t 1 ((0, 1%R) :: (1, 5%R) :: l) = Ok ((0, 1%R) :: (1, 1%R) :: l).
  Proof.
    intros E. unfold eliminate. run. rewrite E. unfold sr_at, rd, r1. run. unfold drop_t, sr_at, rd. run. unfold t. replace (5 / 5)%R with 1%R by field. big. run.
    unfold add_range. run. reflexivity.
  Qed.
  Lemma el2 r l : rd r 2 = Ok r2 -> eliminate stray 4 r t 2 ((0, 1%R) :: (1, 1%R) :: (2, (499 / 100)%R) :: l) = Ok ((0, 1%R) :: (1, 1%R) :: (2, 1%R) :: l).
  Proof.
    intros E. unfold eliminate. run. rewrite E. unfold sr_at, rd, r2. run. unfold drop_t, sr_at, rd. run. unfold t. replace (499 / 100 / (499 / 100))%R with 1%R by field. big. run.
    unfold add_range. run. reflexivity.
  Qed.
  Lemma thr1 : drop_p sv sc stray 4 [(0, 1%R); (1, 5%R); (2, (- (1 / 100))%R)] 1 3 t = Ok r1.
  Proof.
    rewrite drop_p_thr by (unfold t; lra). unfold t. cbn [length drop_small]. unfold drop_t, sr_at, rd. run. big. run. big. run. small. unfold delete_value. run.
    apply drop_p_all; auto; [|lra]. fine_small.
  Qed.
  Lemma thr2 : drop_p sv sc stray 4 r2 2 3 t = Ok r2.
  Proof. apply thr_keep; auto; [fine_small|]. unfold t, r2. cbn [length drop_small]. unfold drop_t, sr_at, rd. run. big. run. big. run. big. run. reflexivity. Qed.
  Lemma thr3 : drop_p sv sc stray 4 r3 3 3 t = Ok r3.
  Proof. apply thr_keep; auto; [fine_small|]. unfold t, r3. cbn [length drop_small]. unfold drop_t, sr_at, rd. run. big. run. big. run. big. run. big. run. reflexivity. Qed.
  Lemma thr_add l : add1 2 (- (1 / 100))%R ((2, 5%R) :: l) = (2, (499 / 100)%R) :: l.
  Proof. run. destruct (Req_EM_T (- (1 / 100) + 5) 0) as [Q|_]; [exfalso; lra|]. f_equal. f_equal. field. Qed.
  Lemma thr_factor : factor sv sc stray thr4 4 3 t = Ok [r0; r1; r2; r3].
  Proof.
    unfold factor. change (for_ 0 4 [] (factor_row sv sc stray thr4 4 3 t)) with
      (do r <- factor_row sv sc stray thr4 4 3 t 0 []; do r <- factor_row sv sc stray thr4 4 3 t 1 r; do r <- factor_row sv sc stray thr4 4 3 t 2 r; do r <- factor_row sv sc stray thr4 4 3 t 3 r; Ok r).
    assert (E0 : factor_row sv sc stray thr4 4 3 t 0 [] = Ok [r0]).
    { unfold factor_row. change (row_of thr4 0) with (Ok [(0, 5%R); (1, (1 / 100)%R); (2, (1 / 100)%R); (3, 7%R)]). cbn [bind].
      change (for_ 0 0 [(0, 5%R); (1, (1 / 100)%R); (2, (1 / 100)%R); (3, 7%R)] (eliminate stray 4 [] t)) with (@Ok srow [(0, 5%R); (1, (1 / 100)%R); (2, (1 / 100)%R); (3, 7%R)]). cbn [bind]. rewrite thr0. reflexivity. }
    assert (E1 : factor_row sv sc stray thr4 4 3 t 1 [r0] = Ok [r0; r1]).
    { unfold factor_row. change (row_of thr4 1) with (Ok [(0, 5%R); (1, 5%R)]). cbn [bind].
      change (for_ 0 1 [(0, 5%R); (1, 5%R)] (eliminate stray 4 [r0] t)) with (do x <- eliminate stray 4 [r0] t 0 [(0, 5%R); (1, 5%R)]; Ok x). rewrite el0 by reflexivity. cbn [bind add1]. rewrite thr1. reflexivity. }
    assert (E2 : factor_row sv sc stray thr4 4 3 t 2 [r0; r1] = Ok [r0; r1; r2]).
    { unfold factor_row. change (row_of thr4 2) with (Ok [(0, 5%R); (1, 5%R); (2, 5%R)]). cbn [bind].
      change (for_ 0 2 [(0, 5%R); (1, 5%R); (2, 5%R)] (eliminate stray 4 [r0; r1] t)) with (do x <- eliminate stray 4 [r0; r1] t 0 [(0, 5%R); (1, 5%R); (2, 5%R)]; do x <- eliminate stray 4 [r0; r1] t 1 x; Ok x).
      rewrite el0 by reflexivity. cbn [bind]. rewrite thr_add, el1 by reflexivity. cbn [bind]. change [(0, 1%R); (1, 1%R); (2, (499 / 100)%R)] with r2. rewrite thr2. reflexivity. }
    assert (E3 : factor_row sv sc stray thr4 4 3 t 3 [r0; r1; r2] = Ok [r0; r1; r2; r3]).
    { unfold factor_row. change (row_of thr4 3) with (Ok [(0, 5%R); (1, 5%R); (2, 5%R); (3, 5%R)]). cbn [bind].
      change (for_ 0 3 [(0, 5%R); (1, 5%R); (2, 5%R); (3, 5%R)] (eliminate stray 4 [r0; r1; r2] t)) with (do x <- eliminate stray 4 [r0; r1; r2] t 0 [(0, 5%R); (1, 5%R); (2, 5%R); (3, 5%R)]; do x <- eliminate stray 4 [r0; r1; r2] t 1 x; do x <- eliminate stray 4 [r0; r1; r2] t 2 x; Ok x).
      rewrite el0 by reflexivity. cbn [bind]. rewrite thr_add, el1 by reflexivity. cbn [bind]. rewrite el2 by reflexivity. cbn [bind]. change [(0, 1%R); (1, 1%R); (2, 1%R); (3, 5%R)] with r3. rewrite thr3. reflexivity. }
    rewrite E0. cbn [bind]. rewrite E1. cbn [bind]. rewrite E2. cbn [bind]. rewrite E3. reflexivity.
  Qed.
  Lemma thr4_threshold srt : is_sort srt -> exists P, ilut_new srt sv sc stray thr4 3 t = Ok P /\
    mentry thr4 0 3 = 7%R /\ mentry P 0 3 = 0%R /\ mentry thr4 0 2 = (1 / 100)%R /\ mentry P 0 2 = (1 / 100)%R.
  Proof.
    intros HS. destruct (@rows_matrix srt 4 3 [r0; r1; r2; r3] HS eq_refl) as (P & EP & _ & _ & ME).
    { intros [|[|[|[|k]]]] Hk; try lia; cbn [nth]; fine_small. }
    { intros [|[|[|[|k]]]] Hk; try lia; cbn; lia. }
    { intros [|[|[|[|k]]]] Hk; try lia; discriminate. }
    exists P. split. { unfold ilut_new. change (csr_n thr4) with 4. rewrite thr_factor. exact EP. }
    rewrite !ME by lia. split; [unfold mentry, row_lo, row_hi, col_at, val_at; cbn; lra|]. split; [reflexivity|]. split; [|reflexivity]. unfold mentry, row_lo, row_hi, col_at, val_at; cbn; lra.
  Qed.
End Thr.

Lemma threshold_refuted : exists n C p t, csr_wf n n C /\ strict_rows n C /\ n <= p + 1 /\ (0 < t)%R /\
  forall srt sv sc stray, is_sort srt -> sort_by_size sv -> sort_by_column sc -> exists P, ilut_new srt sv sc stray C p t = Ok P /\
    ~ first_row_threshold n C P t /\ exists j, j < n /\ (t <= Rabs (mentry C 0 j))%R /\ mentry P 0 j = 0%R.
Proof.
  exists 4, thr4, 3, (1 / 10)%R. split; [apply thr4_wf|]. split; [apply thr4_strict|]. split; [lia|]. split; [lra|].
  intros srt sv sc stray HS HV HC. destruct (thr4_threshold stray HV HC HS) as (P & EP & E1 & E2 & E3 & E4). exists P. split; [exact EP|].
  assert (Q : (1 / 10 <= Rabs (mentry thr4 0 3))%R) by (rewrite E1, Rabs_pos_eq; lra). split.
  - intros H. destruct (H 3 ltac:(lia) ltac:(lia)) as (_ & H1). specialize (H1 Q). lra.
  - exists 3. auto.
Qed.
Lemma fill_refuted : exists n C p, csr_wf n n C /\ strict_rows n C /\
  forall srt sv sc stray, is_sort srt -> sort_by_size sv -> sort_by_column sc -> exists P, ilut_new srt sv sc stray C p 0 = Ok P /\ ~ first_row_largest n C P.
Proof.
  exists 3, up3, 1. split; [apply up3_wf|]. split; [apply up3_strict|]. intros srt sv sc stray HS HV HC. destruct (@up3_fill srt sv sc stray HS HV HC) as (P & EP & E1 & E2 & E3 & E4).
  exists P. split; [exact EP|]. intros H. assert (Q := H 1 2 ltac:(lia) ltac:(lia) ltac:(lia) ltac:(lia) ltac:(rewrite E1; lra) E2). rewrite E3, E4, !Rabs_pos_eq in Q by lra. lra.
Qed.
Lemma tri_refuted : exists n C L U, csr_wf n n C /\ strict_rows n C /\ factors n C L U /\ (forall k, k < n -> U k k <> 0%R) /\
  forall srt sv sc p t P, ilut_new srt sv sc UB C p t <> Ok P.
Proof.
  exists 3, tri3, tri3_L, tri3_U. split; [apply tri3_wf|]. split; [apply tri3_strict|]. split; [apply tri3_factors|]. split.
  - intros [|[|[|k]]] Hk; try lia; cbn; lra.
  - intros. apply tri3_gap.
Qed.
