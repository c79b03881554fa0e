(** * Ilut_Proofs4: what the constructor returns *)
From Verif Require Import Base BaseR Loop Matrix_Model Matrix_Spec Matrix_Proofs Vector_Model Vector_Spec Vector_Proofs Solver_Model Solver_Spec Solver_Proofs Precond_Proofs Ilut_Model Ilut_Spec Ilut_Proofs Ilut_Proofs2 Ilut_Proofs3.
Set Implicit Arguments. Unset Strict Implicit.
Open Scope nat_scope.

Lemma lux_lu n P x i : lux n P x i = rsum n (fun j => lu n P i j * cmp x j)%R.
Proof.
  unfold lux, lu. rewrite (@rsum_ext n (fun j => rsum n (fun k => low P i k * upp P k j) * cmp x j)%R (fun j => rsum n (fun k => low P i k * upp P k j * cmp x j))%R).
  2:{ intros j Hj. rewrite rsum_scal_r. reflexivity. }
  rewrite rsum_swap. apply rsum_ext. intros k Hk. rewrite <- rsum_scal. apply rsum_ext. intros j Hj. lra.
Qed.

Section Exact.
  Variables (srt : list triplet -> list triplet) (sv sc : srow -> srow) (stray : res R) (C : csr) (n p : nat) (t : R).
  Hypotheses (HS : is_sort srt) (HV : sort_by_size sv) (HC : sort_by_column sc) (W : csr_wf n n C) (SR : strict_rows n C) (Ht : (t <= 0)%R) (Hp : n <= p + 1).

  Lemma solves_of P : csr_wf n n P -> one_diag n P -> diag_nz n P -> (forall i j, i < n -> j < n -> lu n P i j = mentry C i j) ->
    forall b x, length b = n -> length x = n -> exists z, ilut_apply P b x = Ok z /\ length z = n /\ solves n C b z.
  Proof.
    intros WP OD DZ LU b x Hb Hx. destruct (@ilut_inverts n P b x) as (z & E & L & H); [split; auto|exact Hx|].
    exists z. split; auto. split; auto. intros i Hi. rewrite <- H by auto. rewrite lux_lu. unfold ax. apply rsum_ext. intros j Hj. rewrite LU by auto. reflexivity.
  Qed.

  Lemma ilut_exact L U : factors n C L U -> (forall k, k < n -> U k k <> 0%R) -> (exists v, stray = Ok v) \/ (forall i k, i < n -> k < i -> L i k <> 0%R) ->
    exists P, ilut_new srt sv sc stray C p t = Ok P /\ (forall i j, i < n -> j < n -> mentry P i j = if j <? i then L i j else U i j) /\
      forall b x, length b = n -> length x = n -> exists z, ilut_apply P b x = Ok z /\ length z = n /\ solves n C b z.
  Proof.
    intros FA NZ ST. destruct (@factor_ok sv sc stray C n p t HV HC W SR Ht Hp L U FA NZ ST) as (rows & E & LR & HR).
    unfold ilut_new. rewrite (wf_n W). rewrite E. cbn [bind].
    assert (FR : forall k, k < n -> fine n (nth k rows [])) by (intros k Hk; apply HR; auto).
    destruct (@rows_matrix srt n p rows HS LR FR) as (P & EP & WP & OD & ME).
    { intros k Hk. pose proof (fine_length (FR k Hk)). lia. }
    { intros k Hk Z. destruct (HR k Hk) as (_ & LK). specialize (LK k Hk). rewrite Z, Nat.ltb_irrefl in LK. cbn in LK. apply (NZ k Hk). auto. }
    unfold put in EP. exists P. split; [exact EP|].
    assert (MP : forall i j, i < n -> j < n -> mentry P i j = if j <? i then L i j else U i j) by (intros i j Hi Hj; rewrite ME by auto; apply HR; auto).
    split; [exact MP|]. apply solves_of; auto.
    - intros i Hi. rewrite MP, Nat.ltb_irrefl by auto. auto.
    - destruct FA as [F1 F2 F3 F4]. intros i j Hi Hj. rewrite <- F4 by auto. unfold lu. apply rsum_ext. intros k Hk. unfold low, upp. rewrite !MP by auto.
      destruct (Nat.ltb_spec k i) as [K1|K1].
      + destruct (Nat.ltb_spec j k) as [J1|J1]; [rewrite (F3 k j) by auto|]; lra.
      + destruct (Nat.eqb_spec k i) as [->|K2].
        * rewrite F2 by auto. destruct (Nat.ltb_spec j i) as [J1|J1]; [rewrite (F3 i j) by auto|]; lra.
        * rewrite (F1 i k) by (auto; lia). lra.
  Qed.

  Lemma ilut_returns P : ilut_new srt sv sc stray C p t = Ok P -> diag_nz n P ->
    (forall i j, i < n -> j < n -> lu n P i j = mentry C i j) /\
    forall b x, length b = n -> length x = n -> exists z, ilut_apply P b x = Ok z /\ length z = n /\ solves n C b z.
  Proof.
    unfold ilut_new. rewrite (wf_n W). destruct (factor sv sc stray C n p t) as [rows| |] eqn:E; try discriminate. cbn [bind]. intros EP DZ.
    destruct (@factor_inv sv sc stray C n p t HV HC W SR Ht Hp rows E) as (LR & FR & ST).
    assert (CP : forall k, k < n -> length (nth k rows []) <= 2 * p + 1) by (intros k Hk; pose proof (fine_length (FR k Hk)); lia).
    destruct (@rows_matrix srt n p rows HS LR FR CP) as (P' & EP' & WP & OD & ME).
    { apply (@rows_nonempty srt n p rows P HS LR FR CP EP). }
    unfold put in EP'. rewrite EP in EP'. injection EP' as <-.
    assert (LU : forall i j, i < n -> j < n -> lu n P i j = mentry C i j).
    { intros i j Hi Hj. assert (S1 := ST ltac:(intros k Hk; rewrite <- ME by auto; apply DZ; auto) i Hi j Hj). rewrite S1. unfold lu.
      rewrite (@rsum_low n (S i)) by (try lia; intros q Hq; unfold low; destruct (Nat.ltb_spec q i), (Nat.eqb_spec q i); try lia; lra). cbn [rsum].
      f_equal.
      - apply rsum_ext. intros q Hq. unfold low, upp, upper. destruct (Nat.ltb_spec q i); [|lia]. rewrite !ME by lia. destruct (j <? q); lra.
      - unfold low, upp. rewrite Nat.ltb_irrefl, Nat.eqb_refl. destruct (j <? i); [lra|]. rewrite ME by auto. lra. }
    split; [exact LU|]. apply solves_of; auto.
  Qed.
End Exact.

Lemma ilut_gap srt sv sc C n p t P i k : csr_wf n n C -> strict_rows n C -> i < n -> 0 < k < i -> stored_at C i k -> ~ stored_at C i 0 ->
  ilut_new srt sv sc UB C p t <> Ok P.
Proof.
  intros W SR Hi Hk S1 S0. unfold ilut_new. rewrite (wf_n W). destruct (factor sv sc UB C n p t) as [rows| |] eqn:E; try discriminate.
  exfalso. apply (@factor_gap sv sc C n p t rows i k); auto.
Qed.

(** What is kept of a row. *)
Lemma range_len_low b lo x r : Forall (fun e => fst e < b) lo -> b <= fst x -> range_len b (lo ++ x :: r) = length lo.
Proof. induction 1 as [|y l Hy HF IH]; intros Hx; cbn [app range_len length]. { destruct (Nat.leb_spec b (fst x)); [auto|lia]. } destruct (Nat.leb_spec b (fst y)); [lia|]. auto. Qed.
Lemma range_lo_skip a b lo l : a <= b -> Forall (fun e => fst e < a) lo -> forall p, range_lo a b p (lo ++ l) = range_lo a b (length lo + p) l.
Proof. intros Hab. induction 1 as [|y k Hy HF IH]; intros p; cbn [app range_lo length Nat.add]; auto. destruct (Nat.ltb_spec b (fst y)); [lia|]. destruct (Nat.leb_spec a (fst y)); [lia|]. rewrite IH. f_equal. lia. Qed.
Lemma sort1 (sv : srow -> srow) : (forall l, Permutation l (sv l)) -> sv [] = [] /\ forall x, sv [x] = [x].
Proof. intros H. split; [apply Permutation_nil, H|intros x; apply Permutation_length_1_inv; auto]. Qed.
Lemma skipn_app_len A (a b : list A) : skipn (length a) (a ++ b) = b.
Proof. induction a; cbn; auto. Qed.
Lemma firstn_app_len A (a b : list A) : firstn (length a) (a ++ b) = a.
Proof. induction a; cbn; auto. f_equal. auto. Qed.
Lemma sort_low sv d (lo hi : srow) v : (forall l, Permutation l (sv l)) -> Forall (fun e => fst e < d) lo -> Forall (fun e => d < fst e) hi ->
  sort_range sv 0 d (lo ++ (d, v) :: hi) = sv lo ++ (d, v) :: hi.
Proof.
  intros HV HL HH. destruct (sort1 HV) as (Z & O). destruct lo as [|x lo].
  - unfold sort_range, range. cbn [app range_lo fst]. rewrite Nat.ltb_irrefl. cbn [Nat.leb skipn].
    assert (Q : range_len d hi = 0). { destruct hi as [|y hi]; auto. inversion HH; subst. cbn [range_len]. destruct (Nat.leb_spec d (fst y)); [auto|lia]. }
    rewrite Q. unfold slice. cbn. rewrite O, Z. reflexivity.
  - assert (E : range 0 d ((x :: lo) ++ (d, v) :: hi) = (0, length (x :: lo))).
    { unfold range. cbn [app range_lo]. inversion HL as [|? ? h1 h2]; subst. destruct (Nat.ltb_spec d (fst x)); [lia|]. cbn [Nat.leb skipn]. rewrite range_len_low; auto. }
    unfold sort_range. rewrite E. unfold slice. rewrite Nat.sub_0_r. cbn [skipn firstn app]. change (x :: lo ++ (d, v) :: hi) with ((x :: lo) ++ (d, v) :: hi).
    rewrite firstn_app_len, skipn_app_len. reflexivity.
Qed.
Lemma sort_high sv d n (lo hi : srow) v : (forall l, Permutation l (sv l)) -> d < n -> Forall (fun e => fst e < d) lo -> Forall (fun e => d < fst e < n) hi ->
  sort_range sv (d + 1) n (lo ++ (d, v) :: hi) = lo ++ (d, v) :: sv hi.
Proof.
  intros HV Hd HL HH. destruct (sort1 HV) as (Z & O). set (lo1 := lo ++ [(d, v)]).
  assert (F1 : Forall (fun e => fst e < d + 1) lo1). { unfold lo1. apply Forall_app. split; [eapply Forall_impl; [|exact HL]; cbn; lia|constructor; [cbn; lia|constructor]]. }
  assert (E1 : forall l : srow, lo ++ (d, v) :: l = lo1 ++ l) by (intros l; unfold lo1; rewrite <- app_assoc; reflexivity). rewrite !E1.
  unfold sort_range, range. rewrite range_lo_skip by (auto; lia). destruct hi as [|y hi].
  - cbn [range_lo]. rewrite Z, app_nil_r. unfold slice. rewrite Nat.sub_diag. cbn [firstn]. rewrite Z, firstn_all, skipn_all. cbn [app]. rewrite app_nil_r. reflexivity.
  - inversion HH as [|? ? h1 h2]; subst. cbn [range_lo]. destruct (Nat.ltb_spec n (fst y)); [lia|]. destruct (Nat.leb_spec (d + 1) (fst y)); [|lia]. rewrite Nat.add_0_r.
    replace (skipn (S (length lo1)) (lo1 ++ y :: hi)) with hi by (change (y :: hi) with ([y] ++ hi); rewrite app_assoc; replace (S (length lo1)) with (length (lo1 ++ [y])) by (rewrite app_length; cbn; lia); rewrite skipn_app_len; reflexivity).
    rewrite (@range_len_all n hi) by (eapply Forall_impl; [|exact h2]; cbn; intros a Ha; lia).
    unfold slice. rewrite firstn_app_len, skipn_app_len. replace (S (length lo1) + length hi - length lo1) with (length (y :: hi)) by (cbn [length]; lia). rewrite firstn_all.
    replace (S (length lo1) + length hi) with (length (lo1 ++ y :: hi)) by (rewrite app_length; cbn; lia). rewrite skipn_all, app_nil_r. reflexivity.
Qed.
Lemma filter_all A f (l : list A) : Forall (fun e => f e = true) l -> filter f l = l.
Proof. induction 1; cbn; auto. rewrite H. f_equal. auto. Qed.
Lemma filter_nothing A f (l : list A) : Forall (fun e => f e = false) l -> filter f l = [].
Proof. induction 1; cbn; auto. rewrite H. auto. Qed.

(** without a threshold: each side is sorted by decreasing magnitude, and all but the
    last p are removed *)
Lemma drop_p_smallest sv sc stray n d p t (lo hi : srow) v : sort_by_size sv -> sort_by_column sc -> d < n -> (t <= 0)%R ->
  Forall (fun e => fst e < d) lo -> Forall (fun e => d < fst e < n) hi ->
  drop_p sv sc stray n (lo ++ (d, v) :: hi) d p t = Ok (sc (skipn (length lo - p) (sv lo) ++ (d, v) :: skipn (length hi - p) (sv hi))).
Proof.
  intros HV HC Hd Ht HL HH. assert (PV : forall l, Permutation l (sv l)) by (intros l; apply HV).
  assert (HH1 : Forall (fun e => d < fst e) hi) by (eapply Forall_impl; [|exact HH]; cbn; lia).
  unfold drop_p. destruct (Rlt_dec 0 t) as [Q|_]; [exfalso; lra|]. cbn [bind].
  assert (EL : length (filter (fun e => fst e <? d) (lo ++ (d, v) :: hi)) = length lo).
  { rewrite filter_app. cbn [filter fst]. rewrite Nat.ltb_irrefl. rewrite (filter_all (l := lo)), (filter_nothing (l := hi)), app_nil_r; auto.
    - eapply Forall_impl; [|exact HH1]. intros e He. cbv beta in *. destruct (Nat.ltb_spec (fst e) d); [lia|auto].
    - eapply Forall_impl; [|exact HL]. intros e He. cbv beta in *. destruct (Nat.ltb_spec (fst e) d); [auto|lia]. }
  rewrite EL. rewrite (sort_low v PV HL HH1). rewrite (@sort_high sv d n _ _ v PV Hd (Permutation_Forall (PV lo) HL) HH).
  assert (EU : length (lo ++ (d, v) :: hi) - 1 - length lo = length hi) by (rewrite app_length; cbn; lia). rewrite EU.
  assert (LL : length (sv lo) = length lo) by (symmetry; apply Permutation_length, PV).
  assert (E1 : (if p <? length lo then @pair srow nat (skipn (length lo - p) (sv lo ++ (d, v) :: sv hi)) p else (sv lo ++ (d, v) :: sv hi, length lo))
             = (skipn (length lo - p) (sv lo) ++ (d, v) :: sv hi, Nat.min p (length lo))).
  { destruct (Nat.ltb_spec p (length lo)).
    - rewrite skipn_app, LL. replace (length lo - p - length lo) with 0 by lia. rewrite Nat.min_l by lia. reflexivity.
    - replace (length lo - p) with 0 by lia. rewrite Nat.min_r by lia. reflexivity. }
  cbv zeta. match goal with |- (let (_, _) := ?X in _) = _ => replace X with (skipn (length lo - p) (sv lo) ++ (d, v) :: sv hi, Nat.min p (length lo)) by (symmetry; exact E1) end. cbv iota. set (lo' := skipn (length lo - p) (sv lo)). assert (L' : length lo' = Nat.min p (length lo)) by (unfold lo'; rewrite skipn_length, LL; lia).
  f_equal. f_equal. destruct (Nat.ltb_spec p (length hi)).
  - rewrite <- L'. change (lo' ++ (d, v) :: sv hi) with (lo' ++ [(d, v)] ++ sv hi). rewrite app_assoc.
    replace (length lo' + 1) with (length (lo' ++ [(d, v)])) by (rewrite app_length; cbn; lia).
    rewrite firstn_app_len. rewrite skipn_app. rewrite skipn_all2 by lia. replace (length (lo' ++ [(d, v)]) + (length hi - p) - length (lo' ++ [(d, v)])) with (length hi - p) by lia.
    rewrite <- app_assoc. reflexivity.
  - replace (length hi - p) with 0 by lia. reflexivity.
Qed.

(** so no dropped element is smaller than a kept one *)
Lemma skipn_small sv (l : srow) m a b : sort_by_size sv -> In a (skipn m (sv l)) -> In b l -> ~ In b (skipn m (sv l)) -> (Rabs (snd a) <= Rabs (snd b))%R.
Proof.
  intros HV Ha Hb Hn. destruct (HV l) as (PV & SV). assert (Hb' : In b (sv l)) by (eapply Permutation_in; eauto).
  rewrite <- (firstn_skipn m (sv l)) in Hb', SV. apply in_app_or in Hb'. destruct Hb' as [Hb'|Hb']; [|contradiction].
  revert SV Hb' Ha. generalize (firstn m (sv l)) (skipn m (sv l)). intros f k SV. revert SV. induction f as [|x f IH]; intros SV Hf Hk; [destruct Hf|].
  cbn [app] in SV. inversion SV as [|? ? S1 S2]; subst. destruct Hf as [<-|Hf]; auto. rewrite Forall_forall in S2. apply S2. apply in_or_app. auto.
Qed.

(** Witnesses. *)
Definition tri3 : csr := {| c_rows := [0; 2; 5; 7]; c_cols := [0; 1; 0; 1; 2; 1; 2]%Z; c_vals := [2; -1; -1; 2; -1; -1; 2]%R; c_diag := [Some 0; Some 3; Some 6] |}.
Definition up3 : csr := {| c_rows := [0; 3; 4; 5]; c_cols := [0; 1; 2; 1; 2]%Z; c_vals := [5; 1; 7; 5; 5]%R; c_diag := [Some 0; Some 3; Some 4] |}.
Definition thr4 : csr := {| c_rows := [0; 4; 6; 9; 13]; c_cols := [0; 1; 2; 3; 0; 1; 0; 1; 2; 0; 1; 2; 3]%Z;
  c_vals := [5; 1 / 100; 1 / 100; 7; 5; 5; 5; 5; 5; 5; 5; 5; 5]%R; c_diag := [Some 0; Some 5; Some 8; Some 12] |}.

Lemma tri3_wf : csr_wf 3 3 tri3.
Proof.
  do 4 (split; [reflexivity|]). intros i Hi. destruct i as [|[|[|i]]]; [| | |lia]; cbn [nth c_rows c_cols c_diag tri3]; (split; [lia|]); (split; [|split]);
    try (intros _; eexists; split; [reflexivity|split; [lia|reflexivity]]).
  all: try (intros q Hq; do 7 (destruct q as [|q]; [cbn; lia|]); lia).
  all: intros q r H1 H2 H3; do 7 (destruct r as [|r]; [do 7 (destruct q as [|q]; [cbn; lia|]); lia|]); lia.
Qed.
Ltac wf_small := 
  do 4 (split; [reflexivity|]); let i := fresh "i" in intros i Hi; repeat (destruct i as [|i]; [cbn [nth c_rows c_cols c_diag tri3 up3 thr4]; (split; [lia|]); (split; [|split]);
   [ let q := fresh "q" in intros q Hq; do 14 (destruct q as [|q]; [cbn; lia|]); lia
   | let q := fresh "q" in let r := fresh "r" in intros q r H1 H2 H3; do 14 (destruct r as [|r]; [do 14 (destruct q as [|q]; [cbn; lia|]); lia|]); lia
   | intros _; eexists; split; [reflexivity|split; [lia|reflexivity]] ] | try lia]).
Ltac strict_small := let i := fresh "i" in let q := fresh "q" in let r := fresh "r" in intros i q r Hi H1 H2 H3; unfold row_lo, row_hi, col_at in *;
  repeat (destruct i as [|i]; [cbn [nth c_rows c_cols tri3 up3 thr4] in *; do 14 (destruct r as [|r]; [do 14 (destruct q as [|q]; [cbn; lia|]); lia|]); lia|try lia]).
Lemma tri3_strict : strict_rows 3 tri3. Proof. strict_small. Qed.
Lemma up3_wf : csr_wf 3 3 up3. Proof. wf_small. Qed.
Lemma up3_strict : strict_rows 3 up3. Proof. strict_small. Qed.
Lemma thr4_wf : csr_wf 4 4 thr4. Proof. wf_small. Qed.
Lemma thr4_strict : strict_rows 4 thr4. Proof. strict_small. Qed.

Lemma col_fixed sc n l : sort_by_column sc -> fine n l -> sc l = l.
Proof.
  intros HC F. destruct (HC l) as (PC & SC). symmetry. apply sorted_unique; auto; [apply F|]. apply weak_strict; auto. eapply Permutation_NoDup; [apply Permutation_map, PC|]. apply (fine_nodup F).
Qed.
Ltac fine_small := split; repeat constructor; unfold before; cbn; lia.

(** the tridiagonal matrix *)
Lemma tri3_gap srt sv sc p t P : ilut_new srt sv sc UB tri3 p t <> Ok P.
Proof.
  apply (@ilut_gap srt sv sc tri3 3 p t P 2 1); [apply tri3_wf|apply tri3_strict|lia|lia| |].
  - exists 5. split; [cbn; lia|reflexivity].
  - intros (q & Hq & E). unfold row_lo, row_hi, col_at in *. cbn in Hq. do 5 (destruct q as [|q]; [lia|]). do 2 (destruct q as [|q]; [cbn in E; lia|]). lia.
Qed.
Definition tri3_L (i k : nat) : R := match i, k with 0, 0 => 1 | 1, 0 => -1/2 | 1, 1 => 1 | 2, 1 => -2/3 | 2, 2 => 1 | _, _ => 0 end%R.
Definition tri3_U (i k : nat) : R := match i, k with 0, 0 => 2 | 0, 1 => -1 | 1, 1 => 3/2 | 1, 2 => -1 | 2, 2 => 4/3 | _, _ => 0 end%R.
Lemma tri3_factors : factors 3 tri3 tri3_L tri3_U.
Proof.
  split.
  - intros i k Hi Hk H. destruct i as [|[|[|i]]], k as [|[|[|k]]]; try lia; reflexivity.
  - intros [|[|[|i]]] Hi; try lia; reflexivity.
  - intros k j Hk Hj H. destruct k as [|[|[|k]]], j as [|[|[|j]]]; try lia; reflexivity.
  - intros i j Hi Hj. destruct i as [|[|[|i]]], j as [|[|[|j]]]; try lia; unfold mentry, row_lo, row_hi, col_at, val_at; cbn; lra.
Qed.

(** the limit of one entry per side *)
Lemma up3_fill srt sv sc stray : is_sort srt -> sort_by_size sv -> sort_by_column sc ->
  exists P, ilut_new srt sv sc stray up3 1 0 = Ok P /\ mentry P 0 1 = 1%R /\ mentry P 0 2 = 0%R /\ mentry up3 0 1 = 1%R /\ mentry up3 0 2 = 7%R.
Proof.
  intros HS HV HC.
  assert (PV : forall l, Permutation l (sv l)) by (intros l; apply HV). destruct (sort1 PV) as (Z & O).
  assert (SV : sv [(1, 1%R); (2, 7%R)] = [(2, 7%R); (1, 1%R)]).
  { destruct (HV [(1, 1%R); (2, 7%R)]) as (Q & SS). apply Permutation_length_2_inv in Q. destruct Q as [Q|Q]; [|exact Q]. exfalso.
    rewrite Q in SS. inversion SS as [|? ? ? F]; subst. inversion F; subst. cbn in *. rewrite !Rabs_pos_eq in * by lra. lra. }
  assert (S0 : drop_p sv sc stray 3 [(0, 5%R); (1, 1%R); (2, 7%R)] 0 1 0 = Ok [(0, 5%R); (1, 1%R)]).
  { change [(0, 5%R); (1, 1%R); (2, 7%R)] with ([] ++ (0, 5%R) :: [(1, 1%R); (2, 7%R)]). rewrite drop_p_smallest; auto; try lia; try lra; [|repeat constructor; cbn; lia].
    rewrite Z, SV. cbn [length Nat.sub skipn app]. f_equal. apply (@col_fixed sc 3); auto. fine_small. }
  assert (S1 : drop_p sv sc stray 3 [(1, 5%R)] 1 1 0 = Ok [(1, 5%R)]).
  { change [(1, 5%R)] with ([] ++ (1, 5%R) :: []) at 1. rewrite drop_p_smallest; auto; try lia; try lra. rewrite Z. cbn [length Nat.sub skipn app]. f_equal. apply (@col_fixed sc 3); auto. fine_small. }
  assert (S2 : drop_p sv sc stray 3 [(2, 5%R)] 2 1 0 = Ok [(2, 5%R)]).
  { change [(2, 5%R)] with ([] ++ (2, 5%R) :: []) at 1. rewrite drop_p_smallest; auto; try lia; try lra. rewrite Z. cbn [length Nat.sub skipn app]. f_equal. apply (@col_fixed sc 3); auto. fine_small. }
  set (rows := [[(0, 5%R); (1, 1%R)]; [(1, 5%R)]; [(2, 5%R)]]).
  assert (EF : factor sv sc stray up3 3 1 0 = Ok rows).
  { unfold factor. change (for_ 0 3 [] (factor_row sv sc stray up3 3 1 0)) with (do r <- factor_row sv sc stray up3 3 1 0 0 []; do r <- factor_row sv sc stray up3 3 1 0 1 r; do r <- factor_row sv sc stray up3 3 1 0 2 r; Ok r).
    assert (E0 : factor_row sv sc stray up3 3 1 0 0 [] = Ok [[(0, 5%R); (1, 1%R)]]).
    { unfold factor_row. change (row_of up3 0) with (Ok [(0, 5%R); (1, 1%R); (2, 7%R)]). cbn [bind]. change (for_ 0 0 [(0, 5%R); (1, 1%R); (2, 7%R)] (eliminate stray 3 [] 0)) with (@Ok srow [(0, 5%R); (1, 1%R); (2, 7%R)]). cbn [bind]. rewrite S0. reflexivity. }
    rewrite E0. cbn [bind].
    assert (E1 : forall r, factor_row sv sc stray up3 3 1 0 1 r = Ok (r ++ [[(1, 5%R)]])).
    { intros r. unfold factor_row. change (row_of up3 1) with (Ok [(1, 5%R)]). cbn [bind]. change (for_ 0 1 [(1, 5%R)] (eliminate stray 3 r 0)) with (@Ok srow [(1, 5%R)]). cbn [bind]. rewrite S1. reflexivity. }
    rewrite E1. cbn [bind].
    assert (E2 : forall r, factor_row sv sc stray up3 3 1 0 2 r = Ok (r ++ [[(2, 5%R)]])).
    { intros r. unfold factor_row. change (row_of up3 2) with (Ok [(2, 5%R)]). cbn [bind]. change (for_ 0 2 [(2, 5%R)] (eliminate stray 3 r 0)) with (@Ok srow [(2, 5%R)]). cbn [bind]. rewrite S2. reflexivity. }
    rewrite E2. reflexivity. }
  destruct (@rows_matrix srt 3 1 rows HS eq_refl) as (P & EP & _ & _ & ME).
  { intros [|[|[|k]]] Hk; try lia; cbn [nth rows]; fine_small. }
  { intros [|[|[|k]]] Hk; try lia; cbn; lia. }
  { intros [|[|[|k]]] Hk; try lia; discriminate. }
  exists P. split. { unfold ilut_new. change (csr_n up3) with 3. rewrite EF. exact EP. }
  rewrite !ME by lia. split; [reflexivity|]. split; [reflexivity|]. split; unfold mentry, row_lo, row_hi, col_at, val_at; cbn; lra.
Qed.
