(** * Ilut_Proofs: sparse rows and the elimination *)
From Verif Require Import Base BaseR Loop Matrix_Model Matrix_Spec Matrix_Proofs Vector_Model Vector_Spec Solver_Model Solver_Spec Solver_Proofs Ilut_Model Ilut_Spec.
Set Implicit Arguments. Unset Strict Implicit.
Open Scope nat_scope.

Fixpoint look (l : srow) (j : nat) : R := match l with [] => 0%R | e :: r => if fst e =? j then snd e else look r j end.
Definition has (l : srow) (j : nat) : Prop := exists v, In (j, v) l.

Lemma find_some j l p : find j l = Some p -> nth_error l p = Some (j, look l j) /\ p < length l.
Proof.
  revert p. induction l as [|(c, v) r IH]; intros p; cbn; [discriminate|].
  destruct (Nat.eqb_spec c j) as [->|Ne].
  - intros H. injection H as <-. split; [reflexivity|lia].
  - destruct (find j r) as [q|]; [|discriminate]. intros H. injection H as <-. destruct (IH q eq_refl). split; [auto|lia].
Qed.
Lemma find_none j l : find j l = None -> look l j = 0%R /\ ~ has l j.
Proof.
  induction l as [|(c, v) r IH]; cbn; [intros _; split; auto; intros (v & [])|].
  destruct (Nat.eqb_spec c j) as [->|Ne]; [discriminate|].
  destruct (find j r) as [q|]; [discriminate|]. intros _. destruct (IH eq_refl) as (H1 & H2). split; auto.
  intros (w & [H|H]); [congruence|]. apply H2. exists w. auto.
Qed.
Lemma find_has j l : has l j <-> exists p, find j l = Some p.
Proof.
  split.
  - intros H. destruct (find j l) as [p|] eqn:E; [eauto|]. destruct (find_none E). tauto.
  - intros (p & E). destruct (find_some E) as (H & _). apply nth_error_In in H. exists (look l j). auto.
Qed.
Lemma look_has l j : look l j <> 0%R -> has l j.
Proof. intros H. destruct (find j l) as [p|] eqn:E; [apply find_has; eauto|]. destruct (find_none E). tauto. Qed.

Lemma sorted_cons n e r : fine n (e :: r) -> fine n r /\ fst e < n /\ Forall (before e) r.
Proof. intros (S & F). inversion S; inversion F; subst. split; [split; auto|]. auto. Qed.
Lemma look_lt n e r j : fine n (e :: r) -> j <= fst e -> look r j = 0%R.
Proof.
  intros F Hj. destruct (sorted_cons F) as (_ & _ & B). destruct (find j r) as [p|] eqn:E.
  - destruct (find_some E) as (H & _). apply nth_error_In in H. rewrite Forall_forall in B. apply B in H. unfold before in H. cbn in H. lia.
  - apply (find_none E).
Qed.
Lemma look_ge n l j : fine n l -> n <= j -> look l j = 0%R.
Proof.
  intros (_ & F) Hj. destruct (find j l) as [p|] eqn:E; [|apply (find_none E)].
  destruct (find_some E) as (H & _). apply nth_error_In in H. rewrite Forall_forall in F. apply F in H. cbn in H. lia.
Qed.

(** Setting the value of a stored column. *)
Lemma upd_fine n l j p v : fine n l -> find j l = Some p -> fine n (upd l p (j, v)) /\
  (forall c, look (upd l p (j, v)) c = if c =? j then v else look l c) /\ find j (upd l p (j, v)) = Some p /\ (forall c, has (upd l p (j, v)) c <-> has l c).
Proof.
  revert p. induction l as [|(c, w) r IH]; intros p F E; cbn in E; [discriminate|].
  destruct (sorted_cons F) as (FR & L & B).
  destruct (Nat.eqb_spec c j) as [->|Ne].
  - injection E as <-. cbn [upd]. split; [|split; [|split]].
    + destruct F as (S & G). inversion S; inversion G; subst. split; constructor; auto.
    + intros d. cbn. rewrite (Nat.eqb_sym j d). destruct (Nat.eqb_spec d j); auto.
    + cbn. rewrite Nat.eqb_refl. reflexivity.
    + intros d. split; intros (x & [H|H]); try (injection H as -> _); eexists; try (left; reflexivity); right; eauto.
  - destruct (find j r) as [q|] eqn:Eq; [|discriminate]. injection E as <-. destruct (IH q FR eq_refl) as (I1 & I2 & I3 & I4). cbn [upd]. split; [|split; [|split]].
    + destruct F as (S & G). inversion S as [|? ? S1 S2]; inversion G; subst. destruct I1 as (I11 & I12). split; constructor; auto.
      rewrite Forall_forall in *. intros (a, x) Ha. destruct (proj1 (I4 a) (ex_intro _ x Ha)) as (y & Hy). apply B in Hy. unfold before in *. cbn in *. auto.
    + intros d. cbn. rewrite I2. destruct (Nat.eqb_spec c d) as [->|]; auto. destruct (Nat.eqb_spec d j); [congruence|reflexivity].
    + cbn. destruct (Nat.eqb_spec c j); [congruence|]. rewrite I3. reflexivity.
    + intros d. split; intros (x & [H|H]).
      * exists x. left. auto.
      * destruct (proj1 (I4 d) (ex_intro _ x H)) as (y & Hy). exists y. right. auto.
      * exists x. left. auto.
      * destruct (proj2 (I4 d) (ex_intro _ x H)) as (y & Hy). exists y. right. auto.
Qed.

(** Adding to one column. *)
Lemma add1_in i v l e : In e (add1 i v l) -> fst e = i \/ In e l.
Proof.
  induction l as [|x r IH]; cbn [add1]; [intros [<-|[]]; auto|].
  destruct (i <? fst x); [intros [<-|H]; cbn; auto|]. destruct (Nat.eqb_spec i (fst x)) as [->|].
  - destruct (Req_EM_T _ _); [intros H; right; right; auto|]. intros [<-|H]; cbn; auto.
  - intros [<-|H]; cbn; auto. destruct (IH H); auto.
Qed.
Lemma add1_fine n i v l : fine n l -> i < n -> fine n (add1 i v l) /\ forall c, look (add1 i v l) c = (look l c + if c =? i then v else 0)%R.
Proof.
  intros F Hi. induction l as [|x r IH].
  - cbn. split; [repeat constructor; cbn; auto|]. intros c. rewrite (Nat.eqb_sym i c). destruct (c =? i); lra.
  - destruct (sorted_cons F) as (FR & Lx & B). destruct (IH FR) as (I1 & I2). cbn [add1].
    destruct (Nat.ltb_spec i (fst x)) as [Lt|Ge].
    + split.
      * destruct F as (S & G). split; constructor; auto. constructor; [exact Lt|]. rewrite Forall_forall in *. intros e He. apply B in He. unfold before in *. cbn in *. lia.
      * intros c. cbn [look]. rewrite (Nat.eqb_sym (fst (i, v)) c). cbn [fst snd]. destruct (Nat.eqb_spec c i) as [->|]; [|destruct (Nat.eqb_spec (fst x) c); lra].
        destruct (Nat.eqb_spec (fst x) i); [lia|]. rewrite (look_lt F) by lia. lra.
    + destruct (Nat.eqb_spec i (fst x)) as [->|Ne].
      * destruct (Req_EM_T (v + snd x) 0) as [Z|NZ].
        -- split; auto. intros c. cbn [look]. rewrite (Nat.eqb_sym (fst x) c). destruct (Nat.eqb_spec c (fst x)) as [->|]; [|lra]. rewrite (look_lt F) by lia. lra.
        -- split; [destruct F as (S & G); inversion S; inversion G; subst; split; constructor; auto|].
           intros c. cbn [look fst snd]. rewrite (Nat.eqb_sym (fst x) c). destruct (Nat.eqb_spec c (fst x)); lra.
      * split.
        -- destruct I1 as (I11 & I12). destruct F as (S & G). inversion G; subst. split; constructor; auto.
           rewrite Forall_forall in *. intros e He. destruct (add1_in He) as [E|He']; [unfold before; lia|apply B; auto].
        -- intros c. cbn [look]. rewrite I2. destruct (Nat.eqb_spec (fst x) c) as [<-|]; [|reflexivity]. destruct (Nat.eqb_spec (fst x) i); [congruence|lra].
Qed.

(** The columns from a on. *)
Lemma range_lo_spec n a p l : fine n l -> a <= n ->
  match range_lo a n p l with
  | None => Forall (fun e => fst e < a) l
  | Some s => p <= s /\ s - p < length l /\ Forall (fun e => fst e < a) (firstn (s - p) l) /\ Forall (fun e => a <= fst e) (skipn (s - p) l)
  end.
Proof.
  revert p. induction l as [|x r IH]; intros p F Ha; cbn [range_lo]; [constructor|].
  destruct (sorted_cons F) as (FR & Lx & B). destruct (Nat.ltb_spec n (fst x)); [lia|].
  destruct (Nat.leb_spec a (fst x)) as [Le|Gt].
  - rewrite Nat.sub_diag. cbn. split; [lia|]. split; [lia|]. split; [constructor|]. constructor; auto.
    rewrite Forall_forall in *. intros e He. apply B in He. unfold before in He. lia.
  - specialize (IH (S p) FR Ha). destruct (range_lo a n (S p) r) as [s|].
    + destruct IH as (I1 & I2 & I3 & I4). replace (s - p) with (S (s - S p)) by lia. cbn [length firstn skipn]. split; [lia|]. split; [lia|]. split; [constructor; auto|auto].
    + constructor; auto.
Qed.
Lemma range_len_all n l : Forall (fun e => fst e < n) l -> range_len n l = length l.
Proof. induction 1 as [|x r Hx HF IH]; cbn; auto. destruct (Nat.leb_spec n (fst x)); [lia|]. auto. Qed.
Lemma Forall_skipn' A (P : A -> Prop) k l : Forall P l -> Forall P (skipn k l).
Proof. intros H. rewrite <- (firstn_skipn k l) in H. apply Forall_app in H. tauto. Qed.
Lemma slice_range n a l : fine n l -> a <= n -> (let (lo, hi) := range a n l in slice lo hi l) = filter (fun e => a <=? fst e) l.
Proof.
  intros F Ha. pose proof (@range_lo_spec n a 0 l F Ha) as H. unfold range.
  assert (K : forall s : srow, Forall (fun e => fst e < a) s -> filter (fun e => a <=? fst e) s = []).
  { induction 1 as [|x r Hx HF IH]; cbn; auto. destruct (Nat.leb_spec a (fst x)); [lia|auto]. }
  assert (K' : forall s : srow, Forall (fun e => a <= fst e) s -> filter (fun e => a <=? fst e) s = s).
  { induction 1 as [|x r Hx HF IH]; cbn; auto. destruct (Nat.leb_spec a (fst x)); [f_equal; auto|lia]. }
  destruct (range_lo a n 0 l) as [s|].
  - destruct H as (_ & H1 & H2 & H3). rewrite Nat.sub_0_r in *. rewrite range_len_all by (apply Forall_skipn', F).
    unfold slice. replace (filter (fun e => a <=? fst e) l) with (skipn s l) by (rewrite <- (firstn_skipn s l) at 2; rewrite filter_app, K, K' by auto; reflexivity).
    rewrite skipn_length. replace (S s + (length l - S s) - s) with (length (skipn s l)) by (rewrite skipn_length; lia). apply firstn_all.
  - rewrite K by auto. unfold slice. rewrite Nat.sub_diag. reflexivity.
Qed.
Lemma fold_add n v s : Forall (fun e => fst e < n) s -> StronglySorted before s -> forall l, fine n l ->
  fine n (fold_left (fun l e => add1 (fst e) (snd e * v) l) s l) /\
  forall c, look (fold_left (fun l e => add1 (fst e) (snd e * v) l) s l) c = (look l c + look s c * v)%R.
Proof.
  induction s as [|x r IH]; intros FS SS l F; cbn [fold_left].
  - split; auto. intros c. cbn. lra.
  - inversion FS; inversion SS; subst. destruct (@add1_fine n (fst x) (snd x * v)%R l F ltac:(auto)) as (A1 & A2).
    destruct (IH ltac:(auto) ltac:(auto) _ A1) as (I1 & I2). split; auto. intros c. rewrite I2, A2. cbn [look].
    rewrite (Nat.eqb_sym (fst x) c). destruct (Nat.eqb_spec c (fst x)) as [->|]; [|lra].
    assert (Z : look r (fst x) = 0%R) by (apply (@look_lt n x r); [split; auto|lia]). rewrite Z. lra.
Qed.
Lemma fine_filter n f l : fine n l -> fine n (filter f l).
Proof.
  intros (S & F). split.
  - apply StronglySorted_filter. auto.
  - rewrite Forall_forall in *. intros e He. apply filter_In in He. apply F. tauto.
Qed.
Lemma look_filter n a l c : fine n l -> look (filter (fun e => a <=? fst e) l) c = if a <=? c then look l c else 0%R.
Proof.
  induction l as [|x r IH]; intros F; cbn [filter look]; [destruct (a <=? c); auto|].
  destruct (sorted_cons F) as (FR & _). specialize (IH FR).
  destruct (Nat.leb_spec a (fst x)) as [Le|Gt]; cbn [look].
  - destruct (Nat.eqb_spec (fst x) c) as [<-|]; [|auto]. destruct (Nat.leb_spec a (fst x)); [auto|lia].
  - rewrite IH. destruct (Nat.leb_spec a c); auto. destruct (Nat.eqb_spec (fst x) c); [lia|auto].
Qed.
Lemma add_range_ok n k u v l : fine n u -> fine n l -> k < n -> fine n (add_range (k + 1) n u v l) /\
  forall c, look (add_range (k + 1) n u v l) c = (look l c + if k <? c then look u c * v else 0)%R.
Proof.
  intros FU F Hk. unfold add_range. pose proof (@slice_range n (k + 1) u FU ltac:(lia)) as E. destruct (range (k + 1) n u) as (lo, hi). rewrite E.
  destruct (@fine_filter n (fun e => k + 1 <=? fst e) u FU) as (S1 & S2).
  destruct (@fold_add n v _ S2 S1 l F) as (A1 & A2). split; auto. intros c. rewrite A2, (@look_filter n) by auto.
  destruct (Nat.leb_spec (k + 1) c), (Nat.ltb_spec k c); try lia; lra.
Qed.

(** A threshold that is not positive drops nothing. *)
Lemma drop_t_none stray l p t : (t <= 0)%R -> drop_t stray l p t = do _ <- sr_at stray l p; Ok (true, l).
Proof.
  intros Ht. unfold drop_t. destruct (sr_at stray l p); cbn [bind]; auto.
  destruct (Rlt_dec _ _) as [H|]; auto. pose proof (Rabs_pos a). lra.
Qed.

(** Sorting does not change a row none of which is dropped. *)
Lemma fine_nodup n l : fine n l -> NoDup (map fst l).
Proof.
  induction l as [|x r IH]; intros F; cbn; [constructor|]. destruct (sorted_cons F) as (FR & _ & B). constructor; auto.
  intros H. apply in_map_iff in H. destruct H as (e & E & He). rewrite Forall_forall in B. apply B in He. unfold before in He. lia.
Qed.
Lemma fine_length n l : fine n l -> length l <= n.
Proof.
  intros F. rewrite <- (map_length fst l). rewrite <- (seq_length n 0). apply NoDup_incl_length; [apply (fine_nodup F)|].
  intros j Hj. apply in_map_iff in Hj. destruct Hj as (e & <- & He). apply in_seq. destruct F as (_ & F). rewrite Forall_forall in F. apply F in He. lia.
Qed.
Lemma fine_low n d l : fine n l -> length (filter (fun e => fst e <? d) l) <= d.
Proof.
  intros F. apply fine_length. split; [apply StronglySorted_filter, F|]. rewrite Forall_forall. intros e He. apply filter_In in He. destruct He as (_ & H). apply Nat.ltb_lt. auto.
Qed.
Lemma weak_strict l : StronglySorted (fun a b : nat * R => fst a <= fst b) l -> NoDup (map fst l) -> StronglySorted before l.
Proof.
  induction 1 as [|x r S IH F]; intros N; constructor; cbn in N; inversion N; subst; auto.
  rewrite Forall_forall in *. intros e He. unfold before. specialize (F e He). destruct (Nat.eq_dec (fst x) (fst e)) as [E|]; [|lia].
  exfalso. match goal with H : ~ In _ _ |- _ => apply H end. rewrite E. apply in_map. auto.
Qed.
Lemma sorted_unique l l' : StronglySorted before l -> StronglySorted before l' -> Permutation l l' -> l = l'.
Proof.
  revert l'. induction l as [|x r IH]; intros l' S S' P.
  - apply Permutation_nil in P. auto.
  - destruct l' as [|x' r']; [apply Permutation_sym, Permutation_nil in P; discriminate|].
    inversion S as [|? ? S1 S2]; inversion S' as [|? ? S1' S2']; subst.
    assert (E : x = x').
    { assert (I : In x (x' :: r')) by (apply (Permutation_in _ P); left; auto).
      assert (I' : In x' (x :: r)) by (apply (Permutation_in _ (Permutation_sym P)); left; auto).
      destruct I as [|I]; [auto|]. destruct I' as [|I']; [auto|]. rewrite Forall_forall in *. apply S2 in I'. apply S2' in I. unfold before in *. lia. }
    subst x'. f_equal. apply IH; auto. apply Permutation_cons_inv in P. auto.
Qed.
Lemma slice_perm sv a b q : (forall l, Permutation l (sv l)) -> Permutation q (sort_range sv a b q).
Proof.
  intros HS. unfold sort_range. destruct (range a b q) as (lo, hi) eqn:E.
  assert (LE : lo <= hi).
  { unfold range in E. destruct (range_lo a b 0 q); injection E as <- <-; lia. }
  rewrite <- (firstn_skipn lo q) at 1. apply Permutation_app_head.
  rewrite <- (firstn_skipn (hi - lo) (skipn lo q)) at 1. apply Permutation_app; [apply HS|].
  replace (skipn (hi - lo) (skipn lo q)) with (skipn hi q); auto.
  clear E. revert q hi LE. induction lo as [|lo IH]; intros q hi LE; [cbn; f_equal; lia|].
  destruct q as [|x r]; [cbn; rewrite !skipn_nil; auto|]. destruct hi as [|hi]; [lia|]. cbn [skipn]. rewrite (IH r hi) by lia. reflexivity.
Qed.
Lemma drop_p_all sv sc stray n r i p t : sort_by_size sv -> sort_by_column sc -> fine n r -> (t <= 0)%R -> i < n -> n <= p + 1 ->
  drop_p sv sc stray n r i p t = Ok r.
Proof.
  intros HV HC F Ht Hi Hp. unfold drop_p. destruct (Rlt_dec 0 t); [lra|]. cbn [bind]. cbv zeta.
  pose proof (fine_length F) as LN. pose proof (@fine_low n i r F) as LL.
  destruct (Nat.ltb_spec p (length (filter (fun e => fst e <? i) r))); [lia|].
  destruct (Nat.ltb_spec p (length r - 1 - length (filter (fun e => fst e <? i) r))); [lia|].
  f_equal. set (q := sort_range sv (i + 1) n (sort_range sv 0 i r)).
  assert (P : Permutation r q).
  { unfold q. eapply perm_trans; apply slice_perm; intros l; apply HV. }
  destruct (HC q) as (P1 & S1). symmetry. assert (PR : Permutation r (sc q)) by (eapply perm_trans; eauto).
  apply sorted_unique; auto; [apply F|]. apply weak_strict; auto. eapply Permutation_NoDup; [apply Permutation_map, PR|]. apply (fine_nodup F).
Qed.
