From Verif Require Import Base BaseR Matrix_Model Matrix_Spec.
Set Implicit Arguments. Unset Strict Implicit.
Open Scope R_scope.

Definition rowsum (x : Z -> R) (l : list triplet) : R :=
  sumR (map (fun t => tv t * x (tj t)) l).

Lemma rowsum_app x a b : rowsum x (a ++ b) = rowsum x a + rowsum x b.
Proof. unfold rowsum. rewrite map_app, sumR_app. reflexivity. Qed.

Lemma rowsum_perm x a b : Permutation a b -> rowsum x a = rowsum x b.
Proof. intros H. apply sumR_perm. apply Permutation_map. auto. Qed.

Lemma rowsum_default x k : rowsum x (repeat tdefault k) = 0.
Proof.
  induction k as [|k IH]; [reflexivity|].
  change (0 * x (-1)%Z + rowsum x (repeat tdefault k) = 0). rewrite IH. ring.
Qed.

(** A stored entry of row i with a valid column. *)
Definition good (i n : nat) (t : triplet) : Prop :=
  ti t = Z.of_nat i /\ (0 <= tj t < Z.of_nat n)%Z.

(** Row invariant: the accepted entries come first, then default triplets. *)
Definition RI (i n : nat) (rw : row) (ents : list triplet) : Prop :=
  exists k, fst rw = ents ++ repeat tdefault k /\ snd rw = length ents /\ Forall (good i n) ents.

Lemma upd_app_mid A (a : list A) x b y : upd (a ++ x :: b) (length a) y = a ++ y :: b.
Proof. induction a as [|h t IH]; simpl; auto. rewrite IH. reflexivity. Qed.

Lemma repeat_S_app A (x : A) k : repeat x (S k) = x :: repeat x k.
Proof. reflexivity. Qed.

Lemma row_append_spec i n j v rw ents :
  RI i n rw ents -> (0 <= j < Z.of_nat n)%Z ->
  (row_append i j v rw = (false, rw) /\ (length (fst rw) <= length ents)%nat) \/
  (exists rw', row_append i j v rw = (true, rw') /\
               RI i n rw' (ents ++ [T (Z.of_nat i) j v]) /\ length (fst rw') = length (fst rw)).
Proof.
  intros (k & Hl & Hc & Hg) Hj. destruct rw as [l c]; simpl in *. subst l c.
  destruct (Nat.leb_spec (length (ents ++ repeat tdefault k)) (length ents)) as [H|H].
  - left. split; auto.
  - right. eexists. split; [reflexivity|]. split.
    + destruct k as [|k]; [simpl in H; rewrite app_nil_r in H; lia|].
      exists k. simpl. split; [|split].
      * rewrite upd_app_mid. rewrite <- app_assoc. reflexivity.
      * rewrite app_length. simpl. lia.
      * apply Forall_app. split; auto. constructor; [split; simpl; auto|constructor].
    + simpl. apply upd_length.
Qed.

Lemma find_col_app_default j ents k :
  (0 <= j)%Z -> find_col j (ents ++ repeat tdefault k) = find_col j ents.
Proof.
  intros Hj. induction ents as [|t r IH]; simpl.
  - induction k as [|k IHk]; [reflexivity|]. cbn [repeat find_col tj tdefault].
    destruct (Z.eqb_spec (-1) j); [lia|]. cbn [app] in IHk. rewrite IHk. reflexivity.
  - destruct (tj t =? j)%Z; auto. rewrite IH. reflexivity.
Qed.

Lemma find_col_some j l p : find_col j l = Some p ->
  exists a t b, l = a ++ t :: b /\ length a = p /\ tj t = j.
Proof.
  revert p; induction l as [|t r IH]; intros p H; simpl in H; [discriminate|].
  destruct (Z.eqb_spec (tj t) j) as [E|E].
  - inversion H; subst. exists [], t, r. auto.
  - destruct (find_col j r) as [q|] eqn:F; [|discriminate]. inversion H; subst.
    destruct (IH q eq_refl) as (a & t' & b & H1 & H2 & H3).
    exists (t :: a), t', b. subst. simpl. auto.
Qed.

Lemma find_col_none j l : find_col j l = None -> forall t, In t l -> tj t <> j.
Proof.
  induction l as [|t r IH]; intros H u Hu; simpl in *; [tauto|].
  destruct (Z.eqb_spec (tj t) j) as [E|E]; [discriminate|].
  destruct (find_col j r); [discriminate|]. destruct Hu as [->|Hu]; auto.
Qed.

(** Effect of one scalar insertion on a row. *)
Lemma row_insert_spec i n j v ty rw ents :
  RI i n rw ents -> (0 <= j < Z.of_nat n)%Z ->
  (row_insert i j v ty rw = (false, rw) /\ (length (fst rw) <= length ents)%nat /\
   (ty = ADD -> forall t, In t ents -> tj t <> j)) \/
  (exists rw' ents', row_insert i j v ty rw = (true, rw') /\ RI i n rw' ents' /\
     ents' <> [] /\
     (forall x, rowsum x ents' = rowsum x ents + v * x j) /\
     length (fst rw') = length (fst rw)).
Proof.
  intros H Hj. assert (App := row_append_spec v H Hj).
  assert (AppCase : (row_append i j v rw = (false, rw) /\ (length (fst rw) <= length ents)%nat) \/
     (exists rw' ents', row_append i j v rw = (true, rw') /\ RI i n rw' ents' /\ ents' <> [] /\
        (forall x, rowsum x ents' = rowsum x ents + v * x j) /\
        length (fst rw') = length (fst rw))).
  { destruct App as [(E & L)|(rw' & E & R' & L)]; [left; split; auto|right].
    exists rw', (ents ++ [T (Z.of_nat i) j v]). split; [auto|]. split; [auto|]. split.
    - destruct ents; discriminate.
    - split; auto. intros x. rewrite rowsum_app. unfold rowsum at 2. simpl. ring. }
  destruct ty; simpl.
  - destruct AppCase as [(E & L)|HH]; [left|right; auto].
    split; [auto|]. split; [auto|]. discriminate.
  - destruct H as (k & Hl & Hc & Hg).
    assert (HF : find_col j (fst rw) = find_col j ents) by (rewrite Hl; apply find_col_app_default; lia).
    rewrite HF. destruct (find_col j ents) as [p|] eqn:F.
    + right. rewrite Hl. destruct (find_col_some F) as (a & t & b & E1 & E2 & E3).
      subst ents p. exists (add_at ((a ++ t :: b) ++ repeat tdefault k) (length a) v, snd rw).
      exists (a ++ T (ti t) (tj t) (tv t + v) :: b).
      assert (AA : add_at ((a ++ t :: b) ++ repeat tdefault k) (length a) v =
                   (a ++ T (ti t) (tj t) (tv t + v) :: b) ++ repeat tdefault k).
      { unfold add_at. rewrite <- app_assoc. simpl.
        rewrite nth_error_app2 by lia. rewrite Nat.sub_diag. simpl.
        rewrite upd_app_mid. rewrite <- app_assoc. reflexivity. }
      split; [reflexivity|]. split; [|split; [|split]].
      * exists k. simpl. split; [exact AA|]. split.
        { rewrite Hc. rewrite !app_length. reflexivity. }
        apply Forall_app in Hg. destruct Hg as [Ha Hb]. inversion Hb; subst.
        apply Forall_app. split; [auto|constructor; auto].
      * destruct a; discriminate.
      * intros x. rewrite !rowsum_app. unfold rowsum. simpl. rewrite <- E3. ring.
      * simpl. rewrite AA. rewrite ?Hl. rewrite !app_length. simpl. lia.
    + destruct AppCase as [(E & L)|HH]; [left|right; auto].
      split; [auto|]. split; [auto|]. intros _. apply find_col_none. auto.
Qed.

(** ** Histories *)

Definition MI (n : nat) (A : coo) (E : nat -> list triplet) : Prop :=
  forall i rw, nth_error A i = Some rw -> RI i n rw (E i).

Lemma MI_pre n caps : MI n (preallocate caps) (fun _ => []).
Proof.
  intros i rw H. unfold preallocate in H.
  rewrite nth_error_map in H. destruct (nth_error caps i) as [c|]; [|discriminate].
  inversion H; subst. exists c. simpl. auto.
Qed.

Lemma upd_same A (l : list A) i x : nth_error l i = Some x -> upd l i x = l.
Proof.
  revert i; induction l as [|h t IH]; intros [|i] H; simpl in *; try discriminate.
  - inversion H; subst; auto.
  - rewrite IH; auto.
Qed.

Lemma run_spec n ops : forall A E,
  MI n A E -> Forall (op_ok (length A) n) ops ->
  exists flags A' E', run A ops = Ok (flags, A') /\ length flags = length ops /\
    length A' = length A /\ MI n A' E' /\
    (forall i x, (i < length A)%nat -> rowsum x (E' i) = rowsum x (E i) + contrib i x ops flags) /\
    (forall i, (i < length A)%nat -> (E' i <> [] <-> E i <> [] \/ touched i ops flags)).
Proof.
  induction ops as [|o r IH]; intros A E HM HO.
  - exists [], A, E. simpl. repeat split; auto.
    + intros i x Hi. unfold contrib. simpl. ring.
    + intros [H0|(o & [] & _)]; auto.
  - inversion HO as [|? ? [Hi Hj] HO']; subst.
    destruct (nth_error A (o_i o)) as [rw|] eqn:En;
      [|apply nth_error_None in En; lia].
    assert (HR := HM _ _ En).
    simpl. unfold insert, rd. rewrite En. simpl.
    destruct (row_insert_spec (o_v o) (o_t o) HR Hj) as [(ER & _)|(rw' & e' & ER & HR' & Hne & Hs & HL)].
    + rewrite ER. simpl.
      assert (EU : upd A (o_i o) rw = A) by (apply upd_same; auto).
      rewrite EU.
      destruct (IH A E HM HO') as (fl & A' & E' & Hrun & HLf & HLA & HM' & Hc & Ht).
      rewrite Hrun. simpl. exists (false :: fl), A', E'.
      repeat split; auto.
      * simpl. lia.
      * intros i x Hi'. rewrite Hc by auto. unfold contrib. simpl. ring.
      * intros HE. apply Ht in HE; auto. destruct HE as [HE|(o' & HI & Ho)]; auto.
        right. exists o'. split; auto. right. auto.
      * intros HE. apply Ht; auto. destruct HE as [HE|(o' & HI & Ho)]; auto.
        destruct HI as [HI|HI]; [inversion HI|]. right. exists o'. auto.
    + rewrite ER. simpl.
      set (A1 := upd A (o_i o) rw').
      set (E1 := fun k => if Nat.eqb k (o_i o) then e' else E k).
      assert (HM1 : MI n A1 E1).
      { intros k rwk Hk. unfold A1 in Hk. unfold E1.
        destruct (Nat.eqb_spec k (o_i o)) as [->|N].
        - rewrite nth_error_upd_eq in Hk by auto. inversion Hk; subst. auto.
        - rewrite nth_error_upd_neq in Hk by auto. apply HM; auto. }
      assert (HLA1 : length A1 = length A) by apply upd_length.
      destruct (IH A1 E1 HM1) as (fl & A' & E' & Hrun & HLf & HLA & HM' & Hc & Ht).
      { rewrite HLA1. auto. }
      rewrite Hrun. simpl. exists (true :: fl), A', E'.
      repeat split; auto.
      * simpl. lia.
      * lia.
      * intros i x Hi'. rewrite Hc by lia. unfold contrib. simpl. unfold E1.
        rewrite Nat.eqb_sym.
        destruct (Nat.eqb_spec (o_i o) i) as [E0|N]; [subst i; rewrite Hs|]; ring.
      * intros HE. apply Ht in HE; [|lia]. unfold E1 in HE.
        destruct (Nat.eqb_spec i (o_i o)) as [->|N].
        { right. exists o. split; auto. left. auto. }
        destruct HE as [HE|(o' & HI & Ho)]; auto.
        right. exists o'. split; auto. right. auto.
      * intros HE. apply Ht; [lia|]. unfold E1.
        destruct (Nat.eqb_spec i (o_i o)) as [->|N]; auto.
        destruct HE as [HE|(o' & HI & Ho)]; auto.
        destruct HI as [HI|HI]; [inversion HI; subst; tauto|]. right. exists o'. auto.
Qed.

(** ** Assembly of one row *)

Definition tsorted := StronglySorted (fun a b => compare_triplet b a = false).
Definition neg (t : triplet) : bool := (tj t =? -1)%Z.

Lemma tsorted_split l : tsorted l ->
  l = filter (fun t => negb (neg t)) l ++ filter neg l.
Proof.
  induction 1 as [|t r Hs IH Hf]; simpl; auto.
  destruct (neg t) eqn:N; simpl; [|f_equal; exact IH].
  assert (All : Forall (fun u => neg u = true) r).
  { apply Forall_forall. intros u Hu. rewrite Forall_forall in Hf. specialize (Hf u Hu).
    unfold compare_triplet in Hf. unfold neg in *.
    destruct (tj u =? -1)%Z; auto. rewrite N in Hf. discriminate. }
  assert (E1 : filter (fun t => negb (neg t)) r = []).
  { clear -All. induction All as [|u v Hu Hv IHv]; simpl; auto. rewrite Hu. simpl. auto. }
  assert (E2 : filter neg r = r).
  { clear -All. induction All as [|u v Hu Hv IHv]; simpl; auto. rewrite Hu. rewrite IHv. auto. }
  rewrite E1, E2. reflexivity.
Qed.

Lemma Permutation_filter A (f : A -> bool) l1 l2 :
  Permutation l1 l2 -> Permutation (filter f l1) (filter f l2).
Proof.
  induction 1 as [|x a b H IH|x y a|a b c H1 IH1 H2 IH2]; simpl; auto.
  - destruct (f x); auto.
  - destruct (f x), (f y); auto. constructor.
  - eapply Permutation_trans; eauto.
Qed.

Lemma filter_good i n ents :
  Forall (good i n) ents ->
  filter (fun t => negb (neg t)) ents = ents.
Proof.
  induction 1 as [|t r [_ Ht] Hr IH]; simpl; auto.
  unfold neg at 1. destruct (Z.eqb_spec (tj t) (-1)); [lia|]. simpl. rewrite IH. auto.
Qed.

Lemma pop_rev_negs negs s :
  Forall (fun u => neg u = true) negs ->
  match s with [] => True | t :: _ => neg t = false end ->
  pop_rev (negs ++ s) = match s with [] => UB | _ => Ok s end.
Proof.
  induction 1 as [|u v Hu Hv IH]; intros Hs; simpl.
  - destruct s as [|t r]; simpl; auto. unfold neg in Hs. rewrite Hs. reflexivity.
  - unfold neg in Hu. rewrite Hu. auto.
Qed.

Lemma StronglySorted_filter A (R : A -> A -> Prop) f l :
  StronglySorted R l -> StronglySorted R (filter f l).
Proof.
  induction 1 as [|t r Hs IH Hf]; simpl; [constructor|].
  destruct (f t); auto. constructor; auto.
  apply Forall_forall. intros u Hu. apply filter_In in Hu.
  rewrite Forall_forall in Hf. apply Hf. tauto.
Qed.

Lemma pop_empty_spec srt i n rw ents :
  is_sort srt -> RI i n rw ents ->
  (ents = [] -> pop_empty (srt (fst rw)) = UB) /\
  (ents <> [] -> exists l, pop_empty (srt (fst rw)) = Ok l /\ Permutation ents l /\ tsorted l).
Proof.
  intros Hs (k & Hl & Hc & Hg). destruct (Hs (fst rw)) as [HP HS].
  set (s := srt (fst rw)) in *.
  assert (Esp := tsorted_split HS).
  set (ps := filter (fun t => negb (neg t)) s) in *.
  set (ns := filter neg s) in *.
  assert (Pe : Permutation ents ps).
  { unfold ps. rewrite <- (filter_good Hg).
    replace (filter (fun t => negb (neg t)) ents)
      with (filter (fun t => negb (neg t)) (fst rw)).
    - apply Permutation_filter. auto.
    - rewrite Hl, filter_app. replace (filter (fun t => negb (neg t)) (repeat tdefault k)) with (@nil triplet).
      + rewrite app_nil_r. auto.
      + clear. induction k; simpl; auto. }
  assert (Hns : Forall (fun u => neg u = true) (rev ns)).
  { apply Forall_rev. apply Forall_forall. intros u Hu. apply filter_In in Hu. tauto. }
  assert (Hps : match rev ps with [] => True | t :: _ => neg t = false end).
  { destruct (rev ps) as [|t r] eqn:Er; auto.
    assert (In t ps). { apply in_rev. rewrite Er. left. auto. }
    apply filter_In in H. destruct H as [_ H]. destruct (neg t); auto; discriminate. }
  unfold pop_empty. rewrite Esp, rev_app_distr, (pop_rev_negs Hns Hps).
  split; intros He.
  - subst ents. apply Permutation_nil in Pe. rewrite Pe. reflexivity.
  - exists ps. destruct (rev ps) as [|t r] eqn:Er.
    + exfalso. assert (ps = []). { rewrite <- (rev_involutive ps), Er. auto. }
      rewrite H in Pe. apply Permutation_sym, Permutation_nil in Pe. auto.
    + simpl. split; [|split; auto].
      * f_equal. rewrite <- (rev_involutive ps), Er. reflexivity.
      * apply StronglySorted_filter. auto.
Qed.

Lemma good_perm i n a b : Permutation a b -> Forall (good i n) a -> Forall (good i n) b.
Proof. intros H. apply Permutation_Forall. auto. Qed.

Lemma tsorted_cols i n l : tsorted l -> Forall (good i n) l ->
  StronglySorted (fun a b => (tj a <= tj b)%Z) l.
Proof.
  induction 1 as [|t r Hs IH Hf]; intros Hg; constructor; inversion Hg; subst; auto.
  apply Forall_forall. intros u Hu.
  rewrite Forall_forall in Hf, H2. specialize (Hf u Hu). specialize (H2 u Hu).
  destruct H1 as [_ Ht], H2 as [_ Hu']. unfold compare_triplet in Hf.
  destruct (Z.eqb_spec (tj u) (-1)); [lia|]. destruct (Z.eqb_spec (tj t) (-1)); [lia|].
  apply Z.ltb_ge in Hf. auto.
Qed.

Lemma diag_scan_spec i n l : forall d,
  StronglySorted (fun a b => (tj a <= tj b)%Z) l -> Forall (good i n) l ->
  ((exists t, In t l /\ tj t = Z.of_nat i) -> diag_scan d l = 0%nat) /\
  ((forall t, In t l -> tj t <> Z.of_nat i) -> (d > 0 \/ l <> [])%nat ->
   exists e, diag_scan d l = S e).
Proof.
  induction l as [|t r IH]; intros d Hs Hg; simpl.
  - split; [intros (t & [] & _)|]. intros _ [H|H]; [destruct d; [lia|eauto]|tauto].
  - inversion Hs; subst. inversion Hg as [|? ? [Ht1 Ht2] Hg']; subst.
    destruct (IH (S d)) as [IH1 IH2]; auto.
    split.
    + intros (u & Hu & Eu). rewrite Ht1.
      destruct (Z.eqb_spec (tj t) (Z.of_nat i)); auto.
      destruct (Z.ltb_spec (Z.of_nat i) (tj t)) as [L|L].
      * exfalso. destruct Hu as [->|Hu]; [auto|].
        rewrite Forall_forall in H2. specialize (H2 u Hu). lia.
      * apply IH1. exists u. destruct Hu as [->|Hu]; [tauto|auto].
    + intros Hn _. rewrite Ht1.
      destruct (Z.eqb_spec (tj t) (Z.of_nat i)) as [E|E]; [exfalso; apply (Hn t); auto|].
      destruct (Z.of_nat i <? tj t)%Z; [eauto|]. apply IH2; [|left; lia].
      intros u Hu. apply Hn. auto.
Qed.

Lemma insert_at_perm l p t : Permutation (t :: l) (insert_at l p t).
Proof.
  unfold insert_at. rewrite <- (firstn_skipn p l) at 1. apply Permutation_middle.
Qed.

(** The assembled row: a sorted rearrangement of the accepted entries, plus a
    zero on the diagonal when it was missing. *)
Lemma assemble_row_spec srt i n rw ents :
  is_sort srt -> RI i n rw ents ->
  (ents = [] -> assemble_row srt n i rw = UB) /\
  (ents <> [] -> exists l, assemble_row srt n i rw = Ok l /\
     Forall (good i n) l /\ StronglySorted (fun a b => (tj a <= tj b)%Z) l /\ l <> [] /\
     (Permutation ents l \/
      (Permutation (T (Z.of_nat i) (Z.of_nat i) 0 :: ents) l /\
       forall t, In t ents -> tj t <> Z.of_nat i)) /\
     ((i < n)%nat -> exists t, In t l /\ tj t = Z.of_nat i)).
Proof.
  intros Hs HR. assert (HR' := HR). destruct HR' as (k & Hl & Hc & Hg).
  destruct (pop_empty_spec Hs HR) as [H1 H2]. unfold assemble_row. split; intros He.
  - rewrite (H1 He). reflexivity.
  - destruct (H2 He) as (l & El & Pl & Sl). rewrite El. simpl.
    assert (Gl := good_perm Pl Hg).
    assert (Cl := tsorted_cols Sl Gl).
    assert (Nl : l <> []).
    { intros ->. apply Permutation_sym, Permutation_nil in Pl. auto. }
    unfold fix_diag. destruct (Nat.ltb_spec i n) as [Hi|Hi].
    + destruct (in_dec Z.eq_dec (Z.of_nat i) (map tj l)) as [HI|HI].
      * apply in_map_iff in HI. destruct HI as (t & Et & It).
        destruct (diag_scan_spec 0 Cl Gl) as [D _].
        rewrite D by eauto. exists l. repeat split; auto. eauto.
      * destruct (diag_scan_spec 0 Cl Gl) as [_ D].
        assert (HN : forall t, In t l -> tj t <> Z.of_nat i).
        { intros t It E. apply HI. apply in_map_iff. eauto. }
        destruct (D HN (or_intror Nl)) as (e & Ee). rewrite Ee.
        set (z := T (Z.of_nat i) (Z.of_nat i) 0).
        destruct (Hs (insert_at l e z)) as [P' S'].
        set (l' := srt (insert_at l e z)) in *.
        assert (Pz : Permutation (z :: ents) l').
        { eapply Permutation_trans; [|exact P'].
          eapply Permutation_trans; [apply Permutation_cons; [reflexivity|exact Pl]|].
          apply insert_at_perm. }
        assert (Gl' : Forall (good i n) l').
        { apply (Permutation_Forall Pz). constructor; auto. unfold z. split; simpl; lia. }
        exists l'. split; [auto|]. split; [auto|]. split; [|split; [|split]].
        -- eapply tsorted_cols; eauto.
        -- intros E. rewrite E in Pz. apply Permutation_sym, Permutation_nil in Pz. discriminate.
        -- right. split; auto. intros t It. apply HN. eapply Permutation_in; eauto.
        -- intros _. exists z. split; auto. eapply Permutation_in; [exact Pz|left; auto].
    + exists l. repeat split; auto. intros; lia.
Qed.

Lemma assemble_row_sum srt i n rw ents l x :
  is_sort srt -> RI i n rw ents -> assemble_row srt n i rw = Ok l -> rowsum x l = rowsum x ents.
Proof.
  intros Hs HR E. destruct (assemble_row_spec Hs HR) as [H1 H2].
  destruct ents as [|t r].
  - rewrite (H1 eq_refl) in E. discriminate.
  - destruct H2 as (l' & E' & _ & _ & _ & HP & _); [discriminate|].
    rewrite E' in E. inversion E; subst.
    destruct HP as [HP|[HP _]]; [symmetry; apply rowsum_perm; auto|].
    rewrite <- (rowsum_perm x HP). unfold rowsum. simpl. ring.
Qed.

(** ** Assembly of the matrix *)

Definition row_fine (i n : nat) (E : list triplet) (l : list triplet) : Prop :=
  Forall (good i n) l /\ StronglySorted (fun a b => (tj a <= tj b)%Z) l /\ l <> [] /\
  (Permutation E l \/
   (Permutation (T (Z.of_nat i) (Z.of_nat i) 0 :: E) l /\ forall t, In t E -> tj t <> Z.of_nat i)) /\
  ((i < n)%nat -> exists t, In t l /\ tj t = Z.of_nat i).

Lemma assemble_rows_spec srt n A : is_sort srt -> forall i0 E,
  (forall k rw, nth_error A k = Some rw -> RI (i0 + k) n rw (E (i0 + k)%nat)) ->
  (forall k, (k < length A)%nat -> E (i0 + k)%nat <> []) ->
  exists ls, assemble_rows srt n i0 A = Ok ls /\ length ls = length A /\
    (forall k l, nth_error ls k = Some l -> row_fine (i0 + k) n (E (i0 + k)%nat) l).
Proof.
  intros Hs. induction A as [|rw r IH]; intros i0 E HR HE; simpl.
  - exists []. split; [auto|]. split; [auto|]. intros k l H. destruct k; discriminate.
  - assert (R0 := HR 0%nat rw eq_refl). rewrite Nat.add_0_r in R0.
    assert (E0 := HE 0%nat ltac:(simpl; lia)). rewrite Nat.add_0_r in E0.
    destruct (assemble_row_spec Hs R0) as [_ H2].
    destruct (H2 E0) as (l & El & Hf). rewrite El. simpl.
    destruct (IH (S i0) E) as (ls & Els & HL & Hall).
    { intros k rw' Hk. replace (S i0 + k)%nat with (i0 + S k)%nat by lia. apply HR. auto. }
    { intros k Hk. replace (S i0 + k)%nat with (i0 + S k)%nat by lia. apply HE. simpl. lia. }
    rewrite Els. simpl. exists (l :: ls). split; [auto|]. split; [simpl; lia|].
    intros k l' Hk. destruct k as [|k]; simpl in Hk.
    + inversion Hk; subst. rewrite Nat.add_0_r. exact Hf.
    + replace (i0 + S k)%nat with (S i0 + k)%nat by lia. apply Hall. auto.
Qed.

Lemma assemble_rows_ub srt n A : is_sort srt -> forall i0 E,
  (forall k rw, nth_error A k = Some rw -> RI (i0 + k) n rw (E (i0 + k)%nat)) ->
  (exists k, (k < length A)%nat /\ E (i0 + k)%nat = []) ->
  assemble_rows srt n i0 A = UB.
Proof.
  intros Hs. induction A as [|rw r IH]; intros i0 E HR (k & Hk & Ek); simpl in *; [lia|].
  assert (R0 := HR 0%nat rw eq_refl). rewrite Nat.add_0_r in R0.
  destruct (assemble_row_spec Hs R0) as [H1 H2].
  assert (Dec : E i0 = [] \/ E i0 <> []) by (destruct (E i0); [left; auto|right; discriminate]).
  destruct Dec as [D|D].
  - rewrite (H1 D). reflexivity.
  - destruct (H2 D) as (l & El & _). rewrite El. simpl.
    destruct k as [|k]; [rewrite Nat.add_0_r in Ek; tauto|].
    rewrite (IH (S i0) E).
    + reflexivity.
    + intros q rw' Hq. replace (S i0 + q)%nat with (i0 + S q)%nat by lia. apply HR. auto.
    + exists k. split; [lia|]. replace (S i0 + k)%nat with (i0 + S k)%nat by lia. auto.
Qed.

(** ** CSR structure *)

Definition offs (ls : list (list triplet)) (i : nat) : nat := length (concat (firstn i ls)).

Lemma fill_rows ls : forall i p, fst (fill i p ls) = map (fun k => (p + offs ls k)%nat) (seq 1 (length ls)).
Proof.
  induction ls as [|l r IH]; intros i p; simpl; auto.
  specialize (IH (S i) (p + length l)%nat).
  destruct (fill (S i) (p + length l) r) as [rs ds] eqn:F. simpl in *. subst rs.
  f_equal.
  - unfold offs. simpl. rewrite app_nil_r. auto.
  - rewrite <- (seq_shift (length r) 1), map_map. apply map_ext. intros k.
    unfold offs. simpl. rewrite app_length. lia.
Qed.

Lemma fill_diag_len ls : forall i p, length (snd (fill i p ls)) = length ls.
Proof.
  induction ls as [|l r IH]; intros i p; simpl; auto.
  specialize (IH (S i) (p + length l)%nat).
  destruct (fill (S i) (p + length l) r). simpl in *. auto.
Qed.

Lemma fill_diag ls : forall i p k l, nth_error ls k = Some l ->
  nth_error (snd (fill i p ls)) k = Some (diag_pos (i + k) (p + offs ls k) l None).
Proof.
  induction ls as [|l r IH]; intros i p k l' H; [destruct k; discriminate|].
  simpl. specialize (IH (S i) (p + length l)%nat).
  destruct (fill (S i) (p + length l) r) as [rs ds] eqn:F. simpl in *.
  destruct k as [|k]; simpl in *.
  - inversion H; subst. unfold offs. simpl. rewrite !Nat.add_0_r. auto.
  - rewrite IH with (l := l') by auto. f_equal.
    replace (S (i + k)) with (i + S k)%nat by lia. f_equal.
    unfold offs. simpl. rewrite app_length. lia.
Qed.

Lemma csr_rows ls : c_rows (csr_of ls) = map (offs ls) (seq 0 (S (length ls))).
Proof.
  unfold csr_of. assert (F := fill_rows ls 0 0). destruct (fill 0 0 ls) as [rs ds]. simpl in *.
  subst rs. reflexivity.
Qed.
Lemma csr_cols ls : c_cols (csr_of ls) = map tj (concat ls).
Proof. unfold csr_of. destruct (fill 0 0 ls). reflexivity. Qed.
Lemma csr_vals ls : c_vals (csr_of ls) = map tv (concat ls).
Proof. unfold csr_of. destruct (fill 0 0 ls). reflexivity. Qed.
Lemma csr_diag ls : c_diag (csr_of ls) = snd (fill 0 0 ls).
Proof. unfold csr_of. destruct (fill 0 0 ls). reflexivity. Qed.

Lemma csr_row_rd ls i : (i <= length ls)%nat -> rd (c_rows (csr_of ls)) i = Ok (offs ls i).
Proof.
  intros H. rewrite rd_ok with (d := 0%nat) by (rewrite csr_rows, map_length, seq_length; lia).
  rewrite csr_rows, nth_map_seq by lia. auto.
Qed.

Lemma csr_rows_len ls : (length (c_rows (csr_of ls)) - 1 = length ls)%nat.
Proof. rewrite csr_rows, map_length, seq_length. lia. Qed.

Lemma offs_S ls i l : nth_error ls i = Some l -> offs ls (S i) = (offs ls i + length l)%nat.
Proof.
  revert i; induction ls as [|h t IH]; intros [|i] H; simpl in H; try discriminate.
  - inversion H; subst. unfold offs. simpl. rewrite app_nil_r. auto.
  - unfold offs in *. specialize (IH i H). rewrite firstn_cons, concat_cons, app_length.
    rewrite IH. rewrite (firstn_cons i), concat_cons, app_length. lia.
Qed.

Lemma offs_split (ls : list (list triplet)) i l : nth_error ls i = Some l ->
  concat ls = concat (firstn i ls) ++ l ++ concat (skipn (S i) ls).
Proof.
  revert i; induction ls as [|h t IH]; intros [|i] H; simpl in H; try discriminate.
  - inversion H; subst. reflexivity.
  - simpl. rewrite (IH i H) at 1. rewrite <- app_assoc. reflexivity.
Qed.

(** A left fold over the positions of a row is a fold over its entries. *)
Lemma foldM_row S (G : S -> Z -> R -> res S) post l : forall pre s,
  foldM (fun s p => do j <- rd (map tj (pre ++ l ++ post)) p;
                    do v <- rd (map tv (pre ++ l ++ post)) p; G s j v)
        (seq (length pre) (length l)) s =
  foldM (fun s t => G s (tj t) (tv t)) l s.
Proof.
  induction l as [|t r IH]; intros pre s; simpl; auto.
  assert (E : nth_error (pre ++ t :: r ++ post) (length pre) = Some t).
  { rewrite nth_error_app2 by lia. rewrite Nat.sub_diag. reflexivity. }
  unfold rd at 1 2. rewrite !nth_error_map, E. simpl.
  destruct (G s (tj t) (tv t)); simpl; auto.
  specialize (IH (pre ++ [t]) a). rewrite app_length in IH. simpl in IH.
  rewrite Nat.add_1_r in IH. rewrite <- app_assoc in IH. simpl in IH. exact IH.
Qed.

Lemma rdz_ok x n j : length x = n -> (0 <= j < Z.of_nat n)%Z -> rdz x j = Ok (at_col x j).
Proof.
  intros HL Hj. unfold rdz. destruct (Z.ltb_spec j 0); [lia|].
  apply rd_ok. lia.
Qed.

Lemma mult_row_spec ls i n l x : nth_error ls i = Some l -> Forall (good i n) l -> length x = n ->
  mult_row (csr_of ls) x (offs ls i) (offs ls (S i)) = Ok (rowsum (at_col x) l).
Proof.
  intros Hl Hg Hx. unfold mult_row. rewrite (offs_S Hl).
  replace (offs ls i + length l - offs ls i)%nat with (length l) by lia.
  rewrite csr_cols, csr_vals. rewrite (offs_split Hl).
  unfold offs.
  rewrite (foldM_row (fun temp j v => do xj <- rdz x j; Ok (temp + xj * v))).
  assert (G : forall s, foldM (fun s t => do xj <- rdz x (tj t); Ok (s + xj * tv t)) l s =
              Ok (s + rowsum (at_col x) l)).
  { clear Hl. induction Hg as [|t r [_ Ht] Hr IH]; intros s; simpl.
    - unfold rowsum. simpl. f_equal. ring.
    - rewrite (rdz_ok Hx Ht). simpl. rewrite IH. f_equal. unfold rowsum. simpl. ring. }
  rewrite G. f_equal. ring.
Qed.

Lemma nth_error_ex A (l : list A) i : (i < length l)%nat -> exists a, nth_error l i = Some a.
Proof.
  intros H. destruct (nth_error l i) eqn:E; eauto. apply nth_error_None in E. lia.
Qed.

Definition cols_ok (n : nat) (ls : list (list triplet)) : Prop :=
  forall i l, nth_error ls i = Some l -> Forall (good i n) l.

Lemma multiply_spec ls n x : cols_ok n ls -> length x = n ->
  multiply (csr_of ls) x =
  Ok (map (fun i => rowsum (at_col x) (nth i ls [])) (seq 0 (length ls))).
Proof.
  intros HC Hx. unfold multiply. rewrite csr_rows_len.
  apply mapM_ok. intros i Hi. apply in_seq in Hi.
  rewrite !csr_row_rd by lia. simpl.
  destruct (nth_error_ex (l := ls) (i := i)) as (l & Hl); [lia|].
  rewrite (mult_row_spec Hl (HC _ _ Hl) Hx).
  f_equal. f_equal. symmetry. apply nth_error_nth. auto.
Qed.

(** ** C01 *)

Lemma nth_map' A B (f : A -> B) l i d d' : (i < length l)%nat -> nth i (map f l) d = f (nth i l d').
Proof.
  intros H. rewrite nth_indep with (d' := f d') by (rewrite map_length; auto). apply map_nth.
Qed.

Lemma history_assembles srt caps n ops : is_sort srt ->
  Forall (op_ok (length caps) n) ops ->
  exists flags A E, run (preallocate caps) ops = Ok (flags, A) /\ length flags = length ops /\
    length A = length caps /\ MI n A E /\
    (forall i x, (i < length caps)%nat -> rowsum x (E i) = contrib i x ops flags) /\
    (forall i, (i < length caps)%nat -> (E i <> [] <-> touched i ops flags)) /\
    ((forall i, (i < length caps)%nat -> touched i ops flags) ->
     exists ls, assemble srt n A = Ok (csr_of ls) /\ length ls = length caps /\
       (forall k l, nth_error ls k = Some l -> row_fine k n (E k) l)) /\
    ((exists i, (i < length caps)%nat /\ ~ touched i ops flags) -> assemble srt n A = UB).
Proof.
  intros Hs HO.
  assert (LP : length (preallocate caps) = length caps) by (unfold preallocate; apply map_length).
  destruct (@run_spec n ops (preallocate caps) (fun _ => []) (@MI_pre n caps))
    as (fl & A & E & Hr & HLf & HLA & HM & Hc & Ht).
  { rewrite LP. auto. }
  exists fl, A, E. rewrite LP in *.
  split; [auto|]. split; [auto|]. split; [auto|]. split; [auto|].
  split. { intros i x Hi. rewrite Hc by auto. unfold rowsum at 1. simpl. ring. }
  split. { intros i Hi. rewrite Ht by auto. split; [intros [H|H]; [tauto|auto]|auto]. }
  split.
  - intros Htouch. destruct (@assemble_rows_spec srt n A Hs 0 E) as (ls & Els & HL & Hall).
    + intros k rw Hk. simpl. apply HM. auto.
    + intros k Hk. simpl. apply Ht; [lia|]. right. apply Htouch. lia.
    + unfold assemble. rewrite Els. simpl. exists ls. split; auto. split; [lia|]. auto.
  - intros (i & Hi & HN). unfold assemble. rewrite (@assemble_rows_ub srt n A Hs 0 E); auto.
    exists i. split; [lia|]. simpl.
    destruct (E i) eqn:EE; auto. exfalso.
    destruct (proj1 (Ht i Hi)) as [H|H]; auto; [rewrite EE; discriminate].
Qed.

Lemma row_fine_sum i n E l x : row_fine i n E l -> rowsum x l = rowsum x E.
Proof.
  intros (_ & _ & _ & [HP|[HP _]] & _); [symmetry; apply rowsum_perm; auto|].
  rewrite <- (rowsum_perm x HP). unfold rowsum. simpl. ring.
Qed.

Lemma matrix_multiply_reflects_insertions srt caps n ops x : is_sort srt ->
  Forall (op_ok (length caps) n) ops -> length x = n ->
  exists flags A, run (preallocate caps) ops = Ok (flags, A) /\ length flags = length ops /\
    ((forall i, (i < length caps)%nat -> touched i ops flags) ->
     exists C y, assemble srt n A = Ok C /\ multiply C x = Ok y /\ length y = length caps /\
       forall i, (i < length caps)%nat -> nth i y 0 = contrib i (at_col x) ops flags) /\
    ((exists i, (i < length caps)%nat /\ ~ touched i ops flags) -> assemble srt n A = UB).
Proof.
  intros Hs HO Hx.
  destruct (history_assembles Hs HO) as (fl & A & E & Hr & HLf & HLA & HM & Hc & Ht & Hok & Hub).
  exists fl, A. split; [auto|]. split; [auto|]. split; [|auto].
  intros Htouch. destruct (Hok Htouch) as (ls & Eas & HL & Hf).
  exists (csr_of ls). eexists. split; [eauto|]. split.
  { apply multiply_spec with (n := n); auto. intros i l Hl. apply Hf in Hl. destruct Hl. auto. }
  rewrite map_length, seq_length. split; [auto|].
  intros i Hi. rewrite nth_map_seq by lia.
  destruct (nth_error_ex (l := ls) (i := i)) as (l & Hl); [lia|].
  rewrite (nth_error_nth ls _ [] Hl).
  rewrite (row_fine_sum (at_col x) (Hf _ _ Hl)). auto.
Qed.

(** ** C02 *)

Lemma diag_pos_acc i l : forall p acc, (forall t, In t l -> tj t <> Z.of_nat i) -> diag_pos i p l acc = acc.
Proof.
  induction l as [|t r IH]; intros p acc H; simpl; auto.
  destruct (Z.eqb_spec (tj t) (Z.of_nat i)) as [E|E]; [exfalso; apply (H t); simpl; auto|].
  apply IH. intros u Hu. apply H. simpl; auto.
Qed.

Lemma diag_pos_spec i l : forall p acc, (exists t, In t l /\ tj t = Z.of_nat i) ->
  exists q t, diag_pos i p l acc = Some (p + q)%nat /\ (q < length l)%nat /\
            nth_error l q = Some t /\ tj t = Z.of_nat i /\
            (forall q' t', nth_error l q' = Some t' -> tj t' = Z.of_nat i -> (q' <= q)%nat).
Proof.
  induction l as [|t r IH]; intros p acc (u & Hu & Eu); [destruct Hu|].
  simpl. destruct (in_dec Z.eq_dec (Z.of_nat i) (map tj r)) as [HI|HI].
  - apply in_map_iff in HI. destruct HI as (w & Ew & Iw).
    destruct (IH (S p) (if (tj t =? Z.of_nat i)%Z then Some p else acc)) as (q & t' & H1 & H2 & H3 & H4 & H5).
    { eauto. }
    exists (S q), t'. split; [rewrite H1; f_equal; lia|]. split; [simpl; lia|].
    split; [auto|]. split; [auto|].
    intros q' t'' Hq' Et. destruct q' as [|q']; [lia|]. simpl in Hq'. specialize (H5 _ _ Hq' Et). lia.
  - assert (NR : forall t0, In t0 r -> tj t0 <> Z.of_nat i).
    { intros t0 I0 E0. apply HI. apply in_map_iff. eauto. }
    destruct Hu as [->|Hu]; [|exfalso; eapply NR; eauto].
    rewrite Eu, Z.eqb_refl. rewrite diag_pos_acc by auto.
    exists 0%nat, u. simpl. split; [f_equal; lia|]. split; [lia|]. split; [auto|]. split; [auto|].
    intros q' t'' Hq' Et. destruct q' as [|q']; [lia|]. simpl in Hq'.
    apply nth_error_In in Hq'. exfalso. eapply NR; eauto.
Qed.

Lemma concat_nth ls i l q t : nth_error ls i = Some l -> nth_error l q = Some t ->
  nth_error (concat ls) (offs ls i + q) = Some t.
Proof.
  intros Hl Hq. rewrite (offs_split Hl). unfold offs.
  rewrite nth_error_app2 by lia.
  replace (length (concat (firstn i ls)) + q - length (concat (firstn i ls)))%nat with q by lia.
  rewrite nth_error_app1; auto. apply nth_error_Some. congruence.
Qed.

Lemma offs_last ls : offs ls (length ls) = length (concat ls).
Proof. unfold offs. rewrite firstn_all. auto. Qed.

Lemma Sorted_nth A (R : A -> A -> Prop) l p q a b : StronglySorted R l -> (p < q)%nat ->
  nth_error l p = Some a -> nth_error l q = Some b -> R a b.
Proof.
  intros H. revert p q. induction H as [|t r Hs IH Hf]; intros p q Hpq Hp Hq.
  - destruct p; discriminate.
  - destruct q as [|q]; [lia|]. simpl in Hq. destruct p as [|p]; simpl in Hp.
    + inversion Hp; subst. rewrite Forall_forall in Hf. apply Hf. eapply nth_error_In; eauto.
    + eapply IH; [|eauto|eauto]. lia.
Qed.

Lemma csr_of_wf n ls E : (forall k l, nth_error ls k = Some l -> row_fine k n (E k) l) ->
  csr_wf (length ls) n (csr_of ls).
Proof.
  intros Hf. unfold csr_wf.
  assert (HR : forall i, (i <= length ls)%nat -> nth i (c_rows (csr_of ls)) 0%nat = offs ls i).
  { intros i Hi. rewrite csr_rows, nth_map_seq; auto. lia. }
  split. { rewrite csr_rows, map_length, seq_length. auto. }
  split. { rewrite HR by lia. reflexivity. }
  split. { rewrite HR by lia. rewrite offs_last, csr_cols, map_length. auto. }
  split. { rewrite csr_cols, csr_vals, !map_length. auto. }
  intros i Hi. rewrite !HR by lia. cbv zeta.
  destruct (nth_error_ex (l := ls) (i := i)) as (l & Hl); [lia|].
  destruct (Hf _ _ Hl) as (Hg & Hs & Hne & _ & Hd).
  rewrite (offs_S Hl).
  assert (Hnth : forall q t, nth_error l q = Some t -> nth (offs ls i + q) (c_cols (csr_of ls)) (-1)%Z = tj t).
  { intros q t Hq. rewrite csr_cols. apply nth_error_nth. rewrite nth_error_map.
    rewrite (concat_nth Hl Hq). reflexivity. }
  split; [destruct l; [tauto|simpl; lia]|].
  split; [|split].
  - intros p Hp. destruct (nth_error_ex (l := l) (i := (p - offs ls i)%nat)) as (t & Ht); [lia|].
    replace p with (offs ls i + (p - offs ls i))%nat by lia. rewrite (Hnth _ _ Ht).
    rewrite Forall_forall in Hg. apply nth_error_In in Ht. apply Hg in Ht. apply Ht.
  - intros p q Hp Hpq Hq.
    destruct (nth_error_ex (l := l) (i := (p - offs ls i)%nat)) as (t & Ht); [lia|].
    destruct (nth_error_ex (l := l) (i := (q - offs ls i)%nat)) as (u & Hu); [lia|].
    replace p with (offs ls i + (p - offs ls i))%nat by lia.
    replace q with (offs ls i + (q - offs ls i))%nat by lia.
    rewrite (Hnth _ _ Ht), (Hnth _ _ Hu).
    apply (Sorted_nth (p := (p - offs ls i)%nat) (q := (q - offs ls i)%nat) Hs); auto. lia.
  - intros Hin. destruct (diag_pos_spec (i := i) (offs ls i) None (Hd Hin)) as (q & t & H1 & H2 & H3 & H4 & _).
    exists (offs ls i + q)%nat. split; [|split; [lia|]].
    + rewrite csr_diag. rewrite (fill_diag 0 0 Hl). simpl. f_equal. auto.
    + rewrite (Hnth _ _ H3). auto.
Qed.

Lemma matrix_structure srt caps n ops : is_sort srt ->
  Forall (op_ok (length caps) n) ops ->
  exists flags A, run (preallocate caps) ops = Ok (flags, A) /\ length flags = length ops /\
    ((forall i, (i < length caps)%nat -> touched i ops flags) ->
     exists C, assemble srt n A = Ok C /\ csr_wf (length caps) n C) /\
    ((exists i, (i < length caps)%nat /\ ~ touched i ops flags) -> assemble srt n A = UB).
Proof.
  intros Hs HO.
  destruct (history_assembles Hs HO) as (fl & A & E & Hr & HLf & HLA & HM & Hc & Ht & Hok & Hub).
  exists fl, A. split; [auto|]. split; [auto|]. split; [|auto].
  intros Htouch. destruct (Hok Htouch) as (ls & Eas & HL & Hf).
  exists (csr_of ls). split; auto. rewrite <- HL. eapply csr_of_wf; eauto.
Qed.

(** ** C03 *)

(** Reachable row content: capacity respected. *)
Lemma insert_status n A E i j v ty :
  MI n A E -> (i < length A)%nat -> (0 <= j < Z.of_nat n)%Z ->
  exists b A', insert A i j v ty = Ok (b, A') /\
    (b = false -> A' = A /\ exists l, nth_error A i = Some l /\ (length (fst l) <= snd l)%nat /\
        (ty = ADD -> find_col j (fst l) = None)) /\
    (b = true -> exists E', MI n A' E' /\
        (forall k x, rowsum x (E' k) = rowsum x (E k) + (if Nat.eqb k i then v * x j else 0))) /\
    length A' = length A /\
    (forall k rw rw', nth_error A k = Some rw -> nth_error A' k = Some rw' ->
        length (fst rw') = length (fst rw)).
Proof.
  intros HM Hi Hj. destruct (nth_error_ex Hi) as (rw & En).
  assert (HR := HM _ _ En). unfold insert, rd. rewrite En. simpl.
  destruct (row_insert_spec v ty HR Hj) as [(ER & L & Hadd)|(rw' & e' & ER & HR' & Hne & Hs & HL)].
  - rewrite ER. simpl.
    assert (EU : upd A i rw = A) by (apply upd_same; auto).
    exists false, (upd A i rw). rewrite EU. split; [auto|]. split; [|split; [discriminate|split; [auto|]]].
    + intros _. split; auto. exists rw. split; auto.
      destruct HR as (k & Hl & Hc & Hg). split; [lia|].
      intros Ety. specialize (Hadd Ety). rewrite Hl, find_col_app_default by lia.
      destruct (find_col j (E i)) eqn:F; auto.
      destruct (find_col_some F) as (a & t & b & E1 & E2 & E3). exfalso.
      apply (Hadd t); auto. rewrite E1. apply in_app_iff. right. left. auto.
    + intros k r1 r2 H1 H2. rewrite H1 in H2. inversion H2; subst; auto.
  - rewrite ER. simpl. exists true, (upd A i rw'). split; [auto|]. split; [discriminate|].
    split; [|split; [apply upd_length|]].
    + intros _. exists (fun k => if Nat.eqb k i then e' else E k). split.
      * intros k rwk Hk. destruct (Nat.eqb_spec k i) as [->|N].
        -- rewrite nth_error_upd_eq in Hk by auto. inversion Hk; subst. auto.
        -- rewrite nth_error_upd_neq in Hk by auto. apply HM; auto.
      * intros k x. destruct (Nat.eqb_spec k i) as [->|N]; [apply Hs|ring].
    + intros k r1 r2 H1 H2. destruct (Nat.eq_dec i k) as [->|N].
      * rewrite nth_error_upd_eq in H2 by auto. inversion H2; subst. rewrite En in H1.
        inversion H1; subst. auto.
      * rewrite nth_error_upd_neq in H2 by auto. rewrite H1 in H2. inversion H2; subst; auto.
Qed.

(** Row overload with INSERT never overruns. *)
Lemma row_push_many_ok i n es : forall rw ents, RI i n rw ents ->
  Forall (fun e => (0 <= fst e < Z.of_nat n)%Z) es ->
  (snd rw + length es <= length (fst rw))%nat ->
  exists rw', row_push_many i es rw = Ok rw' /\
    RI i n rw' (ents ++ map (fun e => T (Z.of_nat i) (fst e) (snd e)) es) /\
    length (fst rw') = length (fst rw).
Proof.
  induction es as [|[j v] r IH]; intros rw ents HR HF HL; simpl in *.
  - exists rw. rewrite app_nil_r. auto.
  - inversion HF; subst. simpl in *.
    destruct HR as (k & Hl & Hc & Hg).
    unfold wr. rewrite (proj2 (Nat.ltb_lt (snd rw) (length (fst rw)))) by lia. simpl.
    destruct k as [|k].
    { rewrite Hl in HL. simpl in HL. rewrite app_nil_r in HL. lia. }
    destruct (IH (upd (fst rw) (snd rw) (T (Z.of_nat i) j v), S (snd rw)) (ents ++ [T (Z.of_nat i) j v]))
      as (rw' & E1 & E2 & E3); auto.
    + exists k. simpl. split; [|split].
      * rewrite Hl, Hc. change (repeat tdefault (S k)) with (tdefault :: repeat tdefault k).
        rewrite upd_app_mid. rewrite <- app_assoc. reflexivity.
      * rewrite app_length. simpl. lia.
      * apply Forall_app. split; auto. constructor; [split; simpl; auto|constructor].
    + simpl. rewrite upd_length. lia.
    + rewrite E1. exists rw'. split; auto. split.
      * rewrite <- app_assoc in E2. simpl in E2. exact E2.
      * simpl in E3. rewrite upd_length in E3. auto.
Qed.

Lemma insert_row_status n A E i es :
  MI n A E -> (i < length A)%nat -> Forall (fun e => (0 <= fst e < Z.of_nat n)%Z) es ->
  exists b A', insert_row A i es INSERT = Ok (b, A') /\
    (b = false -> A' = A) /\
    (b = true -> exists E', MI n A' E' /\
        (forall k, E' k = if Nat.eqb k i
             then E k ++ map (fun e => T (Z.of_nat i) (fst e) (snd e)) es else E k)).
Proof.
  intros HM Hi HF. destruct (nth_error_ex Hi) as (rw & En).
  assert (HR := HM _ _ En). unfold insert_row, rd. rewrite En. simpl.
  destruct (Nat.ltb_spec (length (fst rw)) (snd rw + length es)) as [L|L].
  - exists false, A. repeat split; auto. discriminate.
  - destruct (row_push_many_ok HR HF L) as (rw' & E1 & E2 & E3). rewrite E1. simpl.
    exists true, (upd A i rw'). split; [auto|]. split; [discriminate|]. intros _.
    exists (fun k => if Nat.eqb k i
             then E k ++ map (fun e => T (Z.of_nat i) (fst e) (snd e)) es else E k).
    split; auto. intros k rwk Hk. destruct (Nat.eqb_spec k i) as [->|N].
    + rewrite nth_error_upd_eq in Hk by auto. inversion Hk; subst. auto.
    + rewrite nth_error_upd_neq in Hk by auto. apply HM; auto.
Qed.

Lemma insert_triplets_overrun :
  exists caps es,
    Forall (fun e => (fst e < length caps)%nat /\ (0 <= fst (snd e) < 2)%Z) es /\
    insert_triplets (preallocate caps) es INSERT = UB.
Proof.
  exists [1%nat; 1%nat], [(0%nat, (0%Z, 1)); (0%nat, (1%Z, 2))].
  split; [repeat constructor; simpl; lia|]. reflexivity.
Qed.

Lemma insert_col_overrun :
  exists caps j es,
    Forall (fun e => (fst e < length caps)%nat) es /\ (0 <= j < 2)%Z /\
    insert_col (preallocate caps) j es INSERT = UB.
Proof.
  exists [1%nat; 1%nat], 1%Z, [(0%nat, 1); (0%nat, 2)].
  split; [repeat constructor; simpl; lia|]. split; [lia|]. reflexivity.
Qed.

(** ** C04 *)

Lemma search_cols_zero C j ps :
  (forall p, In p ps -> exists c, rd (c_cols C) p = Ok c /\ c <> j) -> search_cols C j ps = Ok 0.
Proof.
  induction ps as [|p r IH]; intros H; simpl; auto.
  destruct (H p) as (c & Ec & Nc); [simpl; auto|]. rewrite Ec. simpl.
  destruct (Z.eqb_spec c j); [tauto|]. apply IH. intros q Hq. apply H. simpl; auto.
Qed.

Lemma get_offdiag_zero n ls E i j :
  (forall k l, nth_error ls k = Some l -> row_fine k n (E k) l) ->
  (i < length ls)%nat -> (i < n)%nat -> (j < n)%nat -> i <> j ->
  get (csr_of ls) i j = Ok 0.
Proof.
  intros Hf Hi Hin Hjn Hij.
  destruct (nth_error_ex Hi) as (l & Hl).
  destruct (Hf _ _ Hl) as (Hg & Hs & Hne & _ & Hd).
  destruct (diag_pos_spec (i := i) (offs ls i) None (Hd Hin)) as (q & t & H1 & H2 & H3 & H4 & H5).
  assert (HD : rd (c_diag (csr_of ls)) i = Ok (Some (offs ls i + q)%nat)).
  { unfold rd. rewrite csr_diag, (fill_diag 0 0 Hl). simpl. rewrite H1. reflexivity. }
  unfold get. rewrite HD. simpl.
  destruct (Nat.eqb_spec i j); [tauto|].
  assert (HC : forall k u, nth_error l k = Some u -> rd (c_cols (csr_of ls)) (offs ls i + k) = Ok (tj u)).
  { intros k u Hk. unfold rd. rewrite csr_cols, nth_error_map, (concat_nth Hl Hk). reflexivity. }
  destruct (Nat.ltb_spec i j) as [L|L].
  - rewrite csr_row_rd by lia. simpl. apply search_cols_zero.
    intros p Hp. apply in_seq in Hp.
    destruct (nth_error_ex (l := l) (i := (p - offs ls i)%nat)) as (u & Hu); [lia|].
    exists (tj u). replace p with (offs ls i + (p - offs ls i))%nat by lia. rewrite (HC _ _ Hu).
    split; auto.
    assert (tj u <= tj t)%Z.
    { apply (Sorted_nth (p := (p - offs ls i)%nat) (q := q) Hs); auto. lia. }
    lia.
  - rewrite csr_row_rd by lia. simpl. apply search_cols_zero.
    intros p Hp. apply in_seq in Hp. rewrite (offs_S Hl) in Hp.
    destruct (nth_error_ex (l := l) (i := (p - offs ls i)%nat)) as (u & Hu); [lia|].
    exists (tj u). replace p with (offs ls i + (p - offs ls i))%nat by lia. rewrite (HC _ _ Hu).
    split; auto.
    assert (tj t <= tj u)%Z.
    { apply (Sorted_nth (p := q) (q := (p - offs ls i)%nat) Hs); auto. lia. }
    lia.
Qed.

(** Unit vector: reads one column. *)
Definition ecol (j : Z) : Z -> R := fun k => if (k =? j)%Z then 1 else 0.

Lemma rowsum_nodup_col l j t : NoDup (map tj l) -> In t l -> tj t = j -> rowsum (ecol j) l = tv t.
Proof.
  induction l as [|u r IH]; intros HN HI Hj; [destruct HI|].
  unfold rowsum in *. simpl. inversion HN as [|? ? Hni HN']; subst.
  destruct HI as [->|HI].
  - unfold ecol at 1. rewrite Z.eqb_refl.
    rewrite sumR_map_zero; [ring|]. intros w Hw. unfold ecol.
    destruct (Z.eqb_spec (tj w) (tj t)) as [E|E]; [|ring].
    exfalso. apply Hni. rewrite <- E. apply in_map. auto.
  - rewrite IH; auto. unfold ecol at 1.
    destruct (Z.eqb_spec (tj u) (tj t)) as [E|E]; [|ring].
    exfalso. apply Hni. rewrite E. apply in_map. auto.
Qed.

Lemma get_diag n ls E i :
  (forall k l, nth_error ls k = Some l -> row_fine k n (E k) l) ->
  (i < length ls)%nat -> (i < n)%nat -> NoDup (map tj (E i)) ->
  get (csr_of ls) i i = Ok (rowsum (ecol (Z.of_nat i)) (E i)).
Proof.
  intros Hf Hi Hin HN.
  destruct (nth_error_ex Hi) as (l & Hl).
  assert (Hfl := Hf _ _ Hl).
  destruct (Hf _ _ Hl) as (Hg & Hs & Hne & HP & Hd).
  destruct (diag_pos_spec (i := i) (offs ls i) None (Hd Hin)) as (q & t & H1 & H2 & H3 & H4 & H5).
  assert (HD : rd (c_diag (csr_of ls)) i = Ok (Some (offs ls i + q)%nat)).
  { unfold rd. rewrite csr_diag, (fill_diag 0 0 Hl). simpl. rewrite H1. reflexivity. }
  unfold get. rewrite HD. simpl. rewrite Nat.eqb_refl.
  unfold rd. rewrite csr_vals, nth_error_map, (concat_nth Hl H3). simpl. f_equal.
  rewrite <- (row_fine_sum (ecol (Z.of_nat i)) Hfl).
  symmetry. apply rowsum_nodup_col; auto.
  - destruct HP as [HP|[HP Hn]].
    + eapply Permutation_NoDup; [apply Permutation_map; exact HP|auto].
    + eapply Permutation_NoDup; [apply Permutation_map; exact HP|]. simpl. constructor; auto.
      intros HI. apply in_map_iff in HI. destruct HI as (u & Eu & Iu). eapply Hn; eauto.
  - eapply nth_error_In; eauto.
Qed.

(** Distinct accepted positions give distinct columns in a row. *)
Lemma run_nodup n ops : forall A E,
  MI n A E -> Forall (op_ok (length A) n) ops ->
  NoDup (map (fun o => (o_i o, o_j o)) ops) ->
  (forall i, (i < length A)%nat -> NoDup (map tj (E i))) ->
  (forall i o, (i < length A)%nat -> In o ops -> o_i o = i -> ~ In (o_j o) (map tj (E i))) ->
  exists flags A' E', run A ops = Ok (flags, A') /\ length flags = length ops /\
    length A' = length A /\ MI n A' E' /\
    (forall i x, (i < length A)%nat -> rowsum x (E' i) = rowsum x (E i) + contrib i x ops flags) /\
    (forall i, (i < length A)%nat -> (E' i <> [] <-> E i <> [] \/ touched i ops flags)) /\
    (forall i, (i < length A)%nat -> NoDup (map tj (E' i))).
Proof.
  induction ops as [|o r IH]; intros A E HM HO HND HN HF.
  - exists [], A, E. simpl. repeat split; auto.
    + intros i x Hi. unfold contrib. simpl. ring.
    + intros [H0|(o & [] & _)]; auto.
  - inversion HO as [|? ? [Hi Hj] HO']; subst.
    simpl in HND. inversion HND as [|? ? HNi HND']; subst.
    destruct (nth_error_ex Hi) as (rw & En).
    assert (HR := HM _ _ En).
    assert (Fnone : find_col (o_j o) (fst rw) = None).
    { destruct HR as (k & Hl & Hc & Hg). rewrite Hl, find_col_app_default by lia.
      destruct (find_col (o_j o) (E (o_i o))) eqn:F; auto.
      destruct (find_col_some F) as (a & t & b & E1 & E2 & E3). exfalso.
      apply (HF (o_i o) o); simpl; auto. rewrite E1. apply in_map_iff. exists t. split; auto.
      apply in_app_iff. right. left. auto. }
    assert (RA : row_insert (o_i o) (o_j o) (o_v o) (o_t o) rw = row_append (o_i o) (o_j o) (o_v o) rw).
    { unfold row_insert. destruct (o_t o); auto. rewrite Fnone. auto. }
    simpl. unfold insert, rd. rewrite En. simpl. rewrite RA.
    destruct (row_append_spec (o_v o) HR Hj) as [(ER & _)|(rw' & ER & HR' & HL)].
    + rewrite ER. simpl.
      assert (EU : upd A (o_i o) rw = A) by (apply upd_same; auto).
      rewrite EU.
      destruct (IH A E HM HO' HND' HN) as (fl & A' & E' & Hrun & HLf & HLA & HM' & Hc & Ht & Hn).
      { intros i o' Hi' Ho'. apply HF; auto. right; auto. }
      rewrite Hrun. simpl. exists (false :: fl), A', E'.
      repeat split; auto.
      * simpl. lia.
      * intros i x Hi'. rewrite Hc by auto. unfold contrib. simpl. ring.
      * intros HE. apply Ht in HE; auto. destruct HE as [HE|(o' & HI & Ho)]; auto.
        right. exists o'. split; auto. right. auto.
      * intros HE. apply Ht; auto. destruct HE as [HE|(o' & HI & Ho)]; auto.
        destruct HI as [HI|HI]; [inversion HI|]. right. exists o'. auto.
    + rewrite ER. simpl.
      set (e' := E (o_i o) ++ [T (Z.of_nat (o_i o)) (o_j o) (o_v o)]).
      set (A1 := upd A (o_i o) rw').
      set (E1 := fun k => if Nat.eqb k (o_i o) then e' else E k).
      assert (HM1 : MI n A1 E1).
      { intros k rwk Hk. unfold A1 in Hk. unfold E1.
        destruct (Nat.eqb_spec k (o_i o)) as [->|N].
        - rewrite nth_error_upd_eq in Hk by auto. inversion Hk; subst. auto.
        - rewrite nth_error_upd_neq in Hk by auto. apply HM; auto. }
      assert (HLA1 : length A1 = length A) by apply upd_length.
      destruct (IH A1 E1 HM1) as (fl & A' & E' & Hrun & HLf & HLA & HM' & Hc & Ht & Hn).
      { rewrite HLA1. auto. }
      { auto. }
      { rewrite HLA1. intros i Hi'. unfold E1. destruct (Nat.eqb_spec i (o_i o)) as [->|N]; auto.
        unfold e'. rewrite map_app. simpl.
        eapply Permutation_NoDup; [apply Permutation_app_comm|]. simpl. constructor; auto.
        apply HF; simpl; auto. }
      { rewrite HLA1. intros i o' Hi' Ho' Eo'. unfold E1.
        destruct (Nat.eqb_spec i (o_i o)) as [->|N]; [|apply HF; simpl; auto].
        unfold e'. rewrite map_app. simpl. intros HI. apply in_app_iff in HI.
        destruct HI as [HI|[HI|[]]].
        - apply (HF (o_i o) o'); auto. right; auto.
        - apply HNi. apply in_map_iff. exists o'. split; auto. congruence. }
      rewrite Hrun. simpl. exists (true :: fl), A', E'.
      repeat split; auto.
      * simpl. lia.
      * lia.
      * intros i x Hi'. rewrite Hc by lia. unfold contrib. simpl. unfold E1.
        rewrite Nat.eqb_sym.
        destruct (Nat.eqb_spec (o_i o) i) as [E0|N]; [subst i; unfold e'; rewrite rowsum_app; unfold rowsum at 2; simpl|]; ring.
      * intros HE. apply Ht in HE; [|lia]. unfold E1 in HE.
        destruct (Nat.eqb_spec i (o_i o)) as [->|N].
        { right. exists o. split; auto. left. auto. }
        destruct HE as [HE|(o' & HI & Ho)]; auto.
        right. exists o'. split; auto. right. auto.
      * intros HE. apply Ht; [lia|]. unfold E1.
        destruct (Nat.eqb_spec i (o_i o)) as [->|N].
        { left. unfold e'. destruct (E (o_i o)); discriminate. }
        destruct HE as [HE|(o' & HI & Ho)]; auto.
        destruct HI as [HI|HI]; [inversion HI; subst; tauto|]. right. exists o'. auto.
      * intros i Hi'. apply Hn. lia.
Qed.

Lemma get_after_history srt caps n ops : is_sort srt ->
  Forall (op_ok (length caps) n) ops ->
  NoDup (map (fun o => (o_i o, o_j o)) ops) ->
  exists flags A, run (preallocate caps) ops = Ok (flags, A) /\ length flags = length ops /\
    ((forall i, (i < length caps)%nat -> touched i ops flags) ->
     exists C, assemble srt n A = Ok C /\
       forall i j, (i < length caps)%nat -> (i < n)%nat -> (j < n)%nat ->
         get C i j = Ok (if Nat.eqb i j then entry i i ops flags else 0)).
Proof.
  intros Hs HO HND.
  assert (LP : length (preallocate caps) = length caps) by (unfold preallocate; apply map_length).
  destruct (@run_nodup n ops (preallocate caps) (fun _ => []) (@MI_pre n caps))
    as (fl & A & E & Hr & HLf & HLA & HM & Hc & Ht & Hn).
  { rewrite LP. auto. } { auto. } { intros; constructor. } { intros; simpl; auto. }
  rewrite LP in *.
  exists fl, A. split; [auto|]. split; [auto|]. intros Htouch.
  destruct (@assemble_rows_spec srt n A Hs 0 E) as (ls & Els & HL & Hall).
  { intros k rw Hk. simpl. apply HM. auto. }
  { intros k Hk. simpl. apply Ht; [lia|]. right. apply Htouch. lia. }
  exists (csr_of ls). split. { unfold assemble. rewrite Els. reflexivity. }
  intros i j Hi Hin Hjn. destruct (Nat.eqb_spec i j) as [->|N].
  - rewrite (get_diag (n := n) (E := E)); auto; [|lia].
    f_equal. change (ecol (Z.of_nat j)) with (fun k => if (k =? Z.of_nat j)%Z then 1 else 0).
    rewrite Hc by auto. unfold entry, rowsum. simpl. ring.
  - apply (get_offdiag_zero (n := n) (E := E)); auto. lia.
Qed.

(** Insertion sort: a witness that [is_sort] is inhabited. *)
Fixpoint ins (t : triplet) (l : list triplet) : list triplet :=
  match l with
  | [] => [t]
  | u :: r => if compare_triplet u t then u :: ins t r else t :: u :: r
  end.
Definition isort (l : list triplet) : list triplet := fold_right ins [] l.

Lemma ins_perm t l : Permutation (t :: l) (ins t l).
Proof.
  induction l as [|u r IH]; simpl; auto. destruct (compare_triplet u t); auto.
  eapply Permutation_trans; [apply perm_swap|]. auto.
Qed.

Lemma compare_total a b : compare_triplet a b = true -> compare_triplet b a = false.
Proof.
  unfold compare_triplet.
  destruct (Z.eqb_spec (tj a) (-1)); [discriminate|].
  destruct (Z.eqb_spec (tj b) (-1)); auto. intros H. apply Z.ltb_lt in H. apply Z.ltb_ge. lia.
Qed.

Lemma compare_trans a b c : compare_triplet b a = false -> compare_triplet c b = false ->
  compare_triplet c a = false.
Proof.
  unfold compare_triplet.
  destruct (Z.eqb_spec (tj a) (-1)), (Z.eqb_spec (tj b) (-1)), (Z.eqb_spec (tj c) (-1));
    try discriminate; auto.
  intros H1 H2. apply Z.ltb_ge in H1. apply Z.ltb_ge in H2. apply Z.ltb_ge. lia.
Qed.

Lemma ins_sorted t l : tsorted l -> tsorted (ins t l).
Proof.
  induction 1 as [|u r Hs IH Hf]; simpl; [repeat constructor|].
  destruct (compare_triplet u t) eqn:E.
  - constructor; auto. apply Forall_forall. intros w Hw.
    apply (Permutation_in w (Permutation_sym (ins_perm t r))) in Hw.
    destruct Hw as [<-|Hw]; [apply compare_total; auto|]. rewrite Forall_forall in Hf. auto.
  - constructor; [constructor; auto|]. constructor; auto.
    apply Forall_forall. intros w Hw. rewrite Forall_forall in Hf.
    apply compare_trans with (b := u); auto.
Qed.

Lemma isort_is_sort : is_sort isort.
Proof.
  intros l. split.
  - induction l as [|t r IH]; simpl; auto.
    eapply Permutation_trans; [apply perm_skip; exact IH|]. apply ins_perm.
  - induction l as [|t r IH]; simpl; [constructor|]. apply ins_sorted. auto.
Qed.

(** Concrete history: element access disagrees with the stored entry. *)
Definition wit_ops : list op := [Op 0 0 1 INSERT; Op 0 1 2 INSERT; Op 1 1 3 INSERT].

Lemma get_refuted srt : is_sort srt ->
  exists caps n ops flags A C x y,
    Forall (op_ok (length caps) n) ops /\
    run (preallocate caps) ops = Ok (flags, A) /\ assemble srt n A = Ok C /\
    In (Op 0 1 2 INSERT) ops /\ flags = [true; true; true] /\
    get C 0 1 = Ok 0 /\
    x = [0; 1] /\ multiply C x = Ok y /\ nth 0 y 0 = 2.
Proof.
  intros Hs.
  assert (HO : Forall (op_ok (length [2;2]%nat) 2) wit_ops).
  { repeat constructor; simpl; lia. }
  assert (HN : NoDup (map (fun o => (o_i o, o_j o)) wit_ops)).
  { simpl. repeat constructor; simpl; intuition congruence. }
  destruct (get_after_history Hs HO HN) as (fl & A & Hr & _ & HC).
  destruct (matrix_multiply_reflects_insertions (x := [0;1]) Hs HO eq_refl)
    as (fl2 & A2 & Hr2 & _ & HC2 & _).
  rewrite Hr in Hr2. inversion Hr2; subst fl2 A2. clear Hr2.
  assert (Efl : fl = [true; true; true]).
  { unfold wit_ops, run, insert in Hr. cbn in Hr. inversion Hr. reflexivity. }
  assert (HT : forall i, (i < length [2;2]%nat)%nat -> touched i wit_ops fl).
  { intros i Hi. rewrite Efl. simpl in Hi. destruct i as [|[|i]]; [| |lia].
    - exists (Op 0 0 1 INSERT). simpl. auto.
    - exists (Op 1 1 3 INSERT). simpl. auto. }
  destruct (HC HT) as (C & EC & HG). destruct (HC2 HT) as (C2 & y & EC2 & Hy & HLy & Hyi).
  rewrite EC in EC2. inversion EC2; subst C2.
  exists [2;2]%nat, 2%nat, wit_ops, fl, A, C, [0;1], y.
  split; [auto|]. split; [auto|]. split; [auto|]. split; [simpl; auto|].
  split; [auto|]. split.
  - rewrite HG; simpl; auto; lia.
  - split; [auto|]. split; [auto|]. rewrite Hyi by (simpl; lia). rewrite Efl.
    unfold contrib. simpl. unfold at_col. simpl. ring.
Qed.

(** ** C05 *)

Lemma at_col_upd y j v k : (0 <= j)%Z -> (0 <= k)%Z -> (Z.to_nat j < length y)%nat ->
  at_col (upd y (Z.to_nat j) v) k = if (k =? j)%Z then v else at_col y k.
Proof.
  intros Hj Hk HL. unfold at_col. destruct (Z.eqb_spec k j) as [->|N].
  - apply nth_upd_eq. auto.
  - apply nth_upd_neq. lia.
Qed.

Lemma dot_upd y z j v : (j < length y)%nat -> dot (upd y j v) z = dot y z + (v - nth j y 0) * nth j z 0.
Proof.
  intros HL. unfold dot. rewrite upd_length.
  replace (rsum (length y) (fun i => nth i y 0 * nth i z 0) + (v - nth j y 0) * nth j z 0)
    with (rsum (length y) (fun i => nth i y 0 * nth i z 0) +
          rsum (length y) (fun i => if Nat.eqb i j then (v - nth j y 0) * nth j z 0 else 0))
    by (rewrite rsum_delta; auto).
  rewrite <- rsum_plus. apply rsum_ext. intros i Hi.
  destruct (Nat.eqb_spec i j) as [->|N].
  - rewrite nth_upd_eq by auto. ring.
  - rewrite nth_upd_neq by auto. ring.
Qed.

Lemma transpose_row i n l xi z : Forall (good i n) l -> forall y, length y = n -> length z = n ->
  exists y', foldM (fun y t => do yj <- rdz y (tj t); wr y (Z.to_nat (tj t)) (yj + xi * tv t)) l y = Ok y' /\
    length y' = n /\ dot y' z = dot y z + xi * rowsum (at_col z) l.
Proof.
  induction 1 as [|t r [_ Ht] Hr IH]; intros y HL HZ; simpl.
  - exists y. unfold rowsum. simpl. repeat split; auto. ring.
  - rewrite (rdz_ok HL Ht). simpl. unfold wr.
    rewrite (proj2 (Nat.ltb_lt (Z.to_nat (tj t)) (length y))) by lia. simpl.
    destruct (IH (upd y (Z.to_nat (tj t)) (at_col y (tj t) + xi * tv t))) as (y' & E & L & D);
      [rewrite upd_length; auto|auto|].
    exists y'. split; [auto|]. split; [auto|]. rewrite D.
    rewrite dot_upd by lia. unfold rowsum, at_col. simpl. ring.
Qed.

Lemma transpose_spec ls n w z : cols_ok n ls -> length w = length ls -> length z = n ->
  exists y, multiply_transpose n (csr_of ls) w = Ok y /\ length y = n /\
    dot y z = rsum (length ls) (fun i => nth i w 0 * rowsum (at_col z) (nth i ls [])).
Proof.
  intros HC Hw Hz. unfold multiply_transpose. rewrite csr_rows_len.
  assert (G : forall k, (k <= length ls)%nat ->
    exists y, foldM (fun y i =>
           do a <- rd (c_rows (csr_of ls)) i;
           do b <- rd (c_rows (csr_of ls)) (S i);
           foldM (fun y p =>
                    do j <- rd (c_cols (csr_of ls)) p;
                    do v <- rd (c_vals (csr_of ls)) p;
                    do xi <- rd w i;
                    do yj <- rdz y j;
                    wr y (Z.to_nat j) (yj + xi * v)) (seq a (b - a)) y)
        (seq 0 k) (repeat 0 n) = Ok y /\ length y = n /\
      dot y z = rsum k (fun i => nth i w 0 * rowsum (at_col z) (nth i ls []))).
  { induction k as [|k IH]; intros Hk.
    - exists (repeat 0 n). simpl. split; [auto|]. split; [apply repeat_length|].
      unfold dot. apply rsum_zero. intros i Hi.
      rewrite nth_repeat. ring.
    - destruct IH as (y & Ey & HL & HD); [lia|].
      rewrite seq_S. simpl.
      assert (FA : forall (F : list R -> nat -> res (list R)) l1 l2 s, foldM F (l1 ++ l2) s = (do s' <- foldM F l1 s; foldM F l2 s')).
      { intros F l1; induction l1 as [|a t IHl]; intros l2 s; simpl; auto.
        destruct (F s a); simpl; auto. }
      rewrite FA, Ey. simpl. rewrite !csr_row_rd by lia. simpl.
      destruct (nth_error_ex (l := ls) (i := k)) as (l & Hl); [lia|].
      rewrite (offs_S Hl).
      replace (offs ls k + length l - offs ls k)%nat with (length l) by lia.
      rewrite csr_cols, csr_vals, (offs_split Hl). unfold offs.
      rewrite (foldM_row (fun y j v => do xi <- rd w k; do yj <- rdz y j; wr y (Z.to_nat j) (yj + xi * v))).
      assert (Ew : rd w k = Ok (nth k w 0)) by (apply rd_ok; lia).
      destruct (@transpose_row k n l (nth k w 0) z (HC _ _ Hl) y HL Hz) as (y' & E & L & D).
      exists y'. split; [|split; auto].
      + rewrite Ew. simpl. rewrite E. reflexivity.
      + rewrite D, HD. rewrite (nth_error_nth ls _ [] Hl). ring. }
  apply G. lia.
Qed.

Lemma adjoint ls n w z : cols_ok n ls -> length w = length ls -> length z = n ->
  exists Az Atw, multiply (csr_of ls) z = Ok Az /\ multiply_transpose n (csr_of ls) w = Ok Atw /\
    length Az = length w /\ length Atw = length z /\ dot w Az = dot Atw z.
Proof.
  intros HC Hw Hz. destruct (transpose_spec HC Hw Hz) as (y & Ey & HL & HD).
  exists (map (fun i => rowsum (at_col z) (nth i ls [])) (seq 0 (length ls))), y.
  split; [apply multiply_spec with (n := n); auto|]. split; [auto|].
  split; [rewrite map_length, seq_length; auto|]. split; [lia|].
  rewrite HD. unfold dot. rewrite Hw. apply rsum_ext. intros i Hi.
  rewrite nth_map_seq by auto. reflexivity.
Qed.

Lemma matrix_adjoint srt caps n ops w z : is_sort srt ->
  Forall (op_ok (length caps) n) ops -> length w = length caps -> length z = n ->
  exists flags A, run (preallocate caps) ops = Ok (flags, A) /\
    ((forall i, (i < length caps)%nat -> touched i ops flags) ->
     exists C Az Atw, assemble srt n A = Ok C /\ multiply C z = Ok Az /\
       multiply_transpose n C w = Ok Atw /\ length Az = length caps /\ length Atw = n /\
       dot w Az = dot Atw z).
Proof.
  intros Hs HO Hw Hz.
  destruct (history_assembles Hs HO) as (fl & A & E & Hr & HLf & HLA & HM & Hc & Ht & Hok & Hub).
  exists fl, A. split; [auto|]. intros Htouch. destruct (Hok Htouch) as (ls & Eas & HL & Hf).
  assert (HC : cols_ok n ls).
  { intros i l Hl. apply Hf in Hl. destruct Hl. auto. }
  destruct (adjoint (w := w) (z := z) HC) as (Az & Atw & H1 & H2 & H3 & H4 & H5); [lia|auto|].
  exists (csr_of ls), Az, Atw. repeat split; auto; lia.
Qed.

(** ** C03, restated on reachable states *)

Lemma stored_sum_RI i n rw ents x : RI i n rw ents ->
  sumR (map (fun t => tv t * x (tj t)) (fst rw)) = rowsum x ents.
Proof.
  intros (k & Hl & _). rewrite Hl. change (rowsum x (ents ++ repeat tdefault k) = rowsum x ents).
  rewrite rowsum_app, rowsum_default. ring.
Qed.

Lemma stored_MI n A E k x : MI n A E -> (k < length A)%nat -> stored A k x = rowsum x (E k).
Proof.
  intros HM Hk. destruct (nth_error_ex Hk) as (rw & En). unfold stored.
  rewrite (nth_error_nth A _ ([], 0%nat) En). eapply stored_sum_RI. eauto.
Qed.

Lemma insert_truthful caps n ops o :
  Forall (op_ok (length caps) n) ops -> op_ok (length caps) n o ->
  exists flags A b A', run (preallocate caps) ops = Ok (flags, A) /\
    insert A (o_i o) (o_j o) (o_v o) (o_t o) = Ok (b, A') /\
    (b = false -> A' = A /\ nth (o_i o) (map snd A) 0%nat = nth (o_i o) caps 0%nat /\
        (o_t o = ADD -> forall t, In t (fst (nth (o_i o) A ([], 0%nat))) -> tj t <> o_j o)) /\
    (b = true -> forall k x, (k < length caps)%nat ->
        stored A' k x = stored A k x + (if Nat.eqb k (o_i o) then o_v o * x (o_j o) else 0)) /\
    map (fun rw => length (fst rw)) A' = caps /\
    Forall (fun rw => (snd rw <= length (fst rw))%nat) A'.
Proof.
  intros HO [Hi Hj].
  assert (LP : length (preallocate caps) = length caps) by (unfold preallocate; apply map_length).
  assert (RUN : forall ops A E, MI n A E -> Forall (op_ok (length A) n) ops ->
     exists fl A', run A ops = Ok (fl, A') /\ (exists E', MI n A' E') /\
       map (fun rw : row => length (fst rw)) A' = map (fun rw : row => length (fst rw)) A).
  { clear. induction ops as [|o r IH]; intros A E HM HO; simpl.
    - exists [], A. eauto.
    - inversion HO as [|? ? [Hi Hj] HO']; subst.
      destruct (insert_status (o_v o) (o_t o) HM Hi Hj) as (b & A1 & E1 & Hf & Ht & HL & HC).
      rewrite E1. simpl.
      assert (HM1 : exists E1, MI n A1 E1).
      { destruct b; [destruct (Ht eq_refl) as (E' & H' & _); eauto|destruct (Hf eq_refl) as [-> _]; eauto]. }
      destruct HM1 as (E' & HM1).
      destruct (IH A1 E' HM1) as (fl & A' & E2 & HE & HL2); [rewrite HL; auto|].
      rewrite E2. simpl. exists (b :: fl), A'. split; [auto|]. split; [auto|].
      rewrite HL2. apply list_ext; [rewrite !map_length; auto|]. intros k.
      rewrite !nth_error_map. destruct (nth_error A k) as [rw|] eqn:Ek.
      + destruct (nth_error A1 k) as [rw'|] eqn:Ek'.
        * simpl. f_equal. eapply HC; eauto.
        * apply nth_error_None in Ek'. assert (k < length A)%nat by (apply nth_error_Some; congruence). lia.
      + apply nth_error_None in Ek. destruct (nth_error A1 k) eqn:Ek'; auto.
        assert (k < length A1)%nat by (apply nth_error_Some; congruence). lia. }
  assert (CP : map (fun rw : row => length (fst rw)) (preallocate caps) = caps).
  { unfold preallocate. rewrite map_map. simpl.
    rewrite (map_ext _ (fun c => c)); [apply map_id|]. intros c. apply repeat_length. }
  destruct (RUN ops (preallocate caps) (fun _ => []) (@MI_pre n caps)) as (fl & A & Er & (E & HM) & HC).
  { rewrite LP. auto. }
  rewrite CP in HC.
  assert (LA : length A = length caps) by (rewrite <- HC, map_length; auto).
  destruct (RUN [o] A E HM) as (fl' & A' & Er' & (E' & HM') & HC').
  { rewrite LA. constructor; [split; auto|constructor]. }
  rewrite <- LA in Hi.
  destruct (insert_status (o_v o) (o_t o) HM Hi Hj) as (b & A1 & E1 & Hf & Ht & HL & HCap).
  simpl in Er'. rewrite E1 in Er'. simpl in Er'. inversion Er'; subst fl' A'. clear Er'.
  exists fl, A, b, A1. split; [auto|]. split; [auto|]. split; [|split; [|split]].
  - intros Hb. destruct (Hf Hb) as (EA & rw & En & Hfull & HA). split; [auto|].
    assert (EA0 : nth (o_i o) A ([], 0%nat) = rw) by (apply nth_error_nth; auto).
    split.
    + rewrite nth_map' with (d' := ([], 0%nat)) by auto.
      etransitivity; [apply (f_equal snd EA0)|].
      assert (EC : nth (o_i o) caps 0%nat = length (fst rw)).
      { apply nth_error_nth. rewrite <- HC, nth_error_map, En. reflexivity. }
      rewrite EC.
      destruct (HM _ _ En) as (k & Hl & Hc & _).
      assert (length (fst rw) = (snd rw + k)%nat).
      { rewrite Hl, app_length, repeat_length. lia. }
      lia.
    + intros Ety t It. rewrite EA0 in It. apply (find_col_none (HA Ety)). auto.
  - intros Hb k x Hk. destruct (Ht Hb) as (E2 & HM2 & HS).
    rewrite (stored_MI x HM2) by lia. rewrite (stored_MI x HM) by lia. apply HS.
  - etransitivity; [exact HC'|]. auto.
  - apply Forall_forall. intros rw Hrw. apply In_nth_error in Hrw. destruct Hrw as (k & Hk).
    destruct (HM' _ _ Hk) as (q & Hl & Hc & _). rewrite Hl, app_length. lia.
Qed.

Lemma insert_row_add_partial_store :
  exists caps es A', Forall (fun e => (0 <= fst e < 2)%Z) es /\
    insert_row (preallocate caps) 0 es ADD = Ok (false, A') /\ A' <> preallocate caps.
Proof.
  exists [1%nat], [(0%Z, 1); (1%Z, 1)]. eexists. split; [repeat constructor; simpl; lia|].
  split; [reflexivity|]. unfold preallocate. simpl. intros H. inversion H.
Qed.

Lemma insert_row_truthful caps n ops i es :
  Forall (op_ok (length caps) n) ops -> (i < length caps)%nat ->
  Forall (fun e => (0 <= fst e < Z.of_nat n)%Z) es ->
  exists flags A b A', run (preallocate caps) ops = Ok (flags, A) /\
    insert_row A i es INSERT = Ok (b, A') /\
    (b = false -> A' = A) /\
    (b = true -> forall k x, (k < length caps)%nat ->
        stored A' k x = stored A k x +
          (if Nat.eqb k i then sumR (map (fun e => snd e * x (fst e)) es) else 0)).
Proof.
  intros HO Hi HF.
  assert (LP : length (preallocate caps) = length caps) by (unfold preallocate; apply map_length).
  destruct (@run_spec n ops (preallocate caps) (fun _ => []) (@MI_pre n caps))
    as (fl & A & E & Hr & HLf & HLA & HM & Hc & Ht).
  { rewrite LP. auto. }
  rewrite LP in *. rewrite <- HLA in Hi.
  destruct (insert_row_status HM Hi HF) as (b & A' & E1 & Hf & Htr).
  exists fl, A, b, A'. split; [auto|]. split; [auto|]. split; [auto|].
  intros Hb k x Hk. destruct (Htr Hb) as (E' & HM' & HE').
  assert (LA' : length A' = length A).
  { unfold insert_row in E1. destruct (rd A i); try discriminate. simpl in E1.
    destruct (length (fst a) <? snd a + length es)%nat; [inversion E1; subst; discriminate|].
    destruct (row_push_many i es a); try discriminate. simpl in E1. inversion E1. apply upd_length. }
  rewrite (stored_MI x HM') by lia. rewrite (stored_MI x HM) by lia. rewrite HE'.
  destruct (Nat.eqb_spec k i) as [->|N]; [|ring].
  rewrite rowsum_app. unfold rowsum at 2. rewrite map_map. reflexivity.
Qed.
