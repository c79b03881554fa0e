From Verif Require Import Base BaseR Loop Util_Model Mesh_Model Mesh_Spec Mesh_Proofs Material_Model Material_Spec Material_Proofs
  Matrix_Model Matrix_Spec Matrix_Proofs Boundary_Proofs Diffusion_Model.
Set Implicit Arguments. Unset Strict Implicit.
Open Scope nat_scope.

(** ** Histories whose calls are all accepted *)

Lemma row_insert_room i n j v ty rw ents (K : list Z) :
  RI i n rw ents -> (0 <= j < Z.of_nat n)%Z ->
  NoDup (map tj ents) -> incl (map tj ents) K -> In j K -> length K <= length (fst rw) ->
  (ty = INSERT -> ~ In j (map tj ents)) ->
  exists rw' ents', row_insert i j v ty rw = (true, rw') /\ RI i n rw' ents' /\
    length (fst rw') = length (fst rw) /\
    NoDup (map tj ents') /\ incl (map tj ents') K /\ incl (map tj ents') (j :: map tj ents) /\ incl (j :: map tj ents) (map tj ents').
Proof.
  intros H Hj ND IN JK HK HI.
  assert (App : ~ In j (map tj ents) ->
    exists rw' ents', row_append i j v rw = (true, rw') /\ RI i n rw' ents' /\
    length (fst rw') = length (fst rw) /\
    NoDup (map tj ents') /\ incl (map tj ents') K /\ incl (map tj ents') (j :: map tj ents) /\ incl (j :: map tj ents) (map tj ents')).
  { intros NI. destruct (row_append_spec v H Hj) as [(E & L)|(rw' & E & R' & L)].
    - exfalso. assert (N2 : NoDup (j :: map tj ents)) by (constructor; auto).
      assert (I2 : incl (j :: map tj ents) K) by (intros z [<-|Hz]; auto).
      assert (L2 := NoDup_incl_length N2 I2). cbn [length] in L2. rewrite map_length in L2. lia.
    - exists rw', (ents ++ [T (Z.of_nat i) j v]). split; [auto|]. split; [auto|]. split; [auto|].
      rewrite map_app. cbn [map tj].
      assert (P : Permutation (j :: map tj ents) (map tj ents ++ [j])) by apply Permutation_cons_append.
      split; [|split; [|split]].
      + eapply Permutation_NoDup; [exact P|]. constructor; auto.
      + intros z Hz. apply in_app_or in Hz. destruct Hz as [Hz|[<-|[]]]; auto.
      + intros z Hz. apply (Permutation_in _ (Permutation_sym P)). auto.
      + intros z Hz. apply (Permutation_in _ P). auto. }
  destruct ty; cbn [row_insert].
  - apply App. auto.
  - assert (H0 := H). destruct H as (k & Hl & Hc & Hg).
    assert (HF : find_col j (fst rw) = find_col j ents) by (rewrite Hl; apply find_col_app_default; lia).
    rewrite HF. destruct (find_col j ents) as [p|] eqn:F.
    + rewrite Hl. destruct (find_col_some F) as (a & t & b & E1 & E2 & E3).
      subst ents p. exists (add_at ((a ++ t :: b) ++ repeat tdefault k) (length a) v, snd rw).
      exists (a ++ T (ti t) (tj t) (tv t + v) :: b).
      assert (AA : add_at ((a ++ t :: b) ++ repeat tdefault k) (length a) v =
                   (a ++ T (ti t) (tj t) (tv t + v) :: b) ++ repeat tdefault k).
      { unfold add_at. rewrite <- app_assoc. simpl.
        rewrite nth_error_app2 by lia. rewrite Nat.sub_diag. simpl.
        rewrite upd_app_mid. rewrite <- app_assoc. reflexivity. }
      assert (EC : map tj (a ++ T (ti t) (tj t) (tv t + v) :: b) = map tj (a ++ t :: b)).
      { rewrite !map_app. reflexivity. }
      split; [reflexivity|]. split; [|split; [|split; [|split; [|split]]]].
      * exists k. simpl. split; [exact AA|]. split.
        { rewrite Hc. rewrite !app_length. reflexivity. }
        apply Forall_app in Hg. destruct Hg as [Ha Hb]. inversion Hb; subst.
        apply Forall_app. split; [auto|constructor; auto].
      * simpl. rewrite AA. rewrite ?Hl. rewrite !app_length. simpl. lia.
      * rewrite EC. auto.
      * rewrite EC. auto.
      * rewrite EC. apply incl_tl, incl_refl.
      * rewrite EC. intros z [<-|Hz]; [|auto]. apply in_map_iff. exists t. split; [auto|]. apply in_or_app. right. left. auto.
    + apply App. intros Hin. apply in_map_iff in Hin. destruct Hin as (t & Et & Ht).
      apply (find_col_none F) in Ht. auto.
Qed.

(** Calls l never repeat by INSERT a position of the row. *)
Fixpoint fresh (seen : list (nat * Z)) (l : list op) : Prop :=
  match l with
  | [] => True
  | o :: r => (o_t o = INSERT -> ~ In (o_i o, o_j o) seen) /\ fresh ((o_i o, o_j o) :: seen) r
  end.

Lemma run_fresh n (K : nat -> list Z) ops : forall A E seen,
  MI n A E -> Forall (op_ok (length A) n) ops ->
  (forall i rw, nth_error A i = Some rw -> length (K i) <= length (fst rw)) ->
  (forall i, i < length A -> NoDup (map tj (E i)) /\ incl (map tj (E i)) (K i)) ->
  (forall i z, i < length A -> In z (map tj (E i)) -> In (i, z) seen) ->
  (forall o, In o ops -> In (o_j o) (K (o_i o))) ->
  fresh seen ops ->
  exists A' E', run A ops = Ok (repeat true (length ops), A') /\ length A' = length A /\ MI n A' E' /\
    (forall i, incl (map tj (E i)) (map tj (E' i))) /\
    (forall o, In o ops -> In (o_j o) (map tj (E' (o_i o)))).
Proof.
  induction ops as [|o r IH]; intros A E seen HM HO HK HE HS HI HF.
  - exists A, E. split; [auto|]. split; [auto|]. split; [auto|]. split; [intros; apply incl_refl|intros o []].
  - inversion HO as [|? ? [Hi Hj] HO']; subst. destruct HF as [HF1 HF2].
    destruct (nth_error A (o_i o)) as [rw|] eqn:En; [|apply nth_error_None in En; lia].
    assert (HR := HM _ _ En). destruct (HE _ Hi) as [ND IN].
    destruct (@row_insert_room (o_i o) n (o_j o) (o_v o) (o_t o) rw (E (o_i o)) (K (o_i o)))
      as (rw' & e' & ER & HR' & HL & ND' & IN' & IN2 & IN3); auto.
    { apply HI. left. auto. }
    { intros Et Hin. apply (HF1 Et). apply HS; auto. }
    cbn [run]. unfold insert, rd. rewrite En. cbn [bind]. rewrite ER. cbn [bind].
    set (A1 := upd A (o_i o) rw').
    set (E1 := fun k => if Nat.eqb k (o_i o) then e' else E k).
    assert (HLA1 : length A1 = length A) by apply upd_length.
    destruct (IH A1 E1 ((o_i o, o_j o) :: seen)) as (A' & E' & Hr & HLA & HM' & HI1 & HI2).
    + intros k rwk Hk. unfold A1 in Hk. unfold E1.
      destruct (Nat.eqb_spec k (o_i o)) as [->|N].
      * rewrite nth_error_upd_eq in Hk by auto. inversion Hk; subst. auto.
      * rewrite nth_error_upd_neq in Hk by auto. apply HM; auto.
    + rewrite HLA1. auto.
    + intros k rwk Hk. unfold A1 in Hk. destruct (Nat.eq_dec k (o_i o)) as [->|N].
      * rewrite nth_error_upd_eq in Hk by auto. inversion Hk; subst. rewrite HL. apply HK. auto.
      * rewrite nth_error_upd_neq in Hk by auto. apply HK; auto.
    + intros k Hk. unfold E1. destruct (Nat.eqb_spec k (o_i o)) as [->|N]; auto. apply HE. lia.
    + intros k z Hk Hz. unfold E1 in Hz. destruct (Nat.eqb_spec k (o_i o)) as [->|N].
      * apply IN2 in Hz. destruct Hz as [<-|Hz]; [left; auto|right; apply HS; auto].
      * right. apply HS; auto. lia.
    + intros o' Ho'. apply HI. right. auto.
    + auto.
    + rewrite Hr. cbn [bind length repeat]. exists A', E'. split; [auto|]. split; [lia|]. split; [auto|]. split.
      * intros k z Hz. apply HI1. unfold E1. destruct (Nat.eqb_spec k (o_i o)) as [->|N]; [|auto]. apply IN3. right. auto.
      * intros o' [<-|Ho']; [|auto]. apply HI1. unfold E1. rewrite Nat.eqb_refl. apply IN3. left. auto.
Qed.

Lemma fresh_add l : forall seen, (forall o, In o l -> o_t o = ADD) -> fresh seen l.
Proof.
  induction l as [|o r IH]; intros seen H; cbn; [auto|]. split.
  - intros E. rewrite (H o) in E by (left; auto). discriminate.
  - apply IH. intros. apply H. right. auto.
Qed.

Lemma fresh_insert l2 : (forall o, In o l2 -> o_t o = ADD) -> forall l seen,
  NoDup (map (fun o => (o_i o, o_j o)) l) ->
  (forall o, In o l -> ~ In (o_i o, o_j o) seen) -> fresh seen (l ++ l2).
Proof.
  intros H2. induction l as [|o r IH]; intros seen ND HS; cbn [app fresh].
  - apply fresh_add. auto.
  - cbn [map] in ND. inversion ND as [|? ? N1 N2]; subst. split.
    + intros _. apply HS. left. auto.
    + apply IH; auto. intros o' Ho' [E|Hin].
      * apply N1. rewrite E. apply in_map_iff. exists o'. auto.
      * revert Hin. apply HS. right. auto.
Qed.

(** The matrix represented by a list of accepted calls. *)
Definition apply (ops : list op) (i : nat) (x : list R) : R :=
  sumR (map (fun o => if o_i o =? i then (o_v o * at_col x (o_j o))%R else 0%R) ops).

Lemma contrib_all i x ops : contrib i (at_col x) ops (repeat true (length ops)) = apply ops i x.
Proof.
  unfold contrib, apply. f_equal. induction ops as [|o r IH]; cbn; [auto|]. f_equal. auto.
Qed.

Lemma combine_all A (l : list A) : combine l (repeat true (length l)) = map (fun o => (o, true)) l.
Proof. induction l as [|a r IH]; cbn; [auto|]. f_equal. auto. Qed.

(** Room for all columns of the calls. *)
Definition roomy (caps : list nat) (ops : list op) : Prop :=
  forall l, NoDup l -> forall i, i < length caps ->
    (forall z, In z l -> exists o, In o ops /\ o_i o = i /\ o_j o = z) -> length l <= nth i caps 0.
Lemma roomy_incl caps ops ops' : roomy caps ops ->
  incl (map (fun o => (o_i o, o_j o)) ops') (map (fun o => (o_i o, o_j o)) ops) -> roomy caps ops'.
Proof.
  intros H HI l ND i Hi HL. apply H; auto. intros z Hz. destruct (HL z Hz) as (o & Ho & <- & <-).
  assert (P : In (o_i o, o_j o) (map (fun o => (o_i o, o_j o)) ops)) by (apply HI; apply in_map_iff; exists o; auto).
  apply in_map_iff in P. destruct P as (o' & E & Ho'). inversion E. exists o'. auto.
Qed.
Definition touched_cols (ops : list op) (i : nat) : list Z :=
  nodup Z.eq_dec (map o_j (filter (fun o => o_i o =? i) ops)).
Lemma touched_cols_in ops i z : In z (touched_cols ops i) <-> exists o, In o ops /\ o_i o = i /\ o_j o = z.
Proof.
  unfold touched_cols. rewrite nodup_In, in_map_iff. split.
  - intros (o & <- & H). apply filter_In in H. destruct H as [H E]. apply Nat.eqb_eq in E. exists o. auto.
  - intros (o & H & <- & <-). exists o. split; [auto|]. apply filter_In. rewrite Nat.eqb_refl. auto.
Qed.

(** Building from calls that fit. *)
Lemma build_fits srt caps ops1 ops2 : is_sort srt ->
  let ops := ops1 ++ ops2 in
  Forall (op_ok (length caps) (length caps)) ops ->
  (forall o, In o ops2 -> o_t o = ADD) ->
  NoDup (map (fun o => (o_i o, o_j o)) ops1) ->
  roomy caps ops ->
  (forall i, i < length caps -> exists o, In o ops /\ o_i o = i) ->
  exists C, build srt caps ops = Ok C /\
    (forall x, length x = length caps -> exists y, multiply C x = Ok y /\ length y = length caps /\
      forall i, i < length caps -> nth i y 0%R = apply ops i x) /\
    exists caps', cleared C = preallocate caps' /\ length caps' = length caps /\ roomy caps' ops.
Proof.
  intros Hs ops HO H2 ND RO HT. set (K := touched_cols ops).
  assert (HI : forall o, In o ops -> In (o_j o) (K (o_i o))) by (intros o Ho; apply touched_cols_in; exists o; auto).
  assert (HK : forall i, i < length caps -> length (K i) <= nth i caps 0).
  { intros i Hi. apply RO; [apply NoDup_nodup|auto|]. intros z Hz. apply touched_cols_in. auto. }
  assert (HLp : length (preallocate caps) = length caps) by (unfold preallocate; apply map_length).
  destruct (@run_fresh (length caps) K ops (preallocate caps) (fun _ => []) []) as (A & E & Hr & HLA & HM & _ & HIN).
  - apply MI_pre.
  - rewrite HLp. auto.
  - intros i rw Hn. unfold preallocate in Hn. rewrite nth_error_map in Hn.
    destruct (nth_error caps i) as [c|] eqn:Ec; [|discriminate]. inversion Hn; subst. cbn [fst].
    rewrite repeat_length. assert (Hi : i < length caps) by (apply nth_error_Some; congruence).
    rewrite <- (nth_error_nth caps i 0 Ec). auto.
  - intros i Hi. split; [constructor|intros z []].
  - intros i z Hi [].
  - auto.
  - apply fresh_insert; auto.
  - assert (HT' : forall i, i < length caps -> touched i ops (repeat true (length ops))).
    { intros i Hi. destruct (HT i Hi) as (o & Ho & Eo). exists o. split; [|auto].
      rewrite combine_all. apply in_map_iff. exists o. auto. }
    destruct (@matrix_multiply_reflects_insertions srt caps (length caps) ops (repeat 0%R (length caps)) Hs HO)
      as (fl & A0 & Hr0 & _ & Hok & _); [apply repeat_length|].
    rewrite Hr in Hr0. inversion Hr0; subst fl A0. destruct (Hok HT') as (C & y0 & Has & _).
    exists C. split.
    { unfold build, build_on. rewrite Hr. cbn [bind]. auto. }
    split.
    2:{ assert (NE : forall k, k < length A -> E (0 + k) <> []).
        { intros k Hk. destruct (HT k) as (o & Ho & Eo); [lia|]. assert (H := HIN o Ho). rewrite Eo in H. cbn [Nat.add].
          intros Z. rewrite Z in H. destruct H. }
        destruct (@assemble_rows_spec srt (length caps) A Hs 0 E) as (ls & Els & HL & Hall); [|auto|].
        { intros k rw Hk. apply HM. auto. }
        unfold assemble in Has. rewrite Els in Has. cbn [bind] in Has. inversion Has as [EC]. clear Has.
        assert (LL : length ls = length caps) by lia.
        exists (map (@length triplet) ls). split; [|split].
        - unfold cleared. rewrite csr_rows_len. f_equal. apply (list_ext_nth 0).
          + rewrite !map_length, seq_length. auto.
          + intros i Hi. rewrite map_length, seq_length in Hi. rewrite nth_map_seq by auto.
            rewrite csr_rows, !nth_map_seq by lia.
            destruct (nth_error_ex (l := ls) (i := i)) as (l & Hl); [auto|].
            rewrite (offs_S Hl). rewrite nth_map' with (d' := []) by auto. rewrite (nth_error_nth ls _ [] Hl). lia.
        - rewrite map_length. auto.
        - intros q NQ i Hi HQ. rewrite map_length in Hi. destruct (nth_error_ex (l := ls) (i := i)) as (l & Hl); [lia|].
          rewrite nth_map' with (d' := []) by lia. rewrite (nth_error_nth ls _ [] Hl).
          destruct (Hall i l Hl) as (_ & _ & _ & HP & _). cbn [Nat.add] in HP.
          assert (LE : length (E i) <= length l).
          { destruct HP as [HP|[HP _]]; apply Permutation_length in HP; [lia|cbn [length] in HP; lia]. }
          assert (length q <= length (map tj (E i))); [|rewrite map_length in *; lia].
          apply NoDup_incl_length; [auto|]. intros z Hz. destruct (HQ z Hz) as (o & Ho & <- & <-). apply HIN. auto. }
    intros x Hx.
    destruct (@matrix_multiply_reflects_insertions srt caps (length caps) ops x Hs HO Hx)
      as (fl & A0 & Hr1 & _ & Hok1 & _).
    rewrite Hr in Hr1. inversion Hr1; subst fl A0. destruct (Hok1 HT') as (C1 & y & Has1 & Hm & Hl & Hy).
    rewrite Has in Has1. inversion Has1; subst C1.
    exists y. split; [auto|]. split; [auto|]. intros i Hi. rewrite Hy by auto. apply contrib_all.
Qed.

(** ** Sums over the calls *)

Lemma sumR_flat A (f : A -> list R) l : sumR (flat_map f l) = sumR (map (fun a => sumR (f a)) l).
Proof. induction l as [|a r IH]; cbn [flat_map map]; [auto|]. rewrite sumR_app, sumR_cons, IH. auto. Qed.

Lemma map_flat_map A B C (f : B -> C) (g : A -> list B) l : map f (flat_map g l) = flat_map (fun a => map f (g a)) l.
Proof. induction l as [|a r IH]; cbn; [auto|]. rewrite map_app, IH. auto. Qed.

Lemma apply_app a b i x : apply (a ++ b) i x = (apply a i x + apply b i x)%R.
Proof. unfold apply. rewrite map_app, sumR_app. auto. Qed.

Lemma apply_flat A (f : A -> list op) l i x : apply (flat_map f l) i x = sumR (map (fun a => apply (f a) i x) l).
Proof. unfold apply. rewrite map_flat_map, sumR_flat. auto. Qed.

Lemma sumR_pick A (f : A -> R) l a0 : NoDup l -> In a0 l -> (forall a, In a l -> a <> a0 -> f a = 0%R) ->
  sumR (map f l) = f a0.
Proof.
  induction l as [|a r IH]; intros ND HI HZ; [destruct HI|]. inversion ND as [|? ? N1 N2]; subst.
  cbn [map]. rewrite sumR_cons. destruct HI as [->|HI].
  - rewrite (@sumR_map_zero A f r); [ring|]. intros b Hb. apply HZ; [right; auto|]. intros ->. auto.
  - rewrite (HZ a); [|left; auto|intros ->; auto]. rewrite IH; auto; [ring|]. intros. apply HZ; [right|]; auto.
Qed.

Lemma apply_other ops i x : (forall o, In o ops -> o_i o <> i) -> apply ops i x = 0%R.
Proof.
  intros H. unfold apply. apply sumR_map_zero. intros o Ho.
  destruct (Nat.eqb_spec (o_i o) i); [exfalso; apply (H o); auto|auto].
Qed.

Lemma apply_own ops i x : (forall o, In o ops -> o_i o = i) ->
  apply ops i x = sumR (map (fun o => o_v o * at_col x (o_j o))%R ops).
Proof.
  intros H. unfold apply. apply sumR_map_ext. intros o Ho. rewrite (H o Ho), Nat.eqb_refl. auto.
Qed.

Lemma apply_rows gs cs (F : nat -> nat -> list op) (row : nat -> nat -> nat) g c x :
  NoDup gs -> NoDup cs -> In g gs -> In c cs ->
  (forall g c o, In g gs -> In c cs -> In o (F g c) -> o_i o = row g c) ->
  (forall g c g' c', In g gs -> In c cs -> In g' gs -> In c' cs -> row g c = row g' c' -> g = g' /\ c = c') ->
  apply (flat_map (fun g => flat_map (F g) cs) gs) (row g c) x =
  sumR (map (fun o => o_v o * at_col x (o_j o))%R (F g c)).
Proof.
  intros N1 N2 Hg Hc HF HI. rewrite apply_flat.
  rewrite (@sumR_pick nat _ gs g); auto.
  - rewrite apply_flat. rewrite (@sumR_pick nat _ cs c); auto.
    + apply apply_own. intros o Ho. apply (HF g c); auto.
    + intros c' Hc' Nc. apply apply_other. intros o Ho E. rewrite (HF g c' o) in E; auto.
      destruct (HI g c' g c); auto.
  - intros g' Hg' Ng. apply apply_other. intros o Ho E. apply in_flat_map in Ho. destruct Ho as (c' & Hc' & Ho).
    rewrite (HF g' c' o) in E; auto. destruct (HI g' c' g c); auto.
Qed.

Lemma NoDup_app' A (l1 l2 : list A) : NoDup l1 -> NoDup l2 -> (forall z, In z l1 -> In z l2 -> False) -> NoDup (l1 ++ l2).
Proof.
  induction l1 as [|a l1 IH]; intros H1 H2 H; cbn; auto. inversion H1; subst. constructor.
  - intros Hin. apply in_app_iff in Hin. destruct Hin; [auto|apply (H a); cbn; auto].
  - apply IH; auto. intros z Hz1 Hz2. apply (H z); cbn; auto.
Qed.

(** ** Geometry *)
From Verif Require Import Diffusion_Spec.

Section Geo.
  Variable m : mesh.
  Hypothesis MG : mesh_good m.
  Let n := ncells m.

  Lemma cell_index i j k : index (ncx m) (ncy m) i j k = cell m i j k.
  Proof. unfold index, cell. ring. Qed.

  Lemma cell_lt i j k : inside m i j k -> cell m i j k < ncells m.
  Proof. intros (A & B & C). rewrite <- cell_index. apply index_lt; auto. Qed.

  Lemma cell_pos i j k : inside m i j k -> forall a, pos m (cell m i j k) a = crd a i j k.
  Proof.
    intros (A & B & C) a. rewrite <- cell_index. destruct (@index_inv _ _ _ i j k A B C) as (X & Y & Z).
    unfold pos, crd. destruct a as [|[|a]]; auto.
  Qed.

  Lemma cell_ex c : c < ncells m -> exists i j k, inside m i j k /\ c = cell m i j k.
  Proof.
    intros H. destruct (@index_total (ncx m) (ncy m) (ncz m) c H) as (A & B & C & E).
    eexists _, _, _. split; [repeat split; eassumption|]. rewrite <- cell_index. auto.
  Qed.

  Lemma cell_inj i j k i' j' k' : inside m i j k -> inside m i' j' k' -> cell m i j k = cell m i' j' k' ->
    i = i' /\ j = j' /\ k = k'.
  Proof.
    intros H H' E. assert (P := cell_pos H). rewrite E in P. 
    assert (P' := cell_pos H').
    split; [|split].
    - specialize (P 0); specialize (P' 0). cbn in *. congruence.
    - specialize (P 1); specialize (P' 1). cbn in *. congruence.
    - specialize (P 2); specialize (P' 2). cbn in *. congruence.
  Qed.

  Lemma coord_cell i j k a : inside m i j k -> coord m a (cell m i j k) = crd a i j k.
  Proof.
    intros (A & B & C). unfold coord, crd, cell.
    assert (D1 : (i + ncx m * (j + ncy m * k)) / ncx m = j + ncy m * k).
    { rewrite Nat.mul_comm, Nat.div_add by lia. rewrite Nat.div_small by lia. lia. }
    destruct a as [|[|a]].
    - rewrite Nat.mul_comm, Nat.mod_add by lia. apply Nat.mod_small. auto.
    - rewrite D1. rewrite Nat.mul_comm, Nat.mod_add by lia. apply Nat.mod_small. auto.
    - rewrite D1. rewrite Nat.mul_comm, Nat.div_add by lia. rewrite Nat.div_small by lia. lia.
  Qed.

  Lemma wid_cell i j k a : inside m i j k ->
    wid m a (cell m i j k) = nth (crd a i j k) (axis_widths_of m a) 0%R.
  Proof. intros I. unfold wid. rewrite (coord_cell a I). auto. Qed.

  Lemma hw_wid c a : c < ncells m -> hw m c a = wid m a c.
  Proof.
    intros H. destruct (cell_ex H) as (i & j & k & I & ->). rewrite wid_cell by auto.
    unfold hw. rewrite cell_pos by auto. auto.
  Qed.

  Lemma wid_pos c a : c < ncells m -> (0 < wid m a c)%R.
  Proof.
    intros H. destruct (cell_ex H) as (i & j & k & (A & B & C) & ->). rewrite wid_cell by (repeat split; auto).
    destruct MG as (L1 & L2 & L3 & P & _). apply P. unfold crd, axis_widths_of.
    destruct a as [|[|a]]; [left|right; left|right; right]; apply nth_In; lia.
  Qed.

  Lemma adjacent_lt a c c' : adjacent m a c c' -> c < ncells m /\ c' < ncells m.
  Proof.
    intros (i & j & k & (A & B & C) & -> & H). split; [apply cell_lt; repeat split; auto|].
    destruct a as [|[|a]]; destruct H as [H ->]; apply cell_lt; repeat split; auto.
  Qed.
  Lemma low_lt a c : low_edge m a c -> c < ncells m.
  Proof. intros (i & j & k & I & -> & _). apply cell_lt. auto. Qed.
  Lemma high_lt a c : high_edge m a c -> c < ncells m.
  Proof. intros (i & j & k & I & -> & _). apply cell_lt. auto. Qed.

  Ltac leak6 l H :=
    destruct l as [|[|[|[|[|[|l]]]]]]; [| | | | | |exfalso; lia].
  Ltac axis3 a H := destruct a as [|[|[|a]]]; [| | |exfalso; lia].

  Lemma half0 a : (2 * a) / 2 = a /\ (2 * a) mod 2 = 0.
  Proof.
    split; [rewrite Nat.mul_comm; apply Nat.div_mul; lia|].
    rewrite Nat.mul_comm. apply Nat.mod_mul. lia.
  Qed.
  Lemma half1 a : (2 * a + 1) / 2 = a /\ (2 * a + 1) mod 2 = 1.
  Proof.
    rewrite Nat.add_comm, Nat.mul_comm. split; [rewrite Nat.div_add by lia; cbn; lia|].
    rewrite Nat.mod_add by lia. reflexivity.
  Qed.

  Lemma edge_low a c : c < ncells m -> on_edge m c (2 * a) = true <-> low_edge m a c.
  Proof.
    intros H. unfold on_edge. destruct (half0 a) as [-> ->]. cbn [Nat.eqb].
    destruct (cell_ex H) as (i & j & k & I & ->). rewrite (cell_pos I). rewrite Nat.eqb_eq.
    split.
    - intros E. exists i, j, k. auto.
    - intros (i' & j' & k' & I' & E & Z). destruct (cell_inj I I' E) as (-> & -> & ->). auto.
  Qed.
  Lemma edge_high a c : c < ncells m -> on_edge m c (2 * a + 1) = true <-> high_edge m a c.
  Proof.
    intros H. unfold on_edge. destruct (half1 a) as [-> ->]. cbn [Nat.eqb].
    destruct (cell_ex H) as (i & j & k & I & ->). rewrite (cell_pos I). rewrite Nat.eqb_eq.
    assert (P : 0 < axis_cells m a).
    { unfold axis_cells. destruct I as (A & B & C). destruct a as [|[|a]]; lia. }
    unfold high_edge. fold (axis_cells m a). split.
    - intros E. exists i, j, k. split; [auto|]. split; [auto|]. unfold axis_cells in *. lia.
    - intros (i' & j' & k' & I' & E & Z). destruct (cell_inj I I' E) as (-> & -> & ->).
      fold (axis_cells m a) in Z. lia.
  Qed.

  Lemma low_coord a c : c < ncells m -> (coord m a c =? 0) = on_edge m c (2 * a).
  Proof.
    intros H. unfold on_edge. destruct (half0 a) as [-> ->]. cbn [Nat.eqb].
    destruct (cell_ex H) as (i & j & k & I & ->). rewrite (cell_pos I), (coord_cell a I). auto.
  Qed.
  Lemma high_coord a c : c < ncells m ->
    (S (coord m a c) =? match a with 0 => ncx m | 1 => ncy m | _ => ncz m end) = on_edge m c (2 * a + 1).
  Proof.
    intros H. unfold on_edge. destruct (half1 a) as [-> ->]. change (1 =? 0) with false. cbv iota.
    destruct (cell_ex H) as (i & j & k & I & ->). rewrite (cell_pos I), (coord_cell a I).
    change (match a with 0 => ncx m | 1 => ncy m | _ => ncz m end) with (axis_cells m a).
    assert (P : 0 < axis_cells m a).
    { unfold axis_cells. destruct I as (A & B & C). destruct a as [|[|a]]; lia. }
    destruct (Nat.eqb_spec (S (crd a i j k)) (axis_cells m a)), (Nat.eqb_spec (crd a i j k) (axis_cells m a - 1)); auto; lia.
  Qed.

  Lemma up_neighbour a c : a < 3 -> c < ncells m -> on_edge m c (2 * a + 1) = false ->
    adjacent m a c (neighbour m c (2 * a + 1)).
  Proof.
    intros Ha H E. assert (NE : ~ high_edge m a c) by (rewrite <- edge_high by auto; congruence).
    destruct (cell_ex H) as (i & j & k & I & ->). exists i, j, k. split; [auto|]. split; [auto|].
    unfold neighbour. rewrite cell_index. unfold shifted. destruct (half1 a) as [-> ->].
    rewrite !(cell_pos I).
    assert (NE' : S (crd a i j k) <> match a with 0 => ncx m | 1 => ncy m | _ => ncz m end).
    { intros Z. apply NE. exists i, j, k. auto. }
    destruct I as (A & B & C). axis3 a Ha; cbn [crd Nat.eqb] in *; (split; [lia|]); f_equal; lia.
  Qed.
  Lemma down_neighbour a c : a < 3 -> c < ncells m -> on_edge m c (2 * a) = false ->
    adjacent m a (neighbour m c (2 * a)) c.
  Proof.
    intros Ha H E. assert (NE : ~ low_edge m a c) by (rewrite <- edge_low by auto; congruence).
    destruct (cell_ex H) as (i & j & k & I & ->).
    assert (NE' : crd a i j k <> 0). { intros Z. apply NE. exists i, j, k. auto. }
    unfold neighbour. rewrite cell_index. unfold shifted. destruct (half0 a) as [-> ->].
    rewrite !(cell_pos I). destruct I as (A & B & C).
    axis3 a Ha; cbn [crd Nat.eqb] in *; eexists _, _, _; (split; [|split; [reflexivity|]]).
    1, 3, 5: repeat split; lia.
    all: cbn [crd Nat.eqb]; (split; [lia|]); f_equal; lia.
  Qed.
  Lemma adjacent_up a c c' : a < 3 -> adjacent m a c c' ->
    on_edge m c (2 * a + 1) = false /\ neighbour m c (2 * a + 1) = c'.
  Proof.
    intros Ha H. destruct (adjacent_lt H) as [Lc _]. destruct H as (i & j & k & I & -> & H). split.
    - destruct (on_edge m (cell m i j k) (2 * a + 1)) eqn:E; [|auto]. apply edge_high in E; [|auto].
      destruct E as (i' & j' & k' & I' & E & Z). destruct (cell_inj I I' E) as (-> & -> & ->).
      exfalso. axis3 a Ha; cbn [crd Nat.eqb] in *; lia.
    - unfold neighbour. rewrite cell_index. unfold shifted. destruct (half1 a) as [-> ->].
      rewrite !(cell_pos I). axis3 a Ha; cbn [crd Nat.eqb] in *; destruct H as [_ ->]; f_equal; lia.
  Qed.
  Lemma adjacent_down a c c' : a < 3 -> adjacent m a c c' ->
    on_edge m c' (2 * a) = false /\ neighbour m c' (2 * a) = c.
  Proof.
    intros Ha H. destruct (adjacent_lt H) as [_ Lc]. destruct H as (i & j & k & I & -> & H).
    assert (I' : exists i' j' k', inside m i' j' k' /\ c' = cell m i' j' k' /\
       i' = (if a =? 0 then S i else i) /\ j' = (if a =? 1 then S j else j) /\ k' = (if a =? 2 then S k else k)).
    { destruct I as (A & B & C). axis3 a Ha; cbn [crd Nat.eqb] in *; destruct H as [H ->];
      eexists _, _, _; (split; [|split; [reflexivity|auto]]); repeat split; lia. }
    destruct I' as (i' & j' & k' & I' & -> & -> & -> & ->). split.
    - destruct (on_edge m _ (2 * a)) eqn:E; [|auto]. apply edge_low in E; [|auto].
      destruct E as (i1 & j1 & k1 & I1 & E & Z). destruct (cell_inj I' I1 E) as (<- & <- & <-).
      exfalso. axis3 a Ha; cbn [crd Nat.eqb] in *; lia.
    - unfold neighbour. rewrite cell_index. unfold shifted. destruct (half0 a) as [-> ->].
      rewrite !(cell_pos I'). axis3 a Ha; cbn [crd Nat.eqb]; f_equal; lia.
  Qed.

  Lemma neighbour_lt c leak : leak < 6 -> c < ncells m -> on_edge m c leak = false -> neighbour m c leak < ncells m.
  Proof.
    intros H Hc E. destruct (Nat.Even_or_Odd leak) as [[a ->]|[a ->]].
    - apply (@adjacent_lt a _ c). apply down_neighbour; auto. lia.
    - apply (@adjacent_lt a c). apply up_neighbour; auto. lia.
  Qed.

  (** Neighbours through different faces differ, and differ from the cell. *)
  Lemma neighbour_coord c leak a : leak < 6 -> c < ncells m -> on_edge m c leak = false -> a < 3 ->
    pos m (neighbour m c leak) a = shifted m c leak a.
  Proof.
    intros H Hc E Ha. destruct (Nat.Even_or_Odd leak) as [[b ->]|[b ->]].
    - assert (AD := @down_neighbour b c ltac:(lia) Hc E).
      destruct AD as (i & j & k & I & EN & AD). rewrite EN, (cell_pos I).
      unfold shifted. destruct (half0 b) as [-> ->]. cbn [Nat.eqb].
      destruct I as (A & B & C).
      axis3 b H; cbn [crd] in AD; destruct AD as [AD ->]; rewrite cell_pos by (repeat split; auto);
        axis3 a Ha; cbn; lia.
    - assert (AD := @up_neighbour b c ltac:(lia) Hc E).
      destruct AD as (i & j & k & I & EC & AD). rewrite EC.
      unfold shifted. destruct (half1 b) as [-> ->]. cbn [Nat.eqb].
      rewrite (cell_pos I). destruct I as (A & B & C). rewrite EC in AD.
      axis3 b H; cbn [crd] in AD; destruct AD as [AD ->]; rewrite cell_pos by (repeat split; auto);
        axis3 a Ha; cbn; lia.
  Qed.

  Lemma neighbour_diff c l l' : l < 6 -> l' < 6 -> c < ncells m -> on_edge m c l = false -> on_edge m c l' = false ->
    neighbour m c l = neighbour m c l' -> l = l'.
  Proof.
    intros H H' Hc E E' EQ.
    assert (X : forall a, a < 3 -> shifted m c l a = shifted m c l' a).
    { intros a Ha. rewrite <- !neighbour_coord by auto. rewrite EQ. auto. }
    assert (X0 := X 0 ltac:(lia)). assert (X1 := X 1 ltac:(lia)). assert (X2 := X 2 ltac:(lia)).
    unfold on_edge in E, E'. unfold shifted in X0, X1, X2.
    leak6 l H; leak6 l' H'; cbn in *; try reflexivity; exfalso;
      rewrite ?Nat.eqb_neq in *; lia.
  Qed.
  Lemma neighbour_self c l : l < 6 -> c < ncells m -> on_edge m c l = false -> neighbour m c l <> c.
  Proof.
    intros H Hc E EQ.
    assert (X : forall a, a < 3 -> shifted m c l a = pos m c a).
    { intros a Ha. rewrite <- neighbour_coord by auto. rewrite EQ. auto. }
    assert (X0 := X 0 ltac:(lia)). assert (X1 := X 1 ltac:(lia)). assert (X2 := X 2 ltac:(lia)).
    unfold on_edge in E. unfold shifted in X0, X1, X2.
    leak6 l H; cbn in *; rewrite ?Nat.eqb_neq in *; lia.
  Qed.

  Definition nbs (nleak c : nat) : list nat :=
    flat_map (fun leak => if on_edge m c leak then [] else [neighbour m c leak]) (seq 0 nleak).

  (** Faces normal to an infinite direction are on the edge. *)
  Lemma edge_infinite c leak : 2 * dim m <= leak < 6 -> c < ncells m -> on_edge m c leak = true.
  Proof.
    intros H Hc. destruct MG as (_ & _ & _ & _ & _ & _ & _ & _ & _ & _ & D & D2 & D3).
    destruct (cell_ex Hc) as (i & j & k & I & ->).
    unfold on_edge. rewrite (cell_pos I). destruct I as (A & B & C).
    apply Nat.eqb_eq.
    destruct leak as [|[|[|[|[|[|l]]]]]]; cbn; try lia.
  Qed.

  Lemma nbs_length nleak c : nleak <= 6 -> c < ncells m -> length (nbs nleak c) <= 2 * dim m.
  Proof.
    intros HL Hc. unfold nbs.
    assert (B : forall l, length (flat_map (fun leak => if on_edge m c leak then [] else [neighbour m c leak]) l) <= length l).
    { induction l as [|a l IH]; cbn; [lia|]. rewrite app_length. destruct (on_edge m c a); cbn; lia. }
    destruct (le_lt_dec nleak (2 * dim m)) as [H|H].
    - specialize (B (seq 0 nleak)). rewrite seq_length in B. lia.
    - replace nleak with (2 * dim m + (nleak - 2 * dim m)) by lia. rewrite seq_app, flat_map_app, app_length.
      assert (Z : flat_map (fun leak => if on_edge m c leak then [] else [neighbour m c leak]) (seq (0 + 2 * dim m) (nleak - 2 * dim m)) = []).
      { assert (G : forall l, (forall a, In a l -> on_edge m c a = true) ->
           flat_map (fun leak => if on_edge m c leak then [] else [neighbour m c leak]) l = []).
        { induction l as [|a l IH]; intros G; cbn; [auto|]. rewrite (G a) by (left; auto). cbn. apply IH. intros; apply G; right; auto. }
        apply G. intros a Ha. apply in_seq in Ha. apply edge_infinite; [lia|auto]. }
      rewrite Z. cbn [length]. specialize (B (seq 0 (2 * dim m))). rewrite seq_length in B. lia.
  Qed.
End Geo.

(** ** The rows of a multigroup operator *)

Section Rows.
  Variables (m : mesh) (gs : list nat) (gi : nat -> nat) (na : nat) (nleak cap : nat).
  Variables (off : nat -> nat -> nat -> R) (diag : nat -> nat -> R) (sc : nat -> list nat) (sv : nat -> nat -> nat -> R)
            (fis : bool) (fv : nat -> nat -> nat -> R).
  Hypothesis MG : mesh_good m.
  Hypothesis NL : nleak <= 6.
  Hypothesis CAP : 2 * dim m + na <= cap.
  Hypothesis GN : NoDup gs.
  Hypothesis GB : forall g, In g gs -> gi g < na.
  Hypothesis GI : forall g g', In g gs -> In g' gs -> gi g = gi g' -> g = g'.
  Hypothesis GS : forall p, p < na -> exists g, In g gs /\ gi g = p.
  Hypothesis SI : forall g gp, In g gs -> In gp (sc g) -> In gp gs.
  Hypothesis SN : forall g, In g gs -> NoDup (sc g).
  Let n := ncells m.
  Let row g c := c + gi g * n.
  Let cells := seq 0 n.

  Definition row_ops (g c : nat) : list op :=
    face_ops m (fun c => c + gi g * ncells m) (off g c) nleak c ++
    [Op (c + gi g * ncells m) (Z.of_nat (c + gi g * ncells m)) (diag g c) INSERT] ++
    flat_map (fun gp => if gp =? g then []
                        else [Op (c + gi g * ncells m) (Z.of_nat (c + gi gp * ncells m)) (sv g gp c) INSERT]) (sc g).
  Definition fission_ops (g c : nat) : list op :=
    map (fun gp => Op (c + gi g * ncells m) (Z.of_nat (c + gi gp * ncells m)) (fv g gp c) ADD) gs.
  Definition rows1 : list op := flat_map (fun g => flat_map (row_ops g) (seq 0 (ncells m))) gs.
  Definition rows2 : list op := if fis then flat_map (fun g => flat_map (fission_ops g) (seq 0 (ncells m))) gs else [].

  Lemma row_inj g c g' c' : In g gs -> c < n -> In g' gs -> c' < n -> row g c = row g' c' -> g = g' /\ c = c'.
  Proof.
    intros Hg Hc Hg' Hc' E. unfold row in E.
    destruct (@idx2 c (gi g) n Hc) as [A1 A2]. destruct (@idx2 c' (gi g') n Hc') as [B1 B2].
    rewrite E in A1, A2. split; [apply GI; auto; congruence|congruence].
  Qed.
  Lemma row_lt g c : In g gs -> c < n -> row g c < na * n.
  Proof. intros Hg Hc. unfold row. rewrite (Nat.mul_comm na). apply idx2_lt; auto. Qed.

  (** The columns of a row as pairs of group and cell. *)
  Definition row_pairs (g c : nat) : list (nat * nat) :=
    map (fun c' => (g, c')) (nbs m nleak c) ++ [(g, c)] ++ map (fun gp => (gp, c)) (filter (fun gp => negb (gp =? g)) (sc g)).

  Lemma row_ops_pairs g c :
    map (fun o => (o_i o, o_j o)) (row_ops g c) = map (fun q => (row g c, Z.of_nat (row (fst q) (snd q)))) (row_pairs g c).
  Proof.
    unfold row_ops, row_pairs, face_ops, nbs. rewrite !map_app. f_equal; [|f_equal].
    - induction (seq 0 nleak) as [|l r IH]; cbn [flat_map]; [auto|]. rewrite !map_app, IH. f_equal.
      destruct (on_edge m c l); auto.
    - induction (sc g) as [|gp r IH]; cbn [flat_map filter]; [auto|]. rewrite !map_app, IH.
      destruct (gp =? g); auto.
  Qed.

  Lemma row_pairs_in g c q : In g gs -> c < n -> In q (row_pairs g c) -> In (fst q) gs /\ snd q < n.
  Proof.
    intros Hg Hc Hq. unfold row_pairs in Hq. rewrite !in_app_iff in Hq. destruct Hq as [Hq|[[<-|[]]|Hq]]; cbn; auto.
    - apply in_map_iff in Hq. destruct Hq as (c' & <- & Hc'). split; [auto|]. cbn. unfold nbs in Hc'.
      apply in_flat_map in Hc'. destruct Hc' as (l & Hl & Hc'). apply in_seq in Hl.
      destruct (on_edge m c l) eqn:E; [destruct Hc'|]. destruct Hc' as [<-|[]]. apply neighbour_lt; auto. lia.
    - apply in_map_iff in Hq. destruct Hq as (gp & <- & Hgp). apply filter_In in Hgp. destruct Hgp as [Hgp _].
      cbn. split; [apply (@SI g gp)|]; auto.
  Qed.

  Lemma row_pairs_NoDup g c : In g gs -> c < n -> NoDup (row_pairs g c).
  Proof.
    intros Hg Hc. unfold row_pairs.
    assert (NN : forall c', In c' (nbs m nleak c) -> c' <> c).
    { intros c' H ->. unfold nbs in H. apply in_flat_map in H. destruct H as (l & Hl & H). apply in_seq in Hl.
      destruct (on_edge m c l) eqn:E; [destruct H|]. destruct H as [H|[]].
      apply (@neighbour_self m c l); auto. lia. }
    apply NoDup_app'; [|apply NoDup_app'|].
    - apply FinFun.Injective_map_NoDup; [intros u v E; congruence|]. unfold nbs.
      apply NoDup_flat_map.
      + apply seq_NoDup.
      + intros l _. destruct (on_edge m c l); repeat constructor. intros [].
      + intros l l' z Hl Hl' H H'. apply in_seq in Hl. apply in_seq in Hl'.
        destruct (on_edge m c l) eqn:E; [destruct H|]. destruct (on_edge m c l') eqn:E'; [destruct H'|].
        destruct H as [<-|[]]. destruct H' as [H'|[]]. symmetry in H'. apply (@neighbour_diff m c l l'); auto; lia.
    - repeat constructor. intros [].
    - apply FinFun.Injective_map_NoDup; [intros u v E; congruence|]. apply NoDup_filter. auto.
    - intros z [<-|[]] Hz. apply in_map_iff in Hz. destruct Hz as (gp & E & Hgp). apply filter_In in Hgp.
      inversion E; subst. rewrite Nat.eqb_refl in Hgp. destruct Hgp. discriminate.
    - intros z Hz1 Hz2. apply in_map_iff in Hz1. destruct Hz1 as (c' & <- & Hc').
      apply NN in Hc'. apply in_app_iff in Hz2. destruct Hz2 as [[E|[]]|Hz2]; [inversion E; auto|].
      apply in_map_iff in Hz2. destruct Hz2 as (gp & E & _). inversion E; auto.
  Qed.

  Lemma row_ops_i g c o : In o (row_ops g c) -> o_i o = row g c.
  Proof.
    intros H. assert (HI : In (o_i o, o_j o) (map (fun o => (o_i o, o_j o)) (row_ops g c))).
    { apply in_map_iff. exists o. auto. }
    rewrite row_ops_pairs in HI. apply in_map_iff in HI. destruct HI as (q & E & _). inversion E. auto.
  Qed.
  Lemma row_ops_j g c o : In o (row_ops g c) -> exists q, In q (row_pairs g c) /\ o_j o = Z.of_nat (row (fst q) (snd q)).
  Proof.
    intros H. assert (HI : In (o_i o, o_j o) (map (fun o => (o_i o, o_j o)) (row_ops g c))).
    { apply in_map_iff. exists o. auto. }
    rewrite row_ops_pairs in HI. apply in_map_iff in HI. destruct HI as (q & E & Hq). inversion E. exists q. auto.
  Qed.

  Lemma rows1_in o : In o rows1 -> exists g c, In g gs /\ c < n /\ In o (row_ops g c).
  Proof.
    intros H. apply in_flat_map in H. destruct H as (g & Hg & H). apply in_flat_map in H. destruct H as (c & Hc & H).
    apply in_seq in Hc. exists g, c. split; [auto|]. split; [unfold n; lia|auto].
  Qed.
  Lemma rows2_in o : In o rows2 -> exists g c gp, In g gs /\ c < n /\ In gp gs /\
    o = Op (row g c) (Z.of_nat (row gp c)) (fv g gp c) ADD.
  Proof.
    unfold rows2. destruct fis; [|intros []].
    intros H. apply in_flat_map in H. destruct H as (g & Hg & H). apply in_flat_map in H. destruct H as (c & Hc & H).
    apply in_seq in Hc. apply in_map_iff in H. destruct H as (gp & <- & Hgp).
    exists g, c, gp. split; [auto|]. split; [unfold n; lia|]. split; auto.
  Qed.

  Definition row_cols (i : nat) : list Z :=
    map (fun c' => Z.of_nat (c' + (i / n) * n)) (nbs m nleak (i mod n)) ++
    map (fun q => Z.of_nat (i mod n + q * n)) (seq 0 na).

  Lemma row_decode g c : c < n -> row g c mod n = c /\ row g c / n = gi g.
  Proof. intros H. unfold row. destruct (@idx2 c (gi g) n H). auto. Qed.

  Lemma ops_cols o : In o (rows1 ++ rows2) -> In (o_j o) (row_cols (o_i o)).
  Proof.
    intros Ho. apply in_app_iff in Ho. destruct Ho as [Ho|Ho].
    - destruct (rows1_in Ho) as (g & c & Hg & Hc & Ho').
        rewrite (row_ops_i Ho'). destruct (row_ops_j Ho') as (q & Hq & ->).
        unfold row_cols. destruct (row_decode g Hc) as [-> ->].
        unfold row_pairs in Hq. rewrite !in_app_iff in Hq. apply in_app_iff.
        destruct Hq as [Hq|[[<-|[]]|Hq]].
      + left. apply in_map_iff in Hq. destruct Hq as (c' & <- & Hc'). apply in_map_iff. exists c'. auto.
      + right. apply in_map_iff. exists (gi g). cbn. split; [auto|]. apply in_seq. specialize (GB Hg). lia.
      + right. apply in_map_iff in Hq. destruct Hq as (gp & <- & Hgp). apply filter_In in Hgp. destruct Hgp as [Hgp _].
        apply in_map_iff. exists (gi gp). cbn. split; [auto|]. apply in_seq. specialize (GB (SI Hg Hgp)). lia.
    - destruct (rows2_in Ho) as (g & c & gp & Hg & Hc & Hgp & ->). cbn [o_i o_j].
        unfold row_cols. destruct (row_decode g Hc) as [-> ->]. apply in_app_iff. right.
        apply in_map_iff. exists (gi gp). split; [auto|]. apply in_seq. specialize (GB Hgp). lia.
  Qed.

  Lemma roomy_cap : roomy (repeat cap (na * n)) (rows1 ++ rows2).
  Proof.
    intros l ND i Hi HL. rewrite repeat_length in Hi. rewrite nth_indep with (d' := cap) by (rewrite repeat_length; auto).
    rewrite nth_repeat.
    assert (I : incl l (row_cols i)) by (intros z Hz; destruct (HL z Hz) as (o & Ho & <- & <-); apply ops_cols; auto).
    assert (LL := NoDup_incl_length ND I). unfold row_cols in LL. rewrite app_length, !map_length, seq_length in LL.
    assert (n <> 0) by (intros E; rewrite E in Hi; lia).
    assert (B := @nbs_length m MG nleak (i mod n) NL). specialize (B ltac:(apply Nat.mod_upper_bound; auto)). lia.
  Qed.

  Lemma rows_build_caps srt caps : is_sort srt -> length caps = na * n -> roomy caps (rows1 ++ rows2) ->
    exists C, build srt caps (rows1 ++ rows2) = Ok C /\
      (forall x, length x = na * n -> exists y, multiply C x = Ok y /\ length y = na * n /\
        forall g c, In g gs -> c < n ->
          nth (row g c) y 0%R =
          (rsum nleak (fun leak => if on_edge m c leak then 0 else off g c leak * nth (row g (neighbour m c leak)) x 0) +
           diag g c * nth (row g c) x 0 +
           sumR (map (fun gp => if (gp =? g)%nat then 0 else sv g gp c * nth (row gp c) x 0) (sc g)) +
           (if fis then sumR (map (fun gp => fv g gp c * nth (row gp c) x 0) gs) else 0))%R) /\
      exists caps', cleared C = preallocate caps' /\ length caps' = na * n /\ roomy caps' (rows1 ++ rows2).
  Proof.
    intros Hs LC RO.
    destruct (@build_fits srt caps rows1 rows2 Hs) as (C & HB & HC & HCL).
    - rewrite LC. apply Forall_forall. intros o Ho. apply in_app_iff in Ho. destruct Ho as [Ho|Ho].
      + destruct (rows1_in Ho) as (g & c & Hg & Hc & Ho'). split.
        * rewrite (row_ops_i Ho'). apply row_lt; auto.
        * destruct (row_ops_j Ho') as (q & Hq & ->). destruct (row_pairs_in Hg Hc Hq) as [Q1 Q2].
          assert (L := row_lt Q1 Q2). lia.
      + destruct (rows2_in Ho) as (g & c & gp & Hg & Hc & Hgp & ->). cbn.
        assert (L := row_lt Hg Hc). assert (L' := row_lt Hgp Hc). unfold op_ok; cbn. lia.
    - intros o Ho. destruct (rows2_in Ho) as (g & c & gp & _ & _ & _ & ->). auto.
    - unfold rows1. rewrite map_flat_map.
      assert (RR : forall g, map (fun o => (o_i o, o_j o)) (flat_map (row_ops g) (seq 0 (ncells m))) =
         flat_map (fun c => map (fun q => (row g c, Z.of_nat (row (fst q) (snd q)))) (row_pairs g c)) (seq 0 (ncells m))).
      { intros g. rewrite map_flat_map. apply flat_map_ext. intros c. apply row_ops_pairs. }
      apply NoDup_flat_map; [auto| |].
      + intros g Hg. rewrite RR. apply NoDup_flat_map; [apply seq_NoDup| |].
        * intros c Hc. apply in_seq in Hc. assert (Hc' : c < n) by (unfold n; lia).
          apply NoDup_map_inj; [apply row_pairs_NoDup; auto|].
          intros q q' Hq Hq' E. inversion E as [E1]. apply Nat2Z.inj in E1.
          destruct (row_pairs_in Hg Hc' Hq). destruct (row_pairs_in Hg Hc' Hq').
          destruct (@row_inj (fst q) (snd q) (fst q') (snd q')); auto.
          destruct q, q'; cbn in *; congruence.
        * intros c c' z Hc Hc' H H'. apply in_seq in Hc. apply in_seq in Hc'.
          apply in_map_iff in H. destruct H as (q & <- & Hq). apply in_map_iff in H'. destruct H' as (q' & E & Hq').
          inversion E as [[E1 E2]]. destruct (@row_inj g c' g c); auto; unfold n; lia.
      + intros g g' z Hg Hg' H H'. rewrite RR in H. rewrite RR in H'.
        apply in_flat_map in H. destruct H as (c & Hc & H). apply in_flat_map in H'. destruct H' as (c' & Hc' & H').
        apply in_seq in Hc. apply in_seq in Hc'.
        apply in_map_iff in H. destruct H as (q & <- & Hq). apply in_map_iff in H'. destruct H' as (q' & E & Hq').
        inversion E as [[E1 E2]]. destruct (@row_inj g' c' g c); auto; unfold n; lia.
    - auto.
    - intros i Hi. rewrite LC in Hi.
      assert (n <> 0) by (intros E; rewrite E in Hi; lia).
      assert (Hp : i / n < na) by (apply Nat.div_lt_upper_bound; lia).
      assert (Hc : i mod n < n) by (apply Nat.mod_upper_bound; auto).
      destruct (GS Hp) as (g & Hg & Eg).
      exists (Op (row g (i mod n)) (Z.of_nat (row g (i mod n))) (diag g (i mod n)) INSERT). split.
      + apply in_app_iff. left. apply in_flat_map. exists g. split; [auto|]. apply in_flat_map.
        exists (i mod n). split; [apply in_seq; change (ncells m) with n; lia|]. unfold row_ops. apply in_app_iff. right. left. auto.
      + cbn [o_i]. unfold row. rewrite Eg. assert (DM := Nat.div_mod i n ltac:(auto)). rewrite (Nat.mul_comm n) in DM. lia.
    - exists C. split; [auto|]. rewrite LC in HC, HCL. split; [|auto]. intros x Hx. destruct (HC x Hx) as (y & Hm & Hl & Hy).
      exists y. split; [auto|]. split; [auto|]. intros g c Hg Hc. rewrite Hy by (apply row_lt; auto).
      rewrite apply_app.
      assert (HI : forall g c g' c', In g gs -> In c (seq 0 (ncells m)) -> In g' gs -> In c' (seq 0 (ncells m)) ->
         row g c = row g' c' -> g = g' /\ c = c').
      { intros g1 c1 g2 c2 H1 H2 H3 H4 E. apply in_seq in H2. apply in_seq in H4. apply row_inj; auto; unfold n; lia. }
      assert (Hcs : In c (seq 0 (ncells m))) by (apply in_seq; unfold n in Hc; lia).
      unfold rows1 at 1. rewrite (@apply_rows gs (seq 0 (ncells m)) row_ops row g c x); auto;
        [|apply seq_NoDup|intros; apply row_ops_i; auto].
      f_equal.
      + unfold row_ops. rewrite !map_app, !sumR_app. cbn [map]. rewrite sumR_cons. cbn [o_v o_j].
        unfold at_col. rewrite Nat2Z.id. fold n. fold (row g c).
        rewrite (Rplus_assoc (rsum _ _)). f_equal; [|f_equal].
        * unfold face_ops. rewrite map_flat_map, sumR_flat. rewrite rsum_sumR. apply sumR_map_ext.
          intros l _. destruct (on_edge m c l); cbn; [auto|]. rewrite Nat2Z.id. fold n. fold (row g (neighbour m c l)). ring.
        * cbn. ring.
        * rewrite map_flat_map, sumR_flat. apply sumR_map_ext.
          intros gp _. destruct (gp =? g); cbn; [auto|]. rewrite Nat2Z.id. fold n. fold (row gp c). ring.
      + unfold rows2. destruct fis; [|reflexivity].
        rewrite (@apply_rows gs (seq 0 (ncells m)) fission_ops row g c x); auto; [|apply seq_NoDup|].
        * unfold fission_ops. rewrite map_map. apply sumR_map_ext. intros gp _. cbn. unfold at_col. rewrite Nat2Z.id. auto.
        * intros g1 c1 o _ _ Ho. apply in_map_iff in Ho. destruct Ho as (gp & <- & _). auto.
  Qed.

  Lemma rows_build srt : is_sort srt ->
    exists C, build srt (repeat cap (na * n)) (rows1 ++ rows2) = Ok C /\
      (forall x, length x = na * n -> exists y, multiply C x = Ok y /\ length y = na * n /\
        forall g c, In g gs -> c < n ->
          nth (row g c) y 0%R =
          (rsum nleak (fun leak => if on_edge m c leak then 0 else off g c leak * nth (row g (neighbour m c leak)) x 0) +
           diag g c * nth (row g c) x 0 +
           sumR (map (fun gp => if (gp =? g)%nat then 0 else sv g gp c * nth (row gp c) x 0) (sc g)) +
           (if fis then sumR (map (fun gp => fv g gp c * nth (row gp c) x 0) gs) else 0))%R) /\
      exists caps', cleared C = preallocate caps' /\ length caps' = na * n /\ roomy caps' (rows1 ++ rows2).
  Proof. intros Hs. apply rows_build_caps; [auto|apply repeat_length|apply roomy_cap]. Qed.
End Rows.

(** ** Coupling coefficients and Fick's law *)

Section Fick.
  Variables (m : mesh) (D : nat -> R) (be : nat -> R).
  Hypothesis MG : mesh_good m.
  Hypothesis DP : forall c, c < ncells m -> (0 < D c)%R.
  Hypothesis BE : forall s, (-1 <= be s <= 1)%R.

  (** [dtilde] for one group *)
  Definition dt1 (c leak : nat) : R :=
    let a := leak / 2 in
    if on_edge m c leak then dtilde_edge (D c) (be leak) (hw m c a)
    else let n := neighbour m c leak in dtilde_inner (D c) (D n) (hw m c a) (hw m n a).
  Definition cur (phi : nat -> R) (c leak : nat) : R :=
    (if on_edge m c leak then dt1 c leak * phi c else dt1 c leak * (phi c - phi (neighbour m c leak)))%R.

  Lemma edge_den c a leak : c < ncells m -> (0 < 4 * D c * (1 + be leak) + (1 - be leak) * wid m a c)%R.
  Proof.
    intros Hc. assert (P := DP Hc). assert (W := wid_pos MG a Hc). destruct (BE leak) as [B1 B2].
    destruct (Req_dec (be leak) 1) as [E|E].
    - rewrite E. lra.
    - assert (0 <= D c * (1 + be leak))%R by (apply Rmult_le_pos; lra).
      assert (0 < (1 - be leak) * wid m a c)%R by (apply Rmult_lt_0_compat; lra). lra.
  Qed.

  Lemma dt1_nonneg c leak : leak < 6 -> c < ncells m -> (0 <= dt1 c leak)%R.
  Proof.
    intros Hl Hc. unfold dt1. destruct (on_edge m c leak) eqn:E.
    - unfold dtilde_edge. rewrite hw_wid by auto. apply Rmult_le_pos.
      + assert (P := DP Hc). destruct (BE leak). apply Rmult_le_pos; lra.
      + left. apply Rinv_0_lt_compat. apply edge_den. auto.
    - assert (Hn := neighbour_lt Hl Hc E). rewrite !hw_wid by auto. unfold dtilde_inner.
      assert (P := DP Hc). assert (P' := DP Hn). assert (W := wid_pos MG (leak / 2) Hc). assert (W' := wid_pos MG (leak / 2) Hn).
      left. apply Rdiv_lt_0_compat; [apply Rmult_lt_0_compat; lra|].
      apply Rplus_lt_0_compat; apply Rmult_lt_0_compat; auto.
  Qed.

  Lemma inner_sym a c c' : a < 3 -> adjacent m a c c' ->
    dt1 c' (2 * a) = dt1 c (2 * a + 1) /\
    dt1 c (2 * a + 1) = ((2 * D c * D c') / (wid m a c' * D c + wid m a c * D c'))%R.
  Proof.
    intros Ha H. destruct (adjacent_lt H) as [L L']. destruct (adjacent_up Ha H) as [E1 E2].
    destruct (adjacent_down Ha H) as [F1 F2]. unfold dt1. rewrite E1, F1, E2, F2.
    destruct (half0 m a) as [-> _]. destruct (half1 m a) as [-> _]. rewrite !hw_wid by auto.
    unfold dtilde_inner. split; [|auto]. unfold Rdiv. rewrite (Rplus_comm (wid m a c * D c')). ring.
  Qed.

  Lemma cur_fick phi : fick m D be phi (cur phi).
  Proof.
    split; [|split].
    - intros a c c' Ha H. destruct (adjacent_lt H) as [L L']. destruct (adjacent_up Ha H) as [E1 E2].
      destruct (adjacent_down Ha H) as [F1 F2]. destruct (inner_sym Ha H) as [I1 I2].
      unfold cur. rewrite E1, F1, E2, F2, I1, I2.
      assert (P := DP L). assert (P' := DP L'). assert (W := wid_pos MG a L). assert (W' := wid_pos MG a L').
      assert (N : (wid m a c' * D c + wid m a c * D c' <> 0)%R).
      { apply Rgt_not_eq. apply Rplus_lt_0_compat; apply Rmult_lt_0_compat; auto. }
      split; [ring|].
      exists ((D c * wid m a c' * phi c + D c' * wid m a c * phi c') / (wid m a c' * D c + wid m a c * D c'))%R.
      split; field; repeat split; try lra.
    - intros a c Ha H. assert (L := low_lt H). apply (edge_low a L) in H. unfold cur. rewrite H.
      assert (P := DP L). assert (W := wid_pos MG a L). assert (N := edge_den a (2 * a) L).
      unfold dt1. rewrite H. destruct (half0 m a) as [-> _]. rewrite hw_wid by auto. unfold dtilde_edge.
      exists (phi c - (2 * D c * (1 - be (2 * a)%nat) / (4 * D c * (1 + be (2 * a)%nat) + (1 - be (2 * a)%nat) * wid m a c) * phi c) * wid m a c / (2 * D c))%R.
      split; [field; split; [lra|split; lra]|]. unfold albedo_law. field. split; lra.
    - intros a c Ha H. assert (L := high_lt H). apply (edge_high a L) in H. unfold cur. rewrite H.
      assert (P := DP L). assert (W := wid_pos MG a L). assert (N := edge_den a (2 * a + 1) L).
      unfold dt1. rewrite H. destruct (half1 m a) as [-> _]. rewrite hw_wid by auto. unfold dtilde_edge.
      exists (phi c - (2 * D c * (1 - be (2 * a + 1)%nat) / (4 * D c * (1 + be (2 * a + 1)%nat) + (1 - be (2 * a + 1)%nat) * wid m a c) * phi c) * wid m a c / (2 * D c))%R.
      split; [field; split; [lra|split; lra]|]. unfold albedo_law. field. split; lra.
  Qed.

  (** What the faces and the diagonal contribute to a row. *)
  Lemma faces_leakage phi c : c < ncells m ->
    (rsum 6 (fun leak => if on_edge m c leak then 0 else - dt1 c leak / hw m c (leak / 2) * phi (neighbour m c leak)) +
     jnet m c 6 (dt1 c) * phi c = leakage m (cur phi) c)%R.
  Proof.
    intros Hc. unfold leakage, jnet, cur.
    assert (W0 := wid_pos MG 0 Hc). assert (W1 := wid_pos MG 1 Hc). assert (W2 := wid_pos MG 2 Hc).
    rewrite !hw_wid by auto. cbn [rsum]. rewrite !hw_wid by auto.
    cbn [Nat.mul Nat.add Nat.ltb Nat.leb].
    change (0 / 2) with 0. change (1 / 2) with 0. change (2 / 2) with 1. change (3 / 2) with 1. change (4 / 2) with 2. change (5 / 2) with 2.
    destruct (on_edge m c 0), (on_edge m c 1), (on_edge m c 2), (on_edge m c 3), (on_edge m c 4), (on_edge m c 5); field; repeat split; lra.
  Qed.
End Fick.

(** ** Group lists *)

Lemma count_from_length n : forall i d, length (count_from n i d) = n.
Proof. induction n; intros; cbn; auto. Qed.

Lemma nrange_in a b incl g : (-1 <= b)%Z -> (0 <= a)%Z -> (b = -1 -> incl = false)%Z ->
  In g (nrange a b incl) <-> ((Z.min a b <= Z.of_nat g <= Z.max a b)%Z /\ (Z.of_nat g = b -> incl = true)).
Proof.
  intros Hb Ha Hi. unfold nrange. rewrite in_map_iff. destruct (Util_Proofs.range_spec a b incl) as (RI & _). split.
  - intros (z & <- & Hz). apply RI in Hz. assert (0 <= z)%Z.
    { destruct (Z.eq_dec z (-1)) as [->|N]; [|lia]. destruct Hz as [Z1 Z2]. assert (b = -1)%Z by lia. rewrite Hi in Z2; [|auto].
      exfalso. assert (false = true); [apply Z2; lia|discriminate]. }
    rewrite Z2Nat.id by auto. auto.
  - intros H. exists (Z.of_nat g). rewrite Nat2Z.id. split; [auto|]. apply RI. auto.
Qed.

Lemma nrange_NoDup a b incl : (-1 <= b)%Z -> (0 <= a)%Z -> (b = -1 -> incl = false)%Z -> NoDup (nrange a b incl).
Proof.
  intros Hb Ha Hi. unfold nrange. destruct (Util_Proofs.range_spec a b incl) as (RI & ND & _).
  apply NoDup_map_inj; [auto|]. intros x y Hx Hy E.
  assert (P : forall z, In z (range a b incl) -> (0 <= z)%Z).
  { intros z Hz. apply RI in Hz. destruct (Z.eq_dec z (-1)) as [->|N]; [|lia]. destruct Hz as [Z1 Z2].
    assert (b = -1)%Z by lia. rewrite Hi in Z2; [|auto].
    exfalso. assert (false = true); [apply Z2; lia|discriminate]. }
  apply P in Hx. apply P in Hy. lia.
Qed.
Lemma nrange_length a b incl : length (nrange a b incl) = Z.to_nat (Z.abs (a - b)) + if incl then 1 else 0.
Proof. unfold nrange, range. rewrite map_length, count_from_length. auto. Qed.

Lemma sumR_interval (f : nat -> R) l s k : NoDup l -> (forall g, In g l <-> s <= g < s + k) ->
  sumR (map f l) = rsum k (fun q => f (s + q)).
Proof.
  intros ND HI. rewrite (@sumR_perm (map f l) (map f (seq s k))).
  - rewrite rsum_sumR. rewrite <- (Nat.add_0_r s) at 1. f_equal.
    clear. generalize 0 as j. induction k as [|k IH]; intros j; cbn; [auto|]. f_equal.
    rewrite plus_n_Sm. apply IH.
  - apply Permutation_map. apply NoDup_Permutation; [auto|apply seq_NoDup|]. intros g. rewrite in_seq. auto.
Qed.

Lemma sumR_subset (f : nat -> R) l l' : NoDup l -> NoDup l' -> incl l l' -> (forall g, In g l' -> ~ In g l -> f g = 0%R) ->
  sumR (map f l) = sumR (map f l').
Proof.
  intros N1 N2 IN HZ.
  assert (P : Permutation l' (l ++ filter (fun g => if in_dec Nat.eq_dec g l then false else true) l')).
  { apply NoDup_Permutation; [auto| |].
    - apply NoDup_app'; [auto|apply NoDup_filter; auto|]. intros z H1 H2. apply filter_In in H2.
      destruct H2 as [_ H2]. destruct (in_dec Nat.eq_dec z l); [discriminate|auto].
    - intros z. rewrite in_app_iff, filter_In. destruct (in_dec Nat.eq_dec z l) as [i|ni]; split; intros H.
      + left. auto.
      + auto.
      + right. auto.
      + destruct H as [H|[H _]]; [contradiction|auto]. }
  rewrite (sumR_perm (Permutation_map f P)), map_app, sumR_app.
  rewrite (@sumR_map_zero nat f (filter _ _)); [ring|]. intros g Hg. apply filter_In in Hg.
  destruct Hg as [Hg H]. destruct (in_dec Nat.eq_dec g l); [discriminate|]. auto.
Qed.

(** ** DiffusionLossOperator *)

Lemma albedo_range d bc zero s : (-1 <= albedo d bc zero s <= 1)%R.
Proof. unfold albedo. destruct (s <? 2 * d); [|lra]. destruct (bc s) as [[|]|]; [lra| |lra]. destruct zero; lra. Qed.
Lemma albedo_is d bc zero : is_albedo d bc zero (albedo d bc zero).
Proof.
  intros s. unfold albedo. split; [|split; [|split]]; intros H; try intros E.
  - destruct (Nat.ltb_spec s (2 * d)); [lia|auto].
  - destruct (Nat.ltb_spec s (2 * d)); [|lia]. rewrite E. auto.
  - destruct (Nat.ltb_spec s (2 * d)); [|lia]. rewrite E. auto.
  - destruct (Nat.ltb_spec s (2 * d)); [|lia]. rewrite E. auto.
Qed.

Section Loss.
  Variable L : loss.
  Hypothesis LK : loss_ok L.
  Let m := l_mesh L.
  Let x := l_mat L.

  Lemma l_groups_in g : In g (l_groups L) <-> first_group L <= g < first_group L + active L.
  Proof.
    destruct LK as (_ & Hc & _). unfold l_groups, first_group, active. rewrite nrange_in.
    - destruct (l_adj L); split; intros H; lia.
    - destruct (l_adj L); lia.
    - lia.
    - auto.
  Qed.
  Lemma l_groups_NoDup : NoDup (l_groups L).
  Proof. apply nrange_NoDup; [destruct (l_adj L); lia|lia|auto]. Qed.
  Lemma l_groups_length : length (l_groups L) = active L.
  Proof.
    destruct LK as (_ & Hc & _). unfold l_groups, active. rewrite nrange_length. destruct (l_adj L); lia.
  Qed.
  Lemma l_gi_first p : l_gi L (first_group L + p) = p.
  Proof. unfold l_gi, first_group. destruct (l_adj L); lia. Qed.
  Lemma active_ng p : p < active L -> first_group L + p < ng (l_mat L).
  Proof. destruct LK as (_ & Hc & _). unfold active, first_group. destruct (l_adj L); lia. Qed.

  Lemma scatter_in g gp : In g (l_groups L) ->
    (In gp (l_scatter_groups L g) <->
       In gp (l_groups L) /\ Nat.min (lower x g (l_adj L)) (upper x g (l_adj L)) <= gp <=
                             Nat.max (lower x g (l_adj L)) (upper x g (l_adj L))).
  Proof.
    intros Hg. rewrite l_groups_in in Hg. destruct LK as (_ & Hc & _ & _ & _ & _ & BA).
    assert (Hn : g < ng (l_mat L)) by (destruct (Nat.le_exists_sub _ _ (proj1 Hg)) as (p & -> & _); rewrite Nat.add_comm; apply active_ng; lia).
    specialize (BA g Hn). fold x in BA, Hn, Hc.
    unfold l_scatter_groups. rewrite nrange_in; [|lia|lia|intros; lia].
    rewrite l_groups_in. unfold first_group, active in *. fold x. fold x in Hg.
    destruct BA as (B1 & B2 & B3 & B4 & _).
    destruct (l_adj L); cbn [Nat.add]; split; intros H; try (split; [|auto]); lia.
  Qed.
  Lemma scatter_NoDup g : NoDup (l_scatter_groups L g).
  Proof. apply nrange_NoDup; [lia|lia|intros; lia]. Qed.

  Lemma scatter_zero g gp c : In g (l_groups L) -> In gp (l_groups L) -> c < ncells m ->
    ~ In gp (l_scatter_groups L g) -> l_scat L g gp c = 0%R.
  Proof.
    intros Hg Hgp Hc NI. rewrite (scatter_in gp Hg) in NI.
    assert (Hn : g < ng x). { rewrite l_groups_in in Hg. destruct (Nat.le_exists_sub _ _ (proj1 Hg)) as (p & -> & _). rewrite Nat.add_comm. apply active_ng. lia. }
    assert (Hn' : gp < ng x). { rewrite l_groups_in in Hgp. destruct (Nat.le_exists_sub _ _ (proj1 Hgp)) as (p & -> & _). rewrite Nat.add_comm. apply active_ng. lia. }
    destruct LK as (_ & _ & MT & _ & SS & BC & BA). fold m in MT. fold x in MT, SS, BC, BA.
    assert (K := MT c Hc). unfold l_scat. fold m x.
    destruct (l_adj L).
    - destruct (SS gp g _ Hn' Hn K) as [P|<-]; [|auto]. exfalso. apply NI. split; [auto|].
      assert (T : transfer x gp g) by (exists (mt m c); auto).
      destruct (BC gp g Hn' Hn T) as [_ B]. lia.
    - destruct (SS g gp _ Hn Hn' K) as [P|<-]; [|auto]. exfalso. apply NI. split; [auto|].
      assert (T : transfer x g gp) by (exists (mt m c); auto).
      destruct (BC g gp Hn Hn' T) as [B _]. lia.
  Qed.

  Definition l_be := albedo (dim m) (l_bc L) (l_zero L).
  Definition l_D g c := dc x g (mt m c).
  Definition l_J (phi : nat -> nat -> R) (p : nat) := cur m (l_D (first_group L + p)) l_be (phi p).

  Lemma l_D_pos p c : p < active L -> c < ncells m -> (0 < l_D (first_group L + p) c)%R.
  Proof.
    intros Hp Hc. assert (H := active_ng Hp). destruct LK as (_ & _ & MT & DP & _). apply DP; auto.
  Qed.

  (** The matrix built by the constructor. *)
  Lemma loss_builds srt : is_sort srt ->
    exists C, build srt (loss_caps L) (loss_ops L) = Ok C /\
      forall v, length v = active L * ncells m -> exists y, multiply C v = Ok y /\ length y = active L * ncells m /\
        forall p c, p < active L -> c < ncells m ->
          part (ncells m) y p c =
          (leakage m (l_J (part (ncells m) v) p) c + reactions L (part (ncells m) v) p c)%R.
  Proof.
    intros Hs. assert (LK' := LK). destruct LK' as (MG & Hcut & MT & DP & SS & BC & BA). fold m in MG.
    destruct (@rows_build m (l_groups L) (l_gi L) (active L) 6 (1 + 2 * dim m + length (l_groups L))
      (fun g c leak => (- l_dtilde L g c leak / hw m c (leak / 2))%R)
      (fun g c => (jnet m c 6 (l_dtilde L g c) + l_sr L g c)%R)
      (fun g => if l_sf L =? 0 then l_scatter_groups L g else [])
      (fun g gp c => (- l_scat L g gp c)%R) (l_fis L && (l_sf L =? 0))
      (fun g gp c => (- l_prod L g gp c / l_keff L)%R)) with (srt := srt) as (C & HB & HC & HCL); auto.
    - rewrite l_groups_length. lia.
    - apply l_groups_NoDup.
    - intros g Hg. apply l_groups_in in Hg. unfold l_gi. unfold first_group in Hg. destruct (l_adj L); lia.
    - intros g g' Hg Hg' E. apply l_groups_in in Hg. apply l_groups_in in Hg'. unfold l_gi in E. unfold first_group in *. destruct (l_adj L); lia.
    - intros p Hp. exists (first_group L + p). split; [apply l_groups_in; lia|apply l_gi_first].
    - intros g gp Hg H. destruct (l_sf L =? 0); [|destruct H]. apply (scatter_in gp Hg) in H. tauto.
    - intros g Hg. destruct (l_sf L =? 0); [apply scatter_NoDup|constructor].
    - assert (EO : rows1 m (l_groups L) (l_gi L) 6
         (fun g c leak => (- l_dtilde L g c leak / hw m c (leak / 2))%R)
         (fun g c => (jnet m c 6 (l_dtilde L g c) + l_sr L g c)%R)
         (fun g => if l_sf L =? 0 then l_scatter_groups L g else [])
         (fun g gp c => (- l_scat L g gp c)%R) ++ rows2 m (l_groups L) (l_gi L) (l_fis L && (l_sf L =? 0))
         (fun g gp c => (- l_prod L g gp c / l_keff L)%R) = loss_ops L).
      { unfold rows1, rows2, loss_ops. fold m. f_equal.
        apply flat_map_ext. intros g. apply flat_map_ext. intros c.
        unfold row_ops, loss_row_ops. fold m. f_equal. f_equal. destruct (l_sf L =? 0); reflexivity. }
      rewrite EO in HB. unfold loss_caps, loss_size. fold m. rewrite l_groups_length in HB |- *.
      exists C. split; [exact HB|]. intros v Hv. destruct (HC v Hv) as (y & Hm & Hl & Hy).
      exists y. split; [auto|]. split; [auto|]. intros p c Hp Hc.
      set (g := first_group L + p).
      assert (Hg : In g (l_groups L)) by (apply l_groups_in; unfold g; lia).
      specialize (Hy g c Hg Hc). unfold g in Hy at 1. rewrite l_gi_first in Hy.
      change (part (ncells m) y p c) with (nth (c + p * ncells m) y 0%R). rewrite Hy. clear Hy.
      assert (PV : forall q c', nth (c' + l_gi L (first_group L + q) * ncells m) v 0%R = part (ncells m) v q c').
      { intros. rewrite l_gi_first. auto. }
      set (phi := part (ncells m) v) in *.
      assert (PVg : forall c', nth (c' + l_gi L g * ncells m) v 0%R = phi p c') by (intros; apply PV).
      assert (FL := @faces_leakage m (l_D g) l_be MG (phi p) c Hc).
      assert (DT : forall leak, l_dtilde L g c leak = dt1 m (l_D g) l_be c leak) by reflexivity.
      assert (S1 : rsum 6 (fun leak => if on_edge m c leak then 0 else
           - l_dtilde L g c leak / hw m c (leak / 2) * nth (neighbour m c leak + l_gi L g * ncells m) v 0)%R =
         rsum 6 (fun leak => if on_edge m c leak then 0 else - dt1 m (l_D g) l_be c leak / hw m c (leak / 2) * phi p (neighbour m c leak))%R).
      { apply rsum_ext. intros l Hl'. destruct (on_edge m c l); [auto|]. rewrite PVg, DT. auto. }
      rewrite S1, PVg.
      change (jnet m c 6 (l_dtilde L g c)) with (jnet m c 6 (dt1 m (l_D g) l_be c)).
      unfold l_J. fold g. rewrite <- FL.
      assert (SUM : sumR (map (fun gp => if gp =? g then 0 else - l_scat L g gp c * nth (c + l_gi L gp * ncells m) v 0)%R
                     (l_scatter_groups L g)) =
              (l_scat L g g c * phi p c - rsum (active L) (fun q => l_scat L g (first_group L + q)%nat c * phi q c))%R).
      { rewrite (@sumR_subset _ (l_scatter_groups L g) (l_groups L)).
        - rewrite (@sumR_interval _ (l_groups L) (first_group L) (active L) l_groups_NoDup l_groups_in).
          rewrite (@rsum_ext (active L) _ (fun q => (if q =? p then l_scat L g g c * phi p c else 0) +
                                                    (-1) * (l_scat L g (first_group L + q)%nat c * phi q c))%R).
          + rewrite rsum_plus, rsum_scal. rewrite (@rsum_delta (active L) p (l_scat L g g c * phi p c)%R Hp). ring.
          + intros q Hq. cbn beta. rewrite PV. unfold g. destruct (Nat.eqb_spec q p) as [->|N].
            * rewrite Nat.eqb_refl. ring.
            * destruct (Nat.eqb_spec (first_group L + q) (first_group L + p)); [lia|]. ring.
        - apply scatter_NoDup.
        - apply l_groups_NoDup.
        - intros gp H. apply (scatter_in gp Hg) in H. tauto.
        - intros gp H1 H2. cbn beta. destruct (gp =? g); [auto|]. rewrite (scatter_zero Hg H1 Hc H2). ring. }
      unfold reactions. fold g. fold m. fold x. unfold l_sr. fold m. fold x.
      destruct (l_sf L =? 0) eqn:SF.
      + rewrite SUM. rewrite Bool.andb_true_r.
        assert (IE : rsum (active L) (fun q => into (l_adj L) x g (first_group L + q)%nat (mt m c) * phi q c)%R =
                     rsum (active L) (fun q => l_scat L g (first_group L + q)%nat c * phi q c)%R) by reflexivity.
        rewrite IE.
        assert (EG : l_scat L g g c = ss x g g (mt m c)) by (unfold l_scat; fold m x; destruct (l_adj L); auto).
        rewrite EG.
        assert (FE : sumR (map (fun gp => (- l_prod L g gp c / l_keff L * nth (c + l_gi L gp * ncells m) v 0)%R) (l_groups L)) =
                     (- (/ l_keff L * rsum (active L) (fun q => birth (l_adj L) x g (first_group L + q)%nat (mt m c) * phi q c)))%R).
        { rewrite (@sumR_interval _ (l_groups L) (first_group L) (active L) l_groups_NoDup l_groups_in).
          rewrite Ropp_mult_distr_l. rewrite <- rsum_scal. apply rsum_ext. intros q Hq. cbn beta. rewrite PV.
          unfold l_prod, birth, Rdiv. fold m x. destruct (l_adj L); ring. }
        destruct (l_fis L).
        * rewrite FE. ring.
        * ring.
      + rewrite Bool.andb_false_r. cbn [map]. change (sumR []) with 0%R. ring.
  Qed.
End Loss.

(** ** Summation over faces *)

Lemma rsum_filter n (P : nat -> bool) (f : nat -> R) :
  rsum n (fun c => if P c then f c else 0%R) = sumR (map f (filter P (seq 0 n))).
Proof.
  rewrite rsum_sumR. induction (seq 0 n) as [|c r IH]; cbn [map filter]; [auto|].
  rewrite sumR_cons, IH. destruct (P c); cbn [map]; [rewrite sumR_cons; auto|ring].
Qed.

Section Faces.
  Variable m : mesh.
  Hypothesis MG : mesh_good m.
  Let n := ncells m.

  (** Every inner face is seen from both sides. *)
  Lemma faces_reindex a (F : nat -> nat -> R) : a < 3 ->
    rsum n (fun c => if on_edge m c (2 * a) then 0%R else F (neighbour m c (2 * a)) c) =
    rsum n (fun c => if on_edge m c (2 * a + 1) then 0%R else F c (neighbour m c (2 * a + 1))).
  Proof.
    intros Ha.
    assert (E1 : rsum n (fun c => if on_edge m c (2 * a) then 0%R else F (neighbour m c (2 * a)) c) =
       sumR (map (fun c => F (neighbour m c (2 * a)) c) (filter (fun c => negb (on_edge m c (2 * a))) (seq 0 n)))).
    { rewrite <- rsum_filter. apply rsum_ext. intros c _. destruct (on_edge m c (2 * a)); auto. }
    assert (E2 : rsum n (fun c => if on_edge m c (2 * a + 1) then 0%R else F c (neighbour m c (2 * a + 1))) =
       sumR (map (fun c => F c (neighbour m c (2 * a + 1))) (filter (fun c => negb (on_edge m c (2 * a + 1))) (seq 0 n)))).
    { rewrite <- rsum_filter. apply rsum_ext. intros c _. destruct (on_edge m c (2 * a + 1)); auto. }
    rewrite E1, E2.
    transitivity (sumR (map (fun c => F c (neighbour m c (2 * a + 1)))
                       (map (fun c => neighbour m c (2 * a)) (filter (fun c => negb (on_edge m c (2 * a))) (seq 0 n))))).
    - rewrite map_map. apply sumR_map_ext. intros c Hc. apply filter_In in Hc. destruct Hc as [Hc He].
      apply in_seq in Hc. apply Bool.negb_true_iff in He.
      assert (AD : adjacent m a (neighbour m c (2 * a)) c) by (apply down_neighbour; auto; unfold n in Hc; lia).
      destruct (adjacent_up Ha AD) as [_ ->]. auto.
    - apply sumR_perm, Permutation_map, NoDup_Permutation.
      + apply NoDup_map_inj; [apply NoDup_filter, seq_NoDup|].
        intros c c' Hc Hc' E. apply filter_In in Hc. apply filter_In in Hc'. destruct Hc as [Hc He]. destruct Hc' as [Hc' He'].
        apply in_seq in Hc. apply in_seq in Hc'. apply Bool.negb_true_iff in He. apply Bool.negb_true_iff in He'.
        assert (AD : adjacent m a (neighbour m c (2 * a)) c) by (apply down_neighbour; auto; unfold n in Hc; lia).
        assert (AD' : adjacent m a (neighbour m c' (2 * a)) c') by (apply down_neighbour; auto; unfold n in Hc'; lia).
        destruct (adjacent_up Ha AD) as [_ U]. destruct (adjacent_up Ha AD') as [_ U']. rewrite E in U. congruence.
      + apply NoDup_filter, seq_NoDup.
      + intros c. rewrite in_map_iff, filter_In, in_seq. split.
        * intros (c' & E & Hc'). apply filter_In in Hc'. destruct Hc' as [Hc' He']. apply in_seq in Hc'. apply Bool.negb_true_iff in He'.
          assert (AD : adjacent m a (neighbour m c' (2 * a)) c') by (apply down_neighbour; auto; unfold n in Hc'; lia).
          rewrite E in AD. destruct (adjacent_up Ha AD) as [U _]. rewrite U. destruct (adjacent_lt AD). unfold n. split; [lia|auto].
        * intros [Hc He]. apply Bool.negb_true_iff in He.
          assert (AD : adjacent m a c (neighbour m c (2 * a + 1))) by (apply up_neighbour; auto; unfold n in Hc; lia).
          destruct (adjacent_down Ha AD) as [U V]. exists (neighbour m c (2 * a + 1)). split; [auto|].
          apply filter_In. rewrite U. destruct (adjacent_lt AD). rewrite in_seq. unfold n. split; [lia|auto].
  Qed.

  Lemma area_adjacent a c c' : a < 3 -> adjacent m a c c' -> area m a c = area m a c'.
  Proof.
    intros Ha (i & j & k & (A & B & C) & -> & H).
    destruct a as [|[|[|a]]]; [| | |lia]; destruct H as [H ->]; unfold area; rewrite !wid_cell by (repeat split; auto); auto.
  Qed.

  Lemma vol_area a c : a < 3 -> vol m c = (wid m a c * area m a c)%R.
  Proof. intros Ha. unfold vol, area. destruct a as [|[|[|a]]]; [| | |lia]; ring. Qed.

  Lemma vol_leakage J c : c < n -> (vol m c * leakage m J c = rsum 3 (fun a => area m a c * (J c (2 * a)%nat + J c (2 * a + 1)%nat)))%R.
  Proof.
    intros Hc. unfold leakage. rewrite <- rsum_scal. apply rsum_ext. intros a Ha. cbn beta.
    rewrite (vol_area c Ha). assert (W := wid_pos MG a Hc). field. lra.
  Qed.

  (** Conservation from the continuity of the currents. *)
  Lemma net_leakage J : (forall a c c', a < 3 -> adjacent m a c c' -> J c' (2 * a) = (- J c (2 * a + 1)%nat)%R) ->
    (rsum n (fun c => vol m c * leakage m J c) = outflow m J)%R.
  Proof.
    intros HJ. unfold outflow. fold n.
    rewrite (@rsum_ext n _ (fun c => rsum 3 (fun a => area m a c * (J c (2 * a)%nat + J c (2 * a + 1)%nat)))%R)
      by (intros; apply vol_leakage; auto).
    rewrite rsum_swap. rewrite (rsum_swap n 3). apply rsum_ext. intros a Ha. cbn beta.
    rewrite (@rsum_ext n (fun c => area m a c * (J c (2 * a)%nat + J c (2 * a + 1)%nat))%R
       (fun c => ((if on_edge m c (2 * a) then 0 else area m a c * J c (2 * a)%nat) +
                  (if on_edge m c (2 * a + 1) then 0 else area m a c * J c (2 * a + 1)%nat)) +
                 ((if (coord m a c =? 0)%nat then area m a c * J c (2 * a)%nat else 0) +
                  (if (S (coord m a c) =? match a with 0 => ncx m | 1 => ncy m | _ => ncz m end)%nat
                   then area m a c * J c (2 * a + 1)%nat else 0)))%R).
    - rewrite rsum_plus.
      assert (Z : rsum n (fun c => ((if on_edge m c (2 * a) then 0 else area m a c * J c (2 * a)%nat) +
                  (if on_edge m c (2 * a + 1) then 0 else area m a c * J c (2 * a + 1)%nat)))%R = 0%R).
      { rewrite rsum_plus. rewrite (@faces_reindex a (fun _ c => area m a c * J c (2 * a)%nat)%R Ha).
        rewrite <- rsum_plus. apply (rsum_zero (n := n)). intros c Hc.
        destruct (on_edge m c (2 * a + 1)) eqn:E; [ring|].
        assert (AD : adjacent m a c (neighbour m c (2 * a + 1))) by (apply up_neighbour; auto).
        rewrite (HJ _ _ _ Ha AD). rewrite <- (area_adjacent Ha AD). ring. }
      rewrite Z. ring.
    - intros c Hc. cbn beta. rewrite low_coord, high_coord by auto.
      destruct (on_edge m c (2 * a)), (on_edge m c (2 * a + 1)); ring.
  Qed.

  Variables (D : nat -> R) (be : nat -> R).
  Hypothesis DP : forall c, c < ncells m -> (0 < D c)%R.
  Hypothesis BE : forall s, (-1 <= be s <= 1)%R.

  (** Green's identity *)
  Definition green (x y : nat -> R) : R :=
    rsum 3 (fun a => rsum n (fun c =>
      (if on_edge m c (2 * a + 1) then area m a c * dt1 m D be c (2 * a + 1) * (x c * y c)
       else area m a c * dt1 m D be c (2 * a + 1) *
            ((x c - x (neighbour m c (2 * a + 1))) * (y c - y (neighbour m c (2 * a + 1))))) +
      (if on_edge m c (2 * a) then area m a c * dt1 m D be c (2 * a) * (x c * y c) else 0)))%R.

  Lemma green_identity x y :
    (rsum n (fun c => vol m c * y c * leakage m (cur m D be x) c) = green x y)%R.
  Proof.
    unfold green.
    rewrite (@rsum_ext n _ (fun c => rsum 3 (fun a => area m a c * y c * (cur m D be x c (2 * a)%nat + cur m D be x c (2 * a + 1)%nat)))%R).
    - rewrite rsum_swap. apply rsum_ext. intros a Ha. cbn beta.
      rewrite (@rsum_ext n _ (fun c =>
         (if on_edge m c (2 * a) then 0 else area m a c * y c * dt1 m D be c (2 * a) * (x c - x (neighbour m c (2 * a)))) +
         ((if on_edge m c (2 * a) then area m a c * dt1 m D be c (2 * a) * (x c * y c) else 0) +
          area m a c * y c * cur m D be x c (2 * a + 1)%nat))%R).
      + rewrite rsum_plus.
        rewrite (@faces_reindex a (fun c' c => area m a c * y c * dt1 m D be c (2 * a) * (x c - x c'))%R Ha).
        rewrite <- rsum_plus. apply rsum_ext. intros c Hc. cbn beta. unfold cur.
        destruct (on_edge m c (2 * a + 1)) eqn:E; [ring|].
        assert (AD : adjacent m a c (neighbour m c (2 * a + 1))) by (apply up_neighbour; auto).
        rewrite <- (area_adjacent Ha AD). destruct (@inner_sym m D be a _ _ Ha AD) as [-> _]. ring.
      + intros c Hc. cbn beta. unfold cur. destruct (on_edge m c (2 * a)); ring.
    - intros c Hc. cbn beta. rewrite (Rmult_comm (vol m c)), Rmult_assoc. rewrite (vol_leakage _ Hc). rewrite <- rsum_scal.
      apply rsum_ext. intros a Ha. ring.
  Qed.

  Lemma green_sym x y : green x y = green y x.
  Proof.
    unfold green. apply rsum_ext. intros a Ha. apply rsum_ext. intros c Hc. cbn beta.
    destruct (on_edge m c (2 * a)), (on_edge m c (2 * a + 1)); ring.
  Qed.

  Lemma green_nonneg x : (0 <= green x x)%R.
  Proof.
    unfold green. apply rsum_nonneg. intros a Ha. apply rsum_nonneg. intros c Hc. cbn beta.
    assert (AP : (0 <= area m a c)%R).
    { unfold area. assert (W0 := wid_pos MG 0 Hc). assert (W1 := wid_pos MG 1 Hc). assert (W2 := wid_pos MG 2 Hc).
      destruct a as [|[|a]]; apply Rmult_le_pos; lra. }
    assert (T1 : (0 <= dt1 m D be c (2 * a + 1))%R) by (apply dt1_nonneg; auto; lia).
    assert (T0 : (0 <= dt1 m D be c (2 * a))%R) by (apply dt1_nonneg; auto; lia).
    assert (Q1 : forall z, (0 <= area m a c * dt1 m D be c (2 * a + 1) * (z * z))%R)
      by (intros; apply Rmult_le_pos; [apply Rmult_le_pos; auto|apply Rle_0_sqr]).
    assert (Q0 : forall z, (0 <= area m a c * dt1 m D be c (2 * a) * (z * z))%R)
      by (intros; apply Rmult_le_pos; [apply Rmult_le_pos; auto|apply Rle_0_sqr]).
    apply Rplus_le_le_0_compat.
    - destruct (on_edge m c (2 * a + 1)); apply Q1.
    - destruct (on_edge m c (2 * a)); [apply Q0|lra].
  Qed.

  (** Constants do not leak through reflecting boundaries. *)
  Lemma constant_leakage x c v : c < n -> (forall s, be s = 1%R) -> (forall c, c < n -> x c = v) ->
    leakage m (cur m D be x) c = 0%R.
  Proof.
    intros Hc HB HX. unfold leakage. apply (rsum_zero (n := 3)). intros a Ha.
    assert (Z : forall leak, leak < 6 -> cur m D be x c leak = 0%R).
    { intros leak Hl. unfold cur. destruct (on_edge m c leak) eqn:E.
      - unfold dt1. rewrite E. unfold dtilde_edge. rewrite HB. unfold Rdiv. ring.
      - rewrite !HX; [ring|apply neighbour_lt; auto|auto]. }
    rewrite !Z by lia. unfold Rdiv. ring.
  Qed.
End Faces.

(** ** Consequences for DiffusionLossOperator *)

Lemma loss_fick srt L : is_sort srt -> loss_ok L ->
  let m := l_mesh L in let n := ncells m in
  exists C be, build srt (loss_caps L) (loss_ops L) = Ok C /\ is_albedo (dim m) (l_bc L) (l_zero L) be /\
    forall v, length v = active L * n -> exists y J, multiply C v = Ok y /\ length y = active L * n /\
      (forall p, p < active L -> fick m (fun c => dc (l_mat L) (first_group L + p) (mt m c)) be (part n v p) (J p)) /\
      (forall p c, p < active L -> c < n ->
         part n y p c = (leakage m (J p) c + reactions L (part n v) p c)%R) /\
      (forall p, p < active L ->
         rsum n (fun c => vol m c * part n y p c)%R =
         (outflow m (J p) + rsum n (fun c => vol m c * reactions L (part n v) p c))%R).
Proof.
  intros Hs LK m n. destruct (loss_builds LK Hs) as (C & HB & HC).
  assert (MG : mesh_good m) by (destruct LK; auto).
  exists C, (l_be L). split; [auto|]. split; [apply albedo_is|]. intros v Hv.
  destruct (HC v Hv) as (y & Hm & Hl & Hy). exists y, (l_J L (part n v)).
  split; [auto|]. split; [auto|].
  assert (F : forall p, p < active L -> fick m (fun c => dc (l_mat L) (first_group L + p) (mt m c)) (l_be L) (part n v p) (l_J L (part n v) p)).
  { intros p Hp. apply cur_fick; auto.
    - intros c Hc. apply (l_D_pos LK Hp Hc).
    - intros s. apply albedo_range. }
  split; [auto|]. split; [auto|].
  intros p Hp. rewrite <- (@net_leakage m MG (l_J L (part n v) p)).
  - rewrite <- rsum_plus. apply rsum_ext. intros c Hc. cbn beta. rewrite Hy by auto.
    fold m n. ring.
  - intros a c c' Ha AD. destruct (F p Hp) as [FI _]. apply (FI a c c' Ha AD).
Qed.

Lemma vdotv_green m P (y w : list R) (Lk Rc : nat -> nat -> R) G :
  (forall p c, p < P -> c < ncells m -> part (ncells m) y p c = (Lk p c + Rc p c)%R) ->
  (forall p, p < P -> rsum (ncells m) (fun c => vol m c * part (ncells m) w p c * Lk p c)%R = G p) ->
  vdotv m P w y = (rsum P G + rsum P (fun p => rsum (ncells m) (fun c => vol m c * part (ncells m) w p c * Rc p c)))%R.
Proof.
  intros HY HG. unfold vdotv. rewrite <- rsum_plus. apply rsum_ext. intros p Hp. cbn beta.
  rewrite <- (HG p Hp), <- rsum_plus. apply rsum_ext. intros c Hc. cbn beta. rewrite HY by auto. ring.
Qed.

Lemma loss_symmetric srt L : is_sort srt -> loss_ok L -> l_sf L <> 0 ->
  let m := l_mesh L in
  exists C, build srt (loss_caps L) (loss_ops L) = Ok C /\
    forall v w, length v = active L * ncells m -> length w = active L * ncells m ->
      exists y z, multiply C v = Ok y /\ multiply C w = Ok z /\ vdotv m (active L) w y = vdotv m (active L) v z.
Proof.
  intros Hs LK SF m. destruct (loss_builds LK Hs) as (C & HB & HC).
  assert (MG : mesh_good m) by (destruct LK; auto).
  exists C. split; [auto|]. intros v w Hv Hw.
  destruct (HC v Hv) as (y & Hm & Hl & Hy). destruct (HC w Hw) as (z & Hm' & Hl' & Hz).
  exists y, z. split; [auto|]. split; [auto|]. fold m in Hy, Hz.
  assert (SF' : (l_sf L =? 0) = false) by (apply Nat.eqb_neq; auto).
  rewrite (@vdotv_green m (active L) y w _ _
     (fun p => green m (l_D L (first_group L + p)) (l_be L) (part (ncells m) v p) (part (ncells m) w p)) Hy).
  - rewrite (@vdotv_green m (active L) z v _ _
       (fun p => green m (l_D L (first_group L + p)) (l_be L) (part (ncells m) w p) (part (ncells m) v p)) Hz).
    + f_equal; [apply rsum_ext; intros; apply green_sym; auto|].
      apply rsum_ext. intros p Hp. apply rsum_ext. intros c Hc. cbn beta. unfold reactions. rewrite SF'. ring.
    + intros p Hp. apply green_identity; auto.
  - intros p Hp. apply green_identity; auto.
Qed.

Lemma adjoint_ok L : loss_ok L -> loss_ok (adjoint_of L).
Proof. intros (MG & Hc & MO). split; [auto|]. split; [cbn; lia|auto]. Qed.

Lemma loss_adjoint srt L : is_sort srt -> loss_ok L -> l_adj L = false -> l_cut L = 0 ->
  let m := l_mesh L in let P := ng (l_mat L) in
  exists C C', build srt (loss_caps L) (loss_ops L) = Ok C /\
    build srt (loss_caps (adjoint_of L)) (loss_ops (adjoint_of L)) = Ok C' /\
    forall v w, length v = P * ncells m -> length w = P * ncells m ->
      exists y z, multiply C v = Ok y /\ multiply C' w = Ok z /\ vdotv m P w y = vdotv m P v z.
Proof.
  intros Hs LK AD CU m P. destruct (loss_builds LK Hs) as (C & HB & HC).
  assert (LK' := adjoint_ok LK). destruct (loss_builds LK' Hs) as (C' & HB' & HC').
  assert (MG : mesh_good m) by (destruct LK; auto).
  assert (AP : active L = P) by (unfold active; rewrite AD, CU; unfold P; lia).
  assert (AP' : active (adjoint_of L) = P). { unfold active. cbn. destruct LK as (_ & Hc & _). unfold P. lia. }
  assert (F0 : first_group L = 0) by (unfold first_group; rewrite AD; auto).
  assert (F0' : first_group (adjoint_of L) = 0) by reflexivity.
  rewrite AP in HC. rewrite AP' in HC'.
  exists C, C'. split; [auto|]. split; [auto|]. intros v w Hv Hw.
  destruct (HC v Hv) as (y & Hm & Hl & Hy). destruct (HC' w Hw) as (z & Hm' & Hl' & Hz).
  exists y, z. split; [auto|]. split; [auto|]. change (l_mesh (adjoint_of L)) with m in *. fold m in Hy.
  rewrite (@vdotv_green m P y w _ _
     (fun p => green m (l_D L p) (l_be L) (part (ncells m) v p) (part (ncells m) w p)) Hy).
  - rewrite (@vdotv_green m P z v _ _
       (fun p => green m (l_D L p) (l_be L) (part (ncells m) w p) (part (ncells m) v p)) Hz).
    + f_equal; [apply rsum_ext; intros; apply green_sym; auto|].
      rewrite (rsum_swap P). rewrite (rsum_swap P). apply rsum_ext. intros c Hc. cbn beta.
      unfold reactions. rewrite F0, F0', AP, AP', AD. cbn [adjoint_of l_mesh l_mat l_adj l_sf l_fis l_keff]. fold m.
      set (k := mt m c). set (x := l_mat L). cbn [into birth Nat.add].
      set (V := part (ncells m) v). set (W := part (ncells m) w).
      assert (SW : forall S : nat -> nat -> R,
         rsum P (fun p => vol m c * W p c * rsum P (fun q => S p q * V q c))%R =
         rsum P (fun p => vol m c * V p c * rsum P (fun q => S q p * W q c))%R).
      { intros S. rewrite (@rsum_ext P _ (fun p => rsum P (fun q => vol m c * W p c * (S p q * V q c)))%R) by (intros; rewrite rsum_scal; auto).
        rewrite rsum_swap. apply rsum_ext. intros q Hq. cbn beta. rewrite <- rsum_scal. apply rsum_ext. intros p Hp. ring. }
      assert (S1 := SW (fun p q => ss x p q k)). cbn beta in S1.
      assert (S2 := SW (fun p q => (chi x p k * nsf x q k)%R)). cbn beta in S2.
      destruct (l_sf L =? 0).
      * destruct (l_fis L).
        -- rewrite (@rsum_ext P _ (fun p => (vol m c * (st x p k * (V p c * W p c)) - vol m c * W p c * rsum P (fun q => ss x p q k * V q c)) -
              / l_keff L * (vol m c * W p c * rsum P (fun q => chi x p k * nsf x q k * V q c)))%R) by (intros; ring).
           rewrite !rsum_minus, S1.
           assert (K : forall f, rsum P (fun p => / l_keff L * f p)%R = (/ l_keff L * rsum P f)%R) by (intros; apply rsum_scal).
           rewrite (K (fun p => vol m c * W p c * rsum P (fun q => chi x p k * nsf x q k * V q c))%R), S2, <- K, <- !rsum_minus. apply rsum_ext. intros p Hp. ring.
        -- rewrite (@rsum_ext P _ (fun p => (vol m c * (st x p k * (V p c * W p c)) - vol m c * W p c * rsum P (fun q => ss x p q k * V q c)))%R) by (intros; ring).
           rewrite !rsum_minus, S1. rewrite <- !rsum_minus. apply rsum_ext. intros p Hp. ring.
      * apply rsum_ext. intros p Hp. ring.
    + intros p Hp. unfold l_J. rewrite F0'. cbn [Nat.add]. apply (@green_identity m MG (l_D L p) (l_be L)).
  - intros p Hp. unfold l_J. rewrite F0. cbn [Nat.add]. apply green_identity; auto.
Qed.

Lemma part_unit m P q c' p c : p < P -> c < ncells m -> q < P -> c' < ncells m ->
  part (ncells m) (unit (P * ncells m) (c' + q * ncells m)) p c = if (p =? q) && (c =? c') then 1%R else 0%R.
Proof.
  intros Hp Hc Hq Hc'. unfold part, unit.
  assert (L : c + p * ncells m < P * ncells m) by (rewrite (Nat.mul_comm P); apply idx2_lt; auto).
  rewrite nth_map_seq by auto.
  destruct (@idx2 c p (ncells m) Hc) as [A B]. destruct (@idx2 c' q (ncells m) Hc') as [A' B'].
  destruct (Nat.eqb_spec (c + p * ncells m) (c' + q * ncells m)) as [E|N].
  - rewrite E in A, B. assert (p = q) by congruence. assert (c = c') by congruence. replace p with q by auto. replace c with c' by auto. rewrite !Nat.eqb_refl. auto.
  - destruct (Nat.eqb_spec p q), (Nat.eqb_spec c c'); cbn; auto. subst. exfalso. auto.
Qed.
Lemma unit_length N i : length (unit N i) = N.
Proof. unfold unit. rewrite map_length, seq_length. auto. Qed.

Section Signs.
  Variables (m : mesh) (D : nat -> R) (be : nat -> R).
  Hypothesis MG : mesh_good m.
  Hypothesis DP : forall c, c < ncells m -> (0 < D c)%R.
  Hypothesis BE : forall s, (-1 <= be s <= 1)%R.

  Lemma leakage_terms x c (P : R -> Prop) : c < ncells m -> P 0%R -> (forall a b, P a -> P b -> P (a + b)%R) ->
    (forall a h, (0 < h)%R -> P a -> P (a / h)%R) -> (forall leak, leak < 6 -> P (cur m D be x c leak)) ->
    P (leakage m (cur m D be x) c).
  Proof.
    intros Hc P0 PA PD PC. unfold leakage. cbn [rsum].
    assert (Q : forall a, a < 3 -> P ((cur m D be x c (2 * a) + cur m D be x c (2 * a + 1)) / wid m a c)%R).
    { intros a Ha. apply PD; [apply wid_pos; auto|]. apply PA; apply PC; lia. }
    repeat apply PA; auto.
  Qed.

  (** Effect of a unit flux elsewhere, and in the cell itself. *)
  Lemma leakage_other x c : c < ncells m -> x c = 0%R -> (forall c', c' < ncells m -> (0 <= x c')%R) ->
    (leakage m (cur m D be x) c <= 0)%R.
  Proof.
    intros Hc Z PX. apply (@leakage_terms x c (fun r => r <= 0)%R); auto; try lra.
    - intros; lra.
    - intros a h Hh Ha. unfold Rdiv. assert (0 < / h)%R by (apply Rinv_0_lt_compat; auto). nra.
    - intros leak Hl. unfold cur. assert (T := @dt1_nonneg m D be MG DP BE c leak Hl Hc). rewrite Z.
      destruct (on_edge m c leak) eqn:E; [lra|]. specialize (PX _ (neighbour_lt Hl Hc E)). nra.
  Qed.
  Lemma leakage_self x c : c < ncells m -> x c = 1%R -> (forall c', c' < ncells m -> c' <> c -> x c' = 0%R) ->
    (0 <= leakage m (cur m D be x) c)%R.
  Proof.
    intros Hc O ZX. apply (@leakage_terms x c (fun r => 0 <= r)%R); auto; try lra.
    - intros; lra.
    - intros a h Hh Ha. apply Rmult_le_pos; [auto|]. left. apply Rinv_0_lt_compat. auto.
    - intros leak Hl. unfold cur. assert (T := @dt1_nonneg m D be MG DP BE c leak Hl Hc). rewrite O.
      destruct (on_edge m c leak) eqn:E; [lra|]. rewrite (ZX _ (neighbour_lt Hl Hc E)); [lra|]. apply neighbour_self; auto.
  Qed.
  Lemma leakage_zero x c : c < ncells m -> (forall c', c' < ncells m -> x c' = 0%R) -> leakage m (cur m D be x) c = 0%R.
  Proof.
    intros Hc ZX. apply (@leakage_terms x c (fun r => r = 0)%R); auto.
    - intros; subst; ring.
    - intros; subst. unfold Rdiv. ring.
    - intros leak Hl. unfold cur. rewrite (ZX c Hc).
      destruct (on_edge m c leak) eqn:E; [ring|]. rewrite (ZX _ (neighbour_lt Hl Hc E)). ring.
  Qed.
End Signs.

Lemma loss_signs srt L : is_sort srt -> loss_ok L -> l_fis L = false ->
  (forall g k, g < ng (l_mat L) -> k < nm (l_mat L) -> (0 < removal L g k)%R) ->
  let n := ncells (l_mesh L) in let N := active L * n in
  exists C, build srt (loss_caps L) (loss_ops L) = Ok C /\
    forall j, j < N -> exists y, multiply C (unit N j) = Ok y /\ length y = N /\
      (0 < nth j y 0)%R /\ forall i, i < N -> i <> j -> (nth i y 0 <= 0)%R.
Proof.
  intros Hs LK FI RM n N. destruct (loss_builds LK Hs) as (C & HB & HC).
  assert (LK' := LK). destruct LK' as (MG & Hcut & MT & DP & SS & BC & BA).
  exists C. split; [auto|]. intros j Hj.
  destruct (HC (unit N j) (unit_length _ _)) as (y & Hm & Hl & Hy). exists y. split; [auto|]. split; [auto|].
  fold n in Hy. set (m := l_mesh L) in *.
  assert (n <> 0) by (intros E; unfold N in Hj; rewrite E in Hj; lia).
  assert (DEC : forall i, i < N -> i mod n < n /\ i / n < active L /\ i = i mod n + i / n * n).
  { intros i Hi. split; [apply Nat.mod_upper_bound; auto|]. split; [apply Nat.div_lt_upper_bound; unfold N in Hi; lia|].
    assert (DM := Nat.div_mod i n ltac:(auto)). rewrite (Nat.mul_comm n) in DM. lia. }
  destruct (DEC j Hj) as (J1 & J2 & J3). set (c' := j mod n) in *. set (q := j / n) in *.
  assert (U : forall p c, p < active L -> c < n -> part n (unit N j) p c = if (p =? q) && (c =? c') then 1%R else 0%R).
  { intros p c Hp Hc. rewrite J3. apply part_unit; auto. }
  assert (BE : forall s, (-1 <= l_be L s <= 1)%R) by (intros; apply albedo_range).
  set (phi := part n (unit N j)) in *.
  assert (REA : forall p c, p < active L -> c < n ->
     let g := first_group L + p in let k := mt m c in
     reactions L phi p c = (st (l_mat L) g k * phi p c -
       (if l_sf L =? 0 then if (c =? c') then into (l_adj L) (l_mat L) g (first_group L + q) k else 0 else 0))%R).
  { intros p c Hp Hc g k. unfold reactions. fold m g k. rewrite FI. f_equal. destruct (l_sf L =? 0); [|auto].
    rewrite Rplus_0_r.
    rewrite (@rsum_ext (active L) _ (fun r => if r =? q then (if c =? c' then into (l_adj L) (l_mat L) g (first_group L + q) k else 0)%R else 0%R)).
    - apply rsum_delta. auto.
    - intros r Hr. rewrite U by auto. destruct (Nat.eqb_spec r q) as [->|]; cbn [andb]; [|ring]. destruct (c =? c'); ring. }
  split.
  - rewrite J3. change (nth (c' + q * n) y 0%R) with (part n y q c'). rewrite Hy by auto. rewrite REA by auto.
    rewrite Nat.eqb_refl. assert (UV : phi q c' = 1%R) by (rewrite U by auto; rewrite !Nat.eqb_refl; auto). rewrite UV.
    assert (Hg := active_ng LK J2). assert (R0 := RM (first_group L + q) (mt m c') Hg (MT c' J1)).
    unfold removal in R0.
    assert (LS : (0 <= leakage m (l_J L phi q) c')%R).
    { apply leakage_self; auto.
      - intros c Hc. apply l_D_pos; auto.
      - intros c Hc Nc. rewrite U by auto. rewrite Nat.eqb_refl. destruct (Nat.eqb_spec c c'); [contradiction|auto]. }
    unfold into. destruct (l_sf L =? 0); [destruct (l_adj L)|]; lra.
  - intros i Hi Nij. destruct (DEC i Hi) as (I1 & I2 & I3). set (c := i mod n) in *. set (p := i / n) in *.
    rewrite I3. change (nth (c + p * n) y 0%R) with (part n y p c). rewrite Hy by auto. rewrite REA by auto.
    assert (UV : phi p c = 0%R).
    { rewrite U by auto. destruct (Nat.eqb_spec p q) as [->|]; [|auto]. destruct (Nat.eqb_spec c c') as [Ec|]; [|auto].
      exfalso. apply Nij. rewrite I3, J3, Ec. auto. }
    rewrite UV.
    assert (LS : (leakage m (l_J L phi p) c <= 0)%R).
    { apply leakage_other; auto.
      - intros d Hd. apply l_D_pos; auto.
      - intros d Hd. rewrite U by auto. destruct ((p =? q) && (d =? c')); lra. }
    assert (IN : (0 <= into (l_adj L) (l_mat L) (first_group L + p) (first_group L + q) (mt m c))%R).
    { assert (G1 := active_ng LK I2). assert (G2 := active_ng LK J2). unfold into. destruct (l_adj L); apply SS; auto; apply MT; auto. }
    destruct (l_sf L =? 0); [destruct (c =? c')|]; lra.
Qed.

Lemma loss_reflecting srt L : is_sort srt -> loss_ok L -> reflecting (dim (l_mesh L)) (l_bc L) ->
  let m := l_mesh L in let n := ncells m in
  exists C, build srt (loss_caps L) (loss_ops L) = Ok C /\
    (forall v, length v = active L * n -> exists y, multiply C v = Ok y /\
       forall p, p < active L ->
         rsum n (fun c => vol m c * part n y p c)%R = rsum n (fun c => vol m c * reactions L (part n v) p c)%R) /\
    (exists y, multiply C (repeat 1%R (active L * n)) = Ok y /\
       forall p c, p < active L -> c < n -> part n y p c = reactions L (fun _ _ => 1%R) p c).
Proof.
  intros Hs LK RF m n. destruct (loss_builds LK Hs) as (C & HB & HC).
  assert (MG : mesh_good m) by (destruct LK; auto).
  assert (B1 : forall s, l_be L s = 1%R).
  { intros s. destruct (@albedo_is (dim m) (l_bc L) (l_zero L) s) as (A1 & A2 & _).
    destruct (le_lt_dec (2 * dim m) s); [apply A1; auto|apply A2; auto]. }
  exists C. split; [auto|]. split.
  - intros v Hv. destruct (HC v Hv) as (y & Hm & Hl & Hy). exists y. split; [auto|]. intros p Hp.
    rewrite (@rsum_ext n _ (fun c => vol m c * leakage m (l_J L (part n v) p) c + vol m c * reactions L (part n v) p c)%R)
      by (intros; cbn beta; rewrite Hy by auto; fold m n; ring).
    rewrite rsum_plus.
    assert (Z : rsum n (fun c => vol m c * leakage m (l_J L (part n v) p) c)%R = 0%R); [|rewrite Z; ring].
    rewrite (@rsum_ext n _ (fun c => vol m c * 1 * leakage m (l_J L (part n v) p) c)%R) by (intros; cbn beta; ring).
    etransitivity; [exact (@green_identity m MG (l_D L (first_group L + p)) (l_be L) (part (ncells m) v p) (fun _ => 1%R))|].
    unfold green. apply (rsum_zero (n := 3)). intros a Ha. apply (rsum_zero (n := ncells m)). intros c Hc.
    assert (Z : forall leak, on_edge m c leak = true -> dt1 m (l_D L (first_group L + p)) (l_be L) c leak = 0%R).
    { intros leak E. unfold dt1. rewrite E. unfold dtilde_edge. rewrite B1. unfold Rdiv. ring. }
    destruct (on_edge m c (2 * a + 1)) eqn:E1, (on_edge m c (2 * a)) eqn:E0; rewrite ?(Z _ E1), ?(Z _ E0); ring.
  - destruct (HC (repeat 1%R (active L * n)) (repeat_length _ _)) as (y & Hm & Hl & Hy). exists y. split; [auto|].
    intros p c Hp Hc. assert (HR : forall q d, q < active L -> d < n -> part n (repeat 1%R (active L * n)) q d = 1%R).
    { intros q d Hq Hd. unfold part. assert (d + q * n < active L * n) by (rewrite (Nat.mul_comm (active L)); apply idx2_lt; auto).
      rewrite nth_indep with (d' := 1%R) by (rewrite repeat_length; auto). apply nth_repeat. }
    rewrite Hy by auto. fold m n.
    assert (Z : leakage m (l_J L (part n (repeat 1%R (active L * n))) p) c = 0%R).
    { apply constant_leakage with (v := 1%R); auto. }
    rewrite Z. unfold reactions. fold m. rewrite HR by auto. rewrite Rplus_0_l. f_equal. destruct (l_sf L =? 0); [|auto].
    f_equal; [apply rsum_ext; intros q Hq; rewrite HR; auto|]. destruct (l_fis L); [|auto].
    f_equal. apply rsum_ext; intros q Hq; rewrite HR; auto.
Qed.

(** ** WGDiffusionLossOperator *)

Lemma face_ops_ext m r r' off nl c : (forall i, r i = r' i) -> face_ops m r off nl c = face_ops m r' off nl c.
Proof.
  intros H. unfold face_ops. apply flat_map_ext. intros l. destruct (on_edge m c l); [auto|]. rewrite !H. auto.
Qed.

Section Wg.
  Variable W : wgloss.
  Hypothesis WK : wg_ok W.
  Let m := w_mesh W.
  Definition w_be := wg_albedo (dim (w_mesh W)) (w_bc W).
  Definition w_D c := dc (w_mat W) (w_group W) (mt (w_mesh W) c).
  Definition w_J (v : list R) := cur (w_mesh W) w_D w_be (fun c => nth c v 0%R).

  Lemma w_be_eq s : w_be s = albedo (dim m) (w_bc W) false s.
  Proof. unfold w_be, wg_albedo, albedo. fold m. destruct (s <? 2 * dim m); auto. Qed.
  Lemma w_be_is : is_albedo (dim m) (w_bc W) false w_be.
  Proof. intros s. rewrite w_be_eq. apply albedo_is. Qed.
  Lemma w_be_range s : (-1 <= w_be s <= 1)%R.
  Proof. rewrite w_be_eq. apply albedo_range. Qed.
  Lemma w_D_pos c : c < ncells m -> (0 < w_D c)%R.
  Proof. destruct WK as (_ & _ & MT & DP). intros H. apply DP. apply MT. auto. Qed.

  Lemma wg_builds srt : is_sort srt ->
    exists C, build srt (wg_caps W) (wg_ops W) = Ok C /\
      forall v, length v = ncells m -> exists y, multiply C v = Ok y /\ length y = ncells m /\
        forall c, c < ncells m -> nth c y 0%R = (leakage m (w_J v) c + wg_removal W c * nth c v 0)%R.
  Proof.
    intros Hs. assert (MG : mesh_good m) by (destruct WK; auto).
    destruct (@rows_build m [0] (fun _ => 0) 1 6 (1 + 2 * dim m)
      (fun _ c leak => (- w_dtilde W c leak / hw m c (leak / 2))%R)
      (fun _ c => (w_jnet W c + w_sr W c)%R) (fun _ => []) (fun _ _ _ => 0%R) false (fun _ _ _ => 0%R))
      with (srt := srt) as (C & HB & HC & _); auto.
    - lia.
    - repeat constructor. intros [].
    - intros g g' [<-|[]] [<-|[]]. auto.
    - intros p Hp. exists 0. split; [left; auto|lia].
    - intros g gp _ [].
    - intros. constructor.
    - assert (EO : rows1 m [0] (fun _ => 0) 6 (fun _ c leak => (- w_dtilde W c leak / hw m c (leak / 2))%R)
         (fun _ c => (w_jnet W c + w_sr W c)%R) (fun _ => []) (fun _ _ _ => 0%R) ++
         rows2 m [0] (fun _ => 0) false (fun _ _ _ => 0%R) = wg_ops W).
      { unfold rows1, rows2, wg_ops. cbn [flat_map]. rewrite !app_nil_r. apply flat_map_ext. intros c.
        unfold row_ops, wg_row_ops. cbn [flat_map]. rewrite app_nil_r. fold m.
        rewrite (@face_ops_ext m (fun i => i + 0 * ncells m) (fun i => i)) by (intros; lia).
        replace (c + 0 * ncells m) with c by lia. auto. }
      rewrite EO in HB. unfold wg_caps. fold m. rewrite !Nat.mul_1_l in *.
      exists C. split; [exact HB|]. intros v Hv. destruct (HC v Hv) as (y & Hm & Hl & Hy).
      exists y. split; [auto|]. split; [auto|]. intros c Hc.
      specialize (Hy 0 c (or_introl eq_refl) Hc). cbn [map] in Hy.
      replace (c + 0 * ncells m) with c in Hy by lia. rewrite Hy. clear Hy.
      unfold w_J. fold m. rewrite <- (@faces_leakage m w_D w_be MG (fun c => nth c v 0%R) c Hc).
      rewrite (@rsum_ext 6 _ (fun leak => if on_edge m c leak then 0 else
         - dt1 m w_D w_be c leak / hw m c (leak / 2) * nth (neighbour m c leak) v 0)%R).
      + assert (JE : w_jnet W c = jnet m c 6 (dt1 m w_D w_be c)).
        { unfold w_jnet, jnet. fold m.
          change (1 mod 2 =? 0) with false. change (0 mod 2 =? 0) with true. change (3 mod 2 =? 0) with false.
          change (2 mod 2 =? 0) with true. change (5 mod 2 =? 0) with false. change (4 mod 2 =? 0) with true. cbv iota.
          change (0 <? 6) with true. change (1 <? 6) with true. change (2 <? 6) with true.
          change (3 <? 6) with true. change (4 <? 6) with true. change (5 <? 6) with true. cbv iota.
          change (w_dtilde W c) with (dt1 m w_D w_be c). unfold Rdiv. ring. }
        rewrite JE. change (sumR []) with 0%R. change (w_sr W c) with (wg_removal W c). ring.
      + intros l Hl'. cbn beta. destruct (on_edge m c l); [auto|]. rewrite Nat.mul_0_l, Nat.add_0_r. auto.
  Qed.
End Wg.

Lemma wg_fick srt W : is_sort srt -> wg_ok W ->
  let m := w_mesh W in let n := ncells m in
  exists C be, build srt (wg_caps W) (wg_ops W) = Ok C /\ is_albedo (dim m) (w_bc W) false be /\
    forall v, length v = n -> exists y J, multiply C v = Ok y /\ length y = n /\
      fick m (fun c => dc (w_mat W) (w_group W) (mt m c)) be (fun c => nth c v 0%R) J /\
      (forall c, c < n -> nth c y 0%R = (leakage m J c + wg_removal W c * nth c v 0)%R) /\
      (rsum n (fun c => vol m c * nth c y 0) = outflow m J + rsum n (fun c => vol m c * wg_removal W c * nth c v 0))%R.
Proof.
  intros Hs WK m n. destruct (wg_builds WK Hs) as (C & HB & HC).
  assert (MG : mesh_good m) by (destruct WK; auto).
  exists C, (w_be W). split; [auto|]. split; [apply w_be_is|]. intros v Hv.
  destruct (HC v Hv) as (y & Hm & Hl & Hy). exists y, (w_J W v). split; [auto|]. split; [auto|].
  assert (F : fick m (fun c => dc (w_mat W) (w_group W) (mt m c)) (w_be W) (fun c => nth c v 0%R) (w_J W v)).
  { apply cur_fick; auto; [intros; apply w_D_pos; auto|apply w_be_range]. }
  split; [auto|]. split; [auto|].
  rewrite <- (@net_leakage m MG (w_J W v)).
  - rewrite <- rsum_plus. apply rsum_ext. intros c Hc. cbn beta. rewrite Hy by auto. fold m. ring.
  - intros a c c' Ha AD. destruct F as [FI _]. apply (FI a c c' Ha AD).
Qed.

Lemma wg_spd srt W : is_sort srt -> wg_ok W ->
  let m := w_mesh W in let n := ncells m in
  let ip := fun x y : list R => rsum n (fun c => vol m c * nth c x 0 * nth c y 0)%R in
  exists C, build srt (wg_caps W) (wg_ops W) = Ok C /\
    forall v w, length v = n -> length w = n -> exists y z, multiply C v = Ok y /\ multiply C w = Ok z /\
      ip w y = ip v z /\
      (rsum n (fun c => vol m c * wg_removal W c * (nth c v 0 * nth c v 0)) <= ip v y)%R.
Proof.
  intros Hs WK m n ip. destruct (wg_builds WK Hs) as (C & HB & HC).
  assert (MG : mesh_good m) by (destruct WK; auto).
  exists C. split; [auto|]. intros v w Hv Hw.
  destruct (HC v Hv) as (y & Hm & Hl & Hy). destruct (HC w Hw) as (z & Hm' & Hl' & Hz).
  exists y, z. split; [auto|]. split; [auto|].
  assert (IP : forall u v y, (forall c, c < n -> nth c y 0%R = (leakage m (w_J W v) c + wg_removal W c * nth c v 0)%R) ->
    ip u y = (green m (w_D W) (w_be W) (fun c => nth c v 0%R) (fun c => nth c u 0%R) +
              rsum n (fun c => vol m c * wg_removal W c * (nth c u 0 * nth c v 0)))%R).
  { intros u v' y' H. unfold ip.
    rewrite <- (@green_identity m MG (w_D W) (w_be W) (fun c => nth c v' 0%R) (fun c => nth c u 0%R)).
    fold n. rewrite <- rsum_plus. apply rsum_ext. intros c Hc. cbn beta. rewrite H by auto. unfold w_J. fold m. ring. }
  rewrite (IP w v y Hy), (IP v w z Hz). split.
  - rewrite green_sym. f_equal. apply rsum_ext. intros. ring.
  - rewrite (IP v v y Hy). assert (G := @green_nonneg m MG (w_D W) (w_be W) (w_D_pos WK) (w_be_range W) (fun c => nth c v 0%R)). lra.
Qed.

Lemma argmin n (f : nat -> R) : 0 < n -> exists c, c < n /\ forall d, d < n -> (f c <= f d)%R.
Proof.
  induction n as [|n IH]; [lia|]. intros _. destruct n as [|n].
  - exists 0. split; [lia|]. intros d Hd. replace d with 0 by lia. lra.
  - destruct IH as (c & Hc & H); [lia|]. destruct (Rle_lt_dec (f c) (f (S n))) as [L|L].
    + exists c. split; [lia|]. intros d Hd. destruct (Nat.eq_dec d (S n)) as [->|]; [auto|]. apply H. lia.
    + exists (S n). split; [lia|]. intros d Hd. destruct (Nat.eq_dec d (S n)) as [->|]; [lra|]. assert (H' := H d). specialize (H' ltac:(lia)). lra.
Qed.

Lemma leakage_min m D be x c : mesh_good m -> (forall c, c < ncells m -> (0 < D c)%R) -> (forall s, (-1 <= be s <= 1)%R) ->
  c < ncells m -> (x c <= 0)%R -> (forall d, d < ncells m -> (x c <= x d)%R) ->
  (leakage m (cur m D be x) c <= 0)%R.
Proof.
  intros MG DP BE Hc N MI. apply (@leakage_terms m D be MG x c (fun r => r <= 0)%R); auto; try lra.
  - intros; lra.
  - intros a h Hh Ha. unfold Rdiv. assert (0 < / h)%R by (apply Rinv_0_lt_compat; auto). nra.
  - intros leak Hl. unfold cur. assert (T := @dt1_nonneg m D be MG DP BE c leak Hl Hc).
    destruct (on_edge m c leak) eqn:E; [nra|]. specialize (MI _ (neighbour_lt Hl Hc E)). nra.
Qed.

Lemma wg_positive srt W : is_sort srt -> wg_ok W ->
  (forall c, c < ncells (w_mesh W) -> (0 < wg_removal W c)%R) ->
  let n := ncells (w_mesh W) in
  exists C, build srt (wg_caps W) (wg_ops W) = Ok C /\
    forall v y, length v = n -> multiply C v = Ok y ->
      (forall c, c < n -> (0 <= nth c y 0)%R) -> forall c, c < n -> (0 <= nth c v 0)%R.
Proof.
  intros Hs WK RP n. destruct (wg_builds WK Hs) as (C & HB & HC).
  assert (MG : mesh_good (w_mesh W)) by (destruct WK; auto).
  exists C. split; [auto|]. intros v y Hv Hm HY c Hc.
  destruct (HC v Hv) as (y' & Hm' & _ & Hy). rewrite Hm in Hm'. inversion Hm'; subst y'.
  destruct (@argmin n (fun c => nth c v 0%R)) as (c0 & Hc0 & MI); [lia|]. cbn beta in MI.
  destruct (Rle_lt_dec 0 (nth c0 v 0%R)) as [P|P]; [specialize (MI c Hc); lra|exfalso].
  assert (LK := @leakage_min (w_mesh W) (w_D W) (w_be W) (fun c => nth c v 0%R) c0 MG (w_D_pos WK) (w_be_range W) Hc0).
  cbn beta in LK. specialize (LK ltac:(lra) MI). specialize (Hy c0 Hc0). specialize (HY c0 Hc0). specialize (RP c0 Hc0).
  unfold w_J in Hy. rewrite Hy in HY. nra.
Qed.

(** ** DiffusionGainOperator *)

Section Gain.
  Variable F : gain.
  Let m := f_mesh F.
  Let n := ncells m.
  Let G := ng (f_mat F).

  Lemma f_row_inj g c g' c' : c < n -> c' < n -> f_row F g c = f_row F g' c' -> g = g' /\ c = c'.
  Proof.
    intros Hc Hc' E. unfold f_row in E. fold m n in E.
    destruct (@idx2 c g n Hc) as [A1 A2]. destruct (@idx2 c' g' n Hc') as [B1 B2].
    rewrite E in A1, A2. split; congruence.
  Qed.
  Lemma f_row_lt g c : g < G -> c < n -> f_row F g c < G * n.
  Proof. intros Hg Hc. unfold f_row. fold m n. rewrite (Nat.mul_comm G). apply idx2_lt; auto. Qed.
  Lemma gain_ops_in o : In o (gain_ops F) -> exists g c gp, g < G /\ c < n /\ gp < G /\
    o = Op (f_row F g c) (Z.of_nat (f_row F gp c)) (f_val F g gp c) INSERT.
  Proof.
    intros H. apply in_flat_map in H. destruct H as (g & Hg & H). apply in_flat_map in H. destruct H as (c & Hc & H).
    apply in_map_iff in H. destruct H as (gp & <- & Hgp). apply in_seq in Hg. apply in_seq in Hc. apply in_seq in Hgp.
    exists g, c, gp. unfold G, n, m. split; [lia|]. split; [lia|]. split; [lia|auto].
  Qed.
  Lemma gain_ops_has g c gp : g < G -> c < n -> gp < G ->
    In (Op (f_row F g c) (Z.of_nat (f_row F gp c)) (f_val F g gp c) INSERT) (gain_ops F).
  Proof.
    intros Hg Hc Hgp. apply in_flat_map. exists g. split; [apply in_seq; unfold G in Hg; lia|].
    apply in_flat_map. exists c. split; [apply in_seq; unfold n, m in Hc; lia|].
    apply in_map_iff. exists gp. split; [auto|]. apply in_seq; unfold G in Hgp; lia.
  Qed.

  Lemma gain_room : roomy (gain_caps F) (gain_ops F).
  Proof.
    intros l ND i Hi HL. unfold gain_caps in *. rewrite repeat_length in Hi.
    rewrite nth_indep with (d' := ng (f_mat F)) by (rewrite repeat_length; auto). rewrite nth_repeat.
    assert (I : incl l (map (fun gp => Z.of_nat (f_row F gp (i mod n))) (seq 0 G))).
    { intros z Hz. destruct (HL z Hz) as (o & Ho & <- & <-). destruct (gain_ops_in Ho) as (g & c & gp & Hg & Hc & Hgp & ->).
      cbn [o_i o_j]. apply in_map_iff. exists gp. split; [|apply in_seq; lia].
      unfold f_row at 2. fold m n. destruct (@idx2 c g n Hc) as [-> _]. auto. }
    assert (LL := NoDup_incl_length ND I). rewrite map_length, seq_length in LL. exact LL.
  Qed.

  Lemma gain_builds srt caps : is_sort srt -> length caps = G * n -> roomy caps (gain_ops F) ->
    exists C, build srt caps (gain_ops F) = Ok C /\
      (forall v, length v = G * n -> exists y, multiply C v = Ok y /\ length y = G * n /\
         forall p c, p < G -> c < n ->
           part n y p c = production (f_adj F) (f_mat F) (mt m c) (fun q => part n v q c) p) /\
      exists caps', cleared C = preallocate caps' /\ length caps' = G * n /\ roomy caps' (gain_ops F).
  Proof.
    intros Hs LC RO.
    destruct (@build_fits srt caps (gain_ops F) [] Hs) as (C & HB & HC & HCL).
    - rewrite app_nil_r, LC. apply Forall_forall. intros o Ho.
      destruct (gain_ops_in Ho) as (g & c & gp & Hg & Hc & Hgp & ->). unfold op_ok. cbn [o_i o_j].
      assert (L := f_row_lt Hg Hc). assert (L' := f_row_lt Hgp Hc). lia.
    - intros o [].
    - unfold gain_ops. rewrite map_flat_map. apply NoDup_flat_map; [apply seq_NoDup| |].
      + intros g Hg. rewrite map_flat_map. apply NoDup_flat_map; [apply seq_NoDup| |].
        * intros c Hc. rewrite map_map. apply NoDup_map_inj; [apply seq_NoDup|]. cbn [o_i o_j].
          intros p q _ _ E. inversion E as [E1]. apply Nat2Z.inj in E1. apply in_seq in Hc.
          destruct (@f_row_inj p c q c); auto; unfold n, m; lia.
        * intros c c' z Hc Hc' H H'. apply in_seq in Hc. apply in_seq in Hc'. rewrite map_map in H, H'.
          apply in_map_iff in H. destruct H as (q & <- & Hq). apply in_map_iff in H'. destruct H' as (q' & E & Hq').
          cbn [o_i o_j] in E. inversion E as [[E1 E2]]. destruct (@f_row_inj g c' g c); auto; unfold n, m; lia.
      + intros g g' z Hg Hg' H H'. rewrite map_flat_map in H, H'.
        apply in_flat_map in H. destruct H as (c & Hc & H). apply in_flat_map in H'. destruct H' as (c' & Hc' & H').
        apply in_seq in Hc. apply in_seq in Hc'. rewrite map_map in H, H'.
        apply in_map_iff in H. destruct H as (q & <- & Hq). apply in_map_iff in H'. destruct H' as (q' & E & Hq').
        cbn [o_i o_j] in E. inversion E as [[E1 E2]]. destruct (@f_row_inj g' c' g c); auto; unfold n, m; lia.
    - rewrite app_nil_r. auto.
    - intros i Hi. rewrite LC in Hi. assert (n <> 0) by (intros E; rewrite E in Hi; lia).
      assert (Hp : i / n < G) by (apply Nat.div_lt_upper_bound; lia).
      assert (Hc : i mod n < n) by (apply Nat.mod_upper_bound; auto).
      exists (Op (f_row F (i / n) (i mod n)) (Z.of_nat (f_row F (i / n) (i mod n))) (f_val F (i / n) (i / n) (i mod n)) INSERT).
      rewrite app_nil_r. split; [apply gain_ops_has; auto|].
      cbn [o_i]. unfold f_row. fold m n. assert (DM := Nat.div_mod i n ltac:(auto)). rewrite (Nat.mul_comm n) in DM. lia.
    - rewrite app_nil_r in *. exists C. split; [auto|]. rewrite LC in HC, HCL. split; [|auto].
      intros v Hv. destruct (HC v Hv) as (y & Hm & Hl & Hy). exists y. split; [auto|]. split; [auto|].
      intros p c Hp Hc. change (part n y p c) with (nth (f_row F p c) y 0%R). rewrite Hy by (apply f_row_lt; auto).
      etransitivity; [exact (@apply_rows (seq 0 G) (seq 0 n)
        (fun g c => map (fun gp => Op (f_row F g c) (Z.of_nat (f_row F gp c)) (f_val F g gp c) INSERT) (seq 0 G)) (f_row F) p c v
        (seq_NoDup _ _) (seq_NoDup _ _) ltac:(apply in_seq; lia) ltac:(apply in_seq; lia)
        ltac:(intros g1 c1 o _ _ Ho; apply in_map_iff in Ho; destruct Ho as (gp & <- & _); auto)
        ltac:(intros g1 c1 g2 c2 _ H2 _ H4 E; apply in_seq in H2; apply in_seq in H4; apply f_row_inj; auto; lia))|].
      cbv beta. rewrite map_map. cbn [o_j o_v]. unfold production. fold G. rewrite rsum_sumR. apply sumR_map_ext. intros q _.
      unfold at_col. rewrite Nat2Z.id. change (nth (f_row F q c) v 0%R) with (part n v q c).
      unfold f_val, birth. fold m. destruct (f_adj F); ring.
  Qed.
End Gain.

Lemma gain_operator srt F : is_sort srt ->
  let n := ncells (f_mesh F) in let G := ng (f_mat F) in
  exists C, build srt (gain_caps F) (gain_ops F) = Ok C /\
    forall v, length v = G * n -> exists y, multiply C v = Ok y /\ length y = G * n /\
      forall p c, p < G -> c < n ->
        part n y p c = production (f_adj F) (f_mat F) (mt (f_mesh F) c) (fun q => part n v q c) p.
Proof.
  intros Hs n G. destruct (@gain_builds F srt (gain_caps F) Hs) as (C & HB & HC & _).
  - unfold gain_caps. apply repeat_length.
  - apply gain_room.
  - exists C. auto.
Qed.

Lemma gain_adjoint srt m x : is_sort srt ->
  let n := ncells m in let G := ng x in
  let Ff := {| f_mesh := m; f_mat := x; f_adj := false |} in let Fa := {| f_mesh := m; f_mat := x; f_adj := true |} in
  exists C C', build srt (gain_caps Ff) (gain_ops Ff) = Ok C /\ build srt (gain_caps Fa) (gain_ops Fa) = Ok C' /\
    forall v w, length v = G * n -> length w = G * n ->
      exists y z, multiply C v = Ok y /\ multiply C' w = Ok z /\
        rsum (G * n) (fun i => nth i w 0 * nth i y 0)%R = rsum (G * n) (fun i => nth i z 0 * nth i v 0)%R.
Proof.
  intros Hs n G Ff Fa. destruct (@gain_operator srt Ff Hs) as (C & HB & HC). destruct (@gain_operator srt Fa Hs) as (C' & HB' & HC').
  cbn [Ff Fa f_mesh f_mat f_adj] in HC, HC'. fold n G in HC, HC'.
  exists C, C'. split; [auto|]. split; [auto|]. intros v w Hv Hw.
  destruct (HC v Hv) as (y & Hm & Hl & Hy). destruct (HC' w Hw) as (z & Hm' & Hl' & Hz).
  exists y, z. split; [auto|]. split; [auto|].
  assert (SP : forall f : nat -> R, rsum (G * n) f = rsum G (fun p => rsum n (fun c => f (c + p * n)%nat))).
  { intros f. rewrite (Nat.mul_comm G). apply (@rsum_prod2 n G f). }
  rewrite !SP. rewrite (rsum_swap G), (rsum_swap G). apply rsum_ext. intros c Hc. cbn beta.
  rewrite (@rsum_ext G _ (fun p => rsum G (fun q => part n w p c * (birth false x p q (mt m c) * part n v q c)))%R).
  - rewrite rsum_swap. apply rsum_ext. intros q Hq. cbn beta.
    change (nth (c + q * n) z 0%R) with (part n z q c). change (nth (c + q * n) v 0%R) with (part n v q c).
    rewrite Hz by auto. unfold production. fold G. rewrite <- rsum_scal_r. apply rsum_ext. intros p Hp. unfold birth. ring.
  - intros p Hp. cbn beta. change (nth (c + p * n) y 0%R) with (part n y p c). change (nth (c + p * n) w 0%R) with (part n w p c).
    rewrite Hy by auto. unfold production. fold G. rewrite rsum_scal. auto.
Qed.

Lemma gain_rebuild srt F C x : is_sort srt -> ng x = ng (f_mat F) ->
  build srt (gain_caps F) (gain_ops F) = Ok C ->
  let n := ncells (f_mesh F) in let G := ng x in
  exists C', gain_construct srt F C x = Ok C' /\
    forall v, length v = G * n -> exists y, multiply C' v = Ok y /\ length y = G * n /\
      forall p c, p < G -> c < n ->
        part n y p c = production (f_adj F) x (mt (f_mesh F) c) (fun q => part n v q c) p.
Proof.
  intros Hs EG HB n G. destruct (@gain_builds F srt (gain_caps F) Hs) as (C0 & HB0 & _ & caps' & E & LC & RO).
  - unfold gain_caps. apply repeat_length.
  - apply gain_room.
  - rewrite HB in HB0. inversion HB0; subst C0. clear HB0.
    set (F' := {| f_mesh := f_mesh F; f_mat := x; f_adj := f_adj F |}).
    destruct (@gain_builds F' srt caps' Hs) as (C' & HB' & HC' & _).
    + cbn. rewrite LC, EG. auto.
    + eapply roomy_incl; [exact RO|]. intros pr Hpr. apply in_map_iff in Hpr. destruct Hpr as (o & <- & Ho).
      destruct (gain_ops_in Ho) as (g & c & gp & Hg & Hc & Hgp & ->). cbn [F' f_mesh f_mat] in Hg, Hc, Hgp. rewrite EG in Hg, Hgp.
      apply in_map_iff. exists (Op (f_row F g c) (Z.of_nat (f_row F gp c)) (f_val F g gp c) INSERT).
      split; [reflexivity|]. apply gain_ops_has; auto.
    + exists C'. split; [|auto]. unfold gain_construct. fold F'. rewrite E. unfold build in HB'. rewrite LC in HB'. exact HB'.
Qed.

(** ** CMFDLossOperator *)

Lemma reaction_terms L phi p c (xs : nat -> R) : loss_ok L -> l_sf L = 0 -> p < active L -> c < ncells (l_mesh L) ->
  (forall q, q < active L -> xs (first_group L + q) = phi q c) ->
  let g := first_group L + p in let k := mt (l_mesh L) c in
  ((st (l_mat L) g k - ss (l_mat L) g g k) * phi p c +
   sumR (map (fun gp => if gp =? g then 0 else - l_scat L g gp c * xs gp) (l_scatter_groups L g)) +
   (if l_fis L then sumR (map (fun gp => - l_prod L g gp c / l_keff L * xs gp) (l_groups L)) else 0))%R =
  reactions L phi p c.
Proof.
  intros LK SF Hp Hc HX g k.
  assert (Hg : In g (l_groups L)) by (apply l_groups_in; auto; unfold g; lia).
  assert (SUM : sumR (map (fun gp => if gp =? g then 0 else - l_scat L g gp c * xs gp)%R (l_scatter_groups L g)) =
          (l_scat L g g c * phi p c - rsum (active L) (fun q => l_scat L g (first_group L + q)%nat c * phi q c))%R).
  { rewrite (@sumR_subset _ (l_scatter_groups L g) (l_groups L)).
    - rewrite (@sumR_interval _ (l_groups L) (first_group L) (active L) (l_groups_NoDup L) (l_groups_in LK)).
      rewrite (@rsum_ext (active L) _ (fun q => (if q =? p then l_scat L g g c * phi p c else 0) +
                                                (-1) * (l_scat L g (first_group L + q)%nat c * phi q c))%R).
      + rewrite rsum_plus, rsum_scal. rewrite (@rsum_delta (active L) p (l_scat L g g c * phi p c)%R Hp). ring.
      + intros q Hq. cbn beta. rewrite HX by auto. unfold g. destruct (Nat.eqb_spec q p) as [->|N].
        * rewrite Nat.eqb_refl. ring.
        * destruct (Nat.eqb_spec (first_group L + q) (first_group L + p)); [lia|]. ring.
    - apply scatter_NoDup.
    - apply l_groups_NoDup.
    - intros gp H. apply (scatter_in LK gp Hg) in H. tauto.
    - intros gp H1 H2. cbn beta. destruct (gp =? g); [auto|]. rewrite (scatter_zero LK Hg H1 Hc H2). ring. }
  rewrite SUM. unfold reactions. fold g k. rewrite SF. cbn [Nat.eqb].
  assert (EG : l_scat L g g c = ss (l_mat L) g g k) by (unfold l_scat; fold k; destruct (l_adj L); auto).
  rewrite EG.
  change (rsum (active L) (fun q => into (l_adj L) (l_mat L) g (first_group L + q)%nat k * phi q c)%R)
    with (rsum (active L) (fun q => l_scat L g (first_group L + q)%nat c * phi q c)%R).
  destruct (l_fis L); [|ring].
  assert (FE : sumR (map (fun gp => (- l_prod L g gp c / l_keff L * xs gp)%R) (l_groups L)) =
               (- (/ l_keff L * rsum (active L) (fun q => birth (l_adj L) (l_mat L) g (first_group L + q)%nat k * phi q c)))%R).
  { rewrite (@sumR_interval _ (l_groups L) (first_group L) (active L) (l_groups_NoDup L) (l_groups_in LK)).
    rewrite <- rsum_scal. rewrite <- (Rmult_1_l (rsum (active L) (fun q : nat => (/ l_keff L * _)%R))), Ropp_mult_distr_l, <- rsum_scal.
    apply rsum_ext. intros q Hq. cbn beta. rewrite HX by auto. unfold l_prod, birth. fold k. unfold Rdiv. destruct (l_adj L); ring. }
  rewrite FE. ring.
Qed.

Lemma rsum_pairs d (f : nat -> R) : rsum (2 * d) f = rsum d (fun a => f (2 * a)%nat + f (2 * a + 1)%nat)%R.
Proof.
  induction d as [|d IH]; [reflexivity|]. replace (2 * S d) with (S (S (2 * d))) by lia. cbn [rsum]. rewrite IH.
  replace (2 * d + 1) with (S (2 * d)) by lia. ring.
Qed.

Lemma jnet_rsum m c nl jo : nl <= 6 -> jnet m c nl jo = rsum nl (fun leak => jo leak / hw m c (leak / 2))%R.
Proof.
  intros H. unfold jnet, Rdiv.
  change (hw m c 0) with (hw m c (0 / 2)).
  do 7 (destruct nl as [|nl]; [cbn -[hw Rplus Rmult Rinv]; try ring|]). lia.
Qed.

Section Cmfd.
  Variable K : cmfd.
  Hypothesis KK : loss_ok (k_loss K).
  Let m := k_mesh K.
  Let n := ncells m.
  Let G := ng (k_mat K).

  Lemma k_active : active (k_loss K) = G /\ first_group (k_loss K) = 0.
  Proof.
    destruct KK as (_ & Hc & _). cbn [k_loss l_cut l_mat] in Hc. unfold active, first_group. cbn [k_loss l_adj l_cut l_mat].
    unfold G. destruct (k_adj K); split; auto; lia.
  Qed.
  Lemma k_groups_l : k_groups K = l_groups (k_loss K).
  Proof.
    destruct KK as (_ & Hc & _). cbn [k_loss l_cut l_mat] in Hc. unfold k_groups, l_groups. cbn [k_loss l_adj l_cut l_mat].
    destruct (k_adj K); f_equal; lia.
  Qed.
  Lemma k_groups_in g : In g (k_groups K) <-> g < G.
  Proof. rewrite k_groups_l, (l_groups_in KK). destruct k_active as [-> ->]. lia. Qed.
  Lemma k_scatter_l g : g < G -> k_scatter_groups K g = l_scatter_groups (k_loss K) g.
  Proof.
    intros Hg. destruct KK as (_ & Hc & _ & _ & _ & _ & BA). cbn [k_loss l_mat] in BA.
    destruct (BA g Hg) as (B1 & B2 & B3 & B4 & _).
    unfold k_scatter_groups, l_scatter_groups. cbn [k_loss l_adj l_cut l_mat]. destruct (k_adj K); f_equal; lia.
  Qed.

  Lemma face_current phi g c leak : (k_al K = 1)%R -> leak < 6 -> c < n ->
    (forall c, c < n -> (0 < phi g c)%R) ->
    let d := fst (k_coef K phi g c leak) in let dh := snd (k_coef K phi g c leak) in
    (if on_edge m c leak then (d + dh) * phi g c
     else (dh - d) * phi g (neighbour m c leak) + (d + dh) * phi g c)%R = k_J K g c leak.
  Proof.
    intros AL Hl Hc PP. unfold k_coef. rewrite AL. fold m.
    assert (P := PP c Hc). destruct (on_edge m c leak) eqn:E.
    - cbn [fst snd]. field. lra.
    - assert (P' := PP _ (neighbour_lt Hl Hc E)).
      match goal with |- context [if ?b then _ else _] => destruct b end; cbn [fst snd]; field; lra.
  Qed.

  Lemma faces_tallied g c : c < n ->
    (vol m c * rsum (2 * dim m) (fun leak => k_J K g c leak / hw m c (leak / 2)) =
     rsum (dim m) (fun a => tallied K g c a true - tallied K g c a false))%R.
  Proof.
    intros Hc. assert (MG : mesh_good m) by (destruct KK; auto). assert (DM : dim m <= 3) by (destruct MG; tauto).
    rewrite rsum_pairs, <- rsum_scal. apply rsum_ext. intros a Ha. cbn beta.
    destruct (half0 m a) as [H0 H0']. destruct (half1 m a) as [H1 H1']. unfold k_J. rewrite H0, H0', H1, H1'. fold m.
    change (0 =? 0) with true. change (1 =? 0) with false. cbv iota.
    assert (PC : forall b, pos m c b = coord m b c).
    { intros b. destruct (cell_ex Hc) as (i & j & k & I & ->). rewrite (cell_pos I), (coord_cell b I). auto. }
    rewrite !PC. rewrite !hw_wid by auto. unfold tallied. fold m.
    assert (E1 : forall b, (if b =? a then coord m b c + 1 else coord m b c) = coord m b c + (if (b =? a) && true then 1 else 0)).
    { intros b. destruct (b =? a); cbn [andb]; lia. }
    assert (E0 : forall b, (if b =? a then coord m b c + 0 else coord m b c) = coord m b c + (if (b =? a) && false then 1 else 0)).
    { intros b. destruct (b =? a); cbn [andb]; lia. }
    rewrite !E1, !E0.
    assert (W0 := wid_pos MG 0 Hc). assert (W1 := wid_pos MG 1 Hc). assert (W2 := wid_pos MG 2 Hc). assert (WA := wid_pos MG a Hc).
    unfold vol. field. repeat split; lra.
  Qed.

  Lemma cmfd_builds srt caps phi : is_sort srt -> length caps = G * n -> roomy caps (cmfd_ops K phi) ->
    exists C, build srt caps (cmfd_ops K phi) = Ok C /\ reproduces_tally K phi C /\
      exists caps', cleared C = preallocate caps' /\ length caps' = G * n /\ roomy caps' (cmfd_ops K phi).
  Proof.
    intros Hs LC RO. assert (MG : mesh_good m) by (destruct KK; auto). assert (DM : 1 <= dim m <= 3) by (destruct MG; tauto).
    set (co := fun g c leak => k_coef K phi g c leak).
    destruct (@rows_build_caps m (k_groups K) (fun g => g) G (2 * dim m) (1 + 2 * dim m + G)
      (fun g c leak => ((snd (co g c leak) - fst (co g c leak)) / hw m c (leak / 2))%R)
      (fun g c => (jnet m c (2 * dim m) (fun leak => (fst (co g c leak) + snd (co g c leak))%R) +
                   (st (k_mat K) g (mt m c) - ss (k_mat K) g g (mt m c)))%R)
      (k_scatter_groups K) (fun g gp c => (- k_scat K g gp c)%R) (k_fis K)
      (fun g gp c => (- k_prod K g gp c / k_keff K)%R)) with (srt := srt) (caps := caps) as (C & HB & HC & HCL); auto.
    - lia.
    - lia.
    - rewrite k_groups_l. apply l_groups_NoDup.
    - intros g Hg. apply k_groups_in. auto.
    - intros p Hp. exists p. split; [apply k_groups_in; auto|auto].
    - intros g gp Hg H. apply k_groups_in in Hg. rewrite k_scatter_l in H by auto. rewrite k_groups_l.
      apply (scatter_in KK gp) in H; [tauto|]. rewrite <- k_groups_l. apply k_groups_in. auto.
    - intros g Hg. apply k_groups_in in Hg. rewrite k_scatter_l by auto. apply scatter_NoDup.
    - exists C. split; [exact HB|]. split; [|exact HCL].
      intros v Hv PV AL0 PP.
      assert (AL : (k_al K = 1)%R) by (unfold k_al; destruct AL0 as [-> | ->]; [auto|destruct (k_init K); auto]).
      destruct (HC v Hv) as (y & Hm & Hl & Hy). exists y. split; [auto|]. split; [auto|].
      intros g c Hg Hc. change (k_mesh K) with m. change (ncells m) with n. unfold part. rewrite Hy; [|apply k_groups_in; auto|auto]. clear Hy. fold n.
      destruct k_active as [AC FG].
      assert (RT := @reaction_terms (k_loss K) phi g c (fun gp => nth (c + gp * n) v 0%R) KK eq_refl).
      rewrite AC, FG in RT. cbn [Nat.add] in RT. specialize (RT Hg Hc (fun q Hq => PV q c Hq Hc)).
      rewrite <- RT. clear RT. rewrite <- (faces_tallied g Hc). rewrite <- k_groups_l, <- k_scatter_l by auto.
      cbn [k_loss l_mesh l_mat l_fis l_keff]. fold m.
      change (l_scat (k_loss K)) with (k_scat K). change (l_prod (k_loss K)) with (k_prod K).
      rewrite PV by auto. rewrite jnet_rsum by lia.
      assert (FS : (rsum (2 * dim m) (fun leak => if on_edge m c leak then 0 else
              (snd (co g c leak) - fst (co g c leak)) / hw m c (leak / 2) * nth (neighbour m c leak + g * n) v 0) +
              rsum (2 * dim m) (fun leak => (fst (co g c leak) + snd (co g c leak)) / hw m c (leak / 2)) * phi g c =
              rsum (2 * dim m) (fun leak => k_J K g c leak / hw m c (leak / 2)))%R).
      { rewrite <- rsum_scal_r, <- rsum_plus. apply rsum_ext. intros l Hl'. cbn beta.
        assert (Hl6 : l < 6) by lia.
        assert (FC := @face_current phi g c l AL Hl6 Hc (fun c' Hc' => PP g c' Hg Hc')). cbn beta zeta in FC. fold (co g c l) in FC.
        destruct (on_edge m c l) eqn:E; rewrite <- FC; [unfold Rdiv; ring|].
        rewrite PV; auto; [unfold Rdiv; ring|]. apply (neighbour_lt Hl6 Hc E). }
      rewrite <- FS. ring.
  Qed.

  Lemma cmfd_room phi : roomy (cmfd_caps K) (cmfd_ops K phi).
  Proof.
    assert (MG : mesh_good m) by (destruct KK; auto). assert (DM : 1 <= dim m <= 3) by (destruct MG; tauto).
    unfold cmfd_caps. fold m n G.
    refine (@roomy_cap m (k_groups K) (fun g => g) G (2 * dim m) (1 + 2 * dim m + G) _ _
      (k_scatter_groups K) (fun g gp c => (- k_scat K g gp c)%R) (k_fis K) (fun g gp c => (- k_prod K g gp c / k_keff K)%R) MG _ _ _ _).
    - lia.
    - lia.
    - intros g Hg. apply k_groups_in. auto.
    - intros g gp Hg H. apply k_groups_in in Hg. rewrite k_scatter_l in H by auto. rewrite k_groups_l.
      apply (scatter_in KK gp) in H; [tauto|]. rewrite <- k_groups_l. apply k_groups_in. auto.
  Qed.
End Cmfd.

Lemma same_ok K K' : same_problem K K' -> loss_ok (k_loss K) -> loss_ok (k_loss K').
Proof.
  intros (E1 & E2 & E3 & E4). unfold loss_ok. cbn [k_loss l_mesh l_mat l_cut]. rewrite E1, E2, E4. auto.
Qed.

Lemma cmfd_positions K K' phi phi' : same_problem K K' ->
  map (fun o => (o_i o, o_j o)) (cmfd_ops K' phi') = map (fun o => (o_i o, o_j o)) (cmfd_ops K phi).
Proof.
  intros (E1 & E2 & E3 & E4). unfold cmfd_ops. rewrite !map_app.
  assert (EG : k_groups K' = k_groups K) by (unfold k_groups; rewrite E2, E4; auto).
  assert (ER : forall g c, k_row K' g c = k_row K g c) by (intros; unfold k_row; rewrite E1; auto).
  f_equal.
  - rewrite EG, E1, !map_flat_map. apply flat_map_ext. intros g. rewrite !map_flat_map. apply flat_map_ext. intros c.
    unfold cmfd_row_ops. rewrite !map_app, E1. f_equal; [|f_equal].
    + unfold face_ops. rewrite !map_flat_map. apply flat_map_ext. intros l. destruct (on_edge (k_mesh K) c l); [auto|].
      cbn [map o_i o_j]. rewrite !ER. auto.
    + cbn [map o_i o_j]. rewrite !ER. auto.
    + assert (ES : k_scatter_groups K' g = k_scatter_groups K g) by (unfold k_scatter_groups; rewrite E2, E4; auto).
      rewrite ES, !map_flat_map. apply flat_map_ext. intros gp. destruct (gp =? g); [auto|]. cbn [map o_i o_j]. rewrite !ER. auto.
  - rewrite E3. destruct (k_fis K); [|auto]. rewrite EG, E1, !map_flat_map. apply flat_map_ext. intros g.
    rewrite !map_flat_map. apply flat_map_ext. intros c. unfold cmfd_fission_ops. rewrite EG, !map_map. cbn [o_i o_j].
    apply map_ext. intros gp. rewrite !ER. auto.
Qed.

Lemma reach_room srt K prev : is_sort srt -> loss_ok (k_loss K) -> cmfd_reach srt K prev ->
  exists caps, (match prev with None => preallocate (cmfd_caps K) | Some C => cleared C end) = preallocate caps /\
    length caps = ng (k_mat K) * ncells (k_mesh K) /\ forall phi, roomy caps (cmfd_ops K phi).
Proof.
  intros Hs KK RE. induction RE as [|K' prev phi C RE (caps & EC & LC & RO) SP HB].
  - exists (cmfd_caps K). split; [auto|]. split; [unfold cmfd_caps; apply repeat_length|]. intros. apply cmfd_room. auto.
  - assert (SP' := SP). destruct SP' as (E1 & E2 & E3 & E4).
    destruct (@cmfd_builds K' (same_ok SP KK) srt caps phi Hs) as (C' & HB' & _ & caps' & EC' & LC' & RO').
    + rewrite E1, E2. auto.
    + eapply roomy_incl; [apply (RO phi)|]. rewrite (cmfd_positions phi phi SP). apply incl_refl.
    + assert (C' = C).
      { unfold cmfd_construct in HB. unfold build in HB'. rewrite LC in HB'. rewrite E1, E2 in HB.
        assert (PE : match prev with None => preallocate (cmfd_caps K') | Some C => cleared C end = preallocate caps).
        { rewrite <- EC. destruct prev; [auto|]. unfold cmfd_caps. rewrite E1, E2. auto. }
        rewrite PE, HB' in HB. congruence. }
      subst C'. exists caps'. split; [auto|]. split; [rewrite LC', E1, E2; auto|].
      intros phi'. eapply roomy_incl; [exact RO'|]. rewrite (cmfd_positions phi' phi SP). apply incl_refl.
Qed.

Lemma cmfd_tally srt K K' prev phi : is_sort srt -> loss_ok (k_loss K) -> cmfd_reach srt K prev -> same_problem K K' ->
  exists C, cmfd_construct srt K' prev phi = Ok C /\ reproduces_tally K' phi C.
Proof.
  intros Hs KK RE SP. destruct (reach_room Hs KK RE) as (caps & EC & LC & RO).
  assert (SP' := SP). destruct SP' as (E1 & E2 & E3 & E4).
  destruct (@cmfd_builds K' (same_ok SP KK) srt caps phi Hs) as (C & HB & HG & _).
  - rewrite E1, E2. auto.
  - eapply roomy_incl; [apply (RO phi)|]. rewrite (cmfd_positions phi phi SP). apply incl_refl.
  - exists C. split; [|auto]. unfold cmfd_construct. unfold build in HB. rewrite LC in HB. rewrite E1, E2.
    assert (PE : match prev with None => preallocate (cmfd_caps K') | Some C => cleared C end = preallocate caps).
    { rewrite <- EC. destruct prev; [auto|]. unfold cmfd_caps. rewrite E1, E2. auto. }
    rewrite PE. exact HB.
Qed.

(** ** Rebuilding *)

Lemma run_empty o r : run [] (o :: r) = UB.
Proof. cbn. destruct (o_i o); reflexivity. Qed.

Lemma loss_construct_ub srt L C keff flag : loss_ok L -> loss_construct srt L C keff flag = UB.
Proof.
  intros LK. unfold loss_construct, build_on, assembled_store.
  set (L' := {| l_mesh := l_mesh L; l_mat := l_mat L; l_cut := l_cut L; l_fis := l_fis L; l_adj := l_adj L;
               l_keff := keff; l_sf := flag; l_bc := l_bc L; l_zero := l_zero L |}).
  assert (LK' : loss_ok L') by exact LK.
  destruct (loss_ops L') as [|o r] eqn:E; [|rewrite run_empty; auto].
  exfalso. assert (A0 : 0 < active L').
  { destruct LK' as (_ & Hc & _). unfold active. destruct (l_adj L'); lia. }
  assert (N0 : 0 < ncells (l_mesh L')).
  { destruct LK' as ((_ & _ & _ & _ & _ & _ & _ & H1 & H2 & H3 & _) & _). unfold ncells.
    apply Nat.mul_pos_pos; [apply Nat.mul_pos_pos|]; auto. }
  assert (HI : In (Op (l_row L' (first_group L') 0) (Z.of_nat (l_row L' (first_group L') 0))
     (jnet (l_mesh L') 0 6 (l_dtilde L' (first_group L') 0) + l_sr L' (first_group L') 0)%R INSERT) (loss_ops L')).
  { unfold loss_ops. apply in_app_iff. left. apply in_flat_map. exists (first_group L'). split; [apply l_groups_in; auto; lia|].
    apply in_flat_map. exists 0. split; [apply in_seq; lia|]. unfold loss_row_ops. apply in_app_iff. right. left. auto. }
  rewrite E in HI. destruct HI.
Qed.

Lemma wg_construct_ub srt W C : wg_ok W -> wg_construct srt W C = UB.
Proof.
  intros WK. unfold wg_construct, build_on, assembled_store.
  destruct (wg_ops W) as [|o r] eqn:E; [|rewrite run_empty; auto].
  exfalso.
  assert (N0 : 0 < ncells (w_mesh W)).
  { destruct WK as ((_ & _ & _ & _ & _ & _ & _ & H1 & H2 & H3 & _) & _). unfold ncells.
    apply Nat.mul_pos_pos; [apply Nat.mul_pos_pos|]; auto. }
  assert (HI : In (Op 0 (Z.of_nat 0) (w_jnet W 0 + w_sr W 0)%R INSERT) (wg_ops W)).
  { unfold wg_ops. apply in_flat_map. exists 0. split; [apply in_seq; lia|]. unfold wg_row_ops. apply in_app_iff. right. left. auto. }
  rewrite E in HI. destruct HI.
Qed.

(** A rebuild with a wider scattering pattern. *)
Definition one_cell : mesh :=
  {| dim := 1; xfm := [1]; yfm := [1]; zfm := [1]; xcme := [0%R; 1%R]; ycme := [0%R; 1%R]; zcme := [0%R; 1%R];
     mdx := [1%R]; mdy := [1%R]; mdz := [1%R]; twx := 1%R; twy := 1%R; twz := 1%R; mat := [0%Z] |}.
Definition two_groups (w : bool) : mtl :=
  {| ng := 2; nm := 1; st := fun _ _ => 1%R; sa := fun _ _ => 0%R; nsf := fun _ _ => 0%R; sf := fun _ _ => 0%R;
     nu := fun _ _ => 1%R; chi := fun _ _ => 0%R;
     ss := fun g gp _ => if (g =? 1) && (gp =? 0) then (if w then / 2 else 0)%R else 0%R;
     dc := fun _ _ => 1%R; b0 := fun g => if w then 0 else g; b1 := fun g => g;
     b2 := fun g => if w then 1 else g; b3 := fun g => g;
     cut0 := 2; cut1 := 0; ds0 := true; ds1 := true; fin := true |}.
Definition two_k (w : bool) : cmfd :=
  {| k_mesh := one_cell; k_mat := two_groups w; k_fis := false; k_adj := false; k_keff := 1%R;
     k_bc := fun _ => Some true; k_zero := false; k_correct := false; k_alpha := 1%R; k_init := true;
     k_cur := fun _ _ _ _ _ _ => 0%R; k_old := fun _ _ _ => 0%R |}.

Lemma one_cell_good : mesh_good one_cell.
Proof.
  unfold mesh_good, ncx, ncy, ncz. cbn. repeat split; try lia; try (unfold left_edge; cbn; ring).
  intros w [[<-|[]]|[[<-|[]]|[<-|[]]]]; lra.
Qed.

Lemma two_k_ok w : loss_ok (k_loss (two_k w)).
Proof.
  assert (TR : forall g gp, transfer (two_groups w) g gp -> w = true /\ g = 1 /\ gp = 0).
  { intros g gp (k & _ & H). cbn in H. destruct (Nat.eqb_spec g 1), (Nat.eqb_spec gp 0); cbn [andb] in H; try lra.
    destruct w; [auto|lra]. }
  split; [apply one_cell_good|]. split; [cbn; lia|]. split; [|split; [|split; [|split]]].
  - intros c Hc. unfold ncells, ncx, ncy, ncz in Hc. cbn in Hc. replace c with 0 by lia. cbn. lia.
  - intros. cbn. lra.
  - intros g gp k _ _ _. cbn. destruct ((g =? 1) && (gp =? 0)); [destruct w|]; lra.
  - intros g gp Hg Hgp T. apply TR in T. destruct T as (-> & -> & ->). cbn. lia.
  - intros g Hg. cbn in Hg. assert (T1 : w = true -> transfer (two_groups w) 1 0).
    { intros ->. exists 0. cbn. split; [lia|lra]. }
    unfold lower, upper. cbn. destruct g as [|[|g]]; [| |lia]; destruct w; cbn; repeat split; auto; lia.
Qed.

Lemma cmfd_drops :
  let phi := fun _ _ : nat => 1%R in
  exists srt C C', is_sort srt /\
    cmfd_construct srt (two_k false) None phi = Ok C /\
    cmfd_construct srt (two_k true) (Some C) phi = Ok C' /\ ~ reproduces_tally (two_k true) phi C'.
Proof.
  intros phi. exists isort.
  assert (O1 : exists a b, cmfd_ops (two_k false) phi = [Op 0 0 a INSERT; Op 1 1 b INSERT]).
  { eexists. eexists. reflexivity. }
  assert (O2 : exists a b e, cmfd_ops (two_k true) phi = [Op 0 0 a INSERT; Op 1 1 b INSERT; Op 1 0 e INSERT] /\
     b = (jnet one_cell 0 2 (fun leak => fst (k_coef (two_k true) phi 1 0 leak) + snd (k_coef (two_k true) phi 1 0 leak)) + (1 - 0))%R).
  { do 3 eexists. split; reflexivity. }
  destruct O1 as (a1 & b1' & O1). destruct O2 as (a & b & e & O2 & EB).
  assert (B1 : b = 1%R).
  { rewrite EB, jnet_rsum by lia.
    assert (FC : forall leak, leak < 2 -> (fst (k_coef (two_k true) phi 1 0 leak) + snd (k_coef (two_k true) phi 1 0 leak) = 0)%R).
    { intros leak Hl. assert (F := @face_current (two_k true) phi 1 0 leak eq_refl).
      specialize (F ltac:(lia) ltac:(cbn; lia) ltac:(intros; unfold phi; lra)). cbn beta zeta in F.
      assert (OE : on_edge one_cell 0 leak = true) by (destruct leak as [|[|leak]]; [reflexivity|reflexivity|lia]).
      change (k_mesh (two_k true)) with one_cell in F. rewrite OE in F. unfold phi at 2 in F. 
      unfold k_J in F. cbn [two_k k_cur] in F. rewrite Rmult_1_r in F. unfold phi at 1 in F. unfold phi. rewrite F. ring. }
    cbn [rsum]. rewrite !FC by lia. unfold Rdiv. ring. }
  assert (E1 : cmfd_construct isort (two_k false) None phi =
    Ok (csr_of [[T 0 0 a1]; [T 1 1 b1']])) .
  { unfold cmfd_construct, build_on. rewrite O1. reflexivity. }
  assert (E2 : cmfd_construct isort (two_k true) (Some (csr_of [[T 0 0 a1]; [T 1 1 b1']])) phi =
    Ok (csr_of [[T 0 0 a]; [T 1 1 b]])).
  { unfold cmfd_construct, build_on. rewrite O2. reflexivity. }
  eexists. eexists. split; [apply isort_is_sort|]. split; [exact E1|]. split; [exact E2|].
  intros H. destruct (H [1%R; 1%R]) as (y & Hm & Hl & Hy).
  - reflexivity.
  - intros g c Hg Hc. cbn in Hg, Hc. change (ncells (k_mesh (two_k true))) with 1. unfold phi.
    destruct g as [|[|g]]; [| |lia]; (destruct c as [|c]; [|unfold ncells in Hc; cbn in Hc; lia]); reflexivity.
  - left. reflexivity.
  - intros. unfold phi. lra.
  - specialize (Hy 1 0 ltac:(cbn; lia) ltac:(cbn; lia)).
    assert (Y : y = [(0 + 1 * a)%R; (0 + 1 * b)%R]).
    { assert (MM : multiply (csr_of [[T 0 0 a]; [T 1 1 b]]) [1%R; 1%R] = Ok [(0 + 1 * a)%R; (0 + 1 * b)%R]) by reflexivity.
      rewrite MM in Hm. inversion Hm. auto. }
    subst y. unfold part in Hy. cbn [nth] in Hy. change (0 + 1 * ncells (k_mesh (two_k true))) with 1 in Hy. cbn [nth] in Hy.
    unfold reactions in Hy. change (first_group (k_loss (two_k true))) with 0 in Hy. change (active (k_loss (two_k true))) with 2 in Hy.
    cbn in Hy. unfold vol, wid, phi in Hy. cbn in Hy. unfold tallied in Hy. cbn in Hy. rewrite B1 in Hy. lra.
Qed.

Lemma face_current_partial K phi g c leak :
  mesh_good (k_mesh K) -> (k_init K = true \/ k_alpha K = 1%R) -> leak < 6 -> c < ncells (k_mesh K) ->
  (forall c, c < ncells (k_mesh K) -> (0 < phi g c)%R) ->
  exists d dh, k_coef K phi g c leak = (d, dh) /\
    (if on_edge (k_mesh K) c leak then (d + dh) * phi g c
     else (dh - d) * phi g (neighbour (k_mesh K) c leak) + (d + dh) * phi g c)%R = k_J K g c leak.
Proof.
  intros MG AL0 Hl Hc PP. exists (fst (k_coef K phi g c leak)), (snd (k_coef K phi g c leak)).
  split; [destruct (k_coef K phi g c leak); auto|].
  assert (AL : (k_al K = 1)%R) by (unfold k_al; destruct AL0 as [-> | ->]; [auto|destruct (k_init K); auto]).
  exact (@face_current K phi g c leak AL Hl Hc PP).
Qed.
