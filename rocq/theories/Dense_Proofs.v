From Verif Require Import Base BaseR Matrix_Model Matrix_Spec Dense_Model Dense_Spec.
Set Implicit Arguments. Unset Strict Implicit.
Open Scope R_scope.

Definition dent (A : dense) : table := fun i j => nth (mdidx A i j) (dv A) 0.

Lemma idx_lt m n i j : (i < m -> j < n -> i + j * m < m * n)%nat.
Proof. intros. nia. Qed.
Lemma idx_inj m i j i' j' : (i < m -> i' < m -> i + j * m = i' + j' * m -> i = i' /\ j = j')%nat.
Proof.
  intros H H' E. assert (j = j').
  { apply (f_equal (fun x => x / m)%nat) in E. rewrite !Nat.div_add in E by lia.
    rewrite !Nat.div_small in E by lia. lia. }
  subst. lia.
Qed.

Lemma dget_ok A i j : dwf A -> (i < dm A)%nat -> (j < dn A)%nat -> dget A i j = Ok (dent A i j).
Proof.
  intros W Hi Hj. unfold dget, dent. apply rd_ok. rewrite W. apply idx_lt; auto.
Qed.

Lemma dinsert_ok A i j v ty : dwf A -> (i < dm A)%nat -> (j < dn A)%nat ->
  exists A', dinsert A i j v ty = Ok A' /\ dwf A' /\ dm A' = dm A /\ dn A' = dn A /\
    (forall i' j', (i' < dm A)%nat -> dent A' i' j' = tbl_upd (dent A) (DOp i j v ty) i' j').
Proof.
  intros W Hi Hj.
  assert (L : (mdidx A i j < length (dv A))%nat) by (rewrite W; apply idx_lt; auto).
  unfold dinsert. rewrite (rd0 L). simpl.
  unfold wr. rewrite (proj2 (Nat.ltb_lt _ _) L). simpl.
  eexists. split; [reflexivity|]. split; [unfold dwf; simpl; rewrite upd_length; auto|].
  split; [auto|]. split; [auto|].
  intros i' j' Hi'. unfold dent, tbl_upd. simpl. unfold mdidx in *. simpl.
  destruct (Nat.eqb_spec i' i) as [->|N]; simpl.
  - destruct (Nat.eqb_spec j' j) as [->|N]; simpl.
    + rewrite nth_upd_eq by auto. destruct ty; auto.
    + apply nth_upd_neq. intros E. apply idx_inj in E; auto. destruct E. lia.
  - apply nth_upd_neq. intros E. apply idx_inj in E; auto. destruct E. lia.
Qed.


Lemma fold_tbl_ext m ops : forall f g : table, (forall i j, (i < m)%nat -> f i j = g i j) ->
  forall i j, (i < m)%nat -> fold_left tbl_upd ops f i j = fold_left tbl_upd ops g i j.
Proof.
  induction ops as [|o r IH]; intros f g H i j Hi; simpl; auto.
  apply IH; auto. intros i' j' Hi'. unfold tbl_upd.
  destruct (Nat.eqb i' (d_i o) && Nat.eqb j' (d_j o))%bool; [destruct (d_t o)|]; rewrite ?H; auto.
Qed.

Lemma dense_history_gen ops : forall A, dwf A -> Forall (dop_ok (dm A) (dn A)) ops ->
  exists A', foldM dstep ops A = Ok A' /\ dwf A' /\ dm A' = dm A /\ dn A' = dn A /\
    (forall i j, (i < dm A)%nat -> dent A' i j = fold_left tbl_upd ops (dent A) i j).
Proof.
  induction ops as [|o r IH]; intros A W HO; simpl.
  - exists A. auto.
  - inversion HO as [|? ? [Hi Hj] HO']; subst.
    unfold dstep at 1.
    destruct (dinsert_ok (d_x o) (d_t o) W Hi Hj) as (A1 & E & W1 & Em & En & Hd).
    rewrite E. simpl.
    destruct (IH A1 W1) as (A' & E' & W' & Em' & En' & Hd').
    { rewrite Em, En. auto. }
    exists A'. split; [auto|]. split; [auto|]. split; [lia|]. split; [lia|].
    intros i j Hij. rewrite Hd' by lia. apply fold_tbl_ext with (m := dm A); auto.
Qed.

Lemma dense_history m n v ops : Forall (dop_ok m n) ops ->
  exists A, foldM dstep ops (dense_new m n v) = Ok A /\
    forall i j, (i < m)%nat -> (j < n)%nat ->
      dget A i j = Ok (fold_left tbl_upd ops (fun _ _ => v) i j).
Proof.
  intros HO. destruct (@dense_history_gen ops (dense_new m n v)) as (A & E & W & Em & En & Hd); auto.
  { unfold dwf, dense_new. simpl. apply repeat_length. }
  exists A. split; auto. intros i j Hi Hj. simpl in *.
  rewrite dget_ok; [|auto|lia|lia]. f_equal. rewrite Hd by auto.
  unfold dent at 1.
  revert i j Hi Hj. 
  assert (G : forall (ops : list dop) (f g : table), (forall i j, (i < m)%nat -> (j < n)%nat -> f i j = g i j) ->
     forall i j, (i < m)%nat -> (j < n)%nat -> fold_left tbl_upd ops f i j = fold_left tbl_upd ops g i j).
  { clear. induction ops as [|o r IH]; intros f g H i j Hi Hj; simpl; auto.
    apply IH; auto. intros i' j' Hi' Hj'. unfold tbl_upd.
    destruct (Nat.eqb i' (d_i o) && Nat.eqb j' (d_j o))%bool; [destruct (d_t o)|]; rewrite ?H; auto. }
  apply G. intros i j Hi Hj. unfold dense_new, mdidx. simpl.
  rewrite nth_repeat_lt by (apply idx_lt; auto). auto.
Qed.

Lemma dinsert_row_ok A i v ty : dwf A -> (i < dm A)%nat -> length v = dn A ->
  dinsert_row A i v ty = foldM dstep (map (fun j => DOp i j (nth j v 0) ty) (seq 0 (dn A))) A.
Proof.
  intros W Hi HL. unfold dinsert_row.
  assert (G : forall l A0, (forall j, In j l -> (j < length v)%nat) ->
    foldM (fun A j => do x <- rd v j; dinsert A i j x ty) l A0 =
    foldM dstep (map (fun j => DOp i j (nth j v 0) ty) l) A0).
  { induction l as [|j r IH]; intros A0 H; simpl; auto.
    rewrite rd0 by (apply H; simpl; auto). simpl. unfold dstep at 1. simpl.
    destruct (dinsert A0 i j (nth j v 0) ty); simpl; auto. apply IH. intros; apply H; simpl; auto. }
  apply G. intros j Hj. apply in_seq in Hj. lia.
Qed.

Lemma dinsert_col_ok A j v ty : dwf A -> (j < dn A)%nat -> length v = dm A ->
  dinsert_col A j v ty = foldM dstep (map (fun i => DOp i j (nth i v 0) ty) (seq 0 (dm A))) A.
Proof.
  intros W Hi HL. unfold dinsert_col.
  assert (G : forall l A0, (forall i, In i l -> (i < length v)%nat) ->
    foldM (fun A i => do x <- rd v i; dinsert A i j x ty) l A0 =
    foldM dstep (map (fun i => DOp i j (nth i v 0) ty) l) A0).
  { induction l as [|i r IH]; intros A0 H; simpl; auto.
    rewrite rd0 by (apply H; simpl; auto). simpl. unfold dstep at 1. simpl.
    destruct (dinsert A0 i j (nth i v 0) ty); simpl; auto. apply IH. intros; apply H; simpl; auto. }
  apply G. intros i Hi'. apply in_seq in Hi'. lia.
Qed.

(** Products *)

Lemma foldM_app A B (f : A -> B -> res A) l1 l2 s :
  foldM f (l1 ++ l2) s = (do s' <- foldM f l1 s; foldM f l2 s').
Proof.
  revert s; induction l1 as [|a t IH]; intros s; simpl; auto. destruct (f s a); simpl; auto.
Qed.

Lemma dmult_col A temp j : dwf A -> (j < dn A)%nat -> forall k y, (k <= dm A)%nat -> length y = dm A ->
  exists y', foldM (fun (s : nat * list R) i =>
                     let '(p, y) := s in
                     do a <- rd (dv A) p; do yi <- rd y i;
                     do y' <- wr y i (yi + temp * a); Ok (S p, y')) (seq 0 k) ((j * dm A)%nat, y)
    = Ok ((j * dm A + k)%nat, y') /\ length y' = dm A /\
    forall i, nth i y' 0 = nth i y 0 + if (i <? k)%nat then temp * dent A i j else 0.
Proof.
  intros W Hj k. induction k as [|k IH]; intros y Hk HL.
  - exists y. simpl. rewrite Nat.add_0_r. split; [auto|]. split; [auto|]. intros; ring.
  - destruct (IH y) as (y1 & E1 & L1 & H1); [lia|auto|].
    rewrite seq_S, foldM_app, E1. cbn [bind foldM Nat.add].
    assert (LP : (j * dm A + k < length (dv A))%nat) by (rewrite W; nia).
    rewrite (rd0 LP). cbn [bind].
    rewrite rd0 by lia. cbn [bind]. unfold wr.
    rewrite (proj2 (Nat.ltb_lt k (length y1))) by lia. cbn [bind].
    eexists. split; [rewrite Nat.add_succ_r; reflexivity|]. split; [rewrite upd_length; auto|].
    intros i. destruct (Nat.eq_dec i k) as [->|N].
    + rewrite nth_upd_eq by lia. rewrite H1.
      rewrite (proj2 (Nat.ltb_ge k k)) by lia. rewrite (proj2 (Nat.ltb_lt k (S k))) by lia.
      unfold dent, mdidx. rewrite (Nat.add_comm k). ring.
    + rewrite nth_upd_neq by lia. rewrite H1.
      destruct (Nat.ltb_spec i k), (Nat.ltb_spec i (S k)); auto; lia.
Qed.

Lemma dmultiply_spec A x : dwf A -> length x = dn A ->
  exists y, dmultiply A x = Ok y /\ length y = dm A /\
    forall i, (i < dm A)%nat -> nth i y 0 = rsum (dn A) (fun j => dent A i j * nth j x 0).
Proof.
  intros W HX. unfold dmultiply.
  assert (G : forall n, (n <= dn A)%nat -> exists y,
    foldM (fun s j =>
            do temp <- rd x j;
            foldM (fun (s : nat * list R) i =>
                     let '(p, y) := s in
                     do a <- rd (dv A) p;
                     do yi <- rd y i;
                     do y' <- wr y i (yi + temp * a);
                     Ok (S p, y')) (seq 0 (dm A)) s)
          (seq 0 n) (0%nat, repeat 0 (dm A)) = Ok ((n * dm A)%nat, y) /\ length y = dm A /\
    forall i, (i < dm A)%nat -> nth i y 0 = rsum n (fun j => dent A i j * nth j x 0)).
  { induction n as [|n IH]; intros Hn.
    - exists (repeat 0 (dm A)). simpl. split; [auto|]. split; [apply repeat_length|].
      intros i Hi. apply nth_repeat.
    - destruct IH as (y & E & L & H); [lia|].
      rewrite seq_S, foldM_app, E. cbn [bind foldM Nat.add].
      rewrite rd0 by lia. cbn [bind].
      destruct (@dmult_col A (nth n x 0) n W Hn (dm A) y (le_n _) L) as (y' & E' & L' & H').
      rewrite E'. cbn [bind]. exists y'. split; [f_equal; f_equal; lia|]. split; [auto|].
      intros i Hi. rewrite H'. rewrite (proj2 (Nat.ltb_lt i (dm A)) Hi). rewrite H by auto.
      simpl. ring. }
  destruct (G (dn A) (le_n _)) as (y & E & L & H). rewrite E. simpl. exists y. auto.
Qed.

Lemma dmultt_col A w j : dwf A -> (j < dn A)%nat -> length w = dm A -> forall k, (k <= dm A)%nat ->
  foldM (fun (t : nat * R) i =>
           let '(p, temp) := t in
           do xi <- rd w i; do a <- rd (dv A) p; Ok (S p, temp + xi * a)) (seq 0 k) ((j * dm A)%nat, 0)
    = Ok ((j * dm A + k)%nat, rsum k (fun i => nth i w 0 * dent A i j)).
Proof.
  intros W Hj HW k. induction k as [|k IH]; intros Hk.
  - simpl. rewrite Nat.add_0_r. auto.
  - rewrite seq_S, foldM_app, IH by lia. cbn [bind foldM Nat.add].
    rewrite rd0 by lia. cbn [bind].
    assert (LP : (j * dm A + k < length (dv A))%nat) by (rewrite W; nia).
    rewrite (rd0 LP). cbn [bind]. rewrite Nat.add_succ_r. f_equal. f_equal. simpl.
    replace (dent A k j) with (nth (j * dm A + k) (dv A) 0) by (unfold dent, mdidx; f_equal; lia). auto.
Qed.

Lemma dmultiply_transpose_spec A w : dwf A -> length w = dm A ->
  exists y, dmultiply_transpose A w = Ok y /\ length y = dn A /\
    forall j, (j < dn A)%nat -> nth j y 0 = rsum (dm A) (fun i => nth i w 0 * dent A i j).
Proof.
  intros W HX. unfold dmultiply_transpose.
  assert (G : forall n, (n <= dn A)%nat -> exists y,
    foldM (fun (s : nat * list R) j =>
            let '(p, y) := s in
            do t <- foldM (fun (t : nat * R) i =>
                      let '(p, temp) := t in
                      do xi <- rd w i;
                      do a <- rd (dv A) p;
                      Ok (S p, temp + xi * a)) (seq 0 (dm A)) (p, 0);
            do y' <- wr y j (snd t);
            Ok (fst t, y'))
          (seq 0 n) (0%nat, repeat 0 (dn A)) = Ok ((n * dm A)%nat, y) /\ length y = dn A /\
    forall j, (j < n)%nat -> nth j y 0 = rsum (dm A) (fun i => nth i w 0 * dent A i j)).
  { induction n as [|n IH]; intros Hn.
    - exists (repeat 0 (dn A)). simpl. split; [auto|]. split; [apply repeat_length|].
      intros j Hj. lia.
    - destruct IH as (y & E & L & H); [lia|].
      rewrite seq_S, foldM_app, E. cbn [bind foldM Nat.add].
      rewrite dmultt_col by auto. cbn [bind fst snd]. unfold wr.
      rewrite (proj2 (Nat.ltb_lt n (length y))) by lia. cbn [bind].
      eexists. split; [f_equal; f_equal; lia|]. split; [rewrite upd_length; auto|].
      intros j Hj. destruct (Nat.eq_dec j n) as [->|N].
      + rewrite nth_upd_eq by lia. auto.
      + rewrite nth_upd_neq by lia. apply H. lia. }
  destruct (G (dn A) (le_n _)) as (y & E & L & H). rewrite E. simpl. exists y. auto.
Qed.

Lemma dense_adjoint m n v ops w z : Forall (dop_ok m n) ops -> length w = m -> length z = n ->
  exists A Az Atw, foldM dstep ops (dense_new m n v) = Ok A /\
    dmultiply A z = Ok Az /\ dmultiply_transpose A w = Ok Atw /\
    length Az = m /\ length Atw = n /\
    (forall i, (i < m)%nat -> nth i Az 0 =
        rsum n (fun j => fold_left tbl_upd ops (fun _ _ => v) i j * nth j z 0)) /\
    dot w Az = dot Atw z.
Proof.
  intros HO Hw Hz.
  destruct (dense_history v HO) as (A & E & Hget).
  destruct (@dense_history_gen ops (dense_new m n v)) as (A' & E' & W & Em & En & Hd); auto.
  { unfold dwf, dense_new. simpl. apply repeat_length. }
  rewrite E in E'. inversion E'; subst A'. simpl in *.
  destruct (dmultiply_spec (x := z) W) as (Az & E1 & L1 & H1); [lia|].
  destruct (dmultiply_transpose_spec (w := w) W) as (Aw & E2 & L2 & H2); [lia|].
  exists A, Az, Aw. split; [auto|]. split; [auto|]. split; [auto|]. split; [lia|]. split; [lia|].
  split.
  - intros i Hi. rewrite H1 by lia. rewrite En. apply rsum_ext. intros j Hj. f_equal.
    assert (X := Hget i j Hi Hj). rewrite dget_ok in X; [|auto|lia|lia]. inversion X; auto.
  - unfold dot. rewrite L2, En, Hw.
    transitivity (rsum m (fun i => rsum n (fun j => nth i w 0 * dent A i j * nth j z 0))).
    + apply rsum_ext. intros i Hi. rewrite H1 by lia. rewrite En. rewrite <- rsum_scal.
      apply rsum_ext. intros; ring.
    + rewrite rsum_swap. apply rsum_ext. intros j Hj. rewrite H2 by lia. rewrite Em.
      rewrite rsum_scal_r. auto.
Qed.

(** ** SparseRow *)

Lemma sval_lt l k : StronglySorted Z.lt (k :: map fst l) -> sval l k = 0.
Proof.
  induction l as [|[c w] r IH]; intros H; simpl; auto.
  inversion H as [|? ? Hs Hf]; subst. simpl in Hf. inversion Hf; subst.
  destruct (Z.eqb_spec c k); [lia|]. apply IH.
  constructor; [inversion Hs; auto|]. auto.
Qed.

Lemma sr_loop_fst i v ty l : forall c, (c < i)%Z -> Forall (Z.lt c) (map fst l) ->
  Forall (Z.lt c) (map fst (snd (sr_loop i v ty l))).
Proof.
  induction l as [|[d w] r IH]; intros c Hc H; simpl; [repeat constructor; auto|].
  simpl in H. inversion H; subst.
  destruct (Z.ltb_spec i d); simpl; [constructor; auto|].
  destruct (Z.eqb_spec i d); simpl.
  - destruct ty; simpl; [constructor; auto|]. destruct (Req_EM_T (v + w) 0); simpl; auto.
  - specialize (IH c Hc H3). destruct (sr_loop i v ty r). simpl in *. constructor; auto.
Qed.

Lemma sr_loop_sorted i v ty l : strictly_increasing l -> strictly_increasing (snd (sr_loop i v ty l)).
Proof.
  unfold strictly_increasing.
  induction l as [|[d w] r IH]; intros H; simpl; [repeat constructor|].
  simpl in H. inversion H as [|? ? Hs Hf]; subst.
  destruct (Z.ltb_spec i d) as [L|L]; simpl.
  - constructor; auto. constructor; auto.
    apply Forall_forall. intros x Hx. rewrite Forall_forall in Hf. specialize (Hf x Hx). lia.
  - destruct (Z.eqb_spec i d) as [->|N]; simpl.
    + destruct ty; simpl; auto. destruct (Req_EM_T (v + w) 0); simpl; auto.
    + specialize (IH Hs).
      assert (F := @sr_loop_fst i v ty r d ltac:(lia) Hf).
      destruct (sr_loop i v ty r). simpl in *. constructor; auto.
Qed.

Lemma sr_loop_val i v ty l k : strictly_increasing l ->
  sval (snd (sr_loop i v ty l)) k =
  if (k =? i)%Z then match ty with INSERT => v | ADD => sval l k + v end else sval l k.
Proof.
  unfold strictly_increasing.
  induction l as [|[d w] r IH]; intros H; simpl.
  - rewrite Z.eqb_sym. destruct (k =? i)%Z; auto. destruct ty; ring.
  - simpl in H. inversion H as [|? ? Hs Hf]; subst.
    destruct (Z.ltb_spec i d) as [L|L]; simpl.
    + destruct (Z.eqb_spec i k) as [->|N].
      * rewrite Z.eqb_refl. destruct (Z.eqb_spec d k); [lia|].
        destruct ty; auto. rewrite sval_lt; [ring|].
        constructor; auto. apply Forall_forall. intros x Hx. rewrite Forall_forall in Hf.
        specialize (Hf x Hx). lia.
      * rewrite (proj2 (Z.eqb_neq k i)) by lia. auto.
    + destruct (Z.eqb_spec i d) as [->|N]; simpl.
      * assert (Z0 : sval r d = 0) by (apply sval_lt; constructor; auto).
        destruct ty; simpl.
        -- destruct (Z.eqb_spec d k) as [->|N]; [rewrite Z.eqb_refl; auto|].
           rewrite (proj2 (Z.eqb_neq k d)) by lia. auto.
        -- destruct (Req_EM_T (v + w) 0) as [E|E]; simpl.
           ++ destruct (Z.eqb_spec d k) as [->|N].
              ** rewrite Z.eqb_refl. rewrite Z0. lra.
              ** rewrite (proj2 (Z.eqb_neq k d)) by lia. auto.
           ++ destruct (Z.eqb_spec d k) as [->|N]; [rewrite Z.eqb_refl; ring|].
              rewrite (proj2 (Z.eqb_neq k d)) by lia. auto.
      * specialize (IH Hs). destruct (sr_loop i v ty r) as [b r']. simpl in *.
        destruct (Z.eqb_spec d k) as [->|N'].
        -- rewrite (proj2 (Z.eqb_neq k i)) by lia. auto.
        -- rewrite IH. auto.
Qed.

Lemma sr_insert_sorted i v ty l : strictly_increasing l -> strictly_increasing (snd (sr_insert i v ty l)).
Proof.
  intros H. unfold sr_insert. destruct ty; [|apply sr_loop_sorted; auto].
  destruct (Req_EM_T v 0); simpl; auto. apply sr_loop_sorted; auto.
Qed.

Lemma sr_insert_val i v ty l k : strictly_increasing l ->
  sval (snd (sr_insert i v ty l)) k = vec_upd (sval l) (SOp i v ty) k.
Proof.
  intros H. unfold sr_insert, vec_upd. simpl. destruct ty.
  - destruct (Req_EM_T v 0); simpl; [destruct (k =? i)%Z; auto|]. rewrite sr_loop_val; auto.
  - rewrite sr_loop_val; auto.
Qed.


Lemma vec_fold_ext ops : forall f g, (forall k, f k = g k) ->
  forall k, fold_left vec_upd ops f k = fold_left vec_upd ops g k.
Proof.
  induction ops as [|o r IH]; intros f g H k; simpl; auto.
  apply IH. intros j. unfold vec_upd. rewrite H. auto.
Qed.

Lemma sr_history_gen ops : forall l, strictly_increasing l ->
  strictly_increasing (fold_left sr_step ops l) /\
  forall k, sval (fold_left sr_step ops l) k = fold_left vec_upd ops (sval l) k.
Proof.
  induction ops as [|o r IH]; intros l H; simpl; auto.
  assert (H1 : strictly_increasing (sr_step l o)) by (apply sr_insert_sorted; auto).
  destruct (IH _ H1) as [S V]. split; auto. intros k. rewrite V.
  apply vec_fold_ext. intros j. unfold sr_step. rewrite sr_insert_val by auto. destruct o; auto.
Qed.

Lemma sr_find_from_spec i l : forall p,
  (sr_find_from p i l = (-1)%Z /\ ~ In i (map fst l)) \/
  (exists q v, sr_find_from p i l = Z.of_nat (p + q) /\ nth_error l q = Some (i, v)).
Proof.
  induction l as [|[c w] r IH]; intros p; simpl; [auto|].
  destruct (Z.eqb_spec c i) as [->|N].
  - right. exists 0%nat, w. rewrite Nat.add_0_r. auto.
  - destruct (IH (S p)) as [[E H]|(q & v & E & H)].
    + left. split; auto. intros [|]; auto.
    + right. exists (S q), v. rewrite E. split; [f_equal; lia|auto].
Qed.

Lemma sval_nth l q i v : strictly_increasing l -> nth_error l q = Some (i, v) -> sval l i = v.
Proof.
  unfold strictly_increasing. revert q; induction l as [|[c w] r IH]; intros q S H; [destruct q; discriminate|].
  simpl in *. inversion S as [|? ? Hs Hf]; subst. destruct q as [|q]; simpl in H.
  - inversion H; subst. rewrite Z.eqb_refl. auto.
  - destruct (Z.eqb_spec c i) as [->|N].
    + apply nth_error_In in H. apply (in_map fst) in H. simpl in H.
      rewrite Forall_forall in Hf. specialize (Hf _ H). lia.
    + eapply IH; eauto.
Qed.

Lemma sr_history ops :
  let l := fold_left sr_step ops [] in
  strictly_increasing l /\
  (forall k, sval l k = fold_left vec_upd ops (fun _ => 0) k) /\
  (forall k, In k (map fst l) -> sr_get k l = Ok (fold_left vec_upd ops (fun _ => 0) k) /\
      exists p v, sr_find k l = Z.of_nat p /\ nth_error l p = Some (k, v)) /\
  (forall k, ~ In k (map fst l) -> sr_find k l = (-1)%Z /\ sr_get k l = UB /\
      fold_left vec_upd ops (fun _ => 0) k = 0).
Proof.
  intros l. destruct (@sr_history_gen ops []) as [S V]; [constructor|]. fold l in S, V.
  assert (V' : forall k, sval l k = fold_left vec_upd ops (fun _ => 0) k).
  { intros k. rewrite V. apply vec_fold_ext. auto. }
  split; [auto|]. split; [auto|]. split; intros k Hk.
  - destruct (sr_find_from_spec k l 0) as [[E H]|(q & v & E & H)]; [tauto|].
    simpl in E. split; [|exists q, v; auto].
    unfold sr_get, sr_find. rewrite E. rewrite (proj2 (Z.ltb_ge (Z.of_nat q) 0)) by lia.
    rewrite Nat2Z.id. unfold rd. rewrite H. simpl. rewrite <- V'. f_equal. symmetry. eapply sval_nth; eauto.
  - destruct (sr_find_from_spec k l 0) as [[E H]|(q & v & E & H)].
    + unfold sr_get, sr_find. rewrite E. simpl. split; [auto|]. split; [auto|].
      rewrite <- V'. clear -H. induction l as [|[c w] r IH]; simpl in *; auto.
      destruct (Z.eqb_spec c k); [tauto|]. apply IH. tauto.
    + exfalso. apply Hk. apply nth_error_In in H. apply (in_map fst) in H. auto.
Qed.

(** Range insertion *)

Lemma sr_take_filter b l : StronglySorted Z.lt (map fst l) ->
  sr_take b l = filter (fun e => fst e <? b)%Z l.
Proof.
  induction l as [|[c w] r IH]; intros H; simpl; auto.
  simpl in H. inversion H as [|? ? Hs Hf]; subst.
  destruct (Z.leb_spec b c), (Z.ltb_spec c b); try lia.
  - symmetry. clear IH H Hs. induction r as [|[d u] s IHs]; simpl; auto.
    simpl in Hf. inversion Hf; subst. destruct (Z.ltb_spec d b); [lia|]. apply IHs; auto.
  - f_equal. auto.
Qed.

Lemma sr_range_filter a b l : (a < b)%Z -> strictly_increasing l -> ~ In b (map fst l) ->
  sr_range a b l = filter (fun e => (a <=? fst e) && (fst e <? b))%Z l.
Proof.
  unfold strictly_increasing. intros Hab.
  induction l as [|[c w] r IH]; intros H Hb; simpl; auto.
  simpl in H, Hb. inversion H as [|? ? Hs Hf]; subst.
  destruct (Z.ltb_spec b c) as [L|L].
  - rewrite (proj2 (Z.ltb_ge c b)) by lia. rewrite andb_false_r.
    symmetry. clear IH H Hs Hb. induction r as [|[d u] s IHs]; simpl; auto.
    simpl in Hf. inversion Hf; subst. rewrite (proj2 (Z.ltb_ge d b)) by lia. rewrite andb_false_r. auto.
  - destruct (Z.leb_spec a c) as [L'|L'].
    + rewrite (proj2 (Z.ltb_lt c b)) by lia. simpl. f_equal.
      rewrite sr_take_filter by auto.
      apply filter_ext_in. intros e He. apply (in_map fst) in He. rewrite Forall_forall in Hf.
      specialize (Hf _ He). rewrite (proj2 (Z.leb_le a (fst e))) by lia. auto.
    + simpl. apply IH; auto.
Qed.

Lemma vec_fold_notin ops k : ~ In k (map s_i ops) -> forall f, fold_left vec_upd ops f k = f k.
Proof.
  induction ops as [|o r IH]; intros H f; simpl in *; auto.
  rewrite IH by tauto. unfold vec_upd. destruct (Z.eqb_spec k (s_i o)); [exfalso; apply H; auto|auto].
Qed.

Lemma sr_insert_range_fold a b r v ty l :
  sr_insert_range a b r v ty l =
  fold_left sr_step (map (fun e => SOp (fst e) (snd e * v) ty) (sr_range a b r)) l.
Proof.
  unfold sr_insert_range. generalize (sr_range a b r). intros es. revert l.
  induction es as [|e s IH]; intros l; simpl; auto.
Qed.

Lemma vec_fold_once ops k : StronglySorted Z.lt (map s_i ops) -> forall f,
  fold_left vec_upd ops f k =
  match find (fun o => (s_i o =? k)%Z) ops with Some o => vec_upd f o k | None => f k end.
Proof.
  induction ops as [|o r IH]; intros H f; simpl; auto.
  simpl in H. inversion H as [|? ? Hs Hf]; subst.
  destruct (Z.eqb_spec (s_i o) k) as [E|E].
  - apply vec_fold_notin. intros HI. rewrite Forall_forall in Hf. specialize (Hf _ HI). lia.
  - rewrite IH by auto. assert (X : vec_upd f o k = f k).
    { unfold vec_upd. destruct (Z.eqb_spec k (s_i o)); [lia|auto]. }
    destruct (find (fun o0 => (s_i o0 =? k)%Z) r) as [o'|] eqn:F; auto.
    unfold vec_upd at 1. rewrite X. reflexivity.
Qed.

Lemma sorted_filter_fst (f : Z * R -> bool) l : StronglySorted Z.lt (map fst l) ->
  StronglySorted Z.lt (map fst (filter f l)).
Proof.
  induction l as [|e r IH]; intros H; simpl; auto. inversion H as [|? ? Hs Hf]; subst.
  destruct (f e); auto. simpl. constructor; auto.
  apply Forall_forall. intros x Hx. apply in_map_iff in Hx. destruct Hx as (e' & <- & Hin).
  apply filter_In in Hin. rewrite Forall_forall in Hf. apply Hf. apply in_map. tauto.
Qed.

(** Full description of the range insertion, ADD form. *)
Lemma sr_insert_range_add a b r v l k : (a < b)%Z -> strictly_increasing r -> strictly_increasing l ->
  ~ In b (map fst r) ->
  strictly_increasing (sr_insert_range a b r v ADD l) /\
  sval (sr_insert_range a b r v ADD l) k =
  if ((a <=? k) && (k <? b))%Z then sval l k + sval r k * v else sval l k.
Proof.
  intros Hab Hr Hl Hb. rewrite sr_insert_range_fold.
  destruct (sr_history_gen (map (fun e => SOp (fst e) (snd e * v) ADD) (sr_range a b r)) Hl) as [S V].
  split; auto. rewrite V. rewrite sr_range_filter by auto.
  rewrite vec_fold_once.
  2:{ rewrite map_map. simpl. apply sorted_filter_fst. auto. }
  assert (F : find (fun o => (s_i o =? k)%Z)
     (map (fun e => SOp (fst e) (snd e * v) ADD) (filter (fun e => (a <=? fst e) && (fst e <? b))%Z r)) =
     if ((a <=? k) && (k <? b))%Z then
        match find (fun e => (fst e =? k)%Z) r with Some e => Some (SOp (fst e) (snd e * v) ADD) | None => None end
     else None).
  { clear. induction r as [|[c w] s IH]; simpl; [destruct ((a <=? k) && (k <? b))%Z; auto|].
    destruct (Z.eqb_spec c k) as [->|N].
    - destruct ((a <=? k) && (k <? b))%Z eqn:E; simpl.
      + rewrite Z.eqb_refl. auto.
      + rewrite IH. auto.
    - destruct ((a <=? c) && (c <? b))%Z; simpl; [|auto].
      destruct (Z.eqb_spec c k); [lia|auto]. }
  rewrite F. destruct ((a <=? k) && (k <? b))%Z; auto.
  assert (G : match find (fun e => (fst e =? k)%Z) r with Some e => fst e = k /\ sval r k = snd e | None => sval r k = 0 end).
  { clear -Hr. induction r as [|[c w] s IH]; simpl; auto.
    destruct (Z.eqb_spec c k); auto. apply IH. unfold strictly_increasing in *. simpl in Hr. inversion Hr; auto. }
  destruct (find (fun e => (fst e =? k)%Z) r) as [e|].
  - destruct G as [G1 G2]. unfold vec_upd. simpl. rewrite G1, Z.eqb_refl, G2. auto.
  - rewrite G. ring.
Qed.

Lemma sr_insert_range_leak :
  exists a b r l, (a < b)%Z /\ strictly_increasing r /\ strictly_increasing l /\
    sval (sr_insert_range a b r 1 ADD l) b <> sval l b.
Proof.
  exists 0%Z, 2%Z, [(2%Z, 5)], []. split; [lia|]. split; [repeat constructor|]. split; [constructor|].
  unfold sr_insert_range. simpl. lra.
Qed.
