From Verif Require Import Base BaseR Util_Model Util_Proofs Mesh_Model Mesh_Spec Csg_Model Csg_Spec Csg_Proofs Pin_Model Pin_Spec Angle_Model Angle_Proofs Tracker_Model Tracker_Spec Tracker_Proofs Tracker_Proofs2 Tracker_Proofs3 Tracker_Proofs4 Tracker_Proofs6 Tracker_Proofs7.
Set Implicit Arguments. Unset Strict Implicit.
Open Scope R_scope.

(** ** The default rule *)
Lemma combine_map_snd A B (l : list A) (l' : list B) : length l = length l' -> map snd (combine l l') = l'.
Proof. revert l'. induction l as [|a l IH]; intros [|b l'] H; cbn in *; try discriminate; auto. f_equal. apply IH. lia. Qed.
Lemma combine_map_fst A B (l : list A) (l' : list B) : length l = length l' -> map fst (combine l l') = l.
Proof. revert l'. induction l as [|a l IH]; intros [|b l'] H; cbn in *; try discriminate; auto. f_equal. apply IH. lia. Qed.
Lemma uniform_fst_length a b m : (0 < m)%nat -> length (fst (uniform_rule a b m)) = m.
Proof. intros H. unfold uniform_rule. cbn [fst]. apply (@linspace_center_spec a b m H). Qed.
Lemma uniform_face : face_rule uniform_base.
Proof.
  intros n L Hn HL. unfold uniform_base. destruct (@uniform_sum 0 L n Hn) as [LW SW]. assert (LF := @uniform_fst_length 0 L n ltac:(lia)).
  split; [rewrite combine_length, LF, LW; lia|]. split; [rewrite combine_map_snd by congruence; lra|].
  intros x w H. apply in_combine_l in H. apply (In_nth _ _ 0) in H. destruct H as (k & Hk & <-). rewrite LF in Hk. apply (@uniform_points 0 L n k Hn HL Hk).
Qed.
Lemma uniform_nth n L k : (k < n)%nat -> nth k (map fst (uniform_base n L)) 0 = L * (INR k + 1 / 2) / INR n.
Proof.
  intros H. unfold uniform_base. destruct (@uniform_sum 0 L n ltac:(lia)) as [LW _]. assert (LF := @uniform_fst_length 0 L n ltac:(lia)).
  rewrite combine_map_fst by congruence. unfold uniform_rule. cbn [fst]. destruct (@linspace_center_spec 0 L n ltac:(lia)) as [_ K]. rewrite K by auto. rewrite plus_INR. cbn [INR]. assert (0 < INR n) by (apply lt_0_INR; lia). field. lra.
Qed.

(** ** Mirrors and reverses *)
Lemma mirror_crosses X Y c s t t' : 0 < c -> crosses X Y c s t -> mirrored X t t' -> crosses X Y (- c) s t'.
Proof.
  intros Hc ((A1 & A2 & A3 & A4) & (B1 & B2 & B3 & B4) & C & D & a & E & F) (R & M1 & M2 & W). unfold crosses, on_boundary. rewrite M1, M2. unfold mirror. cbn [px py pz].
  assert (Fx : px (exit t) = px (enter t) + a * c) by (rewrite F; cbn; ring). assert (Fy : py (exit t) = py (enter t) + a * s) by (rewrite F; cbn; ring).
  split; [split; [lra|split; [lra|split; [lra|]]]; destruct A4 as [->|[->|[->| ->]]]; lra|].
  split; [split; [lra|split; [lra|split; [lra|]]]; destruct B4 as [K|[K|[K|K]]]; rewrite K; lra|].
  split; [destruct C as [[? K]|[[? K]|[[? K]|[? K]]]]; rewrite ?K; lra|]. split; [destruct D as [[? K]|[[? K]|[[? K]|[? K]]]]; rewrite ?K; lra|].
  exists a. split; auto. apply point_eq; cbn; rewrite ?Fx, ?Fy; ring.
Qed.
Lemma reverse_crosses X Y dx dy t : t_rev t = false -> crosses X Y dx dy t -> crosses X Y (- dx) (- dy) (reverse t).
Proof.
  intros R (A & B & C & D & a & E & F). assert (RE : enter (reverse t) = exit t) by (unfold reverse, enter, exit; cbn; rewrite R; auto). assert (RX : exit (reverse t) = enter t) by (unfold reverse, enter, exit; cbn; rewrite R; auto).
  unfold crosses. rewrite RE, RX. split; auto. split; auto. split; [clear - D; destruct D as [[? K]|[[? K]|[[? K]|[? K]]]]; lra|]. split; [clear - C; destruct C as [[? K]|[[? K]|[[? K]|[? K]]]]; lra|].
  exists a. split; auto. rewrite F. apply point_eq; cbn; ring.
Qed.

Lemma forall2_nth A B (R1 : A -> B -> Prop) l l' : Forall2 R1 l l' -> forall i a d, nth_error l i = Some a -> (i < length l')%nat /\ R1 a (nth i l' d).
Proof. induction 1 as [|x y l l' H F IH]; intros i a d E; [destruct i; discriminate|]. destruct i as [|i]; cbn in *; [injection E as <-; split; [lia|auto]|]. destruct (IH i a d E). split; [lia|auto]. Qed.

Lemma find_in m k ts : map_find m k = Some ts -> In (k, ts) m.
Proof.
  induction m as [|[k' v] m IH]; cbn [map_find]; [discriminate|]. destruct (key_eqb k' k) eqn:E; intros H; [|right; auto]. left. injection H as <-. f_equal.
  unfold key_eqb in E. apply andb_true_iff in E. rewrite !Nat.eqb_eq in E. destruct k', k; cbn in E. destruct E; subst; auto.
Qed.

Section Spec.
Context (base : nat -> R -> list (R * R)) (FR : face_rule base) (X Y width : R) (minn np : nat) (PX : 0 < X) (PY : 0 < Y) (MN : (0 < minn)%nat) (NP : (0 < np)%nat).
Context (azi : list (R * R)) (GA : good_azimuths azi).

Lemma find_all T0 T1 i : length T1 = length T0 -> (i < length T0)%nat ->
  let m := keyed np 0 0 T0 ++ keyed np 1 0 T1 ++ keyed np 2 0 (rev_all T0) ++ keyed np 3 0 (rev_all T1) in
  map_find m (0%nat, (i * np)%nat) = Some (nth i T0 []) /\ map_find m (1%nat, (i * np)%nat) = Some (nth i T1 []) /\
  map_find m (2%nat, (i * np)%nat) = Some (map reverse (nth i T0 [])) /\ map_find m (3%nat, (i * np)%nat) = Some (map reverse (nth i T1 [])).
Proof.
  intros L1 Hi m. unfold m.
  assert (N : forall T, nth i (rev_all T) [] = map reverse (nth i T [])) by (intros T; unfold rev_all; change [] with (map reverse []) at 1; apply map_nth).
  repeat split; rewrite !find_app.
  - rewrite (@keyed_find np NP 0%nat T0 0%nat i Hi : map_find _ (0%nat, (i * np)%nat) = _). reflexivity.
  - rewrite (@keyed_other np 0%nat 1%nat) by lia. rewrite (@keyed_find np NP 1%nat T1 0%nat i ltac:(lia) : map_find _ (1%nat, (i * np)%nat) = _). reflexivity.
  - rewrite !(@keyed_other np _ 2%nat) by lia. rewrite (@keyed_find np NP 2%nat (rev_all T0) 0%nat i ltac:(unfold rev_all; rewrite map_length; auto) : map_find _ (2%nat, (i * np)%nat) = _), N. reflexivity.
  - rewrite !(@keyed_other np _ 3%nat) by lia. rewrite (@keyed_find np NP 3%nat (rev_all T1) 0%nat i ltac:(unfold rev_all; rewrite map_length; lia) : map_find _ (3%nat, (i * np)%nat) = _), N. reflexivity.
Qed.

(** Where the tracks of a new tracker run. *)
Theorem tracks_run : exists h m, generate base width minn np azi X Y ([], []) = Ok (h, m) /\
  (forall k ts, In (k, ts) m -> (fst k < 4)%nat /\ exists a, (a < length azi)%nat /\ snd k = (a * np)%nat) /\
  forall a c s, nth_error azi a = Some (c, s) -> exists ts0 ts1,
    map_find m (0%nat, (a * np)%nat) = Some ts0 /\ map_find m (1%nat, (a * np)%nat) = Some ts1 /\
    map_find m (2%nat, (a * np)%nat) = Some (map reverse ts0) /\ map_find m (3%nat, (a * np)%nat) = Some (map reverse ts1) /\
    map enter ts0 = map (fun yw => P3 0 (fst yw) 0) (base (number_points minn Y width s) Y) ++ map (fun xw => P3 (fst xw) 0 0) (base (number_points minn X width c) X) /\
    map enter ts1 = map (fun t => P3 (X - px (enter t)) (py (enter t)) 0) ts0 /\ map exit ts1 = map (fun t => P3 (X - px (exit t)) (py (exit t)) 0) ts0 /\
    (forall o ts, map_find m (o, (a * np)%nat) = Some ts -> (length ts = number_points minn Y width s + number_points minn X width c)%nat /\
       sumR (map t_weight ts) = Y * s + X * c /\ forall t, In t ts -> crosses X Y (sgn_x o * c) (sgn_y o * s) t).
Proof.
  destruct (generate_fresh FR width PX PY MN NP GA) as (h & T0 & T1 & E & S & R & Q & M). exists h. eexists. split; [exact E|].
  assert (L0 : length T0 = length azi) by (symmetry; eapply Forall2_length; eauto). assert (L1 : length T1 = length T0) by (symmetry; eapply Forall2_length; eauto). split.
  { intros k ts H. assert (KI : forall o T, length T = length azi -> In (k, ts) (keyed np o 0 T) -> fst k = o /\ exists a, (a < length azi)%nat /\ snd k = (a * np)%nat).
    { intros o T LT HI. destruct (@keyed_in np NP o T 0%nat _ HI) as (A & i & B & C). split; [exact A|]. exists i. split; [lia|exact C]. }
    rewrite !in_app_iff in H. destruct H as [H|[H|[H|H]]]; apply KI in H; try (unfold rev_all; rewrite map_length); try lia; destruct H as [H1 H2]; (split; [lia|exact H2]). }
  intros a c s Ha. pose proof eps13_pos as EP. destruct (GA (nth_error_In _ _ Ha)) as (Hc & Hs & _).
  destruct (forall2_nth Q [] Ha) as [LA QA]. destruct (nth_error T0 a) as [ts0|] eqn:ET; [|apply nth_error_None in ET; lia].
  assert (N0 : nth a T0 [] = ts0) by (apply nth_error_nth; auto). rewrite N0 in QA. cbn [fst snd] in QA. destruct (forall2_nth M [] ET) as [LB MA]. set (ts1 := nth a T1 []) in *.
  destruct (@find_all T0 T1 a L1 LA) as (F0 & F1 & F2 & F3). rewrite N0 in *. fold ts1 in F1, F3. exists ts0, ts1.
  split; [exact F0|]. split; [exact F1|]. split; [exact F2|]. split; [exact F3|]. assert (QA' := QA). destruct QA' as (QC & QE & QW). split; [exact QE|].
  split; [symmetry; eapply forall2_map; [exact MA|]; intros x y (_ & K & _); rewrite K; reflexivity|]. split; [symmetry; eapply forall2_map; [exact MA|]; intros x y (_ & _ & K & _); rewrite K; reflexivity|].
  assert (W0 := weights_sum FR PX PY MN QA). assert (LN : length ts0 = (number_points minn Y width s + number_points minn X width c)%nat).
  { rewrite <- (map_length enter), QE, app_length, !map_length. unfold west_points, south_points. rewrite (proj1 (FR (number_pos Y width s MN) PY)), (proj1 (FR (number_pos X width c MN) PX)). auto. }
  assert (LL : length ts1 = length ts0) by (symmetry; eapply Forall2_length; eauto).
  assert (W1 : sumR (map t_weight ts1) = sumR (map t_weight ts0)). { f_equal. symmetry. eapply forall2_map; [exact MA|]. intros x y (_ & _ & _ & W). auto. }
  assert (C1 : forall t, In t ts1 -> t_rev t = false /\ crosses X Y (- c) s t). { intros t Ht. destruct (forall2_in MA Ht) as (t0 & H0 & H1). split; [apply H1|]. eapply mirror_crosses; eauto; [lra|]. apply QC; auto. }
  intros o ts Hf.
  assert (OO : (o < 4)%nat).
  { destruct (le_lt_dec 4 o) as [K|K]; auto. exfalso. rewrite !find_app, !keyed_other in Hf by lia. discriminate. }
  assert (RW : forall l, map t_weight (map reverse l) = map t_weight l) by (intros l; rewrite map_map; reflexivity).
  destruct o as [|[|[|[|o]]]]; [| | | |lia]; [rewrite F0 in Hf|rewrite F1 in Hf|rewrite F2 in Hf|rewrite F3 in Hf]; injection Hf as <-; rewrite ?map_length, ?LL, ?RW, ?W1, ?W0; (split; [auto|]); (split; [auto|]); cbn [sgn_x sgn_y]; intros t Ht.
  - replace (1 * c) with c by ring. replace (1 * s) with s by ring. apply QC. auto.
  - replace (-1 * c) with (- c) by ring. replace (1 * s) with s by ring. apply C1. auto.
  - replace (-1 * c) with (- c) by ring. replace (-1 * s) with (- s) by ring. apply in_map_iff in Ht. destruct Ht as (t0 & <- & H0). apply reverse_crosses; apply QC; auto.
  - replace (1 * c) with (- - c) by ring. replace (-1 * s) with (- s) by ring. apply in_map_iff in Ht. destruct Ht as (t0 & <- & H0). apply reverse_crosses; apply C1; auto.
Qed.

(** Segments of all tracks. *)
Lemma foldM_app A S0 (f : S0 -> A -> res S0) l l' st : foldM f (l ++ l') st = do x <- foldM f l st; foldM f l' x.
Proof. revert st. induction l as [|a l IH]; intros st; cbn; auto. destruct (f st a); cbn; auto. Qed.
Context (srt : point -> list point -> list point) (msrt : point -> list mseg -> list mseg) (rs : list region).
Let seg h t := if t_rev t then Ok h else do l <- segmentize srt msrt rs (enter t) (exit t); Ok (upd h (t_segs t) (nth (t_segs t) h [] ++ l)).
Lemma seg_fold (f : track -> list segment) : forall l a h, (forall t, In t l -> t_rev t = false /\ segmentize srt msrt rs (enter t) (exit t) = Ok (f t)) ->
  map t_segs l = seq a (length l) -> (a + length l = length h)%nat -> (forall i, (a <= i)%nat -> nth i h [] = []) ->
  exists h', foldM seg l h = Ok h' /\ length h' = length h /\ (forall i, (i < a)%nat -> nth i h' [] = nth i h []) /\ forall t, In t l -> nth (t_segs t) h' [] = f t.
Proof.
  induction l as [|t l IH]; intros a h G S L N; [exists h; cbn; repeat split; auto; intros ? []|].
  cbn [map length seq] in S. injection S as S1 S2. destruct (G t ltac:(left; auto)) as [G1 G2]. cbn [foldM]. unfold seg at 1. rewrite G1, G2. cbn [bind]. cbn [length] in L.
  rewrite S1, N by lia. cbn [app]. destruct (IH (Datatypes.S a) (upd h a (f t))) as (h' & E & LH & B & C); auto.
  - intros x Hx. apply G. right. auto.
  - rewrite upd_length. lia.
  - intros i Hi. rewrite nth_upd_neq by lia. apply N. lia.
  - exists h'. rewrite E. rewrite upd_length in LH. split; auto. split; auto. split; [intros i Hi; rewrite B by lia; apply nth_upd_neq; lia|].
    intros x [<-|Hx]; auto. rewrite S1, B by lia. apply nth_upd_eq. lia.
Qed.
Lemma seg_rev l h : (forall t, In t l -> t_rev t = true) -> foldM seg l h = Ok h.
Proof. revert h. induction l as [|t l IH]; intros h H; cbn [foldM]; auto. unfold seg at 1. rewrite H by (left; auto). cbn [bind]. apply IH. intros; apply H; right; auto. Qed.
Lemma flat_keyed o T : forall a, flat_map snd (keyed np o a T) = concat T.
Proof. induction T as [|ts T IH]; intros a; cbn; auto. f_equal. auto. Qed.

Theorem trackit_tiles : is_psort srt -> is_msort msrt -> forall h m, generate base width minn np azi X Y ([], []) = Ok (h, m) ->
  (forall o a ts t, (o < 2)%nat -> map_find m (o, a) = Some ts -> In t ts -> trackable rs (enter t) (exit t)) ->
  exists h', trackit srt msrt base width minn np azi X Y rs ([], []) = Ok (h', m) /\
  forall o a ts t, map_find m (o, a) = Some ts -> In t ts ->
    let L := distance (enter t) (exit t) in
    sumR (map slength (listed h' t)) = L /\
    (t_rev t = false -> tiles rs (enter t) (exit t) (listed h' t) 0 L) /\ (t_rev t = true -> tiles rs (exit t) (enter t) (rev (listed h' t)) 0 L).
Proof.
  intros HS HM h m EG TR. destruct (generate_fresh FR width PX PY MN NP GA) as (h0 & T0 & T1 & E & S & R & Q & M). rewrite EG in E. injection E as -> ->.
  assert (R0 : forall t, In t (concat T0 ++ concat T1) -> t_rev t = false).
  { intros t Ht. apply in_app_iff in Ht. rewrite !in_concat in Ht. destruct Ht as [(ts & A & B)|(ts & A & B)].
    - destruct (forall2_in Q A) as (e & _ & Q1 & _). apply Q1. auto.
    - destruct (forall2_in M A) as (ts' & _ & F). destruct (forall2_in F B) as (t' & _ & G). apply G. }
  assert (L1 : length T1 = length T0) by (symmetry; eapply Forall2_length; eauto).
  assert (TR0 : forall t, In t (concat T0 ++ concat T1) -> trackable rs (enter t) (exit t)).
  { intros t Ht. assert (RT := R0 t Ht). apply in_app_iff in Ht. rewrite !in_concat in Ht. destruct Ht as [(ts & A & B)|(ts & A & B)].
    - apply (In_nth _ _ []) in A. destruct A as (i & Hi & <-). apply (TR 0%nat (i * np)%nat (nth i T0 [])); auto. apply (@find_all T0 T1 i); auto.
    - apply (In_nth _ _ []) in A. destruct A as (i & Hi & <-). apply (TR 1%nat (i * np)%nat (nth i T1 [])); auto. apply (@find_all T0 T1 i); auto. lia. }
  set (f := fun t => match segmentize srt msrt rs (enter t) (exit t) with Ok l => l | _ => [] end).
  assert (FT : forall t, In t (concat T0 ++ concat T1) -> segmentize srt msrt rs (enter t) (exit t) = Ok (f t) /\ tiles rs (enter t) (exit t) (f t) 0 (distance (enter t) (exit t))).
  { intros t Ht. destruct (segmentize_tiles (TR0 t Ht) HS HM) as (segs & A & B). unfold f. rewrite A. auto. }
  destruct (@seg_fold f (concat T0 ++ concat T1) 0%nat h0) as (h' & E' & LH & _ & NT).
  - intros t Ht. split; auto. apply FT. auto.
  - rewrite S. f_equal. rewrite <- (map_length t_segs), S, seq_length. auto.
  - rewrite <- (map_length t_segs (concat T0 ++ concat T1)), S, seq_length. auto.
  - intros i _. rewrite R. destruct (le_lt_dec (length h0) i) as [K|K]; [apply nth_overflow; rewrite repeat_length; auto|]. apply nth_repeat.
  - exists h'. unfold trackit. rewrite EG. cbn [bind fst snd].
    assert (ES : segment_all srt msrt rs h0 (keyed np 0 0 T0 ++ keyed np 1 0 T1 ++ keyed np 2 0 (rev_all T0) ++ keyed np 3 0 (rev_all T1)) = Ok h').
    { unfold segment_all. rewrite !flat_map_app, !flat_keyed, app_assoc. change (foldM seg ((concat T0 ++ concat T1) ++ concat (rev_all T0) ++ concat (rev_all T1)) h0 = Ok h').
      rewrite foldM_app, E'. cbn [bind]. apply seg_rev. intros t Ht. apply in_app_iff in Ht. unfold rev_all in Ht. rewrite !in_concat in Ht.
      destruct Ht as [(ts & A & B)|(ts & A & B)]; apply in_map_iff in A; destruct A as (ts' & <- & A); apply in_map_iff in B; destruct B as (t' & <- & _); reflexivity. }
    rewrite ES. cbn [bind]. split; [reflexivity|]. intros oo aa ts t Hk Ht. apply find_in in Hk.
    assert (OR : In t (concat T0 ++ concat T1) \/ exists t', t = reverse t' /\ In t' (concat T0 ++ concat T1)).
    { assert (KO : forall o a T e, In e (keyed np o a T) -> In (snd e) T) by (clear; intros o a T; revert a; induction T as [|x T IH]; intros a e H; [destruct H|]; destruct H as [<-|H]; [left; auto|right; eauto]).
      rewrite !in_app_iff in Hk. rewrite !in_app_iff. rewrite !in_concat. destruct Hk as [Hk|[Hk|[Hk|Hk]]]; apply KO in Hk; cbn [snd] in Hk.
      - left. left. eauto. - left. right. eauto.
      - right. unfold rev_all in Hk. apply in_map_iff in Hk. destruct Hk as (x & <- & Hx). apply in_map_iff in Ht. destruct Ht as (t' & <- & H'). exists t'. split; auto. rewrite in_app_iff, !in_concat. left. eauto.
      - right. unfold rev_all in Hk. apply in_map_iff in Hk. destruct Hk as (x & <- & Hx). apply in_map_iff in Ht. destruct Ht as (t' & <- & H'). exists t'. split; auto. rewrite in_app_iff, !in_concat. right. eauto. }
    destruct OR as [H|(t' & -> & H)].
    + destruct (FT t H) as [_ TI]. assert (LI : listed h' t = f t) by (unfold listed; rewrite (R0 t H); apply NT; auto). cbn zeta. rewrite LI. split; [rewrite (tiles_sum TI); ring|]. split; [auto|]. intros K. rewrite (R0 t H) in K. discriminate.
    + destruct (FT t' H) as [_ TI]. assert (LI : listed h' (reverse t') = rev (f t')) by (unfold listed, reverse; cbn; f_equal; apply NT; auto). cbn zeta. rewrite LI.
      assert (RE : enter (reverse t') = exit t') by (unfold reverse, enter, exit; cbn; rewrite (R0 t' H); auto). assert (RX : exit (reverse t') = enter t') by (unfold reverse, enter, exit; cbn; rewrite (R0 t' H); auto).
      assert (DS : distance (exit t') (enter t') = distance (enter t') (exit t')) by (unfold distance; f_equal; ring).
      rewrite RE, RX, DS. split; [rewrite map_rev; rewrite (sumR_perm (Permutation_sym (Permutation_rev _))); rewrite (tiles_sum TI); ring|]. split; [discriminate|]. intros _. rewrite rev_involutive. exact TI.
Qed.
End Spec.
