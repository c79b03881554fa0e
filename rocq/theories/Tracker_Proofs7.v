From Verif Require Import Base BaseR Util_Model Mesh_Model Mesh_Spec Csg_Model Csg_Spec Csg_Proofs Pin_Model Pin_Spec Tracker_Model Tracker_Spec Tracker_Proofs Tracker_Proofs2 Tracker_Proofs3 Tracker_Proofs4 Tracker_Proofs6.
Set Implicit Arguments. Unset Strict Implicit.
Open Scope R_scope.

Lemma number_pos k len width c : (0 < k)%nat -> (0 < number_points k len width c)%nat.
Proof. intros H. unfold number_points. lia. Qed.

Lemma forall2_map A B C (R1 : A -> B -> Prop) (f : A -> C) (g : B -> C) l l' : Forall2 R1 l l' -> (forall a b, R1 a b -> f a = g b) -> map f l = map g l'.
Proof. intros H K. induction H; cbn; auto. f_equal; auto. Qed.
Lemma Forall2_length A B (R1 : A -> B -> Prop) l l' : Forall2 R1 l l' -> length l = length l'.
Proof. induction 1; cbn; auto. Qed.
Lemma forall2_in A B (R1 : A -> B -> Prop) l l' : Forall2 R1 l l' -> forall b, In b l' -> exists a, In a l /\ R1 a b.
Proof. induction 1 as [|a b l l' H F IH]; intros x Hx; [destruct Hx|]. destruct Hx as [<-|Hx]; [exists a; cbn; auto|]. destruct (IH x Hx) as (y & A1 & A2). exists y. cbn. auto. Qed.

Section Gen.
Context (base : nat -> R -> list (R * R)) (FR : face_rule base) (X Y width : R) (minn np : nat) (PX : 0 < X) (PY : 0 < Y) (MN : (0 < minn)%nat) (NP : (0 < np)%nat).

Definition west_points s := base (number_points minn Y width s) Y.
Definition south_points c := base (number_points minn X width c) X.
Definition quad_ok (c s : R) (ts : list track) : Prop :=
  (forall t, In t ts -> t_rev t = false /\ crosses X Y c s t) /\
  map enter ts = map (fun yw => P3 0 (fst yw) 0) (west_points s) ++ map (fun xw => P3 (fst xw) 0 0) (south_points c) /\
  map t_weight ts = map (fun yw => snd yw * s) (west_points s) ++ map (fun xw => snd xw * c) (south_points c).

Lemma quadrant_ok c s h : eps13 / 2 < c -> eps13 / 2 < s -> exists ts, quadrant base X Y width minn c s h = Ok (h ++ repeat [] (length ts), ts) /\
  map t_segs ts = seq (length h) (length ts) /\ quad_ok c s ts.
Proof.
  intros Hc Hs. unfold quadrant. fold (west_points s). fold (south_points c). pose proof eps13_pos as EP.
  set (es := map (fun yw : R * R => (P3 0 (fst yw) 0, snd yw * s)) (west_points s) ++ map (fun xw : R * R => (P3 (fst xw) 0 0, snd xw * c)) (south_points c)).
  destruct (FR (number_pos Y width s MN) PY) as (_ & _ & WP). fold (west_points s) in WP. destruct (FR (number_pos X width c MN) PX) as (_ & _ & SP). fold (south_points c) in SP.
  assert (EI : forall e, In e es -> 0 <= px (fst e) < X /\ 0 <= py (fst e) < Y /\ pz (fst e) = 0 /\ (px (fst e) = 0 \/ py (fst e) = 0)).
  { intros e He. unfold es in He. apply in_app_iff in He. rewrite !in_map_iff in He. destruct He as [([y w] & <- & Hy)|([x w] & <- & Hx)]; cbn.
    - specialize (WP y w Hy). lra. - specialize (SP x w Hx). lra. }
  assert (MM : exists l, mapM (fun e => do x <- find_exit X Y (fst e) (P3 c s 0); Ok (fst e, x, snd e)) es = Ok l /\
     Forall2 (fun (e : point * R) (t : point * point * R) => fst (fst t) = fst e /\ snd t = snd e /\ exists a, 0 < a /\ snd (fst t) = padd (fst e) (pscale a (P3 c s 0)) /\
       let q := snd (fst t) in px q <= X /\ py q <= Y /\ pz q = 0 /\ (px q = X \/ py q = Y)) es l).
  { clear - EI Hc Hs. induction es as [|e es IH]; [exists []; split; [reflexivity|constructor]|]. destruct IH as (l & E & F); [intros; apply EI; right; auto|].
    destruct (EI e ltac:(left; auto)) as (A & B & C & _). destruct (exit_found A B C Hc Hs) as (a & A1 & A2 & A3). cbn [mapM]. rewrite A2. cbn [bind]. rewrite E. cbn [bind].
    eexists. split; [reflexivity|]. constructor; auto. cbn [fst snd]. split; auto. split; auto. exists a. auto. }
  destruct MM as (l & E & F). rewrite E. cbn [bind]. destruct (make_tracks_spec l h) as (ts & E2 & S & F2). rewrite E2. exists ts.
  assert (LL : length l = length ts) by (eapply Forall2_length; eauto). rewrite LL in *. split; [reflexivity|]. split; auto.
  assert (FF : Forall2 (fun e t => t_rev t = false /\ t_enter t = fst e /\ t_weight t = snd e /\ exists a, 0 < a /\ t_exit t = padd (fst e) (pscale a (P3 c s 0)) /\
       let q := t_exit t in px q <= X /\ py q <= Y /\ pz q = 0 /\ (px q = X \/ py q = Y)) es ts).
  { clear - F F2. revert ts F2. induction F as [|e t es l (A & B & a & C & D & G) F IH]; intros ts F2; inversion F2 as [|? t' ? ts' (A1 & A2 & A3 & A4) F3]; subst; constructor; auto.
    split; auto. split; [congruence|]. split; [congruence|]. exists a. rewrite A3. auto. }
  assert (RV : forall t, In t ts -> t_rev t = false) by (intros t Ht; destruct (forall2_in FF Ht) as (e & _ & A & _); auto).
  split; [|split].
  - intros t Ht. destruct (forall2_in FF Ht) as (e & He & A & B & C & a & D & G & I1 & I2 & I3 & I4). destruct (EI e He) as (E0 & E1 & E3 & E4). split; auto.
    unfold crosses, enter, exit. rewrite A, B. unfold on_boundary.
    assert (P1x : px (t_exit t) = px (fst e) + a * c) by (rewrite G; cbn; ring). assert (P1y : py (t_exit t) = py (fst e) + a * s) by (rewrite G; cbn; ring).
    assert (0 < a * c) by nra. assert (0 < a * s) by nra. cbn zeta in *.
    split; [repeat split; lra|]. split; [split; [lra|split; [lra|split; [lra|tauto]]]|]. split; [|split].
    + destruct E4; [left|right; right; left]; lra.
    + destruct I4; [left|right; right; left]; lra.
    + exists a. auto.
  - transitivity (map fst es).
    + symmetry. rewrite (map_ext_in enter t_enter). 2:{ intros t Ht. unfold enter. rewrite RV by auto. reflexivity. } eapply forall2_map; [exact FF|]. cbn. intros e t (_ & -> & _). auto.
    + unfold es. rewrite map_app, !map_map. reflexivity.
  - transitivity (map snd es).
    + symmetry. eapply forall2_map; [exact FF|]. cbn. intros e t (_ & _ & -> & _). auto.
    + unfold es. rewrite map_app, !map_map. reflexivity.
Qed.

Lemma weights_sum c s ts : quad_ok c s ts -> sumR (map t_weight ts) = Y * s + X * c.
Proof.
  intros (_ & _ & E). rewrite E, sumR_app. destruct (FR (number_pos Y width s MN) PY) as (_ & WP & _). fold (west_points s) in WP. destruct (FR (number_pos X width c MN) PX) as (_ & SP & _). fold (south_points c) in SP.
  assert (SC : forall k (l : list (R * R)), sumR (map (fun e => snd e * k) l) = sumR (map snd l) * k) by (intros k l; induction l as [|e l IH]; cbn [map]; rewrite ?sumR_cons, ?IH; [unfold sumR; cbn; ring|ring]).
  rewrite !SC, WP, SP. reflexivity.
Qed.

Lemma concat_snoc A (T : list (list A)) ts : concat (T ++ [ts]) = concat T ++ ts.
Proof. rewrite concat_app. cbn. rewrite app_nil_r. reflexivity. Qed.

Lemma keyed_snoc o pre ts : keyed np o 0 pre ++ [((o, (length pre * np)%nat) : tkey, ts)] = keyed np o 0 (pre ++ [ts]).
Proof. rewrite keyed_app by auto. reflexivity. Qed.
(** First quadrant, from an empty tracker. *)
Lemma first_ok : forall azi pre h, good_azimuths azi -> map t_segs (concat pre) = seq 0 (length h) -> h = repeat [] (length h) ->
  exists h' T, first_quadrant base X Y width minn np (length pre) azi h (keyed np 0 0 pre) = Ok (h', keyed np 0 0 (pre ++ T)) /\
    map t_segs (concat (pre ++ T)) = seq 0 (length h') /\ h' = repeat [] (length h') /\ Forall2 (fun e ts => quad_ok (fst e) (snd e) ts) azi T.
Proof.
  induction azi as [|[c s] azi IH]; intros pre h GA S0 R0; [exists h, []; cbn; rewrite app_nil_r; repeat split; auto; constructor|].
  destruct (GA c s ltac:(left; auto)) as (Hc & Hs & _). cbn [first_quadrant]. destruct (@quadrant_ok c s h Hc Hs) as (ts & E & SQ & Q). rewrite E. cbn [bind fst snd].
  rewrite map_set_last by (apply keyed_below; auto; right; cbn; lia).
  rewrite keyed_snoc.
  replace (S (length pre)) with (length (pre ++ [ts])) by (rewrite app_length; cbn; lia).
  destruct (IH (pre ++ [ts]) (h ++ repeat [] (length ts))) as (h' & T & E' & S' & R' & F').
  - intros c' s' H. apply GA. right. auto.
  - rewrite concat_snoc, map_app, S0, SQ, app_length, repeat_length, <- seq_app. reflexivity.
  - rewrite app_length, repeat_length, repeat_app, <- R0. reflexivity.
  - exists h', (ts :: T). rewrite E'. rewrite <- app_assoc in *. cbn [app] in *. repeat split; auto.
Qed.

Definition mirrored (t t' : track) : Prop := t_rev t' = false /\ enter t' = mirror X (enter t) /\ exit t' = mirror X (exit t) /\ t_weight t' = t_weight t.
Lemma mirror_fold : forall T a pre h, length pre = a -> exists h' T',
  fold_left (fun (s : heap * tmap) (kv : tkey * list track) =>
      let '(h, l) := s in
      let '(h, ts) := make_tracks h (map (fun t => (mirror X (enter t), mirror X (exit t), t_weight t)) (snd kv)) in
      (h, map_set l (1%nat, snd (fst kv)) ts)) (keyed np 0 a T) (h, keyed np 1 0 pre) = (h', keyed np 1 0 (pre ++ T')) /\
  h' = h ++ repeat [] (length (concat T')) /\ map t_segs (concat T') = seq (length h) (length (concat T')) /\ Forall2 (Forall2 mirrored) T T'.
Proof.
  induction T as [|ts T IH]; intros a pre h LP.
  - exists h, []. cbn. rewrite !app_nil_r. repeat split; auto; constructor.
  - cbn [keyed fold_left snd fst]. destruct (make_tracks_spec (map (fun t => (mirror X (enter t), mirror X (exit t), t_weight t)) ts) h) as (ts' & E & S & F). rewrite E.
    rewrite map_set_last by (apply keyed_below; auto; right; cbn; lia).
    subst a. rewrite keyed_snoc.
    destruct (IH (Datatypes.S (length pre)) (pre ++ [ts']) (h ++ repeat [] (length (map (fun t => (mirror X (enter t), mirror X (exit t), t_weight t)) ts)))) as (h' & T' & E' & R' & S' & F').
    { rewrite app_length. cbn. lia. }
    assert (LL : length ts = length ts') by (apply Forall2_length in F; rewrite map_length in F; auto). rewrite map_length in *.
    exists h', (ts' :: T'). rewrite E', <- app_assoc. cbn [app concat]. split; auto. rewrite app_length. split; [|split].
    + rewrite R', <- app_assoc, <- repeat_app, LL. reflexivity.
    + rewrite map_app, S, S', seq_app, app_length, repeat_length, LL. reflexivity.
    + constructor; auto. clear - F. revert ts' F. induction ts as [|t ts IH]; intros ts' F; inversion F as [|? t' ? l (A & B & C & D) F1]; subst; constructor; auto.
      unfold mirrored, enter at 1, exit at 1. rewrite A. cbn in *. auto.
Qed.

Definition rev_all (T : list (list track)) := map (map reverse) T.
Lemma reverse_fold0 : forall T a pre, length pre = a ->
  fold_left (fun (l : tmap) (kv : tkey * list track) => map_set l ((if Nat.eqb (fst (fst kv)) 1 then 3%nat else 2%nat), snd (fst kv)) (map reverse (snd kv))) (keyed np 0 a T) (keyed np 2 0 pre) = keyed np 2 0 (pre ++ rev_all T).
Proof.
  induction T as [|ts T IH]; intros a pre LP; [cbn; rewrite app_nil_r; auto|]. cbn [keyed fold_left fst snd Nat.eqb].
  rewrite map_set_last by (apply keyed_below; auto; right; cbn; lia).
  subst a. rewrite keyed_snoc.
  rewrite IH by (rewrite app_length; cbn; lia). rewrite <- app_assoc. reflexivity.
Qed.
Lemma reverse_fold1 R0 : forall T a pre, length pre = a ->
  fold_left (fun (l : tmap) (kv : tkey * list track) => map_set l ((if Nat.eqb (fst (fst kv)) 1 then 3%nat else 2%nat), snd (fst kv)) (map reverse (snd kv))) (keyed np 1 a T) (keyed np 2 0 R0 ++ keyed np 3 0 pre) = keyed np 2 0 R0 ++ keyed np 3 0 (pre ++ rev_all T).
Proof.
  induction T as [|ts T IH]; intros a pre LP; [cbn; rewrite app_nil_r; auto|]. cbn [keyed fold_left fst snd Nat.eqb].
  rewrite map_set_last by (apply below_app; apply keyed_below; auto; right; cbn; lia).
  rewrite <- app_assoc. subst a. rewrite keyed_snoc.
  rewrite IH by (rewrite app_length; cbn; lia). rewrite <- app_assoc. reflexivity.
Qed.
Lemma insert_two m A B : (forall i, below m (2%nat, (i * np)%nat)) -> (forall i, below m (3%nat, (i * np)%nat)) ->
  map_insert m (keyed np 2 0 A ++ keyed np 3 0 B) = m ++ keyed np 2 0 A ++ keyed np 3 0 B.
Proof.
  intros H2 H3. unfold map_insert. rewrite fold_left_app. fold (map_insert m (keyed np 2 0 A)). rewrite insert_keyed by auto.
  fold (map_insert (m ++ keyed np 2 0 A) (keyed np 3 0 B)). rewrite insert_keyed; [rewrite <- app_assoc; auto|auto|].
  intros i _. apply below_app; auto. apply keyed_below; auto.
Qed.

Theorem generate_fresh azi : good_azimuths azi -> exists h T0 T1,
  generate base width minn np azi X Y ([], []) = Ok (h, keyed np 0 0 T0 ++ keyed np 1 0 T1 ++ keyed np 2 0 (rev_all T0) ++ keyed np 3 0 (rev_all T1)) /\
  map t_segs (concat T0 ++ concat T1) = seq 0 (length h) /\ h = repeat [] (length h) /\
  Forall2 (fun e ts => quad_ok (fst e) (snd e) ts) azi T0 /\ Forall2 (Forall2 mirrored) T0 T1.
Proof.
  intros GA. destruct (@first_ok azi [] [] GA eq_refl eq_refl) as (h & T0 & E & S & R & F). cbn [app length keyed] in E. unfold generate. cbn [fst snd]. rewrite E. cbn [bind].
  unfold mirror_all. cbn [fst snd app]. destruct (@mirror_fold T0 0%nat [] h eq_refl) as (h' & T1 & E' & R' & S' & F'). cbn [keyed] in E'. cbn [app] in *.
  match goal with |- context [fold_left ?f ?l ?z] => replace (fold_left f l z) with (h', keyed np 1 0 T1) by (symmetry; exact E') end.
  exists h', T0, T1. cbn [app]. rewrite insert_keyed; auto; [|intros; apply keyed_below; auto].
  split; [|split; [|split]]; auto.
  - f_equal. f_equal. unfold reverse_all.
    match goal with |- context [fold_left ?f ?l ?z] => replace (fold_left f l z) with (keyed np 2 0 (rev_all T0) ++ keyed np 3 0 (rev_all T1)) end.
    2:{ rewrite fold_left_app. symmetry. etransitivity; [|exact (@reverse_fold1 (rev_all T0) T1 0%nat [] eq_refl)]. f_equal.
        etransitivity; [exact (@reverse_fold0 T0 0%nat [] eq_refl)|]. cbn [keyed app]. rewrite app_nil_r. reflexivity. }
    rewrite insert_two; [rewrite <- app_assoc; reflexivity| |]; intros i; apply below_app; apply keyed_below; auto; left; lia.
  - rewrite map_app, S, S', R', app_length, repeat_length, seq_app. reflexivity.
  - rewrite R' at 1. rewrite R at 1. rewrite R', app_length, repeat_length, repeat_app. reflexivity.
Qed.

End Gen.
