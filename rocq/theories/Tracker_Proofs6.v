From Verif Require Import Base BaseR Util_Model Mesh_Model Mesh_Spec Csg_Model Csg_Spec Csg_Proofs Pin_Model Pin_Spec Tracker_Model Tracker_Spec Tracker_Proofs Tracker_Proofs2 Tracker_Proofs3 Tracker_Proofs4.
Set Implicit Arguments. Unset Strict Implicit.
Open Scope R_scope.

(** ** Exits *)
Lemma only_one l h : StronglySorted Rlt l -> (forall t, In t l <-> t = h) -> l = [h].
Proof.
  intros S H. destruct l as [|a l]; [exfalso; apply (H h); auto|]. assert (a = h) by (apply H; left; auto). subst. destruct l as [|b l]; auto. exfalso.
  assert (b = h) by (apply H; right; left; auto). subst. inversion S as [|? ? _ F]; subst. inversion F; subst. lra.
Qed.
Lemma plane_hit (s : quadric) (y : ray) b0 c0 h : (forall t, along s y t = b0 * t + c0) -> eps13 / 2 < b0 -> 0 < h -> b0 * h + c0 = 0 -> q_intersections s y (-1) = [at_distance y h].
Proof.
  intros F B H Z. pose proof eps13_pos as EP. unfold q_intersections.
  assert (TV : transversal s y) by (exists 0, b0, c0; split; [intros t; rewrite F; ring|right; rewrite Rabs_right; auto; lra]).
  destruct (hits_in (-1) TV) as [SS HI]. rewrite (only_one (h := h) SS); [reflexivity|]. intros t. rewrite HI, F. split.
  - intros (_ & _ & E). assert (b0 * (t - h) = 0) by lra. apply Rmult_integral in H0. lra.
  - intros ->. repeat split; auto. left. lra.
Qed.
Lemma exit_found X Y p c s : 0 <= px p < X -> 0 <= py p < Y -> pz p = 0 -> eps13 / 2 < c -> eps13 / 2 < s ->
  exists a, 0 < a /\ find_exit X Y p (P3 c s 0) = Ok (padd p (pscale a (P3 c s 0))) /\
    let q := padd p (pscale a (P3 c s 0)) in px q <= X /\ py q <= Y /\ pz q = 0 /\ (px q = X \/ py q = Y).
Proof.
  intros Hx Hy Hz Hc Hs. pose proof eps13_pos as EP. set (y := {| origin := p; direction := P3 c s 0 |}).
  set (tx := (X - px p) / c). set (ty := (Y - py p) / s).
  assert (TX : 0 < tx) by (apply Rdiv_lt_0_compat; lra). assert (TY : 0 < ty) by (apply Rdiv_lt_0_compat; lra).
  assert (EX : c * tx = X - px p) by (unfold tx; field; lra). assert (EY : s * ty = Y - py p) by (unfold ty; field; lra).
  unfold find_exit. fold y.
  rewrite (@plane_hit (plane 1 0 0 X) y c (px p - X) tx) by (auto; try lra; intros t; unfold along, at_distance, qf, plane, y; cbn; ring). cbn [rd nth_error bind].
  rewrite (@plane_hit (plane 0 1 0 Y) y s (py p - Y) ty) by (auto; try lra; intros t; unfold along, at_distance, qf, plane, y; cbn; ring). cbn [rd nth_error bind].
  assert (D : forall t, 0 < t -> distance (at_distance y t) p = t * sqrt (c * c + s * s)).
  { intros t Ht. unfold distance, at_distance, y. cbn [padd pscale px py pz origin direction]. transitivity (sqrt (Rsqr t * (c * c + s * s))); [f_equal; unfold Rsqr; ring|]. rewrite sqrt_mult by (try apply Rle_0_sqr; nra). rewrite sqrt_Rsqr by lra. reflexivity. }
  rewrite !D by auto. assert (SP : 0 < sqrt (c * c + s * s)) by (apply sqrt_lt_R0; nra).
  destruct (Rlt_dec (ty * sqrt (c * c + s * s)) (tx * sqrt (c * c + s * s))) as [K|K].
  - exists ty. split; auto. split; [reflexivity|]. cbn [padd pscale px py pz]. assert (ty < tx) by nra. repeat split; try (rewrite ?Hz; lra); nra.
  - exists tx. split; auto. split; [reflexivity|]. cbn [padd pscale px py pz]. assert (tx <= ty) by nra. repeat split; try (rewrite ?Hz; lra); nra.
Qed.

(** ** New tracks *)
Lemma make_tracks_spec : forall l h, exists ts, make_tracks h l = (h ++ repeat [] (length l), ts) /\
  map t_segs ts = seq (length h) (length l) /\ Forall2 (fun e t => t_rev t = false /\ t_enter t = fst (fst e) /\ t_exit t = snd (fst e) /\ t_weight t = snd e) l ts.
Proof.
  induction l as [|[[p0 p1] w] l IH]; intros h; [exists []; cbn; rewrite app_nil_r; repeat split; constructor|].
  cbn [make_tracks new_track]. destruct (IH (h ++ [[]])) as (ts & E & S & F). unfold new_track. rewrite E. eexists. split; [|split].
  - cbn [length repeat]. rewrite <- app_assoc. reflexivity.
  - cbn [map length seq t_segs]. rewrite S, app_length. cbn. rewrite Nat.add_1_r. reflexivity.
  - constructor; [cbn; auto|auto].
Qed.

(** ** Maps *)
Definition below (m : tmap) (k : tkey) : Prop := forall e, In e m -> key_ltb (fst e) k = true.
Lemma ltb_not_eq a b : key_ltb a b = true -> key_eqb a b = false /\ key_ltb b a = false.
Proof.
  unfold key_ltb, key_eqb. rewrite orb_true_iff, andb_true_iff, Nat.ltb_lt, Nat.eqb_eq, Nat.ltb_lt. intros H. split.
  - destruct (Nat.eqb_spec (fst a) (fst b)), (Nat.eqb_spec (snd a) (snd b)); auto; lia.
  - apply orb_false_iff. rewrite andb_false_iff, !Nat.ltb_ge, Nat.eqb_neq. lia.
Qed.
Lemma map_set_last m k v : below m k -> map_set m k v = m ++ [(k, v)].
Proof.
  induction m as [|[k' v'] m IH]; intros H; [reflexivity|]. cbn [map_set]. destruct (ltb_not_eq (H (k', v') ltac:(left; auto))) as [A B]. cbn [fst] in A, B. rewrite A, B.
  cbn [app]. f_equal. apply IH. intros e He. apply H. right. auto.
Qed.
Lemma map_find_below m k : below m k -> map_find m k = None.
Proof.
  induction m as [|[k' v'] m IH]; intros H; [reflexivity|]. cbn [map_find]. destruct (ltb_not_eq (H (k', v') ltac:(left; auto))) as [A _]. cbn [fst] in A. rewrite A. apply IH. intros e He. apply H. right. auto.
Qed.
Lemma map_find_set m k v k' : map_find (map_set m k v) k' = if key_eqb k k' then Some v else map_find m k'.
Proof.
  assert (EQ : forall a b, key_eqb a b = true -> a = b).
  { intros [a1 a2] [b1 b2] H. unfold key_eqb in H. cbn in H. apply andb_true_iff in H. rewrite !Nat.eqb_eq in H. destruct H; subst; auto. }
  induction m as [|[k1 v1] m IH]; cbn [map_set map_find]; auto.
  destruct (key_eqb k1 k) eqn:E1.
  - apply EQ in E1. subst. cbn [map_find]. destruct (key_eqb k k'); auto.
  - destruct (key_ltb k k1); cbn [map_find]; auto. destruct (key_eqb k1 k') eqn:E2; auto. apply EQ in E2. subst.
    destruct (key_eqb k k') eqn:E3; auto. apply EQ in E3. subst. unfold key_eqb in E1. rewrite !Nat.eqb_refl in E1. discriminate.
Qed.
Lemma map_insert_keeps m k v : forall l, map_find m k = Some v -> map_find (map_insert m l) k = Some v.
Proof.
  unfold map_insert. intros l. revert m. induction l as [|[k' v'] l IH]; intros m H; cbn [fold_left]; auto. apply IH. cbn [fst snd].
  destruct (map_find m k') eqn:E; auto. rewrite map_find_set. destruct (key_eqb k' k) eqn:E2; auto. unfold key_eqb in E2. apply andb_true_iff in E2. rewrite !Nat.eqb_eq in E2. destruct k', k; cbn in E2; destruct E2; subst. congruence.
Qed.

Section Keyed.
Context (np : nat) (NP : (0 < np)%nat).
(** Tracks of one octant, one list for each azimuth. *)
Fixpoint keyed (o a : nat) (T : list (list track)) : tmap :=
  match T with [] => [] | ts :: T' => ((o, (a * np)%nat), ts) :: keyed o (S a) T' end.
Lemma keyed_app o : forall T a T', keyed o a (T ++ T') = keyed o a T ++ keyed o (a + length T) T'.
Proof. induction T as [|ts T IH]; intros a T'; cbn [keyed app length]; [rewrite Nat.add_0_r; auto|]. f_equal. rewrite IH. f_equal. f_equal. lia. Qed.
Lemma keyed_in o T : forall a e, In e (keyed o a T) -> fst (fst e) = o /\ exists i, (a <= i < a + length T)%nat /\ snd (fst e) = (i * np)%nat.
Proof.
  induction T as [|ts T IH]; intros a e H; [destruct H|]. destruct H as [<-|H]; [split; auto; exists a; cbn; split; [lia|auto]|].
  apply IH in H. destruct H as (A & i & B & C). split; auto. exists i. cbn. split; [lia|auto].
Qed.
Lemma keyed_below o o' a T i : (o < o' \/ o = o' /\ a + length T <= i)%nat -> below (keyed o a T) (o', (i * np)%nat).
Proof.
  intros H e He. apply keyed_in in He. destruct He as (A & j & B & C). unfold key_ltb. rewrite orb_true_iff, andb_true_iff, !Nat.ltb_lt, Nat.eqb_eq. cbn [fst snd]. rewrite A, C.
  destruct H as [H|[-> H]]; [left; auto|right]. split; auto. apply Nat.mul_lt_mono_pos_r; lia.
Qed.
Lemma below_app m m' k : below m k -> below m' k -> below (m ++ m') k.
Proof. intros A B e H. apply in_app_iff in H. destruct H; auto. Qed.
Lemma keyed_find o T : forall a i, (i < length T)%nat -> map_find (keyed o a T) (o, ((a + i) * np)%nat) = Some (nth i T []).
Proof.
  induction T as [|ts T IH]; intros a i H; [cbn in H; lia|]. cbn [keyed map_find]. unfold key_eqb. cbn [fst snd]. rewrite Nat.eqb_refl. cbn [andb].
  destruct i as [|i]; [rewrite Nat.add_0_r, Nat.eqb_refl; auto|]. destruct (Nat.eqb_spec (a * np) ((a + S i) * np)) as [E|E]; [exfalso; apply Nat.mul_cancel_r in E; lia|].
  cbn [nth]. rewrite <- (IH (S a) i) by (cbn in H; lia). f_equal. f_equal. f_equal. lia.
Qed.
Lemma find_app m m' k : map_find (m ++ m') k = match map_find m k with Some v => Some v | None => map_find m' k end.
Proof. induction m as [|[k' v'] m IH]; cbn [app map_find]; auto. destruct (key_eqb k' k); auto. Qed.
Lemma keyed_other o o' a T i : o <> o' -> map_find (keyed o a T) (o', i) = None.
Proof.
  revert a. induction T as [|ts T IH]; intros a H; [reflexivity|]. cbn [keyed map_find]. unfold key_eqb. cbn [fst snd]. destruct (Nat.eqb_spec o o'); [congruence|]. cbn [andb]. auto.
Qed.
(** Inserting later keys appends them. *)
Lemma insert_keyed o T : forall a m, (forall i, (a <= i)%nat -> below m (o, (i * np)%nat)) -> map_insert m (keyed o a T) = m ++ keyed o a T.
Proof.
  induction T as [|ts T IH]; intros a m H; [cbn; rewrite app_nil_r; auto|]. cbn [keyed]. unfold map_insert. cbn [fold_left fst snd].
  rewrite map_find_below by (apply H; lia). rewrite map_set_last by (apply H; lia). change (map_insert (m ++ [((o, (a * np)%nat), ts)]) (keyed o (S a) T) = m ++ ((o, (a * np)%nat), ts) :: keyed o (S a) T).
  rewrite IH; [rewrite <- app_assoc; reflexivity|]. intros i Hi. apply below_app; [apply H; lia|]. change [((o, (a * np)%nat), ts)] with (keyed o a [ts]). apply keyed_below. right. cbn. lia.
Qed.

End Keyed.
