(** * Ext_Proofs *)
From Verif Require Import Base BaseR Loop Angle_Model Kinetics_Model Ext_Model Ext_Spec.
Set Implicit Arguments. Unset Strict Implicit.
Open Scope nat_scope.

(** Induction over sources with the parts of a Linear source. *)
Lemma source_rec' (P : source -> Prop) :
  (forall x, P (Constant x)) -> (forall sp pl, P (Isotropic sp pl)) -> (forall sp pl, P (Discrete sp pl)) ->
  (forall ts ps f at_, (forall p, In p ps -> P p) -> P (Linear ts ps f at_)) ->
  (forall p pk w f x, P p -> P (Pulsed p pk w f x)) -> forall s, P s.
Proof.
  intros HC HI HD HL HP. fix IH 1. intros [x|sp pl|sp pl|ts ps f at_|p pk w f x].
  - apply HC. - apply HI. - apply HD.
  - apply HL. induction ps as [|p ps IHp]; [intros p []|]. intros p' [<-|H]; [apply IH|apply IHp; exact H].
  - apply HP. apply IH.
Qed.

Lemma isotropic_parts ts ps f at_ : isotropic (Linear ts ps f at_) -> forall p, In p ps -> isotropic p.
Proof.
  simpl. induction ps as [|p ps IH]; [intros _ p []|]. intros (H & T) p' [<-|H']; auto.
Qed.

Lemma rd_map A B (f : A -> B) l n x : rd (map f l) n = Ok x -> exists a, rd l n = Ok a /\ In a l /\ x = f a.
Proof.
  intros H. apply rd_inv in H. destruct H as (H & _). rewrite nth_error_map in H. destruct (nth_error l n) as [a|] eqn:E; [|discriminate].
  cbn in H. injection H as <-. exists a. split; [|split; auto; eapply nth_error_In; eauto]. unfold rd. rewrite E. reflexivity.
Qed.
Lemma rd_map_ok A B (f : A -> B) l n a : rd l n = Ok a -> rd (map f l) n = Ok (f a).
Proof. unfold rd. rewrite nth_error_map. destruct (nth_error l n); cbn; congruence. Qed.

Section Q.
Variables (dim : nat) (q : quad).
Hypothesis HN : normalised dim q.

Lemma over_ext f g : (forall o a, o < q_noct q -> a < q_nao q -> f o a = g o a) -> over_angles q f = over_angles q g.
Proof. intros H. unfold over_angles. apply rsum_ext. intros o Ho. apply rsum_ext. intros a Ha. rewrite H; auto. Qed.
Lemma over_lin x y f g : over_angles q (fun o a => x * f o a + y * g o a)%R = (x * over_angles q f + y * over_angles q g)%R.
Proof.
  unfold over_angles. rewrite <- !rsum_scal, <- rsum_plus. apply rsum_ext. intros o _. rewrite <- !rsum_scal, <- rsum_plus. apply rsum_ext. intros. ring.
Qed.
Lemma over_const x : (over_angles q (fun _ _ => x * angular_norm dim) = x)%R.
Proof.
  rewrite (@over_ext _ (fun o a => (x * angular_norm dim) * (fun _ _ => 1) o a + 0 * (fun _ _ => 0) o a)%R) by (intros; cbn; ring).
  rewrite over_lin. destruct HN as (_ & E). replace (x * angular_norm dim * over_angles q (fun _ _ => 1))%R with (x * (over_angles q (fun _ _ => 1) * angular_norm dim))%R by ring.
  rewrite E. ring.
Qed.

(** The loop of a DiscreteSource. *)
Lemma inner_sum (F : nat -> nat -> res R) o n v m :
  for_ 0 n v (fun a v => do x <- F o a; do w <- rd (q_wt q) a; Ok (v + x * w)%R) = Ok m ->
  exists f, (forall a, a < n -> F o a = Ok (f a)) /\ m = (v + rsum n (fun a => nth a (q_wt q) 0 * f a))%R.
Proof.
  revert m. induction n as [|n IH]; intros m H.
  - cbn in H. injection H as <-. exists (fun _ => 0%R). split; [lia|cbn; ring].
  - rewrite for_S in H by lia. match type of H with bind ?X _ = _ => destruct X as [m'| |] eqn:E end; cbn [bind] in H; try discriminate.
    destruct (IH _ eq_refl) as (f & Hf & ->). destruct (F o n) as [x| |] eqn:Ex; cbn [bind] in H; try discriminate.
    destruct (rd (q_wt q) n) as [w| |] eqn:Ew; cbn [bind] in H; try discriminate. injection H as <-.
    exists (fun a => if a =? n then x else f a). split.
    + intros a Ha. destruct (Nat.eqb_spec a n) as [->|]; auto. apply Hf. lia.
    + cbn [rsum]. rewrite Nat.eqb_refl. rewrite (@rsum_ext n (fun a => nth a (q_wt q) 0 * (if (a =? n)%nat then x else f a))%R (fun a => nth a (q_wt q) 0 * f a)%R).
      2:{ intros a Ha. destruct (Nat.eqb_spec a n); [lia|auto]. }
      apply rd_inv in Ew. destruct Ew as (Ew & _). rewrite (nth_error_nth _ _ _ Ew). ring.
Qed.
Lemma outer_sum (F : nat -> nat -> res R) n v m :
  for_ 0 n v (fun o v => for_ 0 (q_nao q) v (fun a v => do x <- F o a; do w <- rd (q_wt q) a; Ok (v + x * w)%R)) = Ok m ->
  exists f, (forall o a, o < n -> a < q_nao q -> F o a = Ok (f o a)) /\ m = (v + rsum n (fun o => rsum (q_nao q) (fun a => nth a (q_wt q) 0 * f o a)))%R.
Proof.
  revert m. induction n as [|n IH]; intros m H.
  - cbn in H. injection H as <-. exists (fun _ _ => 0%R). split; [lia|cbn; ring].
  - rewrite for_S in H by lia. match type of H with bind ?X _ = _ => destruct X as [m'| |] eqn:E end; cbn [bind] in H; try discriminate.
    destruct (IH _ eq_refl) as (f & Hf & ->). destruct (inner_sum H) as (h & Hh & ->).
    exists (fun o a => if o =? n then h a else f o a). split.
    + intros o a Ho Ha. destruct (Nat.eqb_spec o n) as [->|]; auto. apply Hf; lia.
    + cbn [rsum]. rewrite Nat.eqb_refl. rewrite (@rsum_ext n (fun o => rsum (q_nao q) (fun a => nth a (q_wt q) 0 * (if (o =? n)%nat then h a else f o a)))%R (fun o => rsum (q_nao q) (fun a => nth a (q_wt q) 0 * f o a))%R); [ring|].
      intros o Ho. destruct (Nat.eqb_spec o n); [lia|auto].
Qed.
Lemma bind_assoc A B C (x : res A) (f : A -> res B) (g : B -> res C) : bind (bind x f) g = bind x (fun a => bind (f a) g).
Proof. destruct x; auto. Qed.
Lemma for_ext' S lo hi (s : S) (f g : nat -> S -> res S) : (forall i s, f i s = g i s) -> for_ lo hi s f = for_ lo hi s g.
Proof. intros H. unfold for_. revert s. induction (seq lo (hi - lo)) as [|i l IH]; intros s; cbn; auto. rewrite H. destruct (g i s); cbn; auto. Qed.

(** ** The moment is the integral of the discrete values *)
Lemma moment_integral s c g m : moment q s c g = Ok m ->
  exists v, (forall o a, o < q_noct q -> a < q_nao q -> discrete dim s c g (index q o a) = Ok (v o a)) /\ over_angles q v = m.
Proof.
  revert m. induction s as [x|sp pl|sp pl|ts ps f at_ IH|p pk w f x IH] using source_rec'; intros m H; cbn [moment discrete] in *.
  - injection H as <-. exists (fun _ _ => x * angular_norm dim)%R. split; auto. apply over_const.
  - destruct (rd pl c) as [k| |]; cbn [bind] in *; try discriminate. rewrite H. cbn [bind].
    exists (fun _ _ => m * angular_norm dim)%R. split; auto. apply over_const.
  - assert (H' : for_ 0 (q_noct q) 0%R (fun o v => for_ 0 (q_nao q) v (fun a v =>
        do x <- (do k <- rd pl c; do row <- rd2 sp k g; rd row (index q o a)); do w <- rd (q_wt q) a; Ok (v + x * w)%R)) = Ok m).
    { rewrite <- H. apply for_ext'. intros o v. apply for_ext'. intros a v'. rewrite bind_assoc. destruct (rd pl c); cbn [bind]; auto. rewrite bind_assoc. reflexivity. }
    destruct (@outer_sum (fun o a => do k <- rd pl c; do row <- rd2 sp k g; rd row (index q o a)) _ _ _ H') as (f & Hf & ->).
    exists f. split; auto. unfold over_angles. ring.
  - destruct at_ as [[[[ia ib] fa] fb]|]; [|discriminate].
    destruct (rd (map (fun p => moment q p c g) ps) ia) as [ra| |] eqn:Ea; cbn [bind] in H; try discriminate. destruct ra as [a| |]; cbn [bind] in H; try discriminate.
    destruct (rd (map (fun p => moment q p c g) ps) ib) as [rb| |] eqn:Eb; cbn [bind] in H; try discriminate. destruct rb as [b| |]; cbn [bind] in H; try discriminate.
    injection H as <-. apply rd_map in Ea. destruct Ea as (pa & Ra & Ia & Ea). apply rd_map in Eb. destruct Eb as (pb & Rb & Ib & Eb).
    destruct (IH pa Ia _ (eq_sym Ea)) as (va & Va & Sa). destruct (IH pb Ib _ (eq_sym Eb)) as (vb & Vb & Sb).
    exists (fun o a => fa * va o a + fb * vb o a)%R. split.
    + intros o a' Ho Ha. rewrite (rd_map_ok _ Ra), (rd_map_ok _ Rb). cbn [bind]. rewrite (Va o a' Ho Ha), (Vb o a' Ho Ha). cbn [bind]. f_equal. ring.
    + rewrite over_lin, Sa, Sb. ring.
  - destruct (moment q p c g) as [a| |]; cbn [bind] in H; try discriminate. injection H as <-.
    destruct (IH _ eq_refl) as (v & V & S). exists (fun o a => x * v o a + 0 * (fun _ _ => 0) o a)%R. split.
    + intros o a' Ho Ha. rewrite (V o a' Ho Ha). cbn [bind]. f_equal. ring.
    + rewrite over_lin, S. ring.
Qed.

Lemma emission_total s c g m : moment q s c g = Ok m ->
  exists v, (forall o a, o < q_noct q -> a < q_nao q -> emission dim q s c g o a = Ok (v o a)) /\ over_angles q v = m.
Proof.
  intros H. unfold emission. destruct (is_discrete s).
  - destruct (moment_integral H) as (v & V & S). exists v. split; auto. intros o a Ho Ha. rewrite (V o a Ho Ha). cbn [bind]. f_equal. ring.
  - rewrite H. cbn [bind]. exists (fun _ _ => m * angular_norm dim)%R. split; [intros; f_equal; ring|apply over_const].
Qed.

(** ** Directions *)
Lemma isotropic_discrete s c g m angle : isotropic s -> moment q s c g = Ok m -> discrete dim s c g angle = Ok (m * angular_norm dim)%R.
Proof.
  revert m. induction s as [x|sp pl|sp pl|ts ps f at_ IH|p pk w f x IH] using source_rec'; intros m HI H.
  - cbn in *. injection H as <-. auto.
  - cbn in *. destruct (rd pl c); cbn [bind] in *; try discriminate. rewrite H. auto.
  - destruct HI.
  - pose proof (isotropic_parts HI) as HP. cbn [moment discrete] in *. destruct at_ as [[[[ia ib] fa] fb]|]; [|discriminate].
    destruct (rd (map (fun p => moment q p c g) ps) ia) as [ra| |] eqn:Ea; cbn [bind] in H; try discriminate. destruct ra as [a| |]; cbn [bind] in H; try discriminate.
    destruct (rd (map (fun p => moment q p c g) ps) ib) as [rb| |] eqn:Eb; cbn [bind] in H; try discriminate. destruct rb as [b| |]; cbn [bind] in H; try discriminate.
    injection H as <-. apply rd_map in Ea. destruct Ea as (pa & Ra & Ia & Ea). apply rd_map in Eb. destruct Eb as (pb & Rb & Ib & Eb).
    rewrite (rd_map_ok _ Ra), (rd_map_ok _ Rb). cbn [bind]. rewrite (IH pa Ia _ (HP _ Ia) (eq_sym Ea)), (IH pb Ib _ (HP _ Ib) (eq_sym Eb)). cbn [bind]. f_equal. ring.
  - cbn [moment discrete] in *. destruct (moment q p c g) as [a| |]; cbn [bind] in H; try discriminate. injection H as <-.
    rewrite (IH _ HI eq_refl). cbn [bind]. f_equal. ring.
Qed.
Lemma emission_direction s c g m o a : isotropic s \/ is_discrete s = true -> moment q s c g = Ok m -> o < q_noct q -> a < q_nao q ->
  emission dim q s c g o a = discrete dim s c g (index q o a).
Proof.
  intros HI H Ho Ha. unfold emission. destruct (is_discrete s) eqn:E.
  - destruct (moment_integral H) as (v & V & _). rewrite (V o a Ho Ha). cbn [bind]. f_equal. ring.
  - destruct HI as [HI|]; [|discriminate]. rewrite (isotropic_discrete _ HI H), H. cbn [bind]. f_equal. ring.
Qed.
End Q.
