(** * Proofs on time-dependent materials (no model content) *)
From Coq Require Import Lra Lia FunctionalExtensionality.
From Verif Require Import Base BaseR Loop Material_Model Kinetics_Model Tmat_Model Tmat_Spec.
Open Scope nat_scope.
Set Implicit Arguments. Unset Strict Implicit.
Local Arguments Nat.ltb : simpl never.

(** Everything but what finalize makes anew and the flags. *)
Definition core_of (x : mtl) := (ng x, nm x, st x, sa x, (sf x, nu x, chi x), (ss x, dc x)).
Definition core (x : kmtl) := (core_of (kb x), (np x, vel x, lam x), (beta x, chid x)).
Definition flags (x : kmtl) := (cut0 (kb x), cut1 (kb x), ds0 (kb x), ds1 (kb x)).

Ltac uncore H := unfold core, core_of in H; injection H; clear H; intros.

Lemma finalize_core a b : core a = core b -> agree same_data (kfinalize a) (kfinalize b).
Proof.
  intros H. destruct a as [a ? ? ? ? ?], b as [b ? ? ? ? ?]. destruct a, b. uncore H. cbn in *. subst.
  unfold kfinalize, agree. cbn [lam vel np kb ng]. destruct (_ && _)%bool; auto.
  unfold same_data, lower, upper. cbn. repeat split; auto.
Qed.
Lemma finalize_keeps a y : kfinalize a = Ok y -> core y = core a.
Proof.
  unfold kfinalize. destruct (_ && _)%bool; intros E; inversion E; subst. reflexivity.
Qed.

(** The material td_update finalizes. *)
Definition before (kcrit a0 dt : R) (synthetic : bool) (x : kmtl) : kmtl :=
  let b := kb x in
  let ins g m := ((g <? ng b) && (m <? nm b))%nat%bool in
  let sf' := fun g m => if ins g m then (sf b g m / kcrit)%R else sf b g m in
  let st' := fun g m => if ins g m then (st b g m + a0 / (vel x g * dt))%R else st b g m in
  let chi' := fun g m => if ins g m then
      fold_left (fun v i => v + lam x i * chid x g i m * dt * beta x i m / (a0 + dt * lam x i))%R (seq 0 (np x))
        ((1 - beta_total x m) * chi b g m)%R else chi b g m in
  with_base x
    {| ng := ng b; nm := nm b; st := if synthetic then st' else st b; sa := sa b; nsf := nsf b; sf := sf'; nu := nu b;
       chi := if synthetic then chi' else chi b; ss := ss b; dc := dc b;
       b0 := b0 b; b1 := b1 b; b2 := b2 b; b3 := b3 b; cut0 := cut0 b; cut1 := cut1 b; ds0 := ds0 b; ds1 := ds1 b; fin := fin b |}.
Lemma td_before k x dt o s : td_update k x dt o s = do a0 <- bdf o 0; kfinalize (before k a0 dt s x).
Proof. reflexivity. Qed.
Lemma before_core k a0 dt s a b : core a = core b -> core (before k a0 dt s a) = core (before k a0 dt s b).
Proof.
  intros H. destruct a as [a ? ? ? ? ?], b as [b ? ? ? ? ?]. destruct a, b. uncore H. cbn in *. subst. reflexivity.
Qed.
Lemma td_core k dt o s a b : core a = core b -> agree same_data (td_update k a dt o s) (td_update k b dt o s).
Proof.
  intros H. rewrite !td_before. destruct (bdf o 0); cbn [bind agree]; auto. apply finalize_core, before_core, H.
Qed.

(** What no update changes: the sizes and everything outside the tables. *)
Definition frame (x y : kmtl) : Prop :=
  let a := kb x in let b := kb y in
  ng a = ng b /\ nm a = nm b /\ np x = np y /\ vel x = vel y /\ lam x = lam y /\
  (forall g m, (g <? ng b) && (m <? nm b) = false ->
     st a g m = st b g m /\ sa a g m = sa b g m /\ sf a g m = sf b g m /\ nu a g m = nu b g m /\ chi a g m = chi b g m /\ dc a g m = dc b g m) /\
  (forall g gp m, (g <? ng b) && (gp <? ng b) && (m <? nm b) = false -> ss a g gp m = ss b g gp m) /\
  (forall i m, (i <? np y) && (m <? nm b) = false -> beta x i m = beta y i m) /\
  (forall g i m, (g <? ng b) && (i <? np y) && (m <? nm b) = false -> chid x g i m = chid y g i m).
Lemma frame_refl x : frame x x.
Proof. unfold frame. repeat (split; auto). Qed.
Lemma frame_before k a0 dt s x y : frame x y -> frame (before k a0 dt s x) y.
Proof.
  intros (A & B & C & D & E & F & G & H & I). unfold frame, before, with_base. cbn. rewrite A, B.
  do 5 (split; [auto|]). split; [|auto]. intros g m Q. destruct (F g m Q) as (F1 & F2 & F3 & F4 & F5 & F6). rewrite Q.
  destruct s; rewrite ?Q; auto 10.
Qed.
Lemma frame_final x y z : frame x y -> kfinalize x = Ok z -> frame z y.
Proof. intros H. unfold kfinalize. destruct (_ && _)%bool; intros E; inversion E; subst. exact H. Qed.
Lemma frame_td k dt o s x y z : frame x y -> td_update k x dt o s = Ok z -> frame z y.
Proof.
  rewrite td_before. intros F. destruct (bdf o 0); cbn [bind]; try discriminate. apply frame_final, frame_before, F.
Qed.

Lemma frame_mix x y A B c d : frame x y -> frame (mix_material x A B c d) y.
Proof.
  intros (N & M & P & D & E & F & G & H & I). unfold frame, mix_material. cbn. rewrite N, M, P.
  do 5 (split; [auto|]). split; [|split; [|split]].
  - intros g m Q. destruct (F g m Q) as (F1 & F2 & F3 & F4 & F5 & F6). rewrite Q. auto 10.
  - intros g gp m Q. rewrite Q. auto.
  - intros i m Q. rewrite Q. auto.
  - intros g i m Q. rewrite Q. auto.
Qed.
Lemma core_mix x y A B c d : frame x y -> core (mix_material x A B c d) = core (mix_material y A B c d).
Proof.
  intros (N & M & P & D & E & F & G & H & I). unfold core, core_of, mix_material. cbn -[andb Nat.ltb mix]. rewrite N, M, P, D, E.
  assert (X : forall h : mtl -> nat -> nat -> R, (forall g m, (g <? ng (kb y)) && (m <? nm (kb y)) = false -> h (kb x) g m = h (kb y) g m) ->
    (fun g m => if (g <? ng (kb y)) && (m <? nm (kb y)) then mix c d (h (kb A) g m) (h (kb B) g m) else h (kb x) g m) =
    (fun g m => if (g <? ng (kb y)) && (m <? nm (kb y)) then mix c d (h (kb A) g m) (h (kb B) g m) else h (kb y) g m)).
  { intros h Q. extensionality g. extensionality m. specialize (Q g m). destruct (_ && _); auto. }
  rewrite (X st), (X sa), (X sf), (X nu), (X chi), (X dc) by (intros g m Q; destruct (F g m Q) as (? & ? & ? & ? & ? & ?); auto).
  repeat f_equal.
  - extensionality g. extensionality gp. extensionality m. specialize (G g gp m). destruct (_ && _); auto.
  - extensionality i. extensionality m. specialize (H i m). destruct (_ && _); auto.
  - extensionality g. extensionality i. extensionality m. specialize (I g i m). destruct (_ && _); auto.
Qed.

Lemma frame_linear times mats x y u z : frame x y -> linear_call times mats x u = Ok z -> frame z y.
Proof.
  unfold linear_call, linear_update. intros F. destruct (bracket times (c_t u)) as [[[[ia ib] fa] fb]| |]; cbn [bind]; try discriminate.
  destruct (rd mats ia); cbn [bind]; try discriminate. destruct (rd mats ib); cbn [bind]; try discriminate.
  apply frame_td, frame_mix, F.
Qed.
Lemma runs_frame (step : kmtl -> call -> res kmtl) y : (forall x u z, frame x y -> step x u = Ok z -> frame z y) ->
  forall hist x z, frame x y -> foldM step hist x = Ok z -> frame z y.
Proof.
  intros S. induction hist as [|u t IH]; cbn [foldM]; intros x z F E; [inversion E; subst; auto|].
  destruct (step x u) eqn:Q; cbn [bind] in E; try discriminate. eapply IH; [|exact E]. eapply S; eauto.
Qed.

Theorem linear_history times mats x0 hist x u : linear_new mats = Ok x0 -> foldM (linear_call times mats) hist x0 = Ok x ->
  agree same_data (linear_call times mats x u) (linear_call times mats x0 u).
Proof.
  intros _ E. assert (F : frame x x0).
  { eapply (@runs_frame (linear_call times mats)); [|apply frame_refl|exact E]. intros; eapply frame_linear; eauto. }
  unfold linear_call, linear_update. destruct (bracket times (c_t u)) as [[[[ia ib] fa] fb]| |]; cbn [bind agree]; auto.
  destruct (rd mats ia); cbn [bind agree]; auto. destruct (rd mats ib); cbn [bind agree]; auto.
  apply td_core, core_mix, F.
Qed.

(** ** The constant material *)
Lemma frame_const km x y : vel y = vel (constant_impl km y) -> lam y = lam (constant_impl km y) -> frame x y -> frame (constant_impl km x) y.
Proof.
  intros V L (N & M & P & D & E & F & G & H & I). unfold frame, constant_impl in *. cbn in *. rewrite N, M, P, D, E.
  do 5 (split; [auto|]). split; [|split; [|split]].
  - intros g m Q. destruct (F g m Q) as (F1 & F2 & F3 & F4 & F5 & F6). rewrite Q. auto 10.
  - intros g gp m Q. rewrite Q. auto.
  - intros i m Q. rewrite Q. auto.
  - intros g i m Q. rewrite Q. auto.
Qed.
Lemma core_const km x y : frame x y -> core (constant_impl km x) = core (constant_impl km y).
Proof.
  intros (N & M & P & D & E & F & G & H & I). unfold core, core_of, constant_impl. cbn -[andb Nat.ltb]. rewrite N, M, P, D, E.
  assert (X : forall h : mtl -> nat -> nat -> R, (forall g m, (g <? ng (kb y)) && (m <? nm (kb y)) = false -> h (kb x) g m = h (kb y) g m) ->
    (fun g m => if (g <? ng (kb y)) && (m <? nm (kb y)) then h (kb km) g m else h (kb x) g m) =
    (fun g m => if (g <? ng (kb y)) && (m <? nm (kb y)) then h (kb km) g m else h (kb y) g m)).
  { intros h Q. extensionality g. extensionality m. specialize (Q g m). destruct (_ && _); auto. }
  rewrite (X st), (X sa), (X sf), (X nu), (X chi), (X dc) by (intros g m Q; destruct (F g m Q) as (? & ? & ? & ? & ? & ?); auto).
  repeat f_equal.
  - extensionality g. extensionality gp. extensionality m. specialize (G g gp m). destruct (_ && _); auto.
  - extensionality i. extensionality m. specialize (H i m). destruct (_ && _); auto.
  - extensionality g. extensionality i. extensionality m. specialize (I g i m). destruct (_ && _); auto.
Qed.
Lemma const_again km : core (constant_impl km (constant_new km)) = core (constant_new km).
Proof.
  unfold core, core_of, constant_new, constant_impl. cbn.
  repeat f_equal; repeat (let x := fresh in extensionality x);
    match goal with |- (if ?c then _ else _) = _ => destruct c; reflexivity end.
Qed.
Lemma const_fix km : vel (constant_new km) = vel (constant_impl km (constant_new km)) /\ lam (constant_new km) = lam (constant_impl km (constant_new km)).
Proof. pose proof (const_again km) as H. unfold core in H. split; congruence. Qed.

Lemma first_up_twice b n d : forall g, first_up b g n (first_up b g n d) = first_up b g n d.
Proof.
  assert (A : forall g e, first_up b g n e = first_up b g n d \/ (first_up b g n e = e /\ first_up b g n d = d)).
  { induction n as [|n IH]; intros g e; cbn [first_up]; [right; auto|]. destruct (g <? b g); [left; reflexivity|apply IH]. }
  intros g. destruct (A g (first_up b g n d)) as [->|[-> ->]]; auto.
Qed.
Lemma last_down_twice b n d : last_down b n (last_down b n d) = last_down b n d.
Proof.
  assert (A : forall e, last_down b n e = last_down b n d \/ (last_down b n e = e /\ last_down b n d = d)).
  { induction n as [|n IH]; intros e; cbn [last_down]; [right; auto|]. destruct (b n <? n); [left; reflexivity|apply IH]. }
  destruct (A (last_down b n d)) as [->|[-> ->]]; auto.
Qed.

(** The flags a fresh material with those cross sections gets. *)
Definition up_bounds (x : mtl) g := row_upper (ng x) (nm x) g (fun gp k => ss x g gp k).
Definition down_bounds (x : mtl) gp := row_lower (ng x) (nm x) gp (fun g k => ss x g gp k).
Definition C0 (x : mtl) := first_up (up_bounds x) 0 (ng x) (ng x).
Definition C1 (x : mtl) := last_down (down_bounds x) (ng x) 0.
Definition settled (x0 x : mtl) : Prop :=
  (cut0 x = ng x0 \/ cut0 x = C0 x0) /\ (cut1 x = 0 \/ cut1 x = C1 x0) /\
  (ds0 x = false \/ ds0 x = (C0 x0 =? ng x0)) /\ (ds1 x = false \/ ds1 x = (C1 x0 =? ng x0)).
Lemma finalize_flags x0 x : ng x = ng x0 -> nm x = nm x0 -> ss x = ss x0 -> settled x0 x ->
  let y := finalize x in cut0 y = C0 x0 /\ cut1 y = C1 x0 /\ ds0 y = (C0 x0 =? ng x0) /\ ds1 y = (C1 x0 =? ng x0).
Proof.
  intros N M S (A & B & C & D). cbn. rewrite N, M, S. fold (up_bounds x0). 
  change (fun g => row_upper (ng x0) (nm x0) g (fun gp k => ss x0 g gp k)) with (up_bounds x0).
  change (fun gp => row_lower (ng x0) (nm x0) gp (fun g k => ss x0 g gp k)) with (down_bounds x0).
  assert (E0 : first_up (up_bounds x0) 0 (ng x0) (cut0 x) = C0 x0) by (destruct A as [->| ->]; auto; apply first_up_twice).
  assert (E1 : last_down (down_bounds x0) (ng x0) (cut1 x) = C1 x0) by (destruct B as [->| ->]; auto; apply last_down_twice).
  rewrite E0, E1. split; auto. split; auto.
  split; [destruct (C0 x0 =? ng x0)|destruct (C1 x0 =? ng x0)]; auto; [destruct C|destruct D]; auto.
Qed.

Lemma core_ss a b : core a = core b -> ng (kb a) = ng (kb b) /\ nm (kb a) = nm (kb b) /\ ss (kb a) = ss (kb b).
Proof. intros H. unfold core, core_of in H. repeat split; congruence. Qed.

Lemma const_call km x u : frame x (constant_new km) -> settled (kb (constant_new km)) (kb x) ->
  forall z, constant_update km x u = Ok z ->
  frame z (constant_new km) /\ settled (kb (constant_new km)) (kb z) /\
  flags z = (let b := kb (constant_new km) in (C0 b, C1 b, C0 b =? ng b, C1 b =? ng b)).
Proof.
  intros F S z E. destruct (const_fix km) as [V L]. pose proof (frame_const V L F) as FC.
  split; [unfold constant_update in E; eapply frame_td; [exact FC|exact E]|].
  pose proof (core_const km F) as CC. rewrite const_again in CC. apply core_ss in CC. destruct CC as (N & M & SS).
  unfold constant_update in E. rewrite td_before in E. destruct (bdf (c_order u) 0) as [a0| |]; cbn [bind] in E; try discriminate.
  set (w := before (c_k u) a0 (c_dt u) (c_syn u) (constant_impl km x)) in *.
  unfold kfinalize in E. destruct (_ && _)%bool in E; [|discriminate].
  assert (Z : z = with_base w (finalize (kb w))) by congruence. clear E. subst z.
  destruct (@finalize_flags (kb (constant_new km)) (kb w)) as (Q0 & Q1 & Q2 & Q3); auto.
  cbn zeta in *. unfold settled, flags, with_base. cbn [kb]. rewrite Q0, Q1, Q2, Q3. cbn zeta. auto 10.
Qed.

Lemma new_settled km : settled (kb (constant_new km)) (kb (constant_new km)).
Proof. unfold settled, constant_new, constant_impl. cbn. auto 10. Qed.

Theorem constant_history km hist x u : foldM (constant_update km) hist (constant_new km) = Ok x ->
  agree (fun a b => same_data a b /\ same_flags a b) (constant_update km x u) (constant_update km (constant_new km) u).
Proof.
  intros E. assert (F : frame x (constant_new km) /\ settled (kb (constant_new km)) (kb x)).
  { assert (G : forall h y, frame y (constant_new km) /\ settled (kb (constant_new km)) (kb y) -> foldM (constant_update km) h y = Ok x ->
      frame x (constant_new km) /\ settled (kb (constant_new km)) (kb x)).
    { induction h as [|v h IH]; cbn [foldM]; intros y [Fy Sy] Q; [inversion Q; subst; auto|].
      destruct (constant_update km y v) eqn:W; cbn [bind] in Q; try discriminate.
      destruct (const_call Fy Sy W) as (F1 & S1 & _). eapply IH; eauto. }
    apply (G _ _ (conj (frame_refl _) (new_settled km)) E). }
  destruct F as [F S]. 
  assert (A : agree same_data (constant_update km x u) (constant_update km (constant_new km) u)).
  { unfold constant_update. apply td_core. apply core_const, F. }
  pose proof (const_call (u := u) F S) as P. pose proof (const_call (u := u) (frame_refl _) (new_settled km)) as P0.
  destruct (constant_update km x u) as [a| |], (constant_update km (constant_new km) u) as [b| |]; cbn [agree] in *; auto.
  split; auto. destruct (P a eq_refl) as (_ & _ & Fa). destruct (P0 b eq_refl) as (_ & _ & Fb).
  rewrite <- Fb in Fa. unfold flags in Fa. intros []; cbn; split; congruence.
Qed.

(** ** What a constant material is *)
Lemma fold_same A B (f g : A -> B -> A) l : (forall a x, In x l -> f a x = g a x) -> forall a, fold_left f l a = fold_left g l a.
Proof. induction l as [|x l IH]; intros H a; cbn [fold_left]; auto. rewrite H by (left; auto). apply IH. intros; apply H; right; auto. Qed.
Lemma row_lower_ext n nmat g s t : (forall gp m, gp < g -> m < nmat -> s gp m = t gp m) -> row_lower n nmat g s = row_lower n nmat g t.
Proof.
  intros H. unfold row_lower. apply fold_same. intros a m Hm. apply in_seq in Hm. apply fold_same. intros q gp Hg. apply in_seq in Hg.
  rewrite (H gp m) by lia. reflexivity.
Qed.
Lemma row_upper_ext n nmat g s t : (forall gp m, gp < n -> m < nmat -> s gp m = t gp m) -> row_upper n nmat g s = row_upper n nmat g t.
Proof.
  intros H. unfold row_upper. apply fold_same. intros a m Hm. apply in_seq in Hm. apply fold_same. intros q gp Hg. apply in_seq in Hg.
  rewrite (H gp m) by lia. reflexivity.
Qed.

Theorem constant_values km0 km u : kfinalize km0 = Ok km -> 0 < nm (kb km) -> c_syn u = false -> c_k u = 1%R -> 1 <= c_order u <= 6 ->
  exists y, constant_update km (constant_new km) u = Ok y /\ same_data y km.
Proof.
  intros K P S KC O. unfold constant_update. rewrite td_before, S, KC.
  assert (Bd : exists a0, bdf (c_order u) 0 = Ok a0).
  { unfold bdf, bdf_table. destruct (c_order u) as [|[|[|[|[|[|[|o]]]]]]]; try lia; cbn; eauto. }
  destruct Bd as [a0 ->]. cbn [bind]. unfold kfinalize in *.
  destruct (forallb (fun i => positive (lam km0 i)) (seq 0 (np km0)) && forallb (fun g => positive (vel km0 g)) (seq 0 (ng (kb km0)))) eqn:Q; [|discriminate].
  inversion K; subst km. clear K. set (km := with_base km0 (finalize (kb km0))) in *.
  set (w := before _ _ _ _ _).
  assert (R : forallb (fun i => positive (lam w i)) (seq 0 (np w)) && forallb (fun g => positive (vel w g)) (seq 0 (ng (kb w))) = true).
  { rewrite <- Q. apply andb_true_iff in Q. destruct Q as [Q1 Q2]. rewrite Q1, Q2.
    apply andb_true_iff. split; apply forallb_forall; intros i I; apply in_seq in I; cbn in I |- *.
    - replace (i <? np km0) with true by (symmetry; apply Nat.ltb_lt; lia). rewrite forallb_forall in Q1. apply Q1, in_seq. lia.
    - cbn in P. replace (i <? ng (kb km0)) with true by (symmetry; apply Nat.ltb_lt; lia).
      replace (0 <? nm (kb km0)) with true by (symmetry; apply Nat.ltb_lt; lia). cbn. rewrite forallb_forall in Q2. apply Q2, in_seq. lia. }
  rewrite R. eexists. split; [reflexivity|].
  assert (SSE : forall g gp m, g < ng (kb km0) -> gp < ng (kb km0) -> m < nm (kb km0) -> ss (kb w) g gp m = ss (kb km0) g gp m).
  { intros g gp m A B C. cbn. rewrite (proj2 (Nat.ltb_lt g _) A), (proj2 (Nat.ltb_lt gp _) B), (proj2 (Nat.ltb_lt m _) C). reflexivity. }
  unfold same_data. split; [reflexivity|]. split; [reflexivity|]. split; [reflexivity|].
  split. { intros g m A B. cbn in A, B |- *. rewrite !(proj2 (Nat.ltb_lt g _) A), !(proj2 (Nat.ltb_lt m _) B). cbn.
    repeat split; try reflexivity; field. }
  split. { intros g gp m A B C. apply SSE; auto. }
  split. { intros g A. cbn in A, P |- *. rewrite !(proj2 (Nat.ltb_lt g _) A), (proj2 (Nat.ltb_lt 0 _) P). reflexivity. }
  split. { intros i A. cbn in A |- *. rewrite !(proj2 (Nat.ltb_lt i _) A). reflexivity. }
  split. { intros i m A B. cbn in A, B |- *. rewrite !(proj2 (Nat.ltb_lt i _) A), !(proj2 (Nat.ltb_lt m _) B). reflexivity. }
  split. { intros g i m A B C. cbn in A, B, C |- *. rewrite !(proj2 (Nat.ltb_lt g _) A), !(proj2 (Nat.ltb_lt i _) B), !(proj2 (Nat.ltb_lt m _) C). reflexivity. }
  intros g tran A. change (ng (kb (with_base w (finalize (kb w))))) with (ng (kb km0)) in A.
  change (kb km) with (finalize (kb km0)). change (kb (with_base w (finalize (kb w)))) with (finalize (kb w)).
  unfold lower, upper, finalize. cbn [b0 b1 b2 b3]. change (ng (kb w)) with (ng (kb km0)). change (nm (kb w)) with (nm (kb km0)).
  destruct tran; split; (apply row_upper_ext || apply row_lower_ext); intros a m Ha Hm; apply SSE; auto; lia.
Qed.

(** ** The flags of an interpolated material *)
Definition no_up : kmtl :=
  with_base {| kb := material_new 1 2; np := 0; vel := fun _ => 1%R; lam := fun _ => 0%R; beta := fun _ _ => 0%R; chid := fun _ _ _ => 0%R |}
            (set_scatter (material_new 1 2) 0 1 0 1%R).
Definition with_up : kmtl := with_base no_up (set_scatter (kb no_up) 0 0 1 1%R).
Definition at_time (t : R) : call := {| c_t := t; c_dt := 1%R; c_order := 1; c_syn := false; c_k := 1%R |}.

Lemma pos1 : positive 1%R = true. Proof. unfold positive. destruct (Rlt_dec 0 1); auto; lra. Qed.
Lemma pos0 : positive 0%R = false. Proof. unfold positive. destruct (Rlt_dec 0 0); auto; lra. Qed.

Lemma finals (x : mtl) : ng x = 2 -> nm x = 1 -> positive (ss x 0 0 0) = false -> positive (ss x 1 1 0) = false ->
  (positive (ss x 0 1 0) = false -> b1 (finalize x) 0 = 0 /\ b1 (finalize x) 1 = 1) /\
  (positive (ss x 0 1 0) = true -> b1 (finalize x) 0 = 1).
Proof.
  intros N M P0 P1. cbn [finalize b1]. rewrite N, M. unfold row_upper. cbn [seq fold_left]. rewrite P0, P1. split; intros ->.
  - destruct (positive (ss x 1 0 0)); split; reflexivity.
  - reflexivity.
Qed.

Lemma bracket0 : bracket [0; 1]%R 0%R = Ok (0, 0, 1%R, 0%R).
Proof. unfold bracket. cbn [length rd nth_error bind]. destruct (Rle_dec 0 0); [reflexivity|lra]. Qed.
Lemma bracket1 : bracket [0; 1]%R 1%R = Ok (0, 1, 0%R, 1%R).
Proof.
  unfold bracket. cbn [length rd nth_error bind Nat.sub]. destruct (Rle_dec 1 0); [lra|]. cbn [rd nth_error bind]. destruct (Rlt_dec 1 1); [lra|].
  unfold for_. cbn. destruct (Rlt_dec 0 1); [|lra]. destruct (Rle_dec 1 1); [|lra]. cbn. f_equal. repeat f_equal; field.
Qed.

(** An update of the interpolated material of the two tables. *)
Lemma call_flags x t a b fa fb A B : bracket [0; 1]%R t = Ok (a, b, fa, fb) -> rd [no_up; with_up] a = Ok A -> rd [no_up; with_up] b = Ok B ->
  ng (kb x) = 2 -> nm (kb x) = 1 -> np x = 0 -> vel x 0 = 1%R -> vel x 1 = 1%R ->
  exists y, linear_call [0; 1]%R [no_up; with_up] x (at_time t) = Ok y /\
    ng (kb y) = 2 /\ nm (kb y) = 1 /\ np y = 0 /\ vel y 0 = 1%R /\ vel y 1 = 1%R /\
    ss (kb y) 0 1 0 = mix fa fb (ss (kb A) 0 1 0) (ss (kb B) 0 1 0) /\
    (mix fa fb (ss (kb A) 0 1 0) (ss (kb B) 0 1 0) = 1%R -> upscatter_cutoff (kb y) false = 0 /\ downscatter (kb y) false = ds0 (kb x)) /\
    (mix fa fb (ss (kb A) 0 1 0) (ss (kb B) 0 1 0) = 0%R -> upscatter_cutoff (kb y) false = cut0 (kb x) /\
       downscatter (kb y) false = if cut0 (kb x) =? 2 then true else ds0 (kb x)).
Proof.
  intros E EA EB N M P V0 V1. unfold linear_call, linear_update. cbn [at_time c_t]. rewrite E. cbn [bind]. rewrite EA. cbn [bind]. rewrite EB. cbn [bind].
  cbn [at_time c_k c_dt c_order c_syn]. rewrite td_before. assert (BD : exists a0, bdf 1 0 = Ok a0) by (cbn; eauto). destruct BD as [a0 ->]. cbn [bind].
  set (w := mix_material x A B fa fb). unfold kfinalize.
  set (w' := before 1 a0 1 false w).
  assert (NW : ng (kb w') = 2) by exact N. assert (MW : nm (kb w') = 1) by exact M. assert (PW : np w' = 0) by exact P.
  assert (VW : vel w' = vel x) by reflexivity. rewrite NW, PW, VW. cbn [seq forallb]. rewrite V0, V1, pos1. cbn [andb].
  eexists. split; [reflexivity|].
  change (kb (with_base w' (finalize (kb w')))) with (finalize (kb w')).
  assert (SS : forall g gp, g < 2 -> gp < 2 -> ss (kb w') g gp 0 = mix fa fb (ss (kb A) g gp 0) (ss (kb B) g gp 0)).
  { intros g gp G GP. cbn -[Nat.ltb andb mix]. rewrite N, M. rewrite (proj2 (Nat.ltb_lt g 2) G), (proj2 (Nat.ltb_lt gp 2) GP). reflexivity. }
  assert (DG : forall g T, In T [no_up; with_up] -> g < 2 -> ss (kb T) g g 0 = 0%R).
  { intros g T [<-|[<-|[]]] G; destruct g as [|[|g]]; try lia; reflexivity. }
  assert (IA : In A [no_up; with_up]) by (destruct a as [|[|a]]; cbn in EA; inversion EA; cbn; auto; destruct a; discriminate).
  assert (IB : In B [no_up; with_up]) by (destruct b as [|[|b]]; cbn in EB; inversion EB; cbn; auto; destruct b; discriminate).
  assert (DW : forall g, g < 2 -> positive (ss (kb w') g g 0) = false).
  { intros g G. rewrite SS by auto. rewrite !DG by auto. replace (mix fa fb 0%R 0%R) with 0%R by (unfold mix; ring). apply pos0. }
  split; [exact N|]. split; [exact M|]. split; [exact P|]. split; [exact V0|]. split; [exact V1|]. split; [apply (SS 0 1); lia|].
  destruct (@finals (kb w') NW MW (DW 0 ltac:(lia)) (DW 1 ltac:(lia))) as (F0 & F1). rewrite (SS 0 1) in F0, F1 by lia.
  assert (CW : cut0 (kb w') = cut0 (kb x)) by reflexivity. assert (DSW : ds0 (kb w') = ds0 (kb x)) by reflexivity.
  change (upscatter_cutoff (finalize (kb w')) false) with (first_up (b1 (finalize (kb w'))) 0 (ng (kb w')) (cut0 (kb w'))).
  change (downscatter (finalize (kb w')) false) with
    (if first_up (b1 (finalize (kb w'))) 0 (ng (kb w')) (cut0 (kb w')) =? ng (kb w') then true else ds0 (kb w')).
  rewrite NW, CW, DSW. cbn [first_up]. split; intros Q; rewrite Q in *.
  - rewrite (F1 pos1). cbn. auto.
  - destruct (F0 pos0) as [-> ->]. cbn [Nat.ltb Nat.leb]. auto.
Qed.

Theorem flags_stale :
  exists x0, linear_new [no_up; with_up] = Ok x0 /\
  (exists x a b, linear_call [0; 1]%R [no_up; with_up] x0 (at_time 0) = Ok x /\
     linear_call [0; 1]%R [no_up; with_up] x (at_time 1) = Ok a /\
     linear_call [0; 1]%R [no_up; with_up] x0 (at_time 1) = Ok b /\
     ss (kb a) 0 1 0 = 1%R /\ ss (kb b) 0 1 0 = 1%R /\
     downscatter (kb a) false = true /\ downscatter (kb b) false = false) /\
  (exists x a b, linear_call [0; 1]%R [no_up; with_up] x0 (at_time 1) = Ok x /\
     linear_call [0; 1]%R [no_up; with_up] x (at_time 0) = Ok a /\
     linear_call [0; 1]%R [no_up; with_up] x0 (at_time 0) = Ok b /\
     ss (kb a) 0 1 0 = 0%R /\ ss (kb b) 0 1 0 = 0%R /\
     upscatter_cutoff (kb a) false = 0 /\ upscatter_cutoff (kb b) false = 2).
Proof.
  eexists. split; [reflexivity|]. set (x0 := Build_kmtl _ _ _ _ _ _).
  assert (M0 : mix 1 0 (ss (kb no_up) 0 1 0) (ss (kb no_up) 0 1 0) = 0%R) by (unfold mix; cbn; ring).
  assert (M1 : mix 0 1 (ss (kb no_up) 0 1 0) (ss (kb with_up) 0 1 0) = 1%R) by (unfold mix; cbn; ring).
  destruct (@call_flags x0 0%R _ _ _ _ _ _ bracket0 eq_refl eq_refl eq_refl eq_refl eq_refl eq_refl eq_refl)
    as (y0 & E0 & N0 & K0 & P0 & V0 & W0 & S0 & _ & Z0). rewrite M0 in *. specialize (Z0 eq_refl). cbn [x0 kb material_new cut0 ds0] in Z0.
  destruct (@call_flags x0 1%R _ _ _ _ _ _ bracket1 eq_refl eq_refl eq_refl eq_refl eq_refl eq_refl eq_refl)
    as (y1 & E1 & N1 & K1 & P1 & V1 & W1 & S1 & U1 & _). rewrite M1 in *. specialize (U1 eq_refl).
  destruct (@call_flags y0 1%R _ _ _ _ _ _ bracket1 eq_refl eq_refl N0 K0 P0 V0 W0) as (z1 & F1 & _ & _ & _ & _ & _ & T1 & UZ & _).
  rewrite M1 in *. specialize (UZ eq_refl).
  destruct (@call_flags y1 0%R _ _ _ _ _ _ bracket0 eq_refl eq_refl N1 K1 P1 V1 W1) as (z0 & F0 & _ & _ & _ & _ & _ & T0 & _ & ZZ).
  rewrite M0 in *. specialize (ZZ eq_refl).
  cbn in Z0. destruct Z0 as [ZA ZB]. destruct U1 as [UA UB]. destruct UZ as [QA QB]. destruct ZZ as [RA RB].
  split.
  - exists y0, z1, y1. repeat (split; [assumption|]). split; [|exact UB]. rewrite QB. exact ZB.
  - exists y1, z0, y0. repeat (split; [assumption|]). split; [|exact ZA]. rewrite RA. exact UA.
Qed.
