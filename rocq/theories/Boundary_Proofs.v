(** * Boundary_Proofs *)
From Verif Require Import Base BaseR Angle_Model Angle_Spec Angle_Proofs Angle_Tables_Proofs Boundary_Model Boundary_Spec.
Set Implicit Arguments.
Unset Strict Implicit.
Open Scope nat_scope.

(** ** Loops as folds over flat lists *)
Lemma foldM_map A B S (f : S -> B -> res S) (h : A -> B) l : forall s,
  foldM (fun s x => f s (h x)) l s = foldM f (map h l) s.
Proof. induction l as [|x l IH]; intros s; cbn; auto. destruct (f s (h x)); cbn; auto. Qed.
Lemma foldM_flat_map A B S (f : S -> B -> res S) (L : A -> list B) l : forall s,
  foldM (fun s x => foldM f (L x) s) l s = foldM f (flat_map L l) s.
Proof.
  induction l as [|x l IH]; intros s; cbn; auto. rewrite foldM_app.
  destruct (foldM f (L x) s); cbn; auto.
Qed.
Lemma foldM_ext_inv S X (I : S -> Prop) (f g : S -> X -> res S) l :
  (forall x s, In x l -> I s -> f s x = g s x) ->
  (forall x s s', In x l -> I s -> g s x = Ok s' -> I s') ->
  forall s, I s -> foldM f l s = foldM g l s.
Proof.
  induction l as [|x l IH]; intros H P s Hs; cbn; auto.
  rewrite H by (cbn; auto). destruct (g s x) as [s'| |] eqn:E; cbn; auto. apply IH.
  - intros; apply H; cbn; auto.
  - intros; eapply P; cbn; eauto.
  - eapply P; cbn; eauto.
Qed.
Lemma foldM_inv S X (I : S -> Prop) (f : S -> X -> res S) l :
  (forall x s s', In x l -> I s -> f s x = Ok s' -> I s') ->
  forall s s', I s -> foldM f l s = Ok s' -> I s'.
Proof.
  induction l as [|x l IH]; intros P s s' Hs H; cbn in H.
  - inversion H; subst; auto.
  - destruct (f s x) as [s1| |] eqn:E; try discriminate. cbn in H. eapply IH; [|eapply P; cbn; eauto|exact H].
    intros; eapply P; cbn; eauto.
Qed.
Lemma foldM_rd A S (d : A) (F : S -> A -> res S) t : forall s,
  foldM (fun s i => do x <- rd t i; F s x) (seq 0 (length t)) s = foldM F t s.
Proof.
  intros s. rewrite (@foldM_ext _ _ _ (fun s i => F s (nth i t d))).
  - rewrite (@foldM_map nat A S F (fun i => nth i t d)). f_equal.
    apply (@list_ext_nth A d); rewrite map_length, seq_length; auto.
    intros i Hi. rewrite (@nth_indep _ _ i d ((fun i => nth i t d) 0)) by (rewrite map_length, seq_length; auto).
    rewrite (@map_nth nat A (fun i => nth i t d)). rewrite seq_nth; auto.
  - intros i s' Hi. apply in_seq in Hi. rewrite rd_ok with (d := d) by lia. reflexivity.
Qed.
Lemma NoDup_flat_map A B (f : A -> list B) l : NoDup l -> (forall x, In x l -> NoDup (f x)) ->
  (forall x y z, In x l -> In y l -> In z (f x) -> In z (f y) -> x = y) -> NoDup (flat_map f l).
Proof.
  induction l as [|x l IH]; intros N P D; cbn; [constructor|]. inversion N as [|? ? Nx Nl]; subst.
  assert (AP : forall l1 l2 : list B, NoDup l1 -> NoDup l2 -> (forall z, In z l1 -> In z l2 -> False) -> NoDup (l1 ++ l2)).
  { clear. induction l1 as [|a l1 IH]; intros l2 H1 H2 H; cbn; auto. inversion H1; subst. constructor.
    - intros Hin. apply in_app_iff in Hin. destruct Hin; [auto|apply (H a); cbn; auto].
    - apply IH; auto. intros z ? ?. apply (H z); cbn; auto. }
  apply AP.
  - apply P; cbn; auto.
  - apply IH; auto; [intros; apply P; cbn; auto|intros; eapply D; cbn; eauto].
  - intros z H1 H2. apply in_flat_map in H2. destruct H2 as (y & Hy & Hz).
    assert (x = y) by (eapply D; cbn; eauto). subst; auto.
Qed.
Lemma NoDup_map_inj A B (f : A -> B) l : NoDup l -> (forall x y, In x l -> In y l -> f x = f y -> x = y) -> NoDup (map f l).
Proof.
  induction l as [|x l IH]; intros N H; cbn; constructor; inversion N as [|? ? Nx Nl]; subst.
  - intros Hin. apply in_map_iff in Hin. destruct Hin as (y & E & Hy).
    assert (y = x) by (apply H; cbn; auto). subst; auto.
  - apply IH; auto. intros; apply H; cbn; auto.
Qed.

(** ** The container *)
Definition fk (b : bsn) (k : nat * nat * nat) : face := let '(s, g, n) := k in b_flux b s g n.
Definition inr (b : bsn) (k : nat * nat * nat) : bool := let '(s, g, n) := k in in_range b s g n.
Definition keqb (k k' : nat * nat * nat) : bool :=
  let '(s, g, n) := k in let '(s', g', n') := k' in (s' =? s) && (g' =? g) && (n' =? n).
Lemma keqb_eq k k' : keqb k k' = true <-> k = k'.
Proof.
  destruct k as [[s g] n], k' as [[s' g'] n']. cbn. rewrite !andb_true_iff, !Nat.eqb_eq. split.
  - intros [[-> ->] ->]; auto.
  - intros E; inversion E; auto.
Qed.
Lemma getk_ok b k : inr b k = true -> getk b k = Ok (fk b k).
Proof. destruct k as [[s g] n]; cbn. intros ->. auto. Qed.
Lemma setk_ok b k v : inr b k = true -> exists b', setk b k v = Ok b' /\ same_setup b b' /\
  forall k', fk b' k' = if keqb k k' then v else fk b k'.
Proof.
  destruct k as [[s g] n]; cbn [inr setk]. intros ->. eexists. split; [reflexivity|]. split; [repeat split|].
  intros [[s' g'] n']. reflexivity.
Qed.
Lemma same_refl b : same_setup b b. Proof. repeat split. Qed.
Lemma same_trans b1 b2 b3 : same_setup b1 b2 -> same_setup b2 b3 -> same_setup b1 b3.
Proof. unfold same_setup. intuition congruence. Qed.
Lemma inr_same b b' k : same_setup b b' -> inr b' k = inr b k.
Proof. intros (E1 & E2 & E3). destruct k as [[s g] n]. cbn. unfold in_range. rewrite E1, E2. auto. Qed.
Lemma setk_same b k v b' : setk b k v = Ok b' -> same_setup b b'.
Proof. destruct k as [[s g] n]. cbn. destruct (in_range b s g n); intros H; inversion H; repeat split. Qed.
Lemma copyk_same b k k' b' : copyk b k k' = Ok b' -> same_setup b b'.
Proof. unfold copyk. destruct (getk b k'); try discriminate. cbn. apply setk_same. Qed.

Definition copies (b : bsn) (l : list ((nat * nat * nat) * (nat * nat * nat))) : res bsn :=
  foldM (fun b p => copyk b (fst p) (snd p)) l b.
Lemma copies_spec l : forall b,
  (forall p, In p l -> inr b (fst p) = true /\ inr b (snd p) = true) ->
  NoDup (map fst l) -> (forall p p', In p l -> In p' l -> snd p <> fst p') ->
  exists b', copies b l = Ok b' /\ same_setup b b' /\
  (forall p, In p l -> fk b' (fst p) = fk b (snd p)) /\
  (forall k, ~ In k (map fst l) -> fk b' k = fk b k).
Proof.
  induction l as [|[d s] l IH]; intros b HR N D; cbn.
  - exists b. repeat split; auto. intros p [].
  - inversion N as [|? ? Nd Nl]; subst. destruct (HR (d, s)) as [R1 R2]; [cbn; auto|]. cbn in R1, R2.
    unfold copyk at 1. rewrite getk_ok by auto. cbn [bind].
    destruct (setk_ok (fk b s) R1) as (b1 & E & SS & F). rewrite E. cbn [bind].
    destruct (IH b1) as (b' & E' & SS' & F1 & F2); auto.
    { intros p Hp. rewrite !(inr_same _ SS). apply HR; cbn; auto. }
    { intros p p' ? ?. apply D; cbn; auto. }
    exists b'. split; [exact E'|]. split; [eapply same_trans; eauto|]. split.
    + intros p [<-|Hp]; cbn [fst snd].
      * rewrite F2 by auto. rewrite F. replace (keqb d d) with true; auto. symmetry. apply keqb_eq. auto.
      * rewrite F1 by auto. rewrite F. destruct (keqb d (snd p)) eqn:K; auto. apply keqb_eq in K.
        exfalso. apply (D p (d, s)); cbn; auto.
    + intros k Hk. rewrite F2 by tauto. rewrite F. destruct (keqb d k) eqn:K; auto.
      apply keqb_eq in K. exfalso. apply Hk. auto.
Qed.

(** ** Octant tables *)
Definition oct_ok (dim s : nat) : bool :=
  let t := octants dim s in
  let ci := (if Nat.even s then 1 else -1)%Z in
  (length t =? 2 ^ dim / 2) && nodupb (map fst t) && nodupb (map snd t) &&
  forallb (fun io => (fst io <? 2 ^ dim) && (snd io <? 2 ^ dim) &&
     Z.eqb (octant_signs (fst io) (s / 2)) ci && Z.eqb (octant_signs (snd io) (s / 2)) (Z.opp ci) &&
     forallb (fun axis => Z.eqb (octant_signs (snd io) axis)
        (if axis =? s / 2 then Z.opp (octant_signs (fst io) axis) else octant_signs (fst io) axis)) (seq 0 dim)) t &&
  forallb (fun o => if Z.eqb (octant_signs o (s / 2)) ci then memb o (map fst t) else memb o (map snd t)) (seq 0 (2 ^ dim)) &&
  forallb (fun o => Z.eqb (octant_signs o (s / 2)) ci || Z.eqb (octant_signs o (s / 2)) (Z.opp ci)) (seq 0 (2 ^ dim)).
Lemma octs_ok dim s : 0 < dim < 4 -> s < 2 * dim -> oct_ok dim s = true.
Proof.
  intros Hd Hs. assert (dim = 1 \/ dim = 2 \/ dim = 3) as [->|[->| ->]] by lia.
  - assert (s = 0 \/ s = 1) as [->| ->] by lia; reflexivity.
  - assert (s = 0 \/ s = 1 \/ s = 2 \/ s = 3) as [->|[->|[->| ->]]] by lia; reflexivity.
  - assert (s = 0 \/ s = 1 \/ s = 2 \/ s = 3 \/ s = 4 \/ s = 5) as [->|[->|[->|[->|[->| ->]]]]] by lia; reflexivity.
Qed.
Lemma neg_if s : (- (if Nat.even s then 1 else -1) = if Nat.even s then -1 else 1)%Z.
Proof. destruct (Nat.even s); reflexivity. Qed.
Lemma octants_spec dim s : 0 < dim < 4 -> s < 2 * dim ->
  length (octants dim s) = 2 ^ dim / 2 /\ NoDup (map fst (octants dim s)) /\ NoDup (map snd (octants dim s)) /\
  (forall i o, In (i, o) (octants dim s) -> enters dim s i /\ leaves dim s o /\ mirrored dim s i o) /\
  (forall i, enters dim s i -> exists o, In (i, o) (octants dim s)) /\
  (forall o, leaves dim s o -> exists i, In (i, o) (octants dim s)) /\
  (forall o, o < 2 ^ dim -> enters dim s o \/ leaves dim s o).
Proof.
  intros Hd Hs. pose proof (octs_ok Hd Hs) as T. unfold oct_ok in T.
  apply andb_prop in T. destruct T as [T T6]. apply andb_prop in T. destruct T as [T T5].
  apply andb_prop in T. destruct T as [T T4]. apply andb_prop in T. destruct T as [T T3].
  apply andb_prop in T. destruct T as [T1 T2].
  rewrite forallb_forall in T4, T5, T6.
  split; [apply Nat.eqb_eq; auto|]. split; [apply nodupb_NoDup; auto|]. split; [apply nodupb_NoDup; auto|].
  assert (P : forall i o, In (i, o) (octants dim s) -> enters dim s i /\ leaves dim s o /\ mirrored dim s i o).
  { intros i o Hi. specialize (T4 _ Hi). cbn [fst snd] in T4.
    repeat (apply andb_prop in T4; destruct T4 as [T4 ?]). 
    rewrite Nat.ltb_lt in *. rewrite Z.eqb_eq in *. rewrite forallb_forall in *.
    unfold enters, leaves, mirrored. rewrite <- neg_if. repeat split; auto.
    intros axis Ha. apply Z.eqb_eq. apply H. apply in_seq. lia. }
  split; [exact P|].
  assert (Q : forall l o, memb o (map fst l) = true -> exists o' : nat, In (o, o') l).
  { intros l o M. apply memb_In in M. apply in_map_iff in M. destruct M as ((x & y) & <- & M). eauto. }
  assert (Q' : forall l o, memb o (map snd l) = true -> exists o' : nat, In (o', o) l).
  { intros l o M. apply memb_In in M. apply in_map_iff in M. destruct M as ((x & y) & <- & M). eauto. }
  split; [|split].
  - intros i [Hi E]. specialize (T5 i ltac:(apply in_seq; lia)). rewrite E, Z.eqb_refl in T5. auto.
  - intros o [Ho E]. specialize (T5 o ltac:(apply in_seq; lia)). rewrite E in T5.
    destruct (Nat.even s); cbn in T5; auto.
  - intros o Ho. specialize (T6 o ltac:(apply in_seq; lia)). apply orb_prop in T6. rewrite !Z.eqb_eq, neg_if in T6.
    unfold enters, leaves. destruct T6; auto.
Qed.
Lemma enters_not_leaves dim s o : enters dim s o -> leaves dim s o -> False.
Proof. intros [_ E] [_ F]. rewrite E in F. destruct (Nat.even s); discriminate. Qed.
Lemma mirrored_unique dim s o o1 o2 : 0 < dim < 4 -> mirrored dim s o o1 -> mirrored dim s o o2 -> o1 = o2.
Proof.
  intros Hd [L1 M1] [L2 M2].
  assert (E : forall axis, axis < dim -> octant_signs o1 axis = octant_signs o2 axis) by (intros; rewrite M1, M2; auto).
  clear M1 M2. assert (dim = 1 \/ dim = 2 \/ dim = 3) as [->|[->| ->]] by lia; cbn in L1, L2.
  - pose proof (E 0 ltac:(lia)).
    assert (o1 = 0 \/ o1 = 1) as [->| ->] by lia; assert (o2 = 0 \/ o2 = 1) as [->| ->] by lia; auto; discriminate.
  - pose proof (E 0 ltac:(lia)). pose proof (E 1 ltac:(lia)).
    assert (o1 = 0 \/ o1 = 1 \/ o1 = 2 \/ o1 = 3) as [->|[->|[->| ->]]] by lia;
    assert (o2 = 0 \/ o2 = 1 \/ o2 = 2 \/ o2 = 3) as [->|[->|[->| ->]]] by lia; auto; discriminate.
  - pose proof (E 0 ltac:(lia)). pose proof (E 1 ltac:(lia)). pose proof (E 2 ltac:(lia)).
    destruct (@lt8 o1 ltac:(lia)) as [->|[->|[->|[->|[->|[->|[->| ->]]]]]]];
    destruct (@lt8 o2 ltac:(lia)) as [->|[->|[->|[->|[->|[->|[->| ->]]]]]]]; auto; discriminate.
Qed.
Lemma mirrored_sym dim s o o' : o < 2 ^ dim -> mirrored dim s o o' -> mirrored dim s o' o.
Proof.
  intros Ho [L M]. split; auto. intros axis Ha. rewrite (M axis Ha). destruct (axis =? s / 2); lia.
Qed.
Lemma inc_table_spec dim s : 0 < dim < 4 -> s < 2 * dim ->
  exists i u, rd (incident_table dim) s = Ok i /\ rd (outgoing_table dim) s = Ok u /\ NoDup i /\ NoDup u /\
  (forall o, In o i <-> enters dim s o) /\ (forall o, In o u <-> leaves dim s o) /\
  length i = 2 ^ (dim - 1) /\ length u = 2 ^ (dim - 1).
Proof.
  intros Hd Hs. destruct (table_spec Hd Hs) as (i & u & H1 & H2 & H3 & H4 & H5 & H6). exists i, u.
  pose proof (half_lt Hs) as Hh. pose proof (@dim_le8 dim ltac:(lia)) as H8.
  assert (SG : forall o, o < 2 ^ dim -> sg o (s / 2) = octant_signs o (s / 2)).
  { intros o Ho. destruct (@lt3 (s / 2) ltac:(lia)) as [->|[->| ->]];
    destruct (@lt8 o ltac:(lia)) as [->|[->|[->|[->|[->|[->|[->| ->]]]]]]]; reflexivity. }
  repeat (split; [assumption|]). split; [|split].
  - intros o. rewrite H5. unfold enters. split; intros [A B]; split; auto; [rewrite <- SG|rewrite SG]; auto.
  - intros o. rewrite H6. unfold leaves. split; intros [A B]; split; auto; [rewrite <- SG|rewrite SG]; auto.
  - clear -Hd Hs H1 H2. assert (dim = 1 \/ dim = 2 \/ dim = 3) as [->|[->| ->]] by lia; cbn [Nat.mul] in Hs.
    + assert (s = 0 \/ s = 1) as [->| ->] by lia; cbn in *; inversion H1; inversion H2; auto.
    + assert (s = 0 \/ s = 1 \/ s = 2 \/ s = 3) as [->|[->|[->| ->]]] by lia; cbn in *; inversion H1; inversion H2; auto.
    + assert (s = 0 \/ s = 1 \/ s = 2 \/ s = 3 \/ s = 4 \/ s = 5) as [->|[->|[->|[->|[->| ->]]]]] by lia;
      cbn in *; inversion H1; inversion H2; auto.
Qed.

(** ** Updates *)
Definition pair_list (q : quad) (s d g : nat) : list ((nat * nat * nat) * (nat * nat * nat)) :=
  flat_map (fun io => map (fun a => ((d, g, index q (fst io) a), (s, g, index q (snd io) a))) (seq 0 (q_nao q)))
    (octants (q_dim q) s).
Lemma copies_same l : forall b b', copies b l = Ok b' -> same_setup b b'.
Proof.
  intros b b' H. unfold copies in H.
  eapply (@foldM_inv bsn _ (same_setup b)); [|apply same_refl|exact H].
  intros p b1 b2 _ S1 E. apply copyk_same in E. eapply same_trans; eauto.
Qed.
Lemma pair_loop b s d g : sn_quad (b_q b) -> s < 2 * q_dim (b_q b) ->
  foldM (fun b o => foldM (fun b a =>
      do io <- rd (octants (q_dim (b_q b)) s) o;
      copyk b (key b d (fst io) a g) (key b s (snd io) a g))
    (seq 0 (q_nao (b_q b))) b) (seq 0 (q_noct (b_q b) / 2)) b = copies b (pair_list (b_q b) s d g).
Proof.
  intros (Hd & Hn & _) Hs. destruct (octants_spec Hd Hs) as (L & _).
  set (q := b_q b) in *. set (T := octants (q_dim q) s) in *.
  set (F := fun (b : bsn) (io : nat * nat) => copies b (map (fun a => ((d, g, index q (fst io) a), (s, g, index q (snd io) a))) (seq 0 (q_nao q)))).
  transitivity (foldM (fun b o => do io <- rd T o; F b io) (seq 0 (q_noct q / 2)) b).
  - apply foldM_ext_inv with (I := fun b' => b_q b' = q).
    + intros o b1 Ho E1. apply in_seq in Ho. rewrite E1. rewrite rd_ok with (d := (0, 0)) by (rewrite L, <- Hn; lia). cbn [bind].
      unfold F, copies. rewrite <- (@foldM_map nat _ bsn (fun b p => copyk b (fst p) (snd p))). cbn [fst snd].
      apply foldM_ext_inv with (I := fun b' => b_q b' = q); auto.
      * intros a b2 _ E2. rewrite E2. fold T. rewrite rd_ok with (d := (0, 0)) by (rewrite L, <- Hn; lia). cbn [bind].
        unfold key. rewrite E2. reflexivity.
      * intros a b2 b3 _ E2 C. apply copyk_same in C. destruct C as [C _]. congruence.
    + intros o b1 b2 Ho E1 C. destruct (rd T o); try discriminate. cbn in C. apply copies_same in C.
      destruct C as [C _]. congruence.
    + reflexivity.
  - rewrite Hn. rewrite <- L. rewrite (@foldM_rd (nat * nat) bsn (0, 0)). unfold F, copies, pair_list. fold T.
    apply foldM_flat_map.
Qed.
Definition upd_list (b : bsn) (g s : nat) : list ((nat * nat * nat) * (nat * nat * nat)) :=
  match b_bc b s with
  | Reflect => pair_list (b_q b) s s g
  | Periodic => pair_list (b_q b) s (periodic_side s) g
  | _ => []
  end.
Lemma update_copies b g : sn_quad (b_q b) ->
  bsn_update b g = copies b (flat_map (upd_list b g) (seq 0 (2 * q_dim (b_q b)))).
Proof.
  intros Q. unfold bsn_update, copies. rewrite <- foldM_flat_map.
  apply foldM_ext_inv with (I := same_setup b).
  - intros s b1 Hs (E1 & E2 & E3). apply in_seq in Hs. unfold bc_update, upd_list. rewrite E3.
    destruct (b_bc b s); auto.
    + unfold reflect_group. rewrite pair_loop by (rewrite E1; auto; lia). rewrite E1. reflexivity.
    + unfold periodic_group. rewrite pair_loop by (rewrite E1; auto; lia). rewrite E1. reflexivity.
  - intros s b1 b2 _ S1 C. apply copies_same in C. eapply same_trans; eauto.
  - apply same_refl.
Qed.

Lemma in_pair_list q s d g p : In p (pair_list q s d g) <->
  exists i o a, In (i, o) (octants (q_dim q) s) /\ a < q_nao q /\ p = ((d, g, index q i a), (s, g, index q o a)).
Proof.
  unfold pair_list. rewrite in_flat_map. split.
  - intros ((i & o) & Hi & Hp). apply in_map_iff in Hp. destruct Hp as (a & <- & Ha). apply in_seq in Ha.
    exists i, o, a. repeat split; auto. lia.
  - intros (i & o & a & Hi & Ha & ->). exists (i, o). split; auto. apply in_map_iff. exists a. split; auto.
    apply in_seq. lia.
Qed.
Lemma pair_list_NoDup q s d g : 0 < q_dim q < 4 -> s < 2 * q_dim q -> NoDup (map fst (pair_list q s d g)).
Proof.
  intros Hd Hs. destruct (octants_spec Hd Hs) as (L & N & _). unfold pair_list.
  rewrite flat_map_concat_map, concat_map, map_map, <- flat_map_concat_map.
  apply NoDup_flat_map.
  - apply NoDup_map_inv in N. auto.
  - intros io _. rewrite map_map. cbn [fst]. apply NoDup_map_inj; [apply seq_NoDup|].
    intros a a' Ha Ha' E. apply in_seq in Ha, Ha'. inversion E. apply (@quad_index_inj q (fst io) a (fst io) a'); auto; lia.
  - intros x y z Hx Hy Hz1 Hz2. rewrite map_map in Hz1, Hz2. apply in_map_iff in Hz1, Hz2. cbn [fst] in Hz1, Hz2.
    destruct Hz1 as (a & E1 & Ha), Hz2 as (a' & E2 & Ha'). apply in_seq in Ha, Ha'. rewrite <- E1 in E2. inversion E2.
    assert (fst x = fst y). { symmetry. apply (@quad_index_inj q (fst y) a' (fst x) a); auto; lia. }
    destruct x as [x1 x2], y as [y1 y2]. cbn in H. subst y1. f_equal.
    clear -N Hx Hy. induction (octants (q_dim q) s) as [|[u v] t IH]; [destruct Hx|].
    cbn in N. inversion N as [|? ? Nu Nt]; subst.
    assert (NI : forall w, In (u, w) t -> False) by (intros w Hw; apply Nu; apply in_map_iff; exists (u, w); auto).
    destruct Hx as [Hx|Hx], Hy as [Hy|Hy]; try (inversion Hx; subst); try (inversion Hy; subst); auto;
    exfalso; eapply NI; eauto.
Qed.

Lemma valid_inr b s o a g : sn_quad (b_q b) -> valid b s o a g -> inr b (s, g, index (b_q b) o a) = true.
Proof.
  intros (Hd & Hn & Ha & _) (V1 & V2 & V3 & V4). cbn. unfold in_range.
  rewrite !andb_true_iff, !Nat.ltb_lt. repeat split; auto. rewrite Ha. apply quad_index_range; auto.
Qed.

Lemma update_reflects b g : sn_quad (b_q b) -> g < b_ng b ->
  (forall s, s < 2 * q_dim (b_q b) -> b_bc b s <> Periodic) ->
  exists b', bsn_update b g = Ok b' /\ same_setup b b' /\
  (forall s o o' a, valid b s o a g -> b_bc b s = Reflect -> enters (q_dim (b_q b)) s o -> mirrored (q_dim (b_q b)) s o o' ->
     flux b' s o a g = flux b s o' a g) /\
  (forall s o a g', valid b s o a g' -> g' <> g \/ b_bc b s <> Reflect \/ leaves (q_dim (b_q b)) s o ->
     flux b' s o a g' = flux b s o a g').
Proof.
  intros Q Hg NP. pose proof Q as (Hd & Hn & Hna & Qt).
  rewrite update_copies by auto.
  set (q := b_q b) in *. set (dim := q_dim q) in *. set (sides := seq 0 (2 * dim)).
  assert (IN : forall p, In p (flat_map (upd_list b g) sides) <->
     exists s i o a, s < 2 * dim /\ b_bc b s = Reflect /\ In (i, o) (octants dim s) /\ a < q_nao q /\
       p = ((s, g, index q i a), (s, g, index q o a))).
  { intros p. rewrite in_flat_map. split.
    - intros (s & Hs & Hp). apply in_seq in Hs. unfold upd_list in Hp.
      destruct (b_bc b s) eqn:E; try destruct Hp.
      + apply in_pair_list in Hp. destruct Hp as (i & o & a & H1 & H2 & H3). exists s, i, o, a.
        repeat split; auto; lia.
      + exfalso. apply (NP s); auto; lia.
    - intros (s & i & o & a & Hs & E & Hio & Ha & ->). exists s. split; [apply in_seq; lia|].
      unfold upd_list. rewrite E. apply in_pair_list. exists i, o, a. auto. }
  destruct (@copies_spec (flat_map (upd_list b g) sides) b) as (b' & E & SS & F1 & F2).
  - intros p Hp. apply IN in Hp. destruct Hp as (s & i & o & a & Hs & Hb & Hio & Ha & ->). cbn [fst snd].
    destruct (octants_spec Hd Hs) as (_ & _ & _ & P & _). destruct (P _ _ Hio) as ((A1 & _) & (A2 & _) & _).
    split; apply valid_inr; auto; repeat split; auto; fold q; rewrite Hn; auto.
  - rewrite flat_map_concat_map, concat_map, map_map, <- flat_map_concat_map. apply NoDup_flat_map.
    + apply seq_NoDup.
    + intros s Hs. apply in_seq in Hs. unfold upd_list. destruct (b_bc b s); try apply NoDup_nil;
      apply pair_list_NoDup; fold q; fold dim; auto; lia.
    + intros s s' z Hs Hs' Hz Hz'.
      assert (G : forall s, In s sides -> In z (map fst (upd_list b g s)) -> fst (fst z) = s).
      { intros t Ht Hz0. apply in_map_iff in Hz0. destruct Hz0 as (p & <- & Hp).
        assert (Ht' := Ht). apply in_seq in Ht. unfold upd_list in Hp. destruct (b_bc b t) eqn:E; try destruct Hp.
        - apply in_pair_list in Hp. destruct Hp as (i & o & a & _ & _ & ->). reflexivity.
        - exfalso. apply (NP t); auto; lia. }
      rewrite <- (G s Hs Hz). apply G; auto.
  - intros p p' Hp Hp' C. apply IN in Hp. apply IN in Hp'.
    destruct Hp as (s & i & o & a & Hs & Hb & Hio & Ha & ->). destruct Hp' as (s' & i' & o' & a' & Hs' & Hb' & Hio' & Ha' & ->).
    cbn [fst snd] in C. assert (X : s = s' /\ index q o a = index q i' a') by (inversion C; auto).
    destruct X as [<- X]. apply quad_index_inj in X; auto. destruct X as [-> ->].
    destruct (octants_spec Hd Hs) as (_ & _ & _ & P & _). destruct (P _ _ Hio) as (_ & A1 & _). destruct (P _ _ Hio') as (A2 & _ & _).
    eapply enters_not_leaves; eauto.
  - exists b'. split; [exact E|]. split; [exact SS|]. destruct SS as (S1 & S2 & S3). unfold flux. rewrite S1. fold q. split.
    + intros s o o' a (V1 & V2 & V3 & V4) HR HE HM.
      destruct (octants_spec Hd V1) as (_ & _ & _ & P & P2 & _). destruct (P2 _ HE) as (o2 & Hio). destruct (P _ _ Hio) as (_ & _ & HM').
      assert (o' = o2) by (eapply mirrored_unique; eauto). subst o2.
      apply (F1 ((s, g, index q o a), (s, g, index q o' a))). apply IN. exists s, o, o', a. repeat split; auto.
    + intros s o a g' (V1 & V2 & V3 & V4) HX. apply (F2 (s, g', index q o a)). intros C.
      apply in_map_iff in C. destruct C as (p & C & Hp). apply IN in Hp.
      destruct Hp as (s' & i & o' & a' & Hs & Hb & Hio & Ha & ->). cbn [fst] in C.
      assert (X : s' = s /\ g' = g /\ index q i a' = index q o a) by (inversion C; auto). destruct X as (-> & -> & X).
      apply quad_index_inj in X; auto. destruct X as [-> ->].
      destruct (octants_spec Hd Hs) as (_ & _ & _ & P & _). destruct (P _ _ Hio) as (A1 & _ & _).
      destruct HX as [HX|[HX|HX]]; try congruence. eapply enters_not_leaves; eauto.
Qed.

(** ** Opposite sides *)
Lemma pside dim s : 0 < dim < 4 -> s < 2 * dim ->
  periodic_side s < 2 * dim /\ opposite s (periodic_side s) /\ periodic_side (periodic_side s) = s /\
  (forall o, leaves dim s o <-> enters dim (periodic_side s) o) /\ (forall o, enters dim s o <-> leaves dim (periodic_side s) o).
Proof.
  intros Hd Hs. unfold leaves, enters, opposite.
  assert (s = 0 \/ s = 1 \/ s = 2 \/ s = 3 \/ s = 4 \/ s = 5) as [->|[->|[->|[->|[->| ->]]]]] by lia; cbn;
  repeat split; try lia; try tauto.
Qed.
Lemma opposite_pside s s' : s < 6 -> opposite s s' -> s' = periodic_side s.
Proof.
  intros Hs [E N]. pose proof (Nat.div_mod s' 2 ltac:(lia)). pose proof (Nat.mod_upper_bound s' 2 ltac:(lia)).
  assert (s = 0 \/ s = 1 \/ s = 2 \/ s = 3 \/ s = 4 \/ s = 5) as [->|[->|[->|[->|[->| ->]]]]] by lia; cbn in *; lia.
Qed.

(** ** One angle *)
Lemma out_of_gen t o : forall r, fold_left (fun r (io : nat * nat) => if fst io =? o then Some (snd io) else r) t r =
  match out_of t o with Some x => Some x | None => r end.
Proof.
  unfold out_of. induction t as [|io t IH]; intros r; cbn; auto.
  rewrite IH. rewrite (IH (if fst io =? o then Some (snd io) else None)).
  destruct (fold_left _ t None); auto. destruct (fst io =? o); auto.
Qed.
Lemma out_of_some t o o' : out_of t o = Some o' -> In (o, o') t.
Proof.
  induction t as [|[i u] t IH]; [discriminate|]. unfold out_of. cbn. rewrite out_of_gen.
  destruct (out_of t o) as [x|].
  - intros E. right. apply IH. auto.
  - destruct (Nat.eqb_spec i o); intros E; inversion E; subst; auto.
Qed.
Lemma out_of_none t o : out_of t o = None -> forall o', ~ In (o, o') t.
Proof.
  induction t as [|[i u] t IH]; [auto|]. unfold out_of. cbn. rewrite out_of_gen.
  destruct (out_of t o) as [x|]; [discriminate|].
  destruct (Nat.eqb_spec i o); [discriminate|]. intros _ o' [E|E]; [inversion E; subst; auto|]. eapply IH; eauto.
Qed.
Definition ang_list (b : bsn) (g o a s : nat) : list ((nat * nat * nat) * (nat * nat * nat)) :=
  match b_bc b s with
  | Reflect => match out_of (octants (q_dim (b_q b)) s) o with
               | Some o' => [(key b s o a g, key b s o' a g)]
               | None => []
               end
  | Periodic => if memb o (map snd (octants (q_dim (b_q b)) s)) then [(key b (periodic_side s) o a g, key b s o a g)] else []
  | _ => []
  end.
Lemma periodic_loop t o b kd ks : NoDup (map snd t) ->
  forall b0, same_setup b0 b ->
  foldM (fun b io => if snd io =? o then copyk b (kd b) (ks b) else Ok b) t b =
  if memb o (map (@snd nat nat) t) then copyk b (kd b) (ks b) else Ok b.
Proof.
  intros N b0 Sb. revert b Sb. induction t as [|[i u] t IH]; intros b Sb; cbn [foldM map memb]; auto.
  cbn in N. inversion N as [|? ? Nu Nt]; subst. cbn [snd]. rewrite (Nat.eqb_sym o u). destruct (Nat.eqb_spec u o) as [->|Hne].
  - cbn [orb]. destruct (copyk b (kd b) (ks b)) as [b1| |] eqn:E; cbn [bind]; auto. rewrite IH; auto.
    + destruct (memb o (map snd t)) eqn:M; auto. apply memb_In in M. contradiction.
    + eapply same_trans; eauto. eapply copyk_same; eauto.
  - cbn [orb bind]. apply IH; auto.
Qed.
Lemma angle_copies b g o a : sn_quad (b_q b) ->
  bsn_update_angle b g o a = copies b (flat_map (ang_list b g o a) (seq 0 (2 * q_dim (b_q b)))).
Proof.
  intros Q. pose proof Q as (Hd & _). unfold bsn_update_angle, copies. rewrite <- foldM_flat_map.
  apply foldM_ext_inv with (I := same_setup b).
  - intros s b1 Hs (E1 & E2 & E3). apply in_seq in Hs. unfold bc_update_angle, ang_list. rewrite E3.
    destruct (b_bc b s); auto.
    + unfold reflect_angle. rewrite E1. destruct (out_of _ o); auto. cbn. unfold key. rewrite E1.
      destruct (copyk b1 _ _); reflexivity.
    + unfold periodic_angle. rewrite E1.
      rewrite (@periodic_loop _ o b1 (fun b => key b (periodic_side s) o a g) (fun b => key b s o a g)) with (b0 := b).
      * destruct (memb o _); auto. cbn. unfold key. rewrite E1. destruct (copyk b1 _ _); reflexivity.
      * destruct (@octants_spec (q_dim (b_q b)) s) as (_ & _ & N & _); auto; lia.
      * repeat split; auto.
  - intros s b1 b2 _ S1 C. apply copies_same in C. eapply same_trans; eauto.
  - apply same_refl.
Qed.

Lemma update_angle b g o a : sn_quad (b_q b) -> g < b_ng b -> o < q_noct (b_q b) -> a < q_nao (b_q b) ->
  (forall s s', s < 2 * q_dim (b_q b) -> opposite s s' -> b_bc b s = Periodic -> b_bc b s' = Periodic) ->
  exists b', bsn_update_angle b g o a = Ok b' /\ same_setup b b' /\
  (forall s o', s < 2 * q_dim (b_q b) -> b_bc b s = Reflect -> enters (q_dim (b_q b)) s o -> mirrored (q_dim (b_q b)) s o o' ->
     flux b' s o a g = flux b s o' a g) /\
  (forall s s', s < 2 * q_dim (b_q b) -> opposite s s' -> b_bc b s = Periodic -> leaves (q_dim (b_q b)) s o ->
     flux b' s' o a g = flux b s o a g) /\
  (forall s o' a' g', valid b s o' a' g' ->
     g' <> g \/ o' <> o \/ a' <> a \/ leaves (q_dim (b_q b)) s o \/ (b_bc b s <> Reflect /\ b_bc b s <> Periodic) ->
     flux b' s o' a' g' = flux b s o' a' g').
Proof.
  intros Q Hg Ho Ha PC. pose proof Q as (Hd & Hn & Hna & Qt). rewrite angle_copies by auto.
  set (q := b_q b) in *. set (dim := q_dim q) in *. set (sides := seq 0 (2 * dim)).
  assert (IN : forall p, In p (flat_map (ang_list b g o a) sides) <->
     (exists s o', s < 2 * dim /\ b_bc b s = Reflect /\ In (o, o') (octants dim s) /\
       p = ((s, g, index q o a), (s, g, index q o' a))) \/
     (exists s, s < 2 * dim /\ b_bc b s = Periodic /\ leaves dim s o /\
       p = ((periodic_side s, g, index q o a), (s, g, index q o a)))).
  { intros p. rewrite in_flat_map. split.
    - intros (s & Hs & Hp). apply in_seq in Hs. assert (Hs' : s < 2 * dim) by lia. unfold ang_list in Hp. fold q dim in Hp.
      destruct (octants_spec Hd Hs') as (_ & _ & _ & P & _).
      destruct (b_bc b s) eqn:E; try destruct Hp.
      + left. destruct (out_of (octants dim s) o) as [o'|] eqn:OO; [|destruct Hp]. destruct Hp as [<-|[]].
        apply out_of_some in OO. exists s, o'. repeat split; auto.
      + right. destruct (memb o (map snd (octants dim s))) eqn:M; [|destruct Hp]. destruct Hp as [<-|[]].
        apply memb_In in M. apply in_map_iff in M. destruct M as ((i & o2) & E2 & Hio). cbn in E2. subst o2.
        exists s. destruct (P _ _ Hio) as (_ & A & _). repeat split; auto; apply A.
    - intros [(s & o' & Hs & E & Hio & ->)|(s & Hs & E & HL & ->)]; exists s; (split; [apply in_seq; lia|]);
      unfold ang_list; rewrite E; fold q dim.
      + destruct (octants_spec Hd Hs) as (_ & _ & _ & P & _).
        destruct (out_of (octants dim s) o) as [o2|] eqn:OO.
        * left. apply out_of_some in OO. destruct (P _ _ Hio) as (_ & _ & M1). destruct (P _ _ OO) as (_ & _ & M2).
          assert (o' = o2) by (eapply mirrored_unique; eauto). subst. reflexivity.
        * exfalso. eapply out_of_none; eauto.
      + destruct (octants_spec Hd Hs) as (_ & _ & _ & _ & _ & P & _). destruct (P _ HL) as (i & Hio).
        replace (memb o (map snd (octants dim s))) with true; [left; reflexivity|]. symmetry. apply memb_In.
        apply in_map_iff. exists (i, o). auto. }
  assert (OPP : forall s, s < 2 * dim -> b_bc b s = Periodic -> b_bc b (periodic_side s) = Periodic).
  { intros s Hs Hb. apply (PC s); auto. apply (pside Hd Hs). }
  assert (DST : forall p, In p (flat_map (ang_list b g o a) sides) -> exists s, s < 2 * dim /\ enters dim s o /\
     fst p = (s, g, index q o a) /\ (b_bc b s = Reflect \/ b_bc b s = Periodic)).
  { intros p Hp. apply IN in Hp. destruct Hp as [(s & o' & Hs & E & Hio & ->)|(s & Hs & E & HL & ->)].
    - exists s. destruct (octants_spec Hd Hs) as (_ & _ & _ & P & _). repeat split; auto; apply (P _ _ Hio).
    - exists (periodic_side s). destruct (pside Hd Hs) as (B1 & B2 & B3 & B4 & _).
      split; [exact B1|]. split; [apply B4; exact HL|]. split; [reflexivity|]. right. apply OPP; auto. }
  destruct (@copies_spec (flat_map (ang_list b g o a) sides) b) as (b' & E & SS & F1 & F2).
  - intros p Hp. pose proof Hp as Hp'. apply DST in Hp'. destruct Hp' as (s' & Hs' & [He _] & E & _). rewrite E. split.
    + apply valid_inr; auto. repeat split; auto.
    + apply IN in Hp. destruct Hp as [(s & o' & Hs & E1 & Hio & ->)|(s & Hs & E1 & HL & ->)]; cbn [snd];
      apply valid_inr; auto; repeat split; auto. fold q. rewrite Hn.
      destruct (octants_spec Hd Hs) as (_ & _ & _ & P & _). apply (P _ _ Hio).
  - rewrite flat_map_concat_map, concat_map, map_map, <- flat_map_concat_map. apply NoDup_flat_map.
    + apply seq_NoDup.
    + intros s Hs. unfold ang_list. destruct (b_bc b s); try apply NoDup_nil.
      * destruct (out_of _ _); cbn; [constructor; auto; constructor|constructor].
      * destruct (memb _ _); cbn; [constructor; auto; constructor|constructor].
    + intros s s' z Hs Hs' Hz Hz'. apply in_seq in Hs, Hs'.
      assert (G : forall s, s < 2 * dim -> In z (map fst (ang_list b g o a s)) ->
        (b_bc b s = Reflect /\ fst (fst z) = s) \/ (b_bc b s = Periodic /\ fst (fst z) = periodic_side s)).
      { intros t Ht Hz0. apply in_map_iff in Hz0. destruct Hz0 as (p & <- & Hp). unfold ang_list in Hp.
        destruct (b_bc b t) eqn:E; try destruct Hp.
        - destruct (out_of _ _); [|destruct Hp]. destruct Hp as [<-|[]]. left. auto.
        - destruct (memb _ _); [|destruct Hp]. destruct Hp as [<-|[]]. right. auto. }
      destruct (G s ltac:(lia) Hz) as [[A1 A2]|[A1 A2]]; destruct (G s' ltac:(lia) Hz') as [[B1 B2]|[B1 B2]]; try congruence.
      * exfalso. assert (X : b_bc b (periodic_side s') = Periodic) by (apply OPP; auto; lia). rewrite <- B2, A2 in X. congruence.
      * exfalso. assert (X : b_bc b (periodic_side s) = Periodic) by (apply OPP; auto; lia). rewrite <- A2, B2 in X. congruence.
      * rewrite A2 in B2. destruct (@pside dim s Hd ltac:(lia)) as (_ & _ & I1 & _). destruct (@pside dim s' Hd ltac:(lia)) as (_ & _ & I2 & _).
        congruence.
  - intros p p' Hp Hp' C. apply DST in Hp'. destruct Hp' as (s' & Hs' & He & E' & _). rewrite E' in C.
    apply IN in Hp. destruct Hp as [(s & o' & Hs & E1 & Hio & ->)|(s & Hs & E1 & HL & ->)]; cbn [snd] in C.
    + assert (X : s = s' /\ index q o' a = index q o a) by (inversion C; auto). destruct X as [<- X].
      apply quad_index_inj in X; auto. destruct X as [-> _].
      destruct (octants_spec Hd Hs) as (_ & _ & _ & P & _). destruct (P _ _ Hio) as (_ & A1 & _).
      eapply enters_not_leaves; eauto.
    + assert (X : s = s') by (inversion C; auto). subst. eapply enters_not_leaves; eauto.
  - exists b'. split; [exact E|]. split; [exact SS|]. destruct SS as (S1 & S2 & S3). unfold flux. rewrite S1. fold q. split; [|split].
    + intros s o' Hs HR HE HM.
      destruct (octants_spec Hd Hs) as (_ & _ & _ & P & P2 & _). destruct (P2 _ HE) as (o2 & Hio). destruct (P _ _ Hio) as (_ & _ & HM').
      assert (o' = o2) by (eapply mirrored_unique; eauto). subst o2.
      apply (F1 ((s, g, index q o a), (s, g, index q o' a))). apply IN. left. exists s, o'. repeat split; auto.
    + intros s s' Hs HO HP HL. assert (s' = periodic_side s) by (apply opposite_pside; auto; lia). subst s'.
      apply (F1 ((periodic_side s, g, index q o a), (s, g, index q o a))). apply IN. right. exists s. repeat split; auto; apply HL.
    + intros s o' a' g' (V1 & V2 & V3 & V4) HX. apply (F2 (s, g', index q o' a')). intros C.
      apply in_map_iff in C. destruct C as (p & C & Hp). apply DST in Hp.
      destruct Hp as (s' & Hs' & He & E' & HB). rewrite E' in C.
      assert (X : s' = s /\ g' = g /\ index q o a = index q o' a') by (inversion C; auto). destruct X as (-> & -> & X).
      apply quad_index_inj in X; auto. destruct X as [-> ->].
      destruct HX as [HX|[HX|[HX|[HX|[HX HX']]]]]; try congruence.
      * eapply enters_not_leaves; eauto.
      * destruct HB; congruence.
Qed.

(** ** Periodic, whole group *)
Lemma copies_frame l : forall b, (forall p, In p l -> inr b (fst p) = true /\ inr b (snd p) = true) ->
  exists b', copies b l = Ok b' /\ same_setup b b' /\ (forall k, ~ In k (map fst l) -> fk b' k = fk b k).
Proof.
  induction l as [|[d s] l IH]; intros b HR; cbn.
  - exists b. repeat split; auto.
  - destruct (HR (d, s)) as [R1 R2]; [cbn; auto|]. cbn in R1, R2.
    unfold copyk at 1. rewrite getk_ok by auto. cbn [bind].
    destruct (setk_ok (fk b s) R1) as (b1 & E & SS & F). rewrite E. cbn [bind].
    destruct (IH b1) as (b' & E' & SS' & F2).
    { intros p Hp. rewrite !(inr_same _ SS). apply HR; cbn; auto. }
    exists b'. split; [exact E'|]. split; [eapply same_trans; eauto|].
    intros k Hk. rewrite F2 by tauto. rewrite F. destruct (keqb d k) eqn:K; auto.
    apply keqb_eq in K. exfalso. apply Hk. auto.
Qed.
Lemma periodic_group_keeps_incident b g : sn_quad (b_q b) -> g < b_ng b ->
  (forall s, s < 2 * q_dim (b_q b) -> b_bc b s = Periodic) ->
  exists b', bsn_update b g = Ok b' /\ same_setup b b' /\
  forall s o a, valid b s o a g -> enters (q_dim (b_q b)) s o -> flux b' s o a g = flux b s o a g.
Proof.
  intros Q Hg PC. pose proof Q as (Hd & Hn & Hna & Qt). rewrite update_copies by auto.
  set (q := b_q b) in *. set (dim := q_dim q) in *. set (sides := seq 0 (2 * dim)).
  assert (IN : forall p, In p (flat_map (upd_list b g) sides) ->
     exists s i o a, s < 2 * dim /\ In (i, o) (octants dim s) /\ a < q_nao q /\
       p = ((periodic_side s, g, index q i a), (s, g, index q o a))).
  { intros p Hp. apply in_flat_map in Hp. destruct Hp as (s & Hs & Hp). apply in_seq in Hs. unfold upd_list in Hp.
    rewrite PC in Hp by lia. apply in_pair_list in Hp. destruct Hp as (i & o & a & H1 & H2 & H3).
    exists s, i, o, a. repeat split; auto; lia. }
  destruct (@copies_frame (flat_map (upd_list b g) sides) b) as (b' & E & SS & F).
  - intros p Hp. apply IN in Hp. destruct Hp as (s & i & o & a & Hs & Hio & Ha & ->). cbn [fst snd].
    destruct (octants_spec Hd Hs) as (_ & _ & _ & P & _). destruct (P _ _ Hio) as ((A1 & _) & (A2 & _) & _).
    destruct (pside Hd Hs) as (B1 & _).
    split; apply valid_inr; auto; repeat split; auto; fold q; rewrite Hn; auto.
  - exists b'. split; [exact E|]. split; [exact SS|]. intros s o a (V1 & V2 & V3 & V4) HE.
    destruct SS as (S1 & _). unfold flux. rewrite S1. fold q. apply (F (s, g, index q o a)). intros C.
    apply in_map_iff in C. destruct C as (p & C & Hp). apply IN in Hp.
    destruct Hp as (s' & i & o' & a' & Hs & Hio & Ha & ->). cbn [fst] in C.
    assert (X : periodic_side s' = s /\ index q i a' = index q o a) by (inversion C; auto). destruct X as (X0 & X).
    apply quad_index_inj in X; auto. destruct X as [-> ->].
    destruct (octants_spec Hd Hs) as (_ & _ & _ & P & _). destruct (P _ _ Hio) as (A1 & _ & _).
    destruct (pside Hd Hs) as (_ & _ & _ & _ & B5). apply B5 in A1. rewrite X0 in A1.
    eapply enters_not_leaves; eauto.
Qed.
Lemma periodic_group_wrong q ng : sn_quad q -> 0 < q_nao q -> 0 < ng ->
  exists b b', b_q b = q /\ b_ng b = ng /\ (forall s, b_bc b s = Periodic) /\ bsn_update b 0 = Ok b' /\
  forall s s' o a, valid b s o a 0 -> opposite s s' -> leaves (q_dim q) s o -> flux b' s' o a 0 <> flux b s o a 0.
Proof.
  intros Q Ha Hg. pose proof Q as (Hd & Hn & Hna & Qt).
  set (b := {| b_q := q; b_ng := ng; b_bc := fun _ => Periodic;
    b_flux := fun s _ n => if Z.eqb (octant_signs (n / q_nao q) (s / 2)) (if Nat.even s then 1 else -1)%Z then [[0%R]] else [[1%R]] |}).
  destruct (@periodic_group_keeps_incident b 0) as (b' & E & SS & F); auto.
  exists b, b'. repeat (split; [reflexivity || exact E|]).
  intros s s' o a (V1 & V2 & V3 & V4) HO HL. cbn in V1, V2, V3.
  assert (s' = periodic_side s) by (apply opposite_pside; auto; lia). subst s'.
  destruct (pside Hd V1) as (B1 & _ & _ & B4 & _). pose proof (proj1 (B4 o) HL) as HE.
  rewrite F; [|repeat split; auto|exact HE]. unfold flux. cbn [b_flux b b_q].
  assert (DV : index q o a / q_nao q = o).
  { unfold index. rewrite Nat.div_add by lia. rewrite Nat.div_small by lia. lia. }
  rewrite DV. destruct HE as [_ ->]. destruct HL as [_ ->]. rewrite Z.eqb_refl.
  destruct (Nat.even s); cbn; intros X; inversion X; lra.
Qed.

(** ** Writes at distinct entries *)
Definition modk (h : nat * nat * nat -> face -> face) (b : bsn) (k : nat * nat * nat) : res bsn :=
  do f <- getk b k; setk b k (h k f).
Lemma modk_same h b k b' : modk h b k = Ok b' -> same_setup b b'.
Proof. unfold modk. destruct (getk b k); try discriminate. cbn. apply setk_same. Qed.
Lemma mods_spec h l : forall b, (forall k, In k l -> inr b k = true) -> NoDup l ->
  exists b', foldM (modk h) l b = Ok b' /\ same_setup b b' /\
  (forall k, In k l -> fk b' k = h k (fk b k)) /\ (forall k, ~ In k l -> fk b' k = fk b k).
Proof.
  induction l as [|k l IH]; intros b HR N; cbn [foldM].
  - exists b. repeat split; auto. intros k [].
  - inversion N as [|? ? Nk Nl]; subst. unfold modk at 1.
    assert (R1 : inr b k = true) by (apply HR; cbn; auto). rewrite getk_ok by auto. cbn [bind].
    destruct (setk_ok (h k (fk b k)) R1) as (b1 & E & SS & F). rewrite E. cbn [bind].
    destruct (IH b1) as (b' & E' & SS' & F1 & F2); auto.
    { intros k' Hk. rewrite (inr_same _ SS). apply HR; cbn; auto. }
    exists b'. split; [exact E'|]. split; [eapply same_trans; eauto|]. split.
    + intros k' [<-|Hk].
      * rewrite F2 by auto. rewrite F. replace (keqb k k) with true; auto. symmetry. apply keqb_eq. auto.
      * rewrite F1 by auto. rewrite F. destruct (keqb k k') eqn:K; auto. apply keqb_eq in K. subst. contradiction.
    + intros k' Hk. rewrite F2 by (cbn in Hk; tauto). rewrite F. destruct (keqb k k') eqn:K; auto.
      apply keqb_eq in K. exfalso. apply Hk. cbn. auto.
Qed.

(** ** FixedBoundary *)
Definition fix_keys (q : quad) (t : list nat) (s g : nat) : list (nat * nat * nat) :=
  flat_map (fun o => map (fun a => (s, g, index q o a)) (seq 0 (q_nao q))) t.
(** Position of an octant in the incident list of a side. *)
Fixpoint pos (o : nat) (t : list nat) : nat := match t with [] => 0 | x :: t' => if o =? x then 0 else S (pos o t') end.
Lemma pos_nth t i : NoDup t -> i < length t -> pos (nth i t 0) t = i.
Proof.
  revert i. induction t as [|x t IH]; intros i N Hi; cbn in Hi; [lia|]. inversion N as [|? ? Nx Nt]; subst.
  destruct i; cbn; [rewrite Nat.eqb_refl; auto|]. destruct (Nat.eqb_spec (nth i t 0) x) as [E|_].
  - exfalso. apply Nx. rewrite <- E. apply nth_In. lia.
  - rewrite IH; auto. lia.
Qed.
Lemma nth_pos t o : In o t -> pos o t < length t /\ nth (pos o t) t 0 = o.
Proof.
  induction t as [|x t IH]; intros H; [destruct H|]. cbn. destruct (Nat.eqb_spec o x) as [->|Hne]; [split; [lia|auto]|].
  destruct H as [->|H]; [congruence|]. destruct (IH H). split; [lia|auto].
Qed.
Definition fix_val (q : quad) (t : list nat) (psi : nat -> nat -> nat -> face) (k : nat * nat * nat) (_ : face) : face :=
  let '(s, g, n) := k in psi g (pos (n / q_nao q) t) (n mod q_nao q).
Lemma setk_mod h b k : setk b k (h k (fk b k)) = modk h b k.
Proof.
  unfold modk. destruct (inr b k) eqn:E.
  - rewrite getk_ok by auto. reflexivity.
  - destruct k as [[s g] n]. cbn in *. rewrite E. reflexivity.
Qed.
Lemma index_dm q o a : a < q_nao q -> index q o a / q_nao q = o /\ index q o a mod q_nao q = a.
Proof.
  intros H. unfold index. split.
  - rewrite Nat.div_add by lia. rewrite Nat.div_small by lia. lia.
  - rewrite Nat.mod_add by lia. apply Nat.mod_small. lia.
Qed.
Lemma fixed_set_mods b s g psi t : sn_quad (b_q b) -> s < 2 * q_dim (b_q b) ->
  rd (incident_table (q_dim (b_q b))) s = Ok t -> NoDup t ->
  fixed_set psi b s g = foldM (modk (fix_val (b_q b) t psi)) (fix_keys (b_q b) t s g) b.
Proof.
  intros (Hd & Hn & Hna & Hi & Ho) Hs Ht N. unfold fixed_set, incident_octant. rewrite Hi, Ht. cbn [bind].
  set (q := b_q b) in *.
  transitivity (foldM (fun b io => do o <- rd t io; foldM (modk (fix_val q t psi)) (map (fun a => (s, g, index q o a)) (seq 0 (q_nao q))) b)
    (seq 0 (length t)) b).
  - apply foldM_ext_inv with (I := fun b' => b_q b' = q); auto.
    + intros io b1 Hio E1. apply in_seq in Hio. rewrite rd_ok with (d := 0) by lia. cbn [bind].
      rewrite <- foldM_map. rewrite E1. apply foldM_ext_inv with (I := fun b' => b_q b' = q); auto.
      * intros a b2 Ha E2. apply in_seq in Ha. rewrite <- setk_mod. unfold key, fix_val. rewrite E2.
        destruct (@index_dm q (nth io t 0) a ltac:(lia)) as [-> ->]. rewrite pos_nth by (auto; lia). reflexivity.
      * intros a b2 b3 _ E2 C. apply modk_same in C. destruct C as [C _]. congruence.
    + intros io b1 b2 _ E1 C. destruct (rd t io); try discriminate. cbn in C.
      eapply (@foldM_inv bsn _ (fun b' => b_q b' = q)); [|exact E1|exact C].
      intros k b3 b4 _ E3 C'. apply modk_same in C'. destruct C' as [C' _]. congruence.
  - rewrite (@foldM_rd nat bsn 0 (fun b o => foldM (modk (fix_val q t psi)) (map (fun a => (s, g, index q o a)) (seq 0 (q_nao q))) b)).
    unfold fix_keys. apply foldM_flat_map.
Qed.
Lemma in_fix_keys q t s g k : In k (fix_keys q t s g) <-> exists o a, In o t /\ a < q_nao q /\ k = (s, g, index q o a).
Proof.
  unfold fix_keys. rewrite in_flat_map. split.
  - intros (o & Ho & Hk). apply in_map_iff in Hk. destruct Hk as (a & <- & Ha). apply in_seq in Ha. exists o, a. repeat split; auto. lia.
  - intros (o & a & Ho & Ha & ->). exists o. split; auto. apply in_map_iff. exists a. split; auto. apply in_seq. lia.
Qed.
Lemma fix_keys_NoDup q t s g : NoDup t -> NoDup (fix_keys q t s g).
Proof.
  intros N. apply NoDup_flat_map; auto.
  - intros o _. apply NoDup_map_inj; [apply seq_NoDup|]. intros a a' Ha Ha' E. apply in_seq in Ha, Ha'. inversion E.
    apply (@quad_index_inj q o a o a'); auto; lia.
  - intros x y z _ _ H1 H2. apply in_map_iff in H1, H2. destruct H1 as (a & <- & Ha), H2 as (a' & E & Ha').
    apply in_seq in Ha, Ha'. inversion E. symmetry. apply (@quad_index_inj q y a' x a); auto; lia.
Qed.
Definition table (q : quad) (s : nat) : list nat := match rd (q_inc q) s with Ok t => t | _ => [] end.
Definition set_val (b : bsn) (k : nat * nat * nat) (f : face) : face :=
  match b_bc b (fst (fst k)) with Fixed psi => fix_val (b_q b) (table (b_q b) (fst (fst k))) psi k f | _ => f end.
Lemma set_mods b g : sn_quad (b_q b) ->
  bsn_set b g = foldM (modk (set_val b)) (flat_map (fun s =>
     match b_bc b s with Fixed _ => fix_keys (b_q b) (table (b_q b) s) s g | _ => [] end) (seq 0 (2 * q_dim (b_q b)))) b.
Proof.
  intros Q. pose proof Q as (Hd & Hn & Hna & Hi & Ho). unfold bsn_set. rewrite <- foldM_flat_map.
  apply foldM_ext_inv with (I := same_setup b).
  - intros s b1 Hs (E1 & E2 & E3). apply in_seq in Hs. unfold bc_set. rewrite E3.
    destruct (b_bc b s) as [| |psi|] eqn:B; auto.
    destruct (@inc_table_spec (q_dim (b_q b)) s Hd ltac:(lia)) as (i & u & T1 & _ & N & _).
    rewrite (@fixed_set_mods b1 s g psi i); rewrite ?E1; auto; try lia.
    assert (ET : table (b_q b) s = i) by (unfold table; rewrite Hi, T1; reflexivity). rewrite ET.
    apply foldM_ext. intros k b2 Hk. apply in_fix_keys in Hk. destruct Hk as (o & a & _ & _ & ->).
    unfold modk, set_val. cbn [fst]. rewrite B, ET. reflexivity.
  - intros s b1 b2 _ S1 C. eapply (@foldM_inv bsn _ (same_setup b)); [|exact S1|exact C].
    intros k b3 b4 _ S3 C'. apply modk_same in C'. eapply same_trans; eauto.
  - apply same_refl.
Qed.
Lemma fixed_boundary b g : sn_quad (b_q b) -> g < b_ng b ->
  exists b', bsn_set b g = Ok b' /\ same_setup b b' /\
  (forall s t io o a psi, s < 2 * q_dim (b_q b) -> b_bc b s = Fixed psi -> incident_octant (b_q b) s = Ok t ->
     nth_error t io = Some o -> a < q_nao (b_q b) ->
     enters (q_dim (b_q b)) s o /\ flux b' s o a g = psi g io a) /\
  (forall s o a g', valid b s o a g' -> g' <> g \/ leaves (q_dim (b_q b)) s o \/ (forall psi, b_bc b s <> Fixed psi) ->
     flux b' s o a g' = flux b s o a g').
Proof.
  intros Q Hg. pose proof Q as (Hd & Hn & Hna & Hi & Ho). rewrite set_mods by auto.
  set (q := b_q b) in *. set (dim := q_dim q) in *.
  set (L := flat_map _ _).
  assert (TB : forall s, s < 2 * dim -> NoDup (table q s) /\ rd (q_inc q) s = Ok (table q s) /\ forall o, In o (table q s) <-> enters dim s o).
  { intros s Hs. destruct (inc_table_spec Hd Hs) as (i & u & T1 & _ & N & _ & T5 & _). unfold table. rewrite Hi. fold dim. rewrite T1. auto. }
  assert (IN : forall k, In k L <-> exists s o a psi, s < 2 * dim /\ b_bc b s = Fixed psi /\ enters dim s o /\ a < q_nao q /\ k = (s, g, index q o a)).
  { intros k. unfold L. rewrite in_flat_map. split.
    - intros (s & Hs & Hk). apply in_seq in Hs. destruct (b_bc b s) as [| |psi|] eqn:B; try destruct Hk.
      apply in_fix_keys in Hk. destruct Hk as (o & a & Ho' & Ha & ->). exists s, o, a, psi.
      repeat split; auto; try lia; apply (TB s ltac:(lia)); auto.
    - intros (s & o & a & psi & Hs & B & HE & Ha & ->). exists s. split; [apply in_seq; lia|]. rewrite B.
      apply in_fix_keys. exists o, a. repeat split; auto. apply (TB s Hs). auto. }
  destruct (@mods_spec (set_val b) L b) as (b' & E & SS & F1 & F2).
  - intros k Hk. apply IN in Hk. destruct Hk as (s & o & a & psi & Hs & B & [HE _] & Ha & ->).
    apply valid_inr; auto. repeat split; auto. fold q. rewrite Hn. auto.
  - unfold L. apply NoDup_flat_map.
    + apply seq_NoDup.
    + intros s Hs. apply in_seq in Hs. destruct (b_bc b s); try apply NoDup_nil. apply fix_keys_NoDup. apply TB. lia.
    + intros s s' z _ _ Hz Hz'.
      assert (G : forall s, In z match b_bc b s with Fixed _ => fix_keys q (table q s) s g | _ => [] end -> fst (fst z) = s).
      { intros r Hr. destruct (b_bc b r); try destruct Hr. apply in_fix_keys in Hr. destruct Hr as (o & a & _ & _ & ->). reflexivity. }
      rewrite <- (G s Hz). apply G. auto.
  - exists b'. split; [exact E|]. split; [exact SS|]. destruct SS as (S1 & _). unfold flux. rewrite S1. fold q. split.
    + intros s t io o a psi Hs B Ht Hio Ha. destruct (TB s Hs) as (N & T1 & T2).
      unfold incident_octant in Ht. rewrite Ht in T1. inversion T1 as [T1']. clear T1. symmetry in T1'.
      assert (Lio : io < length (table q s)) by (rewrite T1'; apply nth_error_Some; congruence).
      assert (Eo : nth io (table q s) 0 = o) by (rewrite T1'; apply nth_error_nth; auto).
      assert (Ino : In o (table q s)) by (rewrite <- Eo; apply nth_In; auto).
      split; [apply T2; auto|]. change (b_flux b' s g (index q o a)) with (fk b' (s, g, index q o a)).
      rewrite F1; [|apply IN; exists s, o, a, psi; repeat split; auto; apply T2; auto].
      unfold set_val. cbn [fst]. rewrite B. fold q. unfold fix_val.
      destruct (@index_dm q o a Ha) as [-> ->]. rewrite <- Eo, pos_nth; auto.
    + intros s o a g' (V1 & V2 & V3 & V4) HX. apply (F2 (s, g', index q o a)). intros C. apply IN in C.
      destruct C as (s' & o' & a' & psi & Hs & B & HE & Ha & C).
      assert (X : s = s' /\ g' = g /\ index q o a = index q o' a') by (inversion C; auto). destruct X as (<- & -> & X).
      apply quad_index_inj in X; auto. destruct X as [<- <-].
      destruct HX as [HX|[HX|HX]]; try congruence. eapply enters_not_leaves; eauto.
Qed.

(** ** clear *)
Lemma clear_group b g : sn_quad (b_q b) -> g < b_ng b ->
  exists b', bsn_clear b g = Ok b' /\ same_setup b b' /\
  (forall s o a, valid b s o a g -> map (@length R) (flux b' s o a g) = map (@length R) (flux b s o a g) /\
     forall row x, In row (flux b' s o a g) -> In x row -> x = 0%R) /\
  (forall s o a g', valid b s o a g' -> g' <> g -> flux b' s o a g' = flux b s o a g').
Proof.
  intros Q Hg. pose proof Q as (Hd & Hn & Hna & _).
  set (h := fun (_ : nat * nat * nat) (f : face) => map (map (fun _ => 0%R)) f).
  assert (E0 : bsn_clear b g = foldM (modk h) (flat_map (fun s => map (fun n => (s, g, n)) (seq 0 (q_nang (b_q b)))) (seq 0 (2 * q_dim (b_q b)))) b).
  { unfold bsn_clear. rewrite <- foldM_flat_map. apply foldM_ext_inv with (I := same_setup b).
    - intros s b1 _ (E1 & _). rewrite E1. rewrite <- foldM_map. reflexivity.
    - intros s b1 b2 _ S1 C. eapply (@foldM_inv bsn _ (same_setup b)); [|exact S1|exact C].
      intros k b3 b4 _ S3 C'. apply modk_same in C'. eapply same_trans; eauto.
    - apply same_refl. }
  rewrite E0. set (L := flat_map _ _).
  assert (IN : forall k, In k L <-> exists s n, s < 2 * q_dim (b_q b) /\ n < q_nang (b_q b) /\ k = (s, g, n)).
  { intros k. unfold L. rewrite in_flat_map. split.
    - intros (s & Hs & Hk). apply in_map_iff in Hk. destruct Hk as (n & <- & Hn'). apply in_seq in Hs, Hn'. exists s, n. repeat split; auto; lia.
    - intros (s & n & Hs & Hn' & ->). exists s. split; [apply in_seq; lia|]. apply in_map_iff. exists n. split; auto. apply in_seq. lia. }
  destruct (@mods_spec h L b) as (b' & E & SS & F1 & F2).
  - intros k Hk. apply IN in Hk. destruct Hk as (s & n & Hs & Hn' & ->). cbn. unfold in_range.
    rewrite !andb_true_iff, !Nat.ltb_lt. auto.
  - unfold L. apply NoDup_flat_map.
    + apply seq_NoDup.
    + intros s _. apply NoDup_map_inj; [apply seq_NoDup|]. intros x y _ _ X. inversion X; auto.
    + intros s s' z _ _ Hz Hz'. apply in_map_iff in Hz, Hz'. destruct Hz as (? & <- & _), Hz' as (? & X & _). inversion X; auto.
  - exists b'. split; [exact E|]. split; [exact SS|]. destruct SS as (S1 & _). unfold flux. rewrite S1. split.
    + intros s o a (V1 & V2 & V3 & V4).
      change (b_flux b' s g (index (b_q b) o a)) with (fk b' (s, g, index (b_q b) o a)).
      rewrite F1 by (apply IN; exists s, (index (b_q b) o a); repeat split; auto; rewrite Hna; apply quad_index_range; auto).
      unfold h. cbn [fk]. split.
      * rewrite map_map. apply map_ext. intros r. apply map_length.
      * intros row x Hr Hx. apply in_map_iff in Hr. destruct Hr as (r & <- & _). apply in_map_iff in Hx. destruct Hx as (? & <- & _). auto.
    + intros s o a g' _ Hne. apply (F2 (s, g', index (b_q b) o a)). intros C. apply IN in C. destruct C as (? & ? & _ & _ & C). inversion C. auto.
Qed.

(** ** psi *)
Definition psi_table (q : quad) (out : bool) (s : nat) : list nat :=
  match rd (if out then q_out q else q_inc q) s with Ok t => t | _ => [] end.
Definition psi_side (b : bsn) (out onlyref : bool) (s : nat) : list (nat * nat) :=
  if negb onlyref || is_reflective b s
  then flat_map (fun o => map (fun a => (s, index (b_q b) o a)) (seq 0 (q_nao (b_q b)))) (psi_table (b_q b) out s) else [].
Definition psi_keys (b : bsn) (out onlyref : bool) : list (nat * nat) :=
  flat_map (psi_side b out onlyref) (seq 0 (2 * q_dim (b_q b))).
Lemma psi_table_spec q out s : sn_quad q -> s < 2 * q_dim q ->
  NoDup (psi_table q out s) /\ length (psi_table q out s) = 2 ^ (q_dim q - 1) /\
  rd (if out then q_out q else q_inc q) s = Ok (psi_table q out s) /\
  (forall o, In o (psi_table q out s) <-> if out then leaves (q_dim q) s o else enters (q_dim q) s o).
Proof.
  intros (Hd & Hn & Hna & Hi & Ho) Hs. destruct (inc_table_spec Hd Hs) as (i & u & T1 & T2 & N1 & N2 & T5 & T6 & L1 & L2).
  unfold psi_table. destruct out; [rewrite Ho, T2|rewrite Hi, T1]; auto.
Qed.
Lemma psi_loop_flat S b out onlyref (body : S -> nat -> nat -> res S) st : sn_quad (b_q b) ->
  psi_loop b out onlyref body st = foldM (fun st k => body st (fst k) (snd k)) (psi_keys b out onlyref) st.
Proof.
  intros Q. unfold psi_loop, psi_keys. rewrite <- foldM_flat_map. apply foldM_ext. intros s st' Hs. apply in_seq in Hs.
  unfold psi_side. destruct (negb onlyref || is_reflective b s); [|reflexivity].
  destruct (@psi_table_spec (b_q b) out s Q ltac:(lia)) as (_ & L & RD & _).
  destruct (@psi_table_spec (b_q b) false s Q ltac:(lia)) as (_ & Li & RDi & _).
  rewrite <- foldM_flat_map. rewrite <- (@foldM_rd nat S 0 (fun st o => foldM (fun st k => body st (fst k) (snd k)) (map (fun a => (s, index (b_q b) o a)) (seq 0 (q_nao (b_q b)))) st)).
  rewrite L. apply foldM_ext. intros o st1 Ho. apply in_seq in Ho.
  unfold incident_octant, outgoing_octant. rewrite RDi. cbn [bind]. rewrite rd_ok with (d := 0) by lia. cbn [bind].
  assert (E : (if out then do t <- rd (q_out (b_q b)) s; rd t o else Ok (nth o (psi_table (b_q b) false s) 0)) = Ok (nth o (psi_table (b_q b) out s) 0)).
  { destruct out; auto. rewrite RD. cbn [bind]. apply rd_ok. lia. }
  rewrite E. cbn [bind]. rewrite rd_ok with (d := 0) by lia. cbn [bind].
  rewrite <- foldM_map. reflexivity.
Qed.
Lemma in_psi_keys b out onlyref s n : sn_quad (b_q b) ->
  (In (s, n) (psi_keys b out onlyref) <->
   exists o a, s < 2 * q_dim (b_q b) /\ o < q_noct (b_q b) /\ a < q_nao (b_q b) /\ selected b out onlyref s o /\ n = index (b_q b) o a).
Proof.
  intros Q. pose proof Q as (Hd & Hn & _). unfold psi_keys. rewrite in_flat_map. split.
  - intros (s' & Hs & Hk). apply in_seq in Hs. unfold psi_side in Hk.
    destruct (negb onlyref || is_reflective b s') eqn:SEL; [|destruct Hk].
    apply in_flat_map in Hk. destruct Hk as (o & Ho & Hk). apply in_map_iff in Hk. destruct Hk as (a & E & Ha). inversion E; subst s'. 
    apply in_seq in Ha. destruct (@psi_table_spec (b_q b) out s Q ltac:(lia)) as (_ & _ & _ & T). apply T in Ho.
    exists o, a. repeat split; auto; try lia.
    + rewrite Hn. destruct out; apply Ho.
    + intros ->. cbn in SEL. unfold is_reflective in SEL. destruct (b_bc b s); try discriminate; auto.
  - intros (o & a & Hs & Ho & Ha & [S1 S2] & ->). exists s. split; [apply in_seq; lia|]. unfold psi_side.
    replace (negb onlyref || is_reflective b s) with true.
    + apply in_flat_map. exists o. split; [apply (@psi_table_spec (b_q b) out s Q Hs); auto|]. apply in_map_iff. exists a. split; auto. apply in_seq. lia.
    + destruct onlyref; auto. cbn. unfold is_reflective. rewrite S1; auto.
Qed.
Lemma psi_keys_NoDup b out onlyref : sn_quad (b_q b) -> NoDup (psi_keys b out onlyref).
Proof.
  intros Q. apply NoDup_flat_map.
  - apply seq_NoDup.
  - intros s Hs. apply in_seq in Hs. unfold psi_side. destruct (negb onlyref || is_reflective b s); [|constructor].
    apply NoDup_flat_map.
    + apply (@psi_table_spec (b_q b) out s Q). lia.
    + intros o _. apply NoDup_map_inj; [apply seq_NoDup|]. intros a a' Ha Ha' E. apply in_seq in Ha, Ha'. inversion E.
      apply (@quad_index_inj (b_q b) o a o a'); auto; lia.
    + intros x y z _ _ H1 H2. apply in_map_iff in H1, H2. destruct H1 as (a & <- & Ha), H2 as (a' & E & Ha').
      apply in_seq in Ha, Ha'. inversion E. symmetry. apply (@quad_index_inj (b_q b) y a' x a); auto; lia.
  - intros s s' z _ _ Hz Hz'.
    assert (G : forall s, In z (psi_side b out onlyref s) -> fst z = s).
    { intros r Hr. unfold psi_side in Hr. destruct (negb onlyref || is_reflective b r); [|destruct Hr].
      apply in_flat_map in Hr. destruct Hr as (o & _ & Hr). apply in_map_iff in Hr. destruct Hr as (a & <- & _). reflexivity. }
    rewrite <- (G s Hz). apply G. auto.
Qed.

Lemma fill_row_ok row : forall v, length row <= length v ->
  fill_row row v = Ok (firstn (length row) v, skipn (length row) v).
Proof.
  induction row as [|x row IH]; intros v H; cbn in *; [destruct v; auto|].
  destruct v as [|y v]; cbn in H; [lia|]. rewrite IH by lia. reflexivity.
Qed.
Lemma fill_row_ub row : forall v, length v < length row -> fill_row row v = UB.
Proof.
  induction row as [|x row IH]; intros v H; cbn in *; [lia|].
  destruct v as [|y v]; cbn in H; auto. rewrite IH by lia. reflexivity.
Qed.
Lemma skipn_skipn A (l : list A) : forall n m, skipn n (skipn m l) = skipn (n + m) l.
Proof.
  induction l as [|x l IH]; intros n m; [rewrite !skipn_nil; auto|]. destruct m; [rewrite Nat.add_0_r; auto|].
  rewrite Nat.add_succ_r. cbn. apply IH.
Qed.
Lemma fill_face_ok f : forall v, length (concat f) <= length v ->
  exists f', fill_face f v = Ok (f', skipn (length (concat f)) v) /\ concat f' = firstn (length (concat f)) v /\
  map (@length R) f' = map (@length R) f.
Proof.
  induction f as [|r f IH]; intros v H; cbn in *.
  - exists []. destruct v; auto.
  - rewrite app_length in *. rewrite fill_row_ok by lia. cbn [bind fst snd].
    destruct (IH (skipn (length r) v)) as (f' & E & C & M); [rewrite skipn_length; lia|].
    rewrite E. cbn [bind fst snd]. exists (firstn (length r) v :: f'). split; [|split].
    + rewrite skipn_skipn. do 2 f_equal. f_equal. lia.
    + cbn. rewrite C. rewrite <- (firstn_skipn (length r) (firstn (length r + length (concat f)) v)).
      rewrite firstn_firstn, Nat.min_l by lia. f_equal. rewrite <- (Nat.add_comm (length (concat f))). 
      rewrite skipn_firstn_comm. f_equal. lia.
    + cbn. rewrite M. f_equal. rewrite firstn_length. lia.
Qed.
Lemma face_eq (f f' : face) : map (@length R) f = map (@length R) f' -> concat f = concat f' -> f = f'.
Proof.
  revert f'. induction f as [|r f IH]; intros [|r' f'] M C; try discriminate; auto. cbn in M, C. inversion M as [[M1 M2]].
  assert (E : r = r' /\ concat f = concat f').
  { clear -M1 C. revert r' M1 C. induction r as [|x r IH]; intros [|x' r'] M C; try discriminate; cbn in *; auto.
    inversion C. destruct (IH r' ltac:(lia) H1) as [-> ->]. auto. }
  destruct E as [-> E]. f_equal. apply IH; auto.
Qed.

Definition contents (b : bsn) (g : nat) (ks : list (nat * nat)) : list R :=
  flat_map (fun k => concat (b_flux b (fst k) g (snd k))) ks.
Lemma get_contents b g ks : (forall k, In k ks -> inr b (fst k, g, snd k) = true) -> forall v,
  foldM (fun v k => do f <- getk b (fst k, g, snd k); Ok (v ++ concat f)) ks v = Ok (v ++ contents b g ks).
Proof.
  induction ks as [|k ks IH]; intros HR v; cbn [foldM contents flat_map]; [rewrite app_nil_r; auto|].
  rewrite getk_ok by (apply HR; cbn; auto). cbn [bind fk]. rewrite IH by (intros; apply HR; cbn; auto).
  unfold contents. rewrite <- app_assoc. reflexivity.
Qed.
Definition set_body (g : nat) (st : bsn * list R) (k : nat * nat) : res (bsn * list R) :=
  do f <- getk (fst st) (fst k, g, snd k);
  do p <- fill_face f (snd st);
  do b' <- setk (fst st) (fst k, g, snd k) (fst p); Ok (b', snd p).
Lemma set_contents g ks : forall b v, (forall k, In k ks -> inr b (fst k, g, snd k) = true) -> NoDup ks ->
  length (contents b g ks) <= length v ->
  exists b', foldM (set_body g) ks (b, v) = Ok (b', skipn (length (contents b g ks)) v) /\ same_setup b b' /\
  contents b' g ks = firstn (length (contents b g ks)) v /\
  (forall s n, map (@length R) (b_flux b' s g n) = map (@length R) (b_flux b s g n)) /\
  (forall s g' n, (g' = g -> ~ In (s, n) ks) -> b_flux b' s g' n = b_flux b s g' n).
Proof.
  induction ks as [|[s n] ks IH]; intros b v HR N L.
  - exists b. cbn. repeat split; auto.
  - inversion N as [|? ? Nk Nl]; subst. change (contents b g ((s, n) :: ks)) with (concat (b_flux b s g n) ++ contents b g ks) in *.
    rewrite app_length in L. cbn [foldM]. unfold set_body at 1. cbn [fst snd].
    assert (R1 : inr b (s, g, n) = true) by (apply (HR (s, n)); cbn; auto).
    rewrite getk_ok by auto. cbn [bind fk].
    destruct (@fill_face_ok (b_flux b s g n) v ltac:(lia)) as (f' & E1 & C1 & M1). rewrite E1. cbn [bind fst snd].
    destruct (setk_ok f' R1) as (b1 & E & SS & F). rewrite E. cbn [bind].
    assert (CE : contents b1 g ks = contents b g ks).
    { unfold contents. rewrite !flat_map_concat_map. f_equal. apply map_ext_in. intros [s' n'] Hk. cbn [fst snd].
      pose proof (F (s', g, n')) as F'. cbn [fk] in F'. rewrite F'. destruct (keqb (s, g, n) (s', g, n')) eqn:K; auto.
      apply keqb_eq in K. inversion K; subst. contradiction. }
    destruct (IH b1 (skipn (length (concat (b_flux b s g n))) v)) as (b' & E' & SS' & C' & M' & F'); auto.
    { intros k' Hk. rewrite (inr_same _ SS). apply HR; cbn; auto. }
    { rewrite CE, skipn_length. lia. }
    assert (FS : b_flux b' s g n = f').
    { rewrite F' by auto. pose proof (F (s, g, n)) as F0. cbn [fk] in F0. rewrite F0.
      replace (keqb (s, g, n) (s, g, n)) with true; auto. symmetry. apply keqb_eq. auto. }
    exists b'. split; [|split; [|split; [|split]]].
    + rewrite E', CE. rewrite app_length, skipn_skipn. do 2 f_equal. f_equal. lia.
    + eapply same_trans; eauto.
    + change (contents b' g ((s, n) :: ks)) with (concat (b_flux b' s g n) ++ contents b' g ks).
      rewrite FS, C1, C', CE, app_length.
      rewrite <- (firstn_skipn (length (concat (b_flux b s g n))) (firstn (length (concat (b_flux b s g n)) + length (contents b g ks)) v)).
      rewrite firstn_firstn, Nat.min_l by lia. f_equal. rewrite skipn_firstn_comm. f_equal. lia.
    + intros s' n'. rewrite M'. pose proof (F (s', g, n')) as F0. cbn [fk] in F0. rewrite F0.
      destruct (keqb (s, g, n) (s', g, n')) eqn:K; auto. apply keqb_eq in K. inversion K; subst. auto.
    + intros s' g' n' Hk. rewrite F' by (intros; intro; apply Hk; cbn; auto).
      pose proof (F (s', g', n')) as F0. cbn [fk] in F0. rewrite F0.
      destruct (keqb (s, g, n) (s', g', n')) eqn:K; auto. apply keqb_eq in K. inversion K; subst. exfalso. apply Hk; cbn; auto.
Qed.
Lemma contents_eq b b' g ks : (forall k, In k ks -> map (@length R) (b_flux b' (fst k) g (snd k)) = map (@length R) (b_flux b (fst k) g (snd k))) ->
  contents b' g ks = contents b g ks -> forall k, In k ks -> b_flux b' (fst k) g (snd k) = b_flux b (fst k) g (snd k).
Proof.
  induction ks as [|k ks IH]; intros M C k' Hk; [destruct Hk|]. unfold contents in C. cbn [flat_map] in C.
  assert (LE : length (concat (b_flux b' (fst k) g (snd k))) = length (concat (b_flux b (fst k) g (snd k)))).
  { assert (X : forall f : face, length (concat f) = list_sum (map (@length R) f)).
    { clear. induction f as [|r f IH]; cbn; auto. rewrite app_length, IH. auto. }
    rewrite !X. rewrite M by (cbn; auto). auto. }
  assert (E : forall (a a' c c' : list R), length a = length a' -> a ++ c = a' ++ c' -> a = a' /\ c = c').
  { clear. induction a as [|x a IH]; intros [|x' a'] c c' L E; try discriminate; cbn in *; auto.
    inversion E. destruct (IH a' c c' ltac:(lia) H1) as [-> ->]. auto. }
  apply E in C; auto. destruct C as [C1 C2]. destruct Hk as [<-|Hk].
  - apply face_eq; auto. apply M; cbn; auto.
  - apply IH; auto. intros; apply M; cbn; auto.
Qed.

Lemma psi_range b out onlyref g k : sn_quad (b_q b) -> g < b_ng b -> In k (psi_keys b out onlyref) -> inr b (fst k, g, snd k) = true.
Proof.
  intros Q Hg H. destruct k as [s n]. apply in_psi_keys in H; auto. destruct H as (o & a & Hs & Ho & Ha & _ & ->).
  apply valid_inr; auto. repeat split; auto.
Qed.
Lemma same_selected b b' out onlyref s o : same_setup b b' -> selected b' out onlyref s o <-> selected b out onlyref s o.
Proof. intros (E1 & E2 & E3). unfold selected. rewrite E1, E3. reflexivity. Qed.
Lemma psi_keys_same b b' out onlyref : same_setup b b' -> psi_keys b' out onlyref = psi_keys b out onlyref.
Proof. intros (E1 & E2 & E3). unfold psi_keys, psi_side, is_reflective. rewrite E1, E3. reflexivity. Qed.

Lemma psi_round_trip b g out onlyref : sn_quad (b_q b) -> g < b_ng b ->
  exists w, psi_get b g out onlyref = Ok w /\
  (forall v, length v = length w -> exists b', psi_set b g v out onlyref = Ok (b', []) /\ same_setup b b' /\
     psi_get b' g out onlyref = Ok v /\
     (forall s o a g', valid b s o a g' -> g' <> g \/ ~ selected b out onlyref s o -> flux b' s o a g' = flux b s o a g')) /\
  (exists b', psi_set b g w out onlyref = Ok (b', []) /\ forall s o a g', valid b s o a g' -> flux b' s o a g' = flux b s o a g').
Proof.
  intros Q Hg. pose proof (fun k => @psi_range b out onlyref g k Q Hg) as PR. pose proof (@psi_keys_NoDup b out onlyref Q) as PN.
  assert (G : forall b', same_setup b b' -> psi_get b' g out onlyref = Ok (contents b' g (psi_keys b out onlyref))).
  { intros b' SS. pose proof SS as (E1 & E2 & E3). unfold psi_get. rewrite psi_loop_flat by (rewrite E1; auto). rewrite (psi_keys_same _ _ SS).
    rewrite (@get_contents b' g); auto. intros k Hk. rewrite (inr_same _ SS). auto. }
  assert (ST : forall v, length v = length (contents b g (psi_keys b out onlyref)) ->
    exists b', psi_set b g v out onlyref = Ok (b', []) /\ same_setup b b' /\ contents b' g (psi_keys b out onlyref) = v /\
    (forall s n, map (@length R) (b_flux b' s g n) = map (@length R) (b_flux b s g n)) /\
    (forall s g' n, (g' = g -> ~ In (s, n) (psi_keys b out onlyref)) -> b_flux b' s g' n = b_flux b s g' n)).
  { intros v Lv. unfold psi_set. rewrite psi_loop_flat by auto.
    destruct (@set_contents g (psi_keys b out onlyref) b v PR PN ltac:(lia)) as (b' & E & SS & C & M & F).
    exists b'. rewrite <- Lv, skipn_all in E. rewrite <- Lv, firstn_all in C. auto. }
  exists (contents b g (psi_keys b out onlyref)). split; [apply G; apply same_refl|]. split.
  - intros v Lv. destruct (ST v Lv) as (b' & E & SS & C & M & F). exists b'. split; auto. split; auto. split; [rewrite G by auto; congruence|].
    intros s o a g' (V1 & V2 & V3 & V4) HX. unfold flux. destruct SS as (S1 & _). rewrite S1. apply F. intros -> C'.
    apply in_psi_keys in C'; auto. destruct C' as (o' & a' & _ & _ & Ha & SEL & X). apply quad_index_inj in X; auto.
    destruct X as [<- <-]. destruct HX; auto.
  - destruct (ST (contents b g (psi_keys b out onlyref)) eq_refl) as (b' & E & SS & C & M & F). exists b'. split; auto.
    intros s o a g' (V1 & V2 & V3 & V4). unfold flux. destruct SS as (S1 & _). rewrite S1.
    destruct (Nat.eq_dec g' g) as [->|Hne]; [|apply F; congruence].
    destruct (in_dec (fun x y : nat * nat => ltac:(decide equality; apply Nat.eq_dec)) (s, index (b_q b) o a) (psi_keys b out onlyref)) as [Hin|Hout].
    + apply (@contents_eq b b' g (psi_keys b out onlyref)) with (k := (s, index (b_q b) o a)); auto.
    + apply F; auto.
Qed.

(** The buffer length callers allocate. *)
Lemma flat_map_len A B (f : A -> list B) l n : (forall x, In x l -> length (f x) = n) -> length (flat_map f l) = length l * n.
Proof. induction l as [|x l IH]; intros H; cbn; auto. rewrite app_length, IH, H by (intros; try apply H; cbn; auto). auto. Qed.
Lemma list_sum_repeat n k : list_sum (repeat n k) = k * n.
Proof. induction k; cbn; auto. Qed.
Lemma psi_buffer b g nx ny nz out onlyref : sn_quad (b_q b) -> g < b_ng b -> shaped b nx ny nz ->
  exists w, psi_get b g out onlyref = Ok w /\
  length w = list_sum (map (fun s => if negb onlyref || is_reflective b s then flux_size (q_dim (b_q b)) (q_nang (b_q b)) nx ny nz s / 2 else 0)
                           (seq 0 (2 * q_dim (b_q b)))).
Proof.
  intros Q Hg SH. pose proof Q as (Hd & Hn & Hna & _). unfold psi_get. rewrite psi_loop_flat by auto.
  rewrite (@get_contents b g) by (intros k; apply psi_range; auto).
  eexists. split; [reflexivity|]. cbn [app]. unfold contents, psi_keys.
  assert (FC : forall s o a, valid b s o a g -> length (concat (flux b s o a g)) = face_rows (q_dim (b_q b)) nx ny nz s * face_cols (q_dim (b_q b)) nx ny nz s).
  { intros s o a V. assert (X : forall f : face, length (concat f) = list_sum (map (@length R) f)).
    { clear. induction f as [|r f IH]; cbn; auto. rewrite app_length, IH. auto. }
    rewrite X, SH by auto. apply list_sum_repeat. }
  assert (GEN : forall l, (forall s, In s l -> s < 2 * q_dim (b_q b)) ->
    length (flat_map (fun k => concat (b_flux b (fst k) g (snd k))) (flat_map (psi_side b out onlyref) l)) =
    list_sum (map (fun s => if negb onlyref || is_reflective b s then flux_size (q_dim (b_q b)) (q_nang (b_q b)) nx ny nz s / 2 else 0) l)).
  2:{ apply GEN. intros s Hs. apply in_seq in Hs. lia. }
  induction l as [|s l IH]; intros Hl; auto. cbn [flat_map map list_sum fold_right].
  rewrite flat_map_app, app_length, IH by (intros; apply Hl; cbn; auto). unfold list_sum. f_equal.
  assert (Hs : s < 2 * q_dim (b_q b)) by (apply Hl; cbn; auto).
  unfold psi_side. destruct (negb onlyref || is_reflective b s); auto.
  destruct (@psi_table_spec (b_q b) out s Q Hs) as (_ & L & _ & T).
  assert (LK : length (flat_map (fun o => map (fun a => (s, index (b_q b) o a)) (seq 0 (q_nao (b_q b)))) (psi_table (b_q b) out s)) = 2 ^ (q_dim (b_q b) - 1) * q_nao (b_q b)).
  { rewrite (@flat_map_len _ _ _ _ (q_nao (b_q b))); [rewrite L; auto|]. intros o _. rewrite map_length, seq_length. auto. }
  rewrite (@flat_map_len _ _ _ _ (face_rows (q_dim (b_q b)) nx ny nz s * face_cols (q_dim (b_q b)) nx ny nz s)).
  - rewrite LK. clear -Hd Hn Hna Hs. rewrite Hna, Hn.
    assert (q_dim (b_q b) = 1 \/ q_dim (b_q b) = 2 \/ q_dim (b_q b) = 3) as [E|[E|E]] by lia; rewrite E in *; cbn [Nat.sub Nat.pow face_rows face_cols flux_size].
    + symmetry. replace (2 * 1 * q_nao (b_q b)) with (q_nao (b_q b) * 2) by lia. rewrite Nat.div_mul by lia. lia.
    + destruct (s <? 2); symmetry;
      [replace (2 * (2 * 1) * q_nao (b_q b) * ny) with (2 * q_nao (b_q b) * ny * 2) by lia|replace (2 * (2 * 1) * q_nao (b_q b) * nx) with (2 * q_nao (b_q b) * nx * 2) by lia];
      rewrite Nat.div_mul by lia; lia.
    + destruct (Nat.ltb_spec s 2) as [H2|H2]; [replace (s <? 4) with true by (symmetry; apply Nat.ltb_lt; lia)|destruct (Nat.ltb_spec s 4)]; symmetry.
      * replace (2 * (2 * (2 * 1)) * q_nao (b_q b) * nz * ny) with (4 * q_nao (b_q b) * nz * ny * 2) by lia. rewrite Nat.div_mul by lia. lia.
      * replace (2 * (2 * (2 * 1)) * q_nao (b_q b) * nz * nx) with (4 * q_nao (b_q b) * nz * nx * 2) by lia. rewrite Nat.div_mul by lia. lia.
      * replace (2 * (2 * (2 * 1)) * q_nao (b_q b) * ny * nx) with (4 * q_nao (b_q b) * ny * nx * 2) by lia. rewrite Nat.div_mul by lia. lia.
  - intros k Hk. apply in_flat_map in Hk. destruct Hk as (o & Ho & Hk). apply in_map_iff in Hk. destruct Hk as (a & <- & Ha). apply in_seq in Ha.
    cbn [fst snd]. apply FC. repeat split; auto; try lia. rewrite Hn. apply T in Ho. destruct out; apply Ho.
Qed.
Lemma new_shaped q ng nx ny nz c : shaped (boundary_new q ng nx ny nz c) nx ny nz.
Proof.
  intros s o a g _. unfold flux, boundary_new, zero_face. cbn [b_flux b_q].
  generalize (face_rows (q_dim q) nx ny nz s) as r. induction r as [|r IH]; cbn; auto. rewrite IH, repeat_length. auto.
Qed.
