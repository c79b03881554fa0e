(** * SweepAll_Proofs: sweeps over all octants and angles, serial and threaded. *)
From Verif Require Import Base BaseR Loop Mesh_Model Mesh_Proofs Angle_Model Angle_Spec Angle_Proofs Boundary_Model
  Boundary_Spec Boundary_Proofs Cell_Model Cell_Spec Cell_Proofs Sweep_Model Sweep_Spec Sweep_Proofs SweepBalance_Proofs.
Open Scope nat_scope.
Set Implicit Arguments. Unset Strict Implicit.

(** ** Faces *)
Definition face_tables (dim o : nat) : bool :=
  (if list_eq_dec Nat.eq_dec (in_faces dim o) (map (in_side o) (seq 0 dim)) then true else false) &&
  (if list_eq_dec Nat.eq_dec (out_faces dim o) (map (out_side o) (seq 0 dim)) then true else false).
Lemma faces_ok dim o : 0 < dim < 4 -> o < 2 ^ dim ->
  in_faces dim o = map (in_side o) (seq 0 dim) /\ out_faces dim o = map (out_side o) (seq 0 dim).
Proof.
  intros Hd Ho. assert (H : face_tables dim o = true).
  { destruct dim as [|[|[|[|d]]]]; try lia; simpl in Ho;
    do 8 (destruct o as [|o]; [try reflexivity; lia|]); lia. }
  unfold face_tables in H. apply andb_true_iff in H. destruct H as [H1 H2].
  destruct (list_eq_dec Nat.eq_dec (in_faces dim o) _); try discriminate.
  destruct (list_eq_dec Nat.eq_dec (out_faces dim o) _); try discriminate. auto.
Qed.
Lemma signs_pm o axis : (octant_signs o axis = 1 \/ octant_signs o axis = -1)%Z.
Proof. unfold octant_signs. repeat match goal with |- context [match ?x with _ => _ end] => destruct x end; auto. Qed.
Lemma in_side_div o x : in_side o x / 2 = x /\ (Nat.even (in_side o x) = positive o x).
Proof.
  unfold in_side. destruct (positive o x).
  - replace (2 * x + 0) with (x * 2) by lia. rewrite Nat.div_mul by lia. split; auto.
    rewrite Nat.mul_comm. apply Nat.even_spec. exists x; auto.
  - split; [rewrite Nat.mul_comm, Nat.add_comm, Nat.div_add by lia; auto|].
    replace (2 * x + 1) with (S (2 * x)) by lia. rewrite Nat.even_succ, <- Nat.negb_even.
    replace (Nat.even (2 * x)) with true; auto. symmetry. apply Nat.even_spec. exists x; auto.
Qed.
Lemma out_side_div o x : out_side o x / 2 = x /\ (Nat.even (out_side o x) = negb (positive o x)).
Proof.
  unfold out_side. destruct (positive o x).
  - split; [rewrite Nat.mul_comm, Nat.add_comm, Nat.div_add by lia; auto|].
    replace (2 * x + 1) with (S (2 * x)) by lia. rewrite Nat.even_succ, <- Nat.negb_even.
    replace (Nat.even (2 * x)) with true; auto. symmetry. apply Nat.even_spec. exists x; auto.
  - replace (2 * x + 0) with (x * 2) by lia. rewrite Nat.div_mul by lia. split; auto.
    rewrite Nat.mul_comm. apply Nat.even_spec. exists x; auto.
Qed.
Lemma in_side_enters dim o x : o < 2 ^ dim -> enters dim (in_side o x) o.
Proof.
  intros Ho. split; auto. destruct (in_side_div o x) as [-> ->]. unfold positive.
  destruct (signs_pm o x) as [-> | ->]; reflexivity.
Qed.
Lemma out_side_leaves dim o x : o < 2 ^ dim -> leaves dim (out_side o x) o.
Proof.
  intros Ho. split; auto. destruct (out_side_div o x) as [-> ->]. unfold positive.
  destruct (signs_pm o x) as [-> | ->]; reflexivity.
Qed.
Lemma in_side_lt o x dim : x < dim -> in_side o x < 2 * dim.
Proof. unfold in_side. destruct (positive o x); lia. Qed.
Lemma out_side_lt o x dim : x < dim -> out_side o x < 2 * dim.
Proof. unfold out_side. destruct (positive o x); lia. Qed.
Lemma side_cases o s : s = in_side o (s / 2) \/ s = out_side o (s / 2).
Proof.
  unfold in_side, out_side. pose proof (Nat.div_mod s 2 ltac:(lia)). pose proof (Nat.mod_upper_bound s 2 ltac:(lia)).
  destruct (positive o (s / 2)); lia.
Qed.
Lemma side_out o s x : In s (map (out_side o) (seq 0 x)) -> leaves 3 s o \/ 8 <= o.
Proof.
  intros H. apply in_map_iff in H. destruct H as (y & <- & _). destruct (Nat.lt_ge_cases o 8); auto.
  left. apply out_side_leaves. cbn. lia.
Qed.
Lemma enters_out dim s o x : enters dim s o -> ~ In s (map (out_side o) (seq 0 x)).
Proof.
  intros E H. apply in_map_iff in H. destruct H as (y & <- & _).
  eapply enters_not_leaves; [exact E|]. apply out_side_leaves. apply E.
Qed.
Lemma mirrored_neq dim s o o' : s < 2 * dim -> mirrored dim s o o' -> o' <> o.
Proof.
  intros Hs (H & M) ->. specialize (M (s / 2)). rewrite Nat.eqb_refl in M.
  assert (s / 2 < dim) by (apply Nat.div_lt_upper_bound; lia). specialize (M H0).
  destruct (signs_pm o (s / 2)) as [E | E]; rewrite E in M; lia.
Qed.
Lemma out_side_inj o x y : out_side o x = out_side o y -> x = y.
Proof. intros E. destruct (out_side_div o x) as [<- _]. rewrite E. apply out_side_div. Qed.
Lemma face_shape_axis dim nx ny nz s : face_rows dim nx ny nz s = face_rows dim nx ny nz (2 * (s / 2)) /\
  face_cols dim nx ny nz s = face_cols dim nx ny nz (2 * (s / 2)).
Proof.
  pose proof (Nat.div_mod s 2 ltac:(lia)). pose proof (Nat.mod_upper_bound s 2 ltac:(lia)).
  assert (A : (s <? 4) = (2 * (s / 2) <? 4)).
  { destruct (Nat.ltb_spec s 4), (Nat.ltb_spec (2 * (s / 2)) 4); auto; lia. }
  assert (B : (s <? 2) = (2 * (s / 2) <? 2)).
  { destruct (Nat.ltb_spec s 2), (Nat.ltb_spec (2 * (s / 2)) 2); auto; lia. }
  unfold face_rows, face_cols. rewrite A, B. auto.
Qed.

(** ** Order *)
Lemma precedes_In A (l : list A) x y : precedes l x y -> In x l /\ In y l.
Proof. intros (l1 & l2 & -> & H). rewrite !in_app_iff. cbn. auto. Qed.
Lemma precedes_snoc A (l : list A) z x y : NoDup (l ++ [z]) -> In y l -> precedes (l ++ [z]) x y <-> precedes l x y.
Proof.
  intros N Hy. assert (Hz : y <> z).
  { intros ->. apply NoDup_remove_2 in N. rewrite app_nil_r in N. auto. }
  split.
  - intros (l1 & l2 & E & Hx). destruct l2 as [|w l2] using rev_ind.
    + apply app_inj_tail in E. destruct E as (_ & E). congruence.
    + clear IHl2. rewrite app_comm_cons, app_assoc in E. apply app_inj_tail in E. destruct E as (-> & ->).
      exists l1, l2. auto.
  - intros (l1 & l2 & -> & Hx). exists l1, (l2 ++ [z]). rewrite <- app_assoc. auto.
Qed.
Lemma precedes_asym A (l : list A) x y : NoDup l -> precedes l x y -> ~ precedes l y x.
Proof.
  intros N (l1 & l2 & E & Hx) (l3 & l4 & E' & Hy).
  apply in_split in Hx. destruct Hx as (m1 & m2 & ->). apply in_split in Hy. destruct Hy as (k1 & k2 & ->).
  rewrite <- app_assoc in E, E'. cbn in E, E'.
  assert (C : forall (m k r r' : list A) x, NoDup (m ++ x :: r) -> m ++ x :: r = k ++ x :: r' -> m = k /\ r = r').
  { clear. induction m as [|a m IH]; intros k r r' x N E.
    - destruct k as [|b k]; cbn in E; inversion E; subst; auto.
      inversion N as [|? ? Nx _]; subst. exfalso. apply Nx. rewrite in_app_iff. cbn. auto.
    - destruct k as [|b k]; cbn in E; inversion E; subst.
      + inversion N as [|? ? Nx _]; subst. exfalso. apply Nx. rewrite in_app_iff. cbn. auto.
      + inversion N; subst. destruct (IH k r r' x); auto. subst; auto. }
  assert (E2 : m1 ++ x :: m2 ++ y :: l2 = (k1 ++ y :: k2) ++ x :: l4) by (rewrite <- app_assoc; cbn; congruence).
  rewrite E in N. destruct (C _ _ _ _ _ N E2) as (-> & _).
  rewrite <- app_assoc in N. cbn in N. apply NoDup_remove_2 in N. apply N.
  rewrite !in_app_iff. cbn. rewrite !in_app_iff. cbn. auto 10.
Qed.
Lemma precedes_total (l : list nat) x y : In x l -> In y l -> x <> y -> precedes l x y \/ precedes l y x.
Proof.
  intros Hx Hy D. apply in_split in Hy. destruct Hy as (l1 & l2 & ->).
  apply in_app_iff in Hx. destruct Hx as [Hx|[Hx|Hx]].
  - left. exists l1, l2. auto.
  - congruence.
  - right. apply in_split in Hx. destruct Hx as (m1 & m2 & ->). exists (l1 ++ y :: m1), m2.
    rewrite <- app_assoc. cbn. split; auto. rewrite in_app_iff. cbn. auto.
Qed.
Lemma precedes_block A (As : nat -> list A) ord o o' a : In a (As o) -> In a (As o') -> precedes ord o' o ->
  precedes (flat_map (fun o => map (pair o) (As o)) ord) (o', a) (o, a).
Proof.
  intros Ha Ha' (l1 & l2 & -> & Hx). apply in_split in Ha. destruct Ha as (u & v & E).
  exists (flat_map (fun o => map (pair o) (As o)) l1 ++ map (pair o) u),
    (map (pair o) v ++ flat_map (fun o => map (pair o) (As o)) l2).
  rewrite flat_map_app. cbn [flat_map]. rewrite E, map_app. cbn [map]. rewrite <- !app_assoc. cbn [app]. split; auto.
  rewrite in_app_iff. left. apply in_flat_map. exists o'. split; auto. apply in_map. auto.
Qed.

(** ** Storing the outgoing faces *)
Lemma flux_fk b s o a g : flux b s o a g = fk b (s, g, Angle_Model.index (b_q b) o a).
Proof. reflexivity. Qed.
Lemma key_eq q s o a g s' o' a' g' : a < q_nao q -> a' < q_nao q ->
  keqb (s, g, Angle_Model.index q o a) (s', g', Angle_Model.index q o' a') = true <-> s = s' /\ o = o' /\ a = a' /\ g = g'.
Proof.
  intros Ha Ha'. rewrite keqb_eq. split.
  - intros E. inversion E. destruct (index_dm o Ha) as [D1 D2]. destruct (index_dm o' Ha') as [D3 D4].
    rewrite <- H2 in D3, D4. subst. repeat split; congruence.
  - intros (-> & -> & -> & ->). auto.
Qed.
Lemma write_ok g o a ss : forall b outs, sn_quad (b_q b) -> length outs = length ss -> NoDup ss ->
  (forall s, In s ss -> valid b s o a g) ->
  exists b', foldM (fun b sf => setk b (key b (fst sf) o a g) (snd sf)) (combine ss outs) b = Ok b' /\ same_setup b b' /\
  map (fun s => flux b' s o a g) ss = outs /\
  forall s o' a' g', valid b s o' a' g' -> ~ In s ss \/ g' <> g \/ o' <> o \/ a' <> a -> flux b' s o' a' g' = flux b s o' a' g'.
Proof.
  induction ss as [|s ss IH]; intros b [|f outs] Q L N V; try discriminate; cbn [combine foldM fst snd map].
  - exists b. repeat split; auto.
  - inversion N as [|? ? Ns Nss]; subst. assert (Vs : valid b s o a g) by (apply V; cbn; auto).
    destruct (@setk_ok b (key b s o a g) f) as (b1 & E & SS & F); [apply valid_inr; auto|].
    unfold key in *. rewrite E. cbn [bind].
    pose proof SS as (S1 & S2 & S3).
    destruct (IH b1 outs) as (b' & E' & SS' & M & FR); auto.
    { rewrite S1; auto. } { intros s' Hs'. unfold valid. rewrite S1, S2. apply V; cbn; auto. }
    exists b'. split; [rewrite <- E'; auto|]. split; [eapply same_trans; eauto|]. split.
    + f_equal; auto. rewrite FR; auto.
      * rewrite flux_fk, S1, F. destruct (keqb _ _) eqn:K; auto. exfalso.
        assert (K2 : keqb (s, g, Angle_Model.index (b_q b) o a) (s, g, Angle_Model.index (b_q b) o a) = true) by (apply keqb_eq; auto).
        congruence.
      * unfold valid. rewrite S1, S2. auto.
    + intros s' o' a' g' V' H. rewrite FR.
      * rewrite !flux_fk, S1, F. destruct (keqb _ _) eqn:K; auto. exfalso. apply key_eq in K; [|apply Vs|apply V'].
        destruct K as (-> & -> & -> & ->). destruct H as [H|[H|[H|H]]]; auto. apply H; cbn; auto.
      * unfold valid. rewrite S1, S2. auto.
      * destruct H as [H|H]; auto. left. intros X. apply H. cbn; auto.
Qed.

Section Kernel.
(** A kernel on n cells in a quadrature with nq angles per octant. *)
Variables (K : kernel) (Sol : relation) (W : nat -> R) (n : nat) (keep upd : bool) (g nx ny nz dim nq : nat).
Definition runs (o a : nat) (ins outs : list face) (pc : nat -> R) : Prop :=
  forall phi psi, length phi = n -> (keep = true -> length psi = n) ->
  exists phi' psi', K o a ins phi psi = Ok (outs, phi', psi') /\ adds n (W a) pc phi phi' /\ stores n keep pc psi psi'.
Definition shape_ok (fs : list face) : Prop :=
  map (map (@length R)) fs =
  map (fun x => repeat (face_cols dim nx ny nz (2 * x)) (face_rows dim nx ny nz (2 * x))) (seq 0 dim).
Definition good_kernel : Prop := forall o a ins, o < 2 ^ dim -> a < nq -> shape_ok ins ->
  exists outs pc, shape_ok outs /\ Sol o a ins outs pc /\ runs o a ins outs pc.
Hypothesis HK : good_kernel.
Definition good : relation := fun o a ins outs pc => Sol o a ins outs pc /\ runs o a ins outs pc.
Definition paired (b : bsn) : Prop :=
  forall s s', s < 2 * q_dim (b_q b) -> opposite s s' -> b_bc b s = Periodic -> b_bc b s' = Periodic.
Definition setting (b : bsn) : Prop :=
  sn_quad (b_q b) /\ q_dim (b_q b) = dim /\ q_nao (b_q b) = nq /\ g < b_ng b /\ paired b /\ shaped b nx ny nz.

Lemma setting_same b b' : setting b -> same_setup b b' -> shaped b' nx ny nz -> setting b'.
Proof.
  intros (Q & D & N & G & P & _) (S1 & S2 & S3) Sh. unfold setting, paired. rewrite S1, S2, S3. repeat split; auto; apply Q.
Qed.
Lemma valid_same b b' s o a g' : same_setup b b' -> valid b' s o a g' <-> valid b s o a g'.
Proof. intros (S1 & S2 & S3). unfold valid. rewrite S1, S2. tauto. Qed.

(** One angle. *)
Record stepped (o a : nat) (b : bsn) (phi : list R) (psi : nat -> nat -> list R) (b1 : bsn) (phi1 : list R) (p1 : list R)
    (pc : nat -> R) : Prop := {
  st_setup : same_setup b b1;
  st_shaped : shaped b1 nx ny nz;
  st_sol : good o a (ins_of b1 o a g) (outs_of b1 o a g) pc;
  st_phi : adds n (W a) pc phi phi1;
  st_psi : stores n keep pc (psi o a) p1;
  st_frame : forall s o' a' g', valid b s o' a' g' -> g' <> g \/ o' <> o \/ a' <> a -> flux b1 s o' a' g' = flux b s o' a' g';
  st_plain : forall s, valid b s o a g -> enters dim s o -> upd = false \/ (b_bc b s <> Reflect /\ b_bc b s <> Periodic) ->
    flux b1 s o a g = flux b s o a g;
  st_reflect : upd = true -> forall s o', valid b s o a g -> enters dim s o -> b_bc b s = Reflect -> mirrored dim s o o' ->
    flux b1 s o a g = flux b s o' a g;
  st_periodic : upd = true -> forall s s', valid b s o a g -> leaves dim s o -> opposite s s' -> b_bc b s = Periodic ->
    flux b1 s' o a g = flux b s o a g
}.

Lemma opposite_enters s s' o : s < 2 * dim -> opposite s s' -> leaves dim s o -> s' < 2 * dim /\ enters dim s' o.
Proof.
  intros Hs (D & Ne) (Ho & L).
  pose proof (Nat.div_mod s 2 ltac:(lia)) as A. pose proof (Nat.mod_upper_bound s 2 ltac:(lia)) as B.
  pose proof (Nat.div_mod s' 2 ltac:(lia)) as A'. pose proof (Nat.mod_upper_bound s' 2 ltac:(lia)) as B'.
  assert (s / 2 < dim) by (apply Nat.div_lt_upper_bound; lia).
  split; [rewrite D in A'; lia|]. split; auto. rewrite D, L.
  assert (Ev : forall t, Nat.even t = (t mod 2 =? 0)).
  { intros t. pose proof (Nat.div_mod t 2 ltac:(lia)) as E. pose proof (Nat.mod_upper_bound t 2 ltac:(lia)).
    destruct (Nat.eqb_spec (t mod 2) 0) as [Z|Z].
    - apply Nat.even_spec. exists (t / 2). lia.
    - destruct (Nat.even t) eqn:Ev; auto. apply Nat.even_spec in Ev. destruct Ev as (m & ->).
      rewrite Nat.mul_comm, Nat.mod_mul in Z by lia. congruence. }
  rewrite !Ev. destruct (Nat.eqb_spec (s mod 2) 0), (Nat.eqb_spec (s' mod 2) 0); auto; exfalso; apply Ne; lia.
Qed.

Lemma before_angle b o a : setting b -> o < 2 ^ dim -> a < nq ->
  exists b1, (if upd then bsn_update_angle b g o a else Ok b) = Ok b1 /\ same_setup b b1 /\
  (forall s o' a' g', valid b s o' a' g' -> g' <> g \/ o' <> o \/ a' <> a -> flux b1 s o' a' g' = flux b s o' a' g') /\
  (forall s, valid b s o a g -> upd = false \/ (b_bc b s <> Reflect /\ b_bc b s <> Periodic) -> flux b1 s o a g = flux b s o a g) /\
  (forall s, valid b s o a g -> leaves dim s o -> flux b1 s o a g = flux b s o a g) /\
  (upd = true -> forall s o', valid b s o a g -> enters dim s o -> b_bc b s = Reflect -> mirrored dim s o o' -> flux b1 s o a g = flux b s o' a g) /\
  (upd = true -> forall s s', valid b s o a g -> leaves dim s o -> opposite s s' -> b_bc b s = Periodic -> flux b1 s' o a g = flux b s o a g).
Proof.
  intros (Q & D & N & G & P & Sh) Ho Ha. destruct upd eqn:U.
  - destruct (@update_angle b g o a) as (b1 & E & SS & R1 & P1 & F1); auto; try congruence.
    { destruct Q as (_ & -> & _). rewrite D. auto. }
    rewrite D in *.
    exists b1. split; auto. split; auto. split; [|split; [|split; [|split]]].
    + intros. apply F1; auto. tauto.
    + intros s V [H|H]; [discriminate|]. apply F1; auto.
    + intros s V H. apply F1; auto.
    + intros _ s o' V H1 H2 H3. apply R1; auto. rewrite <- D. apply V.
    + intros _ s s' V H1 H2 H3. eapply P1; eauto. rewrite <- D. apply V.
  - exists b. repeat split; auto; intros; discriminate.
Qed.

Lemma shape_ins b o a : setting b -> o < 2 ^ dim -> a < nq -> shape_ok (ins_of b o a g).
Proof.
  intros (Q & D & N & G & P & Sh) Ho Ha. unfold shape_ok, ins_of. rewrite D, map_map. apply map_ext_in. intros x Hx.
  apply in_seq in Hx. assert (V : valid b (in_side o x) o a g).
  { repeat split; auto; try congruence. - rewrite D. apply in_side_lt. lia. - destruct Q as (_ & -> & _). rewrite D. auto. }
  rewrite (Sh _ _ _ _ V), D. destruct (face_shape_axis dim nx ny nz (in_side o x)) as [-> ->].
  destruct (in_side_div o x) as [-> _]. auto.
Qed.

Lemma mapM_ok' A B (f : A -> res B) (h : A -> B) l : (forall x, In x l -> f x = Ok (h x)) -> mapM f l = Ok (map h l).
Proof.
  induction l as [|x l IH]; intros H; cbn; auto. rewrite H by (cbn; auto). cbn [bind]. rewrite IH by (intros; apply H; cbn; auto). auto.
Qed.

Lemma angle_step b phi psi o a : setting b -> o < 2 ^ dim -> a < nq -> length phi = n -> (keep = true -> length (psi o a) = n) ->
  exists b1 phi1 p1 pc, sweep_angle K upd g (b, phi, psi) o a = Ok (b1, phi1, put2 psi o a p1) /\
    stepped o a b phi psi b1 phi1 p1 pc.
Proof.
  intros ST Ho Ha Hphi Hpsi. pose proof ST as (Q & D & N & G & P & Sh).
  destruct (before_angle ST Ho Ha) as (b1 & E1 & SS1 & F1 & PL & LV & RF & PR).
  pose proof SS1 as (S1 & S2 & S3). unfold sweep_angle. rewrite E1. cbn [bind].
  destruct Q as (Qd & Qn & Qr). assert (Q : sn_quad (b_q b)) by (repeat split; auto; apply Qr || apply Qd).
  assert (V : forall s, s < 2 * dim -> valid b s o a g).
  { intros s Hs. repeat split; auto; rewrite ?Qn, ?D, ?N; auto. }
  assert (Hdim : 0 < dim < 4) by (rewrite <- D; auto).
  destruct (@faces_ok dim o Hdim Ho) as (FI & FO).
  assert (Sh1 : shaped b1 nx ny nz).
  { intros s o' a' g' V'. pose proof V' as V''. rewrite (valid_same _ _ _ _ SS1) in V''. rewrite S1.
    assert (dec : (g' <> g \/ o' <> o \/ a' <> a) \/ (g' = g /\ o' = o /\ a' = a)) by lia.
    destruct dec as [dd|(-> & -> & ->)].
    - rewrite F1 by auto. apply Sh; auto.
    - destruct (Bool.bool_dec upd false) as [U|U]; [rewrite PL by auto; apply Sh; auto|].
      assert (U' : upd = true) by (destruct upd; auto; congruence). clear U.
      destruct (side_cases o s) as [Es|Es].
      + assert (En : enters dim s o) by (rewrite Es; apply in_side_enters; auto).
        assert (Hs : s < 2 * dim) by (rewrite <- D; apply V'').
        destruct (b_bc b s) eqn:Bs; try (rewrite PL by (auto; right; rewrite Bs; split; discriminate); apply Sh; auto).
        * (* reflect *)
          destruct (@octants_spec dim s Hdim Hs) as (_ & _ & _ & PP & PE & _).
          destruct (PE _ En) as (o' & Hin). destruct (PP _ _ Hin) as (_ & L' & M).
          rewrite (@RF U' s o') by auto. apply Sh.
          destruct (V s Hs) as (v1 & v2 & v3 & v4). repeat split; auto. rewrite Qn, D. apply L'.
        * (* periodic *)
          destruct (pside Hdim Hs) as (Hs' & Hop & _).
          set (s' := periodic_side s) in *.
          assert (Bs' : b_bc b s' = Periodic) by (apply (P s); auto; rewrite D; auto).
          assert (Hop' : opposite s' s) by (destruct Hop as (A & B); split; auto).
          assert (Lv : leaves dim s' o).
          { destruct (side_cases o s') as [E'|E'].
            - exfalso. destruct Hop as (A & B). apply B. rewrite Es, E', A. auto.
            - rewrite E'. apply out_side_leaves. auto. }
          rewrite (@PR U' s' s) by auto. rewrite Sh by auto.
          rewrite D. destruct (face_shape_axis dim nx ny nz s) as [-> ->].
          destruct (face_shape_axis dim nx ny nz s') as [-> ->]. destruct Hop as (-> & _). auto.
      + rewrite LV; [apply Sh; auto|auto|]. rewrite Es. apply out_side_leaves. auto. }
  assert (ST1 : setting b1) by (eapply setting_same; eauto).
  assert (RF1 : read_faces b1 g o a = Ok (ins_of b1 o a g)).
  { unfold read_faces, ins_of. rewrite S1, D, FI, <- (map_map (in_side o) (fun s => flux b1 s o a g)). apply mapM_ok'.
    intros s Hs. apply in_map_iff in Hs. destruct Hs as (x & <- & Hx). apply in_seq in Hx.
    rewrite getk_ok; auto. apply valid_inr; [rewrite S1; auto|]. apply (valid_same _ _ _ _ SS1). apply V. apply in_side_lt. lia. }
  rewrite RF1. cbn [bind].
  destruct (HK Ho Ha (shape_ins ST1 Ho Ha)) as (outs & pc & SO & SOL & RUN).
  destruct (RUN phi (psi o a) Hphi Hpsi) as (phi' & p' & EK & AD & STO). rewrite EK. cbn [bind].
  unfold write_faces. rewrite S1, D, FO.
  assert (LO : length outs = dim).
  { apply (f_equal (@length _)) in SO. rewrite !map_length, seq_length in SO. auto. }
  destruct (@write_ok g o a (map (out_side o) (seq 0 dim)) b1 outs) as (b2 & E2 & SS2 & MO & FR).
  { rewrite S1; auto. } { rewrite map_length, seq_length; auto. }
  { apply NoDup_map_inj; [apply seq_NoDup|]. intros x y _ _. apply out_side_inj. }
  { intros s Hs. apply in_map_iff in Hs. destruct Hs as (x & <- & Hx). apply in_seq in Hx.
    apply (valid_same _ _ _ _ SS1). apply V. apply out_side_lt. lia. }
  rewrite E2. cbn [bind]. exists b2, phi', p', pc. split; auto.
  assert (SSb : same_setup b b2) by (eapply same_trans; eauto). pose proof SSb as (T1 & T2 & T3).
  assert (IE : forall s, s < 2 * dim -> enters dim s o -> flux b2 s o a g = flux b1 s o a g).
  { intros s Hs En. apply FR; [apply (valid_same _ _ _ _ SS1); auto|]. left. eapply enters_out; eauto. }
  assert (II : ins_of b2 o a g = ins_of b1 o a g).
  { unfold ins_of. rewrite T1, S1, D. apply map_ext_in. intros x Hx. apply in_seq in Hx. apply IE; [apply in_side_lt; lia|apply in_side_enters; auto]. }
  assert (OO : outs_of b2 o a g = outs).
  { unfold outs_of. rewrite T1, D, <- MO, map_map. auto. }
  constructor; auto.
  - (* shaped *)
    intros s o' a' g' V'. pose proof V' as V''. rewrite (valid_same _ _ _ _ SSb) in V''. rewrite T1.
    pose proof V'' as V1. rewrite <- (valid_same _ _ _ _ SS1) in V1.
    assert (dec : (g' <> g \/ o' <> o \/ a' <> a) \/ (g' = g /\ o' = o /\ a' = a)) by lia.
    destruct dec as [dd|(-> & -> & ->)]; [rewrite FR by tauto; rewrite <- S1; apply Sh1; auto|].
    destruct (side_cases o s) as [Es|Es].
    + rewrite IE; [rewrite <- S1; apply Sh1; auto| rewrite <- D; apply V''|]. rewrite Es. apply in_side_enters; auto.
    + assert (Hx : s / 2 < dim) by (apply Nat.div_lt_upper_bound; [lia|]; rewrite <- D; apply V'').
      assert (X : flux b2 s o a g = nth (s / 2) outs []).
      { rewrite <- OO. unfold outs_of. rewrite T1, D, nth_map_seq by auto. rewrite <- Es. auto. }
      rewrite X. assert (Y : map (@length R) (nth (s / 2) outs []) =
        repeat (face_cols dim nx ny nz (2 * (s / 2))) (face_rows dim nx ny nz (2 * (s / 2)))).
      { pose proof (map_nth (map (@length R)) outs [] (s / 2)) as Mn. etransitivity; [symmetry; exact Mn|].
        unfold shape_ok in SO. etransitivity; [apply (f_equal (fun l => nth (s / 2) l [])); exact SO|]. rewrite nth_map_seq by auto. auto. }
      rewrite Y, D. destruct (face_shape_axis dim nx ny nz s) as [-> ->]. auto.
  - rewrite II, OO. split; auto.
  - intros s o' a' g' V' dd. rewrite FR by (rewrite ?(valid_same _ _ _ _ SS1); tauto). apply F1; auto.
  - intros s V' En H. rewrite IE by (auto; rewrite <- D; apply V'). apply PL; auto.
  - intros U s o' V' En B M. rewrite IE by (auto; rewrite <- D; apply V'). apply RF; auto.
  - intros U s s' V' L Op B. destruct (@opposite_enters s s' o) as (Hs' & En); auto; [rewrite <- D; apply V'|].
    rewrite IE by auto. eapply PR; eauto.
Qed.

(** Several angles, each on a thread. *)
Variable T : nat.
Record progress (M : list (nat * nat)) (b : bsn) (loc : nat -> list R) (psi : nat -> nat -> list R)
    (b' : bsn) (loc' : nat -> list R) (psi' : nat -> nat -> list R) (P : nat -> nat -> nat -> R) : Prop := {
  pg_setup : same_setup b b';
  pg_shaped : shaped b' nx ny nz;
  pg_frame : forall s o a g', valid b s o a g' -> g' <> g \/ ~ In (o, a) M -> flux b' s o a g' = flux b s o a g';
  pg_sol : forall o a, In (o, a) M -> good o a (ins_of b' o a g) (outs_of b' o a g) (P o a) /\
    stores n keep (P o a) (psi o a) (psi' o a);
  pg_psi : forall o a, ~ In (o, a) M -> psi' o a = psi o a;
  pg_len : forall t, length (loc' t) = n;
  pg_phi : forall c, c < n -> rsum T (fun t => at_ (loc' t) c) =
    (rsum T (fun t => at_ (loc t) c) + sumR (map (fun oa => W (snd oa) * P (fst oa) (snd oa) c) M))%R;
  pg_plain : forall s o a, valid b s o a g -> In (o, a) M -> enters dim s o ->
    upd = false \/ (b_bc b s <> Reflect /\ b_bc b s <> Periodic) -> flux b' s o a g = flux b s o a g;
  pg_reflect : upd = true -> forall s o o' a, valid b s o a g -> In (o, a) M -> enters dim s o -> b_bc b s = Reflect ->
    mirrored dim s o o' ->
    (precedes M (o', a) (o, a) -> flux b' s o a g = flux b' s o' a g) /\
    (~ precedes M (o', a) (o, a) -> flux b' s o a g = flux b s o' a g);
  pg_periodic : upd = true -> forall s s' o a, valid b s o a g -> In (o, a) M -> leaves dim s o -> opposite s s' ->
    b_bc b s = Periodic -> flux b' s' o a g = flux b s o a g
}.

Lemma rsum_put (f : nat -> R) t x m : t < m ->
  (rsum m (fun t' => if t' =? t then x else f t') = rsum m f + (x - f t))%R.
Proof.
  intros H. induction m; [lia|]. simpl. destruct (Nat.eq_dec t m) as [->|D].
  - rewrite Nat.eqb_refl. rewrite (@rsum_ext m _ f); [lra|]. intros i Hi. destruct (Nat.eqb_spec i m); auto; lia.
  - rewrite IHm by lia. destruct (Nat.eqb_spec m t); [lia|]. lra.
Qed.

Definition strip (x : nat * nat * nat) : nat * nat := fst x.
Lemma par_run L b loc psi : setting b -> (forall t, length (loc t) = n) ->
  (forall o a, keep = true -> length (psi o a) = n) ->
  NoDup (map strip L) -> (forall o a t, In (o, a, t) L -> o < 2 ^ dim /\ a < nq /\ t < T) ->
  exists b' loc' psi' P, foldM (par_step K upd g) L (b, loc, psi) = Ok (b', loc', psi') /\
    progress (map strip L) b loc psi b' loc' psi' P.
Proof.
  intros ST HL HP. induction L as [|[[o a] t] L IH] using rev_ind; intros N R.
  - exists b, loc, psi, (fun _ _ _ => 0%R). split; [reflexivity|].
    constructor; auto; cbn; try tauto.
    + apply same_refl. + apply ST. + intros. lra.
  - rewrite map_app in N. cbn in N.
    destruct IH as (b1 & loc1 & psi1 & P1 & E1 & PG).
    { apply NoDup_remove_1 in N. rewrite app_nil_r in N. auto. }
    { intros. apply R. rewrite in_app_iff. auto. }
    set (M := map strip L) in *.
    destruct (R o a t) as (Ho & Ha & Ht); [rewrite in_app_iff; cbn; auto|].
    assert (NM : ~ In (o, a) M) by (apply NoDup_remove_2 in N; rewrite app_nil_r in N; auto).
    destruct PG as [SS SH FR SOL PSI LEN PHI PLN RFL PER].
    pose proof SS as (S1 & S2 & S3).
    assert (ST1 : setting b1) by (eapply setting_same; eauto).
    destruct (@angle_step b1 (loc1 t) psi1 o a) as (b2 & phi2 & p2 & pc & E2 & STEP); auto.
    { intros Kp. rewrite PSI by auto. auto. }
    destruct STEP as [s1 s2 s3 s4 s5 s6 s7 s8 s9].
    set (P2 := put2 P1 o a pc).
    assert (P2n : P2 o a = pc) by (unfold P2, put2; rewrite !Nat.eqb_refl; auto).
    assert (P2o : forall o' a', In (o', a') M -> P2 o' a' = P1 o' a').
    { intros o' a' H. unfold P2, put2. destruct (Nat.eqb_spec o' o), (Nat.eqb_spec a' a); auto. subst o' a'. tauto. }
    assert (NEQ : forall o' a', In (o', a') M -> o' <> o \/ a' <> a).
    { intros o' a' H. destruct (Nat.eq_dec o' o), (Nat.eq_dec a' a); try subst o'; try subst a'; auto; tauto. }
    assert (OLD : forall s o' a', valid b s o' a' g -> In (o', a') M -> flux b2 s o' a' g = flux b1 s o' a' g).
    { intros s o' a' V H. apply s6; [apply (valid_same _ _ _ _ SS); auto|]. right. apply NEQ. auto. }
    assert (SS2 : same_setup b b2) by (eapply same_trans; eauto). pose proof SS2 as (T1 & T2 & T3).
    pose proof ST as (Q & D & Nq & Gg & Pd & Sh). pose proof Q as (Qd & Qn & _).
    exists b2, (put1 loc1 t phi2), (put2 psi1 o a p2), P2. split.
    { rewrite foldM_app, E1. cbn [bind foldM par_step]. rewrite E2. reflexivity. }
    rewrite map_app. cbn [map strip fst]. fold M.
    assert (VO : forall s o' a', valid b s o' a' g -> forall oo, oo < 2 ^ dim -> valid b s oo a' g).
    { intros s o' a' (v1 & v2 & v3 & v4) oo Hoo. repeat split; auto. rewrite Qn, D. auto. }
    constructor; auto.
    + intros s o' a' g' V H. rewrite s6; [apply FR; auto|apply (valid_same _ _ _ _ SS); auto|].
      * destruct H as [H|H]; auto. right. intros X. apply H. rewrite in_app_iff. auto.
      * destruct H as [H|H]; auto. rewrite in_app_iff in H. right.
        destruct (Nat.eq_dec o' o), (Nat.eq_dec a' a); try subst o'; try subst a'; auto. exfalso. apply H. cbn. auto.
    + intros o' a' H. apply in_app_iff in H. destruct H as [H|[H|[]]].
      * rewrite P2o by auto. destruct (SOL _ _ H) as (G1 & G2).
        assert (HH : o' < 2 ^ dim /\ a' < nq).
        { unfold M in H. apply in_map_iff in H. destruct H as ([[o3 a3] t3] & E & H). unfold strip in E. cbn in E.
          inversion E; subst o3 a3. destruct (R o' a' t3) as (? & ? & _); auto. rewrite in_app_iff; auto. }
        destruct HH as (Ho' & Ha').
        assert (VV : forall s, s < 2 * dim -> valid b s o' a' g).
        { intros s Hs. repeat split; auto; rewrite ?Qn, ?D, ?Nq; auto. }
        replace (ins_of b2 o' a' g) with (ins_of b1 o' a' g).
        2:{ unfold ins_of. rewrite T1, S1. apply map_ext_in. intros x Hx. apply in_seq in Hx. symmetry. apply OLD; auto.
            apply VV. apply in_side_lt. lia. }
        replace (outs_of b2 o' a' g) with (outs_of b1 o' a' g).
        2:{ unfold outs_of. rewrite T1, S1. apply map_ext_in. intros x Hx. apply in_seq in Hx. symmetry. apply OLD; auto.
            apply VV. apply out_side_lt. lia. }
        split; auto. unfold put2. destruct (Nat.eqb_spec o' o), (Nat.eqb_spec a' a); auto. subst o' a'. tauto.
      * inversion H; subst o' a'. rewrite P2n. split; auto. unfold put2. rewrite !Nat.eqb_refl. cbn.
        rewrite <- (PSI o a) by auto. auto.
    + intros o' a' H. rewrite in_app_iff in H. unfold put2.
      destruct (Nat.eqb_spec o' o), (Nat.eqb_spec a' a); cbn; try (apply PSI; tauto). subst o' a'. exfalso. apply H. cbn; auto.
    + intros t'. unfold put1. destruct (t' =? t); auto. apply s4.
    + intros c Hc. rewrite map_app, sumR_app. cbn [map sumR fst snd].
      rewrite (@rsum_ext T _ (fun t' => if t' =? t then at_ phi2 c else at_ (loc1 t') c)).
      2:{ intros i _. unfold put1. destruct (i =? t); auto. }
      rewrite rsum_put by auto. rewrite PHI by auto. destruct s4 as (_ & A4). rewrite A4 by auto.
      rewrite P2n. replace (map (fun oa => (W (snd oa) * P2 (fst oa) (snd oa) c)%R) M) with
        (map (fun oa => (W (snd oa) * P1 (fst oa) (snd oa) c)%R) M); [cbn; lra|].
      apply map_ext_in. intros [o' a'] H. cbn. rewrite P2o by auto. auto.
    + intros s o' a' V H En B. apply in_app_iff in H. destruct H as [H|[H|[]]].
      * rewrite OLD by auto. auto.
      * inversion H; subst o' a'. rewrite s7; [|apply (valid_same _ _ _ _ SS); auto|auto|rewrite S3; auto].
        apply FR; auto.
    + intros U s o1 o' a' V H En B Mi.
      assert (Hs : s < 2 * dim) by (rewrite <- D; apply V).
      pose proof (mirrored_neq Hs Mi) as Neq.
      apply in_app_iff in H. destruct H as [H|[H|[]]].
      * rewrite OLD by auto. rewrite (@precedes_snoc _ _ _ _ _ N H). destruct (@RFL U s o1 o' a' V H En B Mi) as (A1 & A2). split; auto.
        intros X. rewrite A1 by auto. symmetry. apply OLD; [|apply precedes_In in X; apply X].
        eapply VO; eauto. apply Mi.
      * inversion H; subst o1 a'. pose proof V as V1. rewrite <- (valid_same _ _ _ _ SS) in V1.
        assert (B1 : b_bc b1 s = Reflect) by (rewrite S3; auto).
        rewrite (@s8 U s o' V1 En B1 Mi).
        assert (V' : valid b s o' a g) by (eapply VO; eauto; apply Mi).
        split.
        -- intros X. symmetry. apply s6; [apply (valid_same _ _ _ _ SS); auto|auto].
        -- intros X. apply FR; auto. right. intros Y. apply X. exists M, []. auto.
    + intros U s s' o' a' V H Lv Op B.
      assert (Hs : s < 2 * dim) by (rewrite <- D; apply V).
      destruct (opposite_enters Hs Op Lv) as (Hs' & En').
      apply in_app_iff in H. destruct H as [H|[H|[]]].
      * rewrite OLD; [eapply (PER U s s'); eauto| |auto].
        destruct V as (v1 & v2 & v3 & v4). repeat split; auto. rewrite D; auto.
      * inversion H; subst o' a'. pose proof V as V1. rewrite <- (valid_same _ _ _ _ SS) in V1.
        assert (B1 : b_bc b1 s = Periodic) by (rewrite S3; auto).
        rewrite (@s9 U s s' V1 Lv Op B1). apply FR; auto.
Qed.

(** ** Whole sweeps *)
Definition blocks (As : nat -> list nat) (ord : list nat) : list (nat * nat) := flat_map (fun o => map (pair o) (As o)) ord.
Lemma in_blocks As ord o a : In (o, a) (blocks As ord) <-> In o ord /\ In a (As o).
Proof.
  unfold blocks. rewrite in_flat_map. split.
  - intros (x & Hx & H). apply in_map_iff in H. destruct H as (y & E & H). inversion E; subst. auto.
  - intros (H1 & H2). exists o. split; auto. apply in_map. auto.
Qed.
Lemma NoDup_blocks As ord : NoDup ord -> (forall o, In o ord -> NoDup (As o)) -> NoDup (blocks As ord).
Proof.
  intros N H. apply NoDup_flat_map; auto.
  - intros o Ho. apply NoDup_map_inj; auto. intros x y _ _ E. inversion E. auto.
  - intros x y [o a] Hx Hy H1 H2. apply in_map_iff in H1, H2. destruct H1 as (? & E1 & _), H2 as (? & E2 & _).
    inversion E1; inversion E2; subst. congruence.
Qed.
Lemma sum_blocks As ord (f : nat -> nat -> R) m q : Permutation ord (seq 0 m) ->
  (forall o, In o ord -> Permutation (As o) (seq 0 q)) ->
  sumR (map (fun oa => f (fst oa) (snd oa)) (blocks As ord)) = rsum m (fun o => rsum q (fun a => f o a)).
Proof.
  intros P H.
  transitivity (sumR (map (fun o => rsum q (fun a => f o a)) ord)).
  - clear P. induction ord as [|o ord IH]; [reflexivity|]. unfold blocks. cbn [flat_map]. fold (blocks As ord).
    rewrite map_app, sumR_app, IH by (intros; apply H; cbn; auto). cbn. f_equal.
    rewrite map_map. cbn. rewrite (sumR_perm (Permutation_map _ (H o (or_introl eq_refl)))).
    symmetry. apply rsum_sumR.
  - rewrite (sumR_perm (Permutation_map _ P)). symmetry. apply rsum_sumR.
Qed.

Definition good_ord (ord : list nat) : Prop := Permutation ord (seq 0 (2 ^ dim)).

(** From progress over all octants and angles to the specification. *)
Lemma progress_swept As ord b loc psi b' loc' psi' P phi : setting b -> good_ord ord ->
  (forall o, o < 2 ^ dim -> Permutation (As o) (seq 0 nq)) ->
  progress (blocks As ord) b loc psi b' loc' psi' P ->
  length phi = n -> (forall c, c < n -> at_ phi c = rsum T (fun t => at_ (loc' t) c)) ->
  (forall t c, at_ (loc t) c = 0%R) ->
  swept good W n keep upd g ord b psi b' phi psi'.
Proof.
  intros ST GO PA [SS SH FR SOL PSI LEN PHI PLN RFL PER] Lphi Hphi Z.
  pose proof ST as (Q & D & Nq & Gg & Pd & Sh). pose proof Q as (Qd & Qn & _).
  assert (IO : forall o, o < 2 ^ dim -> In o ord).
  { intros o Ho. apply (Permutation_in _ (Permutation_sym GO)). apply in_seq. lia. }
  assert (OI : forall o, In o ord -> o < 2 ^ dim).
  { intros o Ho. apply (Permutation_in _ GO) in Ho. apply in_seq in Ho. lia. }
  assert (NO : NoDup ord) by (eapply Permutation_NoDup; [apply Permutation_sym; exact GO|apply seq_NoDup]).
  assert (IA : forall o a, o < 2 ^ dim -> a < nq -> In a (As o)).
  { intros o a Ho Ha. apply (Permutation_in _ (Permutation_sym (PA o Ho))). apply in_seq. lia. }
  assert (IM : forall o a, o < 2 ^ dim -> a < nq -> In (o, a) (blocks As ord)).
  { intros. apply in_blocks. auto. }
  assert (NM : NoDup (blocks As ord)).
  { apply NoDup_blocks; auto. intros o Ho. eapply Permutation_NoDup; [apply Permutation_sym, PA; auto|apply seq_NoDup]. }
  assert (VI : forall s o a, valid b s o a g -> In (o, a) (blocks As ord)).
  { intros s o a (v1 & v2 & v3 & v4). apply IM; [rewrite <- D, <- Qn|rewrite <- Nq]; auto. }
  constructor; auto.
  - exists P. rewrite Qn, D, Nq. split; [|split]; auto.
    intros c Hc. rewrite Hphi, PHI by auto. rewrite rsum_zero by (intros; apply Z).
    rewrite (@sum_blocks As ord (fun o a => (W a * P o a c)%R) (2 ^ dim) nq); auto. lra.
  - rewrite D. intros. apply PLN; eauto.
  - rewrite D. intros U s o o' a V En B Mi.
    destruct (@RFL U s o o' a V (VI _ _ _ V) En B Mi) as (A1 & A2).
    assert (Ha : a < nq) by (rewrite <- Nq; apply V).
    assert (Ho : o < 2 ^ dim) by apply En. assert (Ho' : o' < 2 ^ dim) by apply Mi.
    split; intros X.
    + apply A1. apply precedes_block; auto.
    + apply A2. apply precedes_asym; auto. apply precedes_block; auto.
  - rewrite D. intros U s s' o a V L Op B. eapply PER; eauto.
Qed.

Lemma at_zeros m c : at_ (map (fun _ : R => 0%R) m) c = 0%R.
Proof. unfold at_. revert c; induction m as [|x m IH]; intros [|c]; cbn; auto. Qed.
End Kernel.

(** The serial loop is the threaded one on a single thread. *)
Lemma serial_par K upd g l : forall b loc psi phi, loc 0 = phi ->
  foldM (fun st oa => sweep_angle K upd g st (fst oa) (snd oa)) l (b, phi, psi) =
  do r <- foldM (par_step K upd g) (map (fun oa => (fst oa, snd oa, 0)) l) (b, loc, psi);
  let '(b, loc, psi) := r in Ok (b, loc 0, psi).
Proof.
  induction l as [|[o a] l IH]; intros b loc psi phi <-; cbn [foldM map]; auto.
  cbn [fst snd].
  assert (Ep : par_step K upd g (b, loc, psi) (o, a, 0) = do r <- sweep_angle K upd g (b, loc 0, psi) o a;
    let '(b, p, psi) := r in Ok (b, put1 loc 0 p, psi)) by reflexivity.
  rewrite Ep. destruct (sweep_angle K upd g (b, loc 0, psi) o a) as [[[b1 p1] psi1]| |]; cbn [bind]; auto.
Qed.

Theorem sweep_swept_shape K Sol W n keep upd g nx ny nz dim nq ord b phi psi :
  good_kernel K Sol W n keep nx ny nz dim nq -> setting g nx ny nz dim nq b -> good_ord dim ord ->
  length phi = n -> (forall o a, keep = true -> length (psi o a) = n) ->
  exists b' phi' psi', sweep K upd g ord (b, phi, psi) = Ok (b', phi', psi') /\
  swept (good K Sol W n keep) W n keep upd g ord b psi b' phi' psi' /\ shaped b' nx ny nz /\
  (forall o a, keep = true -> length (psi' o a) = n).
Proof.
  intros HK ST GO Hphi Hpsi.
  set (zs := map (fun _ : R => 0%R) phi).
  set (M := blocks (fun _ => seq 0 nq) ord).
  assert (OI : forall o, In o ord -> o < 2 ^ dim).
  { intros o Ho. apply (Permutation_in _ GO) in Ho. apply in_seq in Ho. lia. }
  assert (NO : NoDup ord) by (eapply Permutation_NoDup; [apply Permutation_sym; exact GO|apply seq_NoDup]).
  assert (SM : map strip (map (fun oa => (fst oa, snd oa, 0)) M) = M).
  { rewrite map_map. unfold strip. cbn. rewrite <- (map_id M) at 2. apply map_ext. intros [o a]; auto. }
  destruct (@par_run K Sol W n keep upd g nx ny nz dim nq HK 1 (map (fun oa => (fst oa, snd oa, 0)) M) b (fun _ => zs) psi)
    as (b' & loc' & psi' & P & E & PG); auto.
  { intros _. unfold zs. rewrite map_length. auto. }
  { rewrite SM. apply NoDup_blocks; auto. intros. apply seq_NoDup. }
  { intros o a t H. apply in_map_iff in H. destruct H as ([o' a'] & E & H). inversion E; subst.
    unfold M in H. apply in_blocks in H. destruct H as (H1 & H2). apply in_seq in H2. repeat split; auto; lia. }
  rewrite SM in PG.
  exists b', (loc' 0), psi'. split.
  - unfold sweep. fold zs. destruct ST as (_ & _ & -> & _).
    transitivity (foldM (fun st oa => sweep_angle K upd g st (fst oa) (snd oa)) M (b, zs, psi)).
    { unfold M, blocks. rewrite <- foldM_flat_map. apply (@foldM_ext_inv _ _ (fun _ => True)); auto. intros o st _ _. rewrite <- foldM_map. auto. }
    rewrite (@serial_par K upd g M b (fun _ => zs)) by auto. rewrite E. auto.
  - split; [|split; [apply PG|]].
    + eapply progress_swept; eauto.
      * intros. auto. * apply PG. * intros c Hc. cbn. lra. * intros. apply at_zeros.
    + intros o a Hk. destruct (in_dec (fun x y : nat * nat => ltac:(decide equality; apply Nat.eq_dec)) (o, a) M) as [I|I].
      * destruct (pg_sol PG I) as (_ & Hs). unfold stores in Hs. rewrite Hk in Hs. apply Hs.
      * rewrite (pg_psi PG I). auto.
Qed.
Theorem sweep_swept K Sol W n keep upd g nx ny nz dim nq ord b phi psi :
  good_kernel K Sol W n keep nx ny nz dim nq -> setting g nx ny nz dim nq b -> good_ord dim ord ->
  length phi = n -> (forall o a, keep = true -> length (psi o a) = n) ->
  exists b' phi' psi', sweep K upd g ord (b, phi, psi) = Ok (b', phi', psi') /\
  swept (good K Sol W n keep) W n keep upd g ord b psi b' phi' psi'.
Proof.
  intros HK ST GO Hphi Hpsi. destruct (@sweep_swept_shape K Sol W n keep upd g nx ny nz dim nq ord b phi psi HK ST GO Hphi Hpsi)
    as (b' & phi' & psi' & E & SW & _). exists b', phi', psi'. auto.
Qed.

(** ** The threads' contributions *)
Lemma add_local_ok phi loc : length loc = length phi ->
  exists phi', add_local phi loc = Ok phi' /\ length phi' = length phi /\ forall c, c < length phi -> at_ phi' c = (at_ phi c + at_ loc c)%R.
Proof.
  intros L. unfold add_local. set (m := length phi) in *.
  assert (H : forall k, k <= m -> exists phi', foldM (fun phi i => do x <- rd phi i; do y <- rd loc i; wr phi i (x + y)%R) (seq 0 k) phi = Ok phi' /\
     length phi' = m /\ forall c, at_ phi' c = if c <? k then (at_ phi c + at_ loc c)%R else at_ phi c).
  { induction k; intros Hk.
    - exists phi. repeat split; auto.
    - destruct IHk as (p & E & Lp & A); [lia|]. rewrite seq_S, foldM_app, E. cbn [bind foldM]. cbn [Nat.add].
      rewrite (@rd_ok _ p k 0%R) by lia. cbn [bind]. rewrite (@rd_ok _ loc k 0%R) by lia. cbn [bind]. unfold wr.
      rewrite (proj2 (Nat.ltb_lt k (length p))) by lia. cbn [bind].
      eexists. split; [reflexivity|]. rewrite upd_length. split; auto. intros c. unfold at_ in *.
      destruct (Nat.eq_dec c k) as [->|Dc].
      + rewrite nth_upd_eq by lia. rewrite A. rewrite (proj2 (Nat.ltb_ge k k)), (proj2 (Nat.ltb_lt k (S k))) by lia. auto.
      + rewrite nth_upd_neq by auto. rewrite A.
        destruct (Nat.ltb_spec c k), (Nat.ltb_spec c (S k)); auto; lia. }
  destruct (H m (le_n _)) as (p & E & Lp & A). exists p. split; [exact E|]. split; auto. intros c Hc. rewrite A.
  rewrite (proj2 (Nat.ltb_lt c m)) by auto. auto.
Qed.
Lemma add_locals_ok (loc : nat -> list R) m fin : (forall t, length (loc t) = m) -> forall phi, length phi = m ->
  exists phi', foldM (fun phi t => add_local phi (loc t)) fin phi = Ok phi' /\ length phi' = m /\
  forall c, c < m -> at_ phi' c = (at_ phi c + sumR (map (fun t => at_ (loc t) c) fin))%R.
Proof.
  intros HL. induction fin as [|t fin IH]; intros phi Hp; cbn [foldM].
  - exists phi. repeat split; auto. intros. cbn. lra.
  - destruct (@add_local_ok phi (loc t)) as (p & E & Lp & A); [rewrite HL; auto|]. rewrite E. cbn [bind].
    destruct (IH p) as (p' & E' & L' & A'); [lia|]. exists p'. split; auto. split; auto.
    intros c Hc. rewrite A', A by lia. cbn [map]. rewrite sumR_cons. ring.
Qed.

Theorem sweep_par_swept K Sol W n keep upd g nx ny nz dim nq ord b phi psi T sched fin :
  good_kernel K Sol W n keep nx ny nz dim nq -> setting g nx ny nz dim nq b -> good_ord dim ord ->
  length phi = n -> (forall o a, keep = true -> length (psi o a) = n) ->
  fair T nq sched -> Permutation fin (seq 0 T) ->
  exists b' phi' psi', sweep_par K upd g ord sched fin (b, phi, psi) = Ok (b', phi', psi') /\
  swept (good K Sol W n keep) W n keep upd g ord b psi b' phi' psi'.
Proof.
  intros HK ST GO Hphi Hpsi FA PF.
  set (zs := map (fun _ : R => 0%R) phi).
  set (As := fun o => map fst (sched o)).
  set (L := flat_map (fun o => map (fun at_ => (o, fst at_, snd at_)) (sched o)) ord).
  assert (OI : forall o, In o ord -> o < 2 ^ dim).
  { intros o Ho. apply (Permutation_in _ GO) in Ho. apply in_seq in Ho. lia. }
  assert (NO : NoDup ord) by (eapply Permutation_NoDup; [apply Permutation_sym; exact GO|apply seq_NoDup]).
  assert (SM : map strip L = blocks As ord).
  { unfold L, blocks, As. clear. induction ord as [|o ord IH]; cbn; auto. rewrite map_app, IH. f_equal.
    rewrite !map_map. auto. }
  destruct (@par_run K Sol W n keep upd g nx ny nz dim nq HK T L b (fun _ => zs) psi)
    as (b' & loc' & psi' & P & E & PG); auto.
  { intros _. unfold zs. rewrite map_length. auto. }
  { rewrite SM. apply NoDup_blocks; auto. intros o Ho. eapply Permutation_NoDup; [apply Permutation_sym, FA|apply seq_NoDup]. }
  { intros o a t H. unfold L in H. apply in_flat_map in H. destruct H as (o' & Ho & H). apply in_map_iff in H.
    destruct H as ([a' t'] & E & H). inversion E; subst. destruct (FA o) as (F1 & F2).
    split; auto. split.
    - assert (In a (map fst (sched o))) by (apply in_map_iff; exists (a, t); auto).
      apply (Permutation_in _ F1) in H0. apply in_seq in H0. lia.
    - rewrite Forall_forall in F2. apply (F2 _ H). }
  rewrite SM in PG.
  destruct (@add_locals_ok loc' n fin (pg_len PG) zs) as (phi' & Ep & Lp & Ap); [unfold zs; rewrite map_length; auto|].
  exists b', phi', psi'. split.
  - unfold sweep_par. fold zs L. rewrite E. cbn [bind]. rewrite Ep. auto.
  - eapply progress_swept; eauto.
    + intros o Ho. apply FA.
    + intros c Hc. rewrite Ap by auto. unfold zs. rewrite at_zeros. rewrite (sumR_perm (Permutation_map _ PF)).
      rewrite <- rsum_sumR. lra.
    + intros. apply at_zeros.
Qed.

(** ** The specification of a sweep determines the result. *)
Lemma runs_det K W n keep o a ins o1 p1 o2 p2 : runs K W n keep o a ins o1 p1 -> runs K W n keep o a ins o2 p2 ->
  o1 = o2 /\ (forall c, c < n -> (W a * p1 c = W a * p2 c)%R) /\
  (forall psi q1 q2, (keep = true -> length psi = n) -> stores n keep p1 psi q1 -> stores n keep p2 psi q2 -> q1 = q2).
Proof.
  intros R1 R2. set (z := repeat 0%R n).
  assert (Lz : length z = n) by apply repeat_length.
  destruct (R1 z z) as (f1 & q1 & E1 & A1 & S1); auto. destruct (R2 z z) as (f2 & q2 & E2 & A2 & S2); auto.
  rewrite E1 in E2. inversion E2; subst o2 f2 q2. split; auto. split.
  - intros c Hc. destruct A1 as (_ & A1), A2 as (_ & A2). specialize (A1 c Hc). specialize (A2 c Hc). lra.
  - intros psi r1 r2 Hl. unfold stores in *. destruct keep; [|congruence].
    intros (L1 & B1) (L2 & B2). destruct S1 as (_ & S1), S2 as (_ & S2).
    apply list_ext_nth with (d := 0%R); [lia|]. intros i Hi. rewrite L1 in Hi.
    change (at_ r1 i = at_ r2 i). rewrite B1, B2, <- S1, <- S2 by auto. auto.
Qed.

Theorem swept_unique K Sol W n keep upd g nx ny nz dim nq ord b psi b1 phi1 psi1 b2 phi2 psi2 :
  setting g nx ny nz dim nq b -> good_ord dim ord -> (forall o a, keep = true -> length (psi o a) = n) ->
  swept (good K Sol W n keep) W n keep upd g ord b psi b1 phi1 psi1 ->
  swept (good K Sol W n keep) W n keep upd g ord b psi b2 phi2 psi2 ->
  phi1 = phi2 /\ (forall o a, o < 2 ^ dim -> a < nq -> psi1 o a = psi2 o a) /\
  (forall s o a g', valid b s o a g' -> flux b1 s o a g' = flux b2 s o a g').
Proof.
  intros ST GO Hpsi X1 X2.
  destruct X1 as [S1 O1 (P1 & Sol1 & L1 & A1) PL1 RF1 PE1]. destruct X2 as [S2 O2 (P2 & Sol2 & L2 & A2) PL2 RF2 PE2].
  pose proof ST as (Q & D & Nq & Gg & Pd & Sh). pose proof Q as (Qd & Qn & _).
  rewrite Qn, D, Nq in *.
  assert (IO : forall o, o < 2 ^ dim -> In o ord).
  { intros o Ho. apply (Permutation_in _ (Permutation_sym GO)). apply in_seq. lia. }
  assert (OI : forall o, In o ord -> o < 2 ^ dim).
  { intros o Ho. apply (Permutation_in _ GO) in Ho. apply in_seq in Ho. lia. }
  assert (NO : NoDup ord) by (eapply Permutation_NoDup; [apply Permutation_sym; exact GO|apply seq_NoDup]).
  assert (VV : forall s o a, s < 2 * dim -> o < 2 ^ dim -> a < nq -> valid b s o a g).
  { intros. repeat split; auto; rewrite ?Qn, ?D, ?Nq; auto. }
  assert (DIM1 : q_dim (b_q b1) = dim) by (destruct S1 as (-> & _); auto).
  assert (DIM2 : q_dim (b_q b2) = dim) by (destruct S2 as (-> & _); auto).
  (* one octant *)
  assert (ONE : forall o a, o < 2 ^ dim -> a < nq ->
    (forall s, s < 2 * dim -> enters dim s o -> flux b1 s o a g = flux b2 s o a g) ->
    (forall s, s < 2 * dim -> flux b1 s o a g = flux b2 s o a g) /\
    (forall c, c < n -> (W a * P1 o a c = W a * P2 o a c)%R) /\ psi1 o a = psi2 o a).
  { intros o a Ho Ha H. destruct (Sol1 o a Ho Ha) as ((_ & R1) & T1). destruct (Sol2 o a Ho Ha) as ((_ & R2) & T2).
    assert (II : ins_of b1 o a g = ins_of b2 o a g).
    { unfold ins_of. rewrite DIM1, DIM2. apply map_ext_in. intros x Hx. apply in_seq in Hx. apply H; [apply in_side_lt; lia|].
      apply in_side_enters. auto. }
    rewrite II in R1. destruct (runs_det R1 R2) as (EO & EP & ES). split; [|split; auto].
    - intros s Hs. destruct (side_cases o s) as [Es|Es]; [apply H; auto; rewrite Es; apply in_side_enters; auto|].
      assert (Hx : s / 2 < dim) by (apply Nat.div_lt_upper_bound; lia).
      apply (f_equal (fun l => nth (s / 2) l [])) in EO. unfold outs_of in EO. rewrite DIM1, DIM2 in EO.
      rewrite !nth_map_seq in EO by auto. rewrite <- !Es in EO. auto.
    - apply (ES (psi o a)); auto. }
  assert (ALL : forall l1 l2, ord = l1 ++ l2 -> forall o, In o l1 -> forall a, a < nq ->
    forall s, s < 2 * dim -> flux b1 s o a g = flux b2 s o a g).
  { induction l1 as [|o l1 IH] using rev_ind; intros l2 E o1 Hin; [destruct Hin|].
    rewrite <- app_assoc in E. cbn in E. apply in_app_iff in Hin. destruct Hin as [Hin|[<-|[]]].
    { apply (IH _ E _ Hin). }
    intros a Ha. assert (Ho : o < 2 ^ dim) by (apply OI; rewrite E, in_app_iff; cbn; auto).
    apply ONE; auto. intros s Hs En. pose proof (VV s o a Hs Ho Ha) as V.
    destruct (Bool.bool_dec upd false) as [U|U]; [rewrite PL1, PL2 by auto; auto|].
    assert (U' : upd = true) by (destruct upd; auto; congruence). clear U.
    assert (Hdim : 0 < dim < 4) by auto.
    destruct (b_bc b s) eqn:Bs; try (rewrite PL1, PL2 by (auto; right; rewrite Bs; split; discriminate); auto).
    - destruct (@octants_spec dim s Hdim Hs) as (_ & _ & _ & PP & PE & _).
      destruct (PE _ En) as (o' & Hio). destruct (PP _ _ Hio) as (_ & L' & Mi).
      assert (Ho' : o' < 2 ^ dim) by apply L'.
      destruct (@RF1 U' s o o' a V En Bs Mi) as (B1 & C1). destruct (@RF2 U' s o o' a V En Bs Mi) as (B2 & C2).
      pose proof (mirrored_neq Hs Mi) as Neq. pose proof (IO _ Ho') as Hin. rewrite E, in_app_iff in Hin. cbn in Hin.
      destruct Hin as [Hin|[Hin|Hin]].
      + assert (Pr : precedes ord o' o) by (exists l1, l2; auto). rewrite B1, B2 by auto. apply (IH _ E); auto.
      + congruence.
      + assert (Pr : precedes ord o o').
        { destruct (@precedes_total ord o o') as [Y|Y]; auto.
          exfalso. apply in_split in Hin. destruct Hin as (m1 & m2 & ->).
          assert (Z : precedes ord o o').
          { exists (l1 ++ o :: m1), m2. rewrite <- app_assoc. cbn. split; auto. rewrite in_app_iff. cbn; auto. }
          eapply precedes_asym; eauto. }
        rewrite C1, C2 by auto. auto.
    - destruct (pside Hdim Hs) as (Hs' & Hop & _).
      set (s' := periodic_side s) in *.
      assert (Bs' : b_bc b s' = Periodic) by (apply (Pd s); auto; rewrite D; auto).
      assert (Hop' : opposite s' s) by (destruct Hop as (A & B); split; auto).
      assert (Lv : leaves dim s' o).
      { destruct (side_cases o s') as [E'|E'].
        - exfalso. destruct Hop as (A & B). apply B. destruct (side_cases o s) as [F'|F'].
          + rewrite E', A. symmetry. exact F'.
          + exfalso. apply (@enters_not_leaves dim s o); auto. rewrite F'. apply out_side_leaves. auto.
        - rewrite E'. apply out_side_leaves. auto. }
      rewrite (@PE1 U' s' s o a), (@PE2 U' s' s o a) by auto. auto. }
  specialize (ALL ord [] (eq_sym (app_nil_r _))).
  assert (FL : forall s o a, valid b s o a g -> flux b1 s o a g = flux b2 s o a g).
  { intros s o a (v1 & v2 & v3 & v4). rewrite D in v1. rewrite Nq in v3. rewrite Qn in v2. apply ALL; auto. }
  split; [|split].
  - apply list_ext_nth with (d := 0%R); [lia|]. intros c Hc. change (at_ phi1 c = at_ phi2 c). rewrite L1 in Hc.
    rewrite A1, A2 by auto. apply rsum_ext. intros o Ho. apply rsum_ext. intros a Ha.
    apply (ONE o a Ho Ha); auto.
  - intros o a Ho Ha. apply (ONE o a Ho Ha). intros. apply ALL; auto.
  - intros s o a g' V. destruct (Nat.eq_dec g' g) as [->|Dg]; auto. rewrite O1, O2 by auto. auto.
Qed.

Theorem par_serial K Sol W n keep upd g nx ny nz dim nq ord b phi psi T sched fin :
  good_kernel K Sol W n keep nx ny nz dim nq -> setting g nx ny nz dim nq b -> good_ord dim ord ->
  length phi = n -> (forall o a, keep = true -> length (psi o a) = n) ->
  fair T nq sched -> Permutation fin (seq 0 T) ->
  exists b1 phi' psi1 b2 psi2, sweep K upd g ord (b, phi, psi) = Ok (b1, phi', psi1) /\
  sweep_par K upd g ord sched fin (b, phi, psi) = Ok (b2, phi', psi2) /\
  (forall o a, o < 2 ^ dim -> a < nq -> psi1 o a = psi2 o a) /\ same_setup b1 b2 /\
  (forall s o a g', valid b s o a g' -> flux b1 s o a g' = flux b2 s o a g').
Proof.
  intros HK ST GO Hphi Hpsi FA PF.
  destruct (@sweep_swept K Sol W n keep upd g nx ny nz dim nq ord b phi psi) as (b1 & phi1 & psi1 & E1 & X1); auto.
  destruct (@sweep_par_swept K Sol W n keep upd g nx ny nz dim nq ord b phi psi T sched fin) as (b2 & phi2 & psi2 & E2 & X2); auto.
  destruct (swept_unique ST GO Hpsi X1 X2) as (-> & H1 & H2).
  exists b1, phi2, psi1, b2, psi2. repeat split; auto.
  all: destruct X1 as [(a1 & a2 & a3) _ _ _ _ _], X2 as [(c1 & c2 & c3) _ _ _ _ _]; congruence.
Qed.
