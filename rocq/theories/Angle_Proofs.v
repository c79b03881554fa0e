(** * Angle_Proofs *)
From Verif Require Import Base BaseR Util_Model Util_Proofs Angle_Model Angle_Spec.
Open Scope nat_scope.
Set Implicit Arguments. Unset Strict Implicit.

(** ** Octants *)

Definition sg (o axis : nat) : Z := nth axis (nth o octant_sign []) 0%Z.

Lemma lt8 o : o < 8 -> o = 0 \/ o = 1 \/ o = 2 \/ o = 3 \/ o = 4 \/ o = 5 \/ o = 6 \/ o = 7.
Proof. lia. Qed.
Lemma lt3 o : o < 3 -> o = 0 \/ o = 1 \/ o = 2.
Proof. lia. Qed.

Lemma rd2_sign o axis : o < 8 -> axis < 3 -> rd2 octant_sign o axis = Ok (sg o axis) /\ (sg o axis = 1 \/ sg o axis = -1)%Z.
Proof.
  intros Ho Ha. destruct (lt8 Ho) as [?|[?|[?|[?|[?|[?|[?|?]]]]]]]; destruct (lt3 Ha) as [?|[?|?]]; subst;
  split; try reflexivity; cbn; auto.
Qed.

Lemma dim_le8 dim : dim < 4 -> 2 ^ dim <= 8.
Proof. intros H. replace 8 with (2 ^ 3) by reflexivity. apply Nat.pow_le_mono_r; lia. Qed.

(** The stored cosine along an axis. *)
Definition stored (q : quad) (axis : nat) : list R :=
  match axis with 0 => q_mu q | 1 => q_eta q | _ => q_xi q end.

Lemma quad_new_inv dim nang q : quad_new dim nang = Ok q ->
  0 < dim < 4 /\ q_dim q = dim /\ q_noct q = 2 ^ dim /\ q_nao q = nang / 2 ^ dim /\ q_nang q = nang /\
  q_sign q = octant_sign /\ q_inc q = incident_table dim /\ q_out q = outgoing_table dim /\ q_adj q = false.
Proof.
  unfold quad_new. destruct ((0 <? dim) && (dim <? 4)) eqn:E; [|discriminate].
  apply andb_prop in E. destruct E as [E1 E2]. apply Nat.ltb_lt in E1, E2.
  intros H. inversion H; subst; cbn. intuition.
Qed.

Lemma cosine_val q axis o a c : q_sign q = octant_sign -> o < 8 -> axis < 3 ->
  nth_error (stored q axis) a = Some c -> cosine q axis o a = Ok (IZR (sg o axis) * c)%R.
Proof.
  intros Hs Ho Ha Hc. unfold cosine. rewrite Hs.
  destruct (rd2_sign Ho Ha) as [-> _]. cbn [bind].
  unfold stored in Hc. unfold rd. rewrite Hc. reflexivity.
Qed.

Lemma sign_pos s c : (0 < c)%R -> (s = 1 \/ s = -1)%Z -> ((0 < IZR s * c)%R <-> s = 1%Z).
Proof. intros Hc [->| ->]; split; intros H; auto; try lra; discriminate. Qed.
Lemma sign_neg s c : (0 < c)%R -> (s = 1 \/ s = -1)%Z -> ((IZR s * c < 0)%R <-> s = (-1)%Z).
Proof. intros Hc [->| ->]; split; intros H; auto; try lra; discriminate. Qed.

(** Every combination of signs is taken by exactly one octant. *)
Definition oct_of (dim : nat) (b : nat -> bool) : nat :=
  let base := if b 0 then (if (dim <=? 1) || b 1 then 0 else 3) else (if (dim <=? 1) || b 1 then 1 else 2) in
  if (dim <=? 2) || b 2 then base else base + 4.

Lemma oct_of_unique dim (b : nat -> bool) : 0 < dim < 4 -> forall o, o < 2 ^ dim ->
  ((forall axis, axis < dim -> sg o axis = if b axis then 1%Z else (-1)%Z) <-> o = oct_of dim b).
Proof.
  intros Hd o Ho.
  assert (Hd' : dim = 1 \/ dim = 2 \/ dim = 3) by lia.
  assert (H8 : o < 8) by (pose proof (@dim_le8 dim ltac:(lia)); lia).
  split.
  - intros H. pose proof (H 0 ltac:(lia)) as H0.
    destruct Hd' as [->|[->| ->]]; cbn in Ho.
    + destruct o as [|[|]]; [| |lia]; unfold oct_of; cbn in *; destruct (b 0); try discriminate; reflexivity.
    + pose proof (H 1 ltac:(lia)) as H1.
      destruct o as [|[|[|[|]]]]; [| | | |lia]; unfold oct_of; cbn in *; destruct (b 0), (b 1); try discriminate; reflexivity.
    + pose proof (H 1 ltac:(lia)) as H1. pose proof (H 2 ltac:(lia)) as H2.
      destruct (lt8 H8) as [?|[?|[?|[?|[?|[?|[?|?]]]]]]]; subst; unfold oct_of; cbn in *;
      destruct (b 0), (b 1), (b 2); try discriminate; reflexivity.
  - intros -> axis Hx. unfold oct_of.
    destruct Hd' as [->|[->| ->]]; cbn in *.
    + assert (axis = 0) by lia. subst. destruct (b 0); reflexivity.
    + assert (axis = 0 \/ axis = 1) as [->| ->] by lia; destruct (b 0) eqn:?, (b 1) eqn:?; reflexivity.
    + assert (axis = 0 \/ axis = 1 \/ axis = 2) as [->|[->| ->]] by lia;
      destruct (b 0) eqn:?, (b 1) eqn:?, (b 2) eqn:?; reflexivity.
Qed.

Lemma octants_partition dim nang q0 mu eta xi wt a : quad_new dim nang = Ok q0 ->
  let q := with_cosines q0 mu eta xi wt in
  (forall axis, axis < dim -> exists c, nth_error (nth axis [mu; eta; xi] []) a = Some c /\ (0 < c)%R) ->
  forall b : nat -> bool, exists! o, o < q_noct q /\
    forall axis, axis < dim -> exists c, cosine q axis o a = Ok c /\ if b axis then (0 < c)%R else (c < 0)%R.
Proof.
  intros Hq q Hc b. destruct (quad_new_inv Hq) as (Hd & E1 & E2 & E3 & E4 & E5 & E6 & E7 & E8).
  assert (Hst : forall axis, axis < dim -> exists c, nth_error (stored q axis) a = Some c /\ (0 < c)%R).
  { intros axis Hx. destruct (Hc axis Hx) as (c & H1 & H2). exists c. split; auto.
    unfold stored, q. destruct axis as [|[|[|]]]; cbn in *; auto. lia. }
  assert (Hon : oct_of dim b < 2 ^ dim).
  { assert (Hd' : dim = 1 \/ dim = 2 \/ dim = 3) by lia. unfold oct_of.
    destruct Hd' as [->|[->| ->]]; cbn; destruct (b 0), (b 1), (b 2); cbn; lia. }
  pose proof (@dim_le8 dim ltac:(lia)) as H8.
  exists (oct_of dim b). split.
  - split; [cbn; rewrite E2; auto|]. intros axis Hx. destruct (Hst axis Hx) as (c & Hc1 & Hc2).
    exists (IZR (sg (oct_of dim b) axis) * c)%R. split.
    + apply cosine_val; auto; lia.
    + rewrite (proj2 (@oct_of_unique dim b Hd _ Hon) eq_refl) by auto. destruct (b axis); lra.
  - intros o [Ho Hs]. cbn in Ho. rewrite E2 in Ho. symmetry.
    apply (@oct_of_unique dim b Hd o Ho). intros axis Hx.
    destruct (Hst axis Hx) as (c & Hc1 & Hc2). destruct (Hs axis Hx) as (c' & Hc3 & Hc4).
    rewrite (@cosine_val q axis o a c) in Hc3 by (auto; lia). inversion Hc3; subst c'.
    destruct (@rd2_sign o axis ltac:(lia) ltac:(lia)) as [_ Hpm].
    destruct (b axis).
    + apply (proj1 (sign_pos Hc2 Hpm)); auto.
    + apply (proj1 (sign_neg Hc2 Hpm)); auto.
Qed.

(** Tables against signs, by evaluation over the finitely many sides and octants. *)
Fixpoint memb (n : nat) (l : list nat) : bool := match l with [] => false | h :: t => (n =? h) || memb n t end.
Lemma memb_In n l : memb n l = true <-> In n l.
Proof.
  induction l as [|h t IH]; cbn; [split; [discriminate|tauto]|].
  rewrite orb_true_iff, Nat.eqb_eq, IH. split; intros [H|H]; auto.
Qed.
Fixpoint nodupb (l : list nat) : bool := match l with [] => true | h :: t => negb (memb h t) && nodupb t end.
Lemma nodupb_NoDup l : nodupb l = true -> NoDup l.
Proof.
  induction l as [|h t IH]; cbn; intros H; [constructor|]. apply andb_prop in H. destruct H as [H1 H2]. constructor.
  - rewrite <- memb_In. destruct (memb h t); [discriminate H1 | discriminate].
  - auto.
Qed.
Definition table_ok (dim : nat) : bool :=
  forallb (fun s =>
    match nth_error (incident_table dim) s, nth_error (outgoing_table dim) s with
    | Some i, Some u => nodupb i && nodupb u &&
        forallb (fun o => o <? 2 ^ dim) (i ++ u) &&
        forallb (fun o => Bool.eqb (memb o i) (Z.eqb (sg o (s / 2)) (if Nat.even s then 1 else -1)%Z) &&
                          Bool.eqb (memb o u) (Z.eqb (sg o (s / 2)) (if Nat.even s then -1 else 1)%Z)) (seq 0 (2 ^ dim))
    | _, _ => false
    end) (seq 0 (2 * dim)).
Lemma tables_ok dim : 0 < dim < 4 -> table_ok dim = true.
Proof. intros H. assert (Hd' : dim = 1 \/ dim = 2 \/ dim = 3) by lia. destruct Hd' as [->|[->| ->]]; vm_compute; reflexivity. Qed.

Lemma table_spec dim s : 0 < dim < 4 -> s < 2 * dim ->
  exists i u, rd (incident_table dim) s = Ok i /\ rd (outgoing_table dim) s = Ok u /\ NoDup i /\ NoDup u /\
  (forall o, In o i <-> o < 2 ^ dim /\ sg o (s / 2) = (if Nat.even s then 1 else -1)%Z) /\
  (forall o, In o u <-> o < 2 ^ dim /\ sg o (s / 2) = (if Nat.even s then -1 else 1)%Z).
Proof.
  intros Hd Hs. pose proof (tables_ok Hd) as T. unfold table_ok in T. rewrite forallb_forall in T.
  specialize (T s ltac:(apply in_seq; lia)). cbv beta in T. unfold rd.
  destruct (nth_error (incident_table dim) s) as [i|]; [|discriminate].
  destruct (nth_error (outgoing_table dim) s) as [u|]; [|discriminate].
  apply andb_prop in T. destruct T as [T T4]. apply andb_prop in T. destruct T as [T T3].
  apply andb_prop in T. destruct T as [T1 T2].
  rewrite forallb_forall in T3, T4.
  assert (Hi : forall o, In o i -> o < 2 ^ dim) by (intros o Ho; apply Nat.ltb_lt, T3, in_app_iff; auto).
  assert (Hu : forall o, In o u -> o < 2 ^ dim) by (intros o Ho; apply Nat.ltb_lt, T3, in_app_iff; auto).
  exists i, u. split; [reflexivity|]. split; [reflexivity|].
  split; [apply nodupb_NoDup; auto|]. split; [apply nodupb_NoDup; auto|].
  split; intros o; split.
  - intros Ho. specialize (T4 o ltac:(apply in_seq; specialize (Hi o Ho); lia)). apply andb_prop in T4. destruct T4 as [T4 _].
    apply Bool.eqb_prop in T4. rewrite (proj2 (memb_In o i)) in T4 by auto. symmetry in T4. apply Z.eqb_eq in T4. auto.
  - intros [Ho Hg]. specialize (T4 o ltac:(apply in_seq; lia)). apply andb_prop in T4. destruct T4 as [T4 _].
    apply Bool.eqb_prop in T4. apply memb_In. rewrite T4. apply Z.eqb_eq. auto.
  - intros Ho. specialize (T4 o ltac:(apply in_seq; specialize (Hu o Ho); lia)). apply andb_prop in T4. destruct T4 as [_ T4].
    apply Bool.eqb_prop in T4. rewrite (proj2 (memb_In o u)) in T4 by auto. symmetry in T4. apply Z.eqb_eq in T4. auto.
  - intros [Ho Hg]. specialize (T4 o ltac:(apply in_seq; lia)). apply andb_prop in T4. destruct T4 as [_ T4].
    apply Bool.eqb_prop in T4. apply memb_In. rewrite T4. apply Z.eqb_eq. auto.
Qed.

Lemma half_lt s dim : s < 2 * dim -> s / 2 < dim.
Proof. intros H. apply Nat.div_lt_upper_bound; lia. Qed.

Lemma side_octants dim nang q0 mu eta xi wt a s : quad_new dim nang = Ok q0 ->
  let q := with_cosines q0 mu eta xi wt in
  (forall axis, axis < dim -> exists c, nth_error (nth axis [mu; eta; xi] []) a = Some c /\ (0 < c)%R) ->
  s < 2 * dim ->
  exists i u, incident_octant q s = Ok i /\ outgoing_octant q s = Ok u /\ NoDup i /\ NoDup u /\
  (forall o, In o i <-> o < q_noct q /\ exists c, cosine q (s / 2) o a = Ok c /\ points_inward s c) /\
  (forall o, In o u <-> o < q_noct q /\ exists c, cosine q (s / 2) o a = Ok c /\ points_outward s c).
Proof.
  intros Hq q Hc Hs. destruct (quad_new_inv Hq) as (Hd & E1 & E2 & E3 & E4 & E5 & E6 & E7 & E8).
  destruct (table_spec Hd Hs) as (i & u & H1 & H2 & H3 & H4 & H5 & H6).
  exists i, u. unfold incident_octant, outgoing_octant. cbn [q with_cosines q_inc q_out]. rewrite E6, E7.
  pose proof (half_lt Hs) as Hh. pose proof (@dim_le8 dim ltac:(lia)) as H8.
  assert (Hst : exists c, nth_error (stored q (s / 2)) a = Some c /\ (0 < c)%R).
  { destruct (Hc (s / 2) Hh) as (c & C1 & C2). exists c. split; auto.
    unfold stored, q. destruct (s / 2) as [|[|[|]]]; cbn in *; auto. lia. }
  destruct Hst as (c & C1 & C2).
  assert (Hcos : forall o, o < 2 ^ dim -> cosine q (s / 2) o a = Ok (IZR (sg o (s / 2)) * c)%R).
  { intros o Ho. apply cosine_val; auto; lia. }
  split; [auto|]. split; [auto|]. split; [auto|]. split; [auto|].
  cbn [q_noct q with_cosines]. rewrite E2.
  split; intros o.
  - rewrite H5. split.
    + intros [Ho Hg]. split; auto. rewrite Hcos by auto. eexists. split; [reflexivity|].
      rewrite Hg. unfold points_inward. destruct (Nat.even s); lra.
    + intros [Ho (c' & Hc' & Hp)]. split; auto. rewrite Hcos in Hc' by auto. inversion Hc'; subst c'.
      destruct (@rd2_sign o (s / 2) ltac:(lia) ltac:(lia)) as [_ Hpm]. unfold points_inward in Hp.
      destruct (Nat.even s); [apply (proj1 (sign_pos C2 Hpm)) | apply (proj1 (sign_neg C2 Hpm))]; auto.
  - rewrite H6. split.
    + intros [Ho Hg]. split; auto. rewrite Hcos by auto. eexists. split; [reflexivity|].
      rewrite Hg. unfold points_outward. destruct (Nat.even s); lra.
    + intros [Ho (c' & Hc' & Hp)]. split; auto. rewrite Hcos in Hc' by auto. inversion Hc'; subst c'.
      destruct (@rd2_sign o (s / 2) ltac:(lia) ltac:(lia)) as [_ Hpm]. unfold points_outward in Hp.
      destruct (Nat.even s); [apply (proj1 (sign_neg C2 Hpm)) | apply (proj1 (sign_pos C2 Hpm))]; auto.
Qed.

Lemma rd_map A B (f : A -> B) l n : rd (map f l) n = do x <- rd l n; Ok (f x).
Proof. unfold rd. rewrite nth_error_map. destruct (nth_error l n); reflexivity. Qed.

Lemma cosine_set_adjoint q v axis o a c : cosine q axis o a = Ok c ->
  cosine (set_adjoint q v) axis o a = Ok (if Bool.eqb v (q_adj q) then c else (- c)%R).
Proof.
  intros H. unfold set_adjoint. destruct (Bool.eqb v (q_adj q)); auto.
  unfold cosine, rd2 in *. cbn. rewrite rd_map.
  destruct (rd (q_sign q) o) as [r| |]; cbn in *; try discriminate.
  rewrite rd_map. destruct (rd r axis) as [z| |]; cbn in *; try discriminate.
  destruct (rd _ a) as [x| |]; cbn in *; try discriminate.
  inversion H; subst. f_equal. rewrite mult_IZR. lra.
Qed.
Lemma set_adjoint_adj q v : q_adj (set_adjoint q v) = v.
Proof. unfold set_adjoint. destruct (Bool.eqb v (q_adj q)) eqn:E; auto. apply Bool.eqb_prop in E. auto. Qed.
Lemma set_adjoint_same q v : q_wt (set_adjoint q v) = q_wt q /\ q_inc (set_adjoint q v) = q_inc q /\
  q_out (set_adjoint q v) = q_out q /\ q_noct (set_adjoint q v) = q_noct q /\ q_nao (set_adjoint q v) = q_nao q.
Proof. unfold set_adjoint. destruct (Bool.eqb v (q_adj q)); auto. Qed.

Lemma last_cons A (l : list A) : forall v d, last (v :: l) d = last l v.
Proof.
  induction l as [|w l IH]; intros v d; [reflexivity|].
  change (last (v :: w :: l) d) with (last (w :: l) d). rewrite (IH w d), (IH w v). reflexivity.
Qed.

(** The state after any history of calls depends on the last one only. *)
Lemma set_adjoints_spec l : forall q axis o a c, q_adj q = false -> cosine q axis o a = Ok c ->
  cosine (set_adjoints q l) axis o a = Ok (if last l false then (- c)%R else c).
Proof.
  assert (G : forall l q axis o a c, cosine q axis o a = Ok c ->
    cosine (set_adjoints q l) axis o a = Ok (if Bool.eqb (last l (q_adj q)) (q_adj q) then c else (- c)%R)).
  { clear. intros l. induction l as [|v l IH]; intros q axis o a c H.
    - cbn. rewrite Bool.eqb_reflx. auto.
    - change (set_adjoints q (v :: l)) with (set_adjoints (set_adjoint q v) l).
      rewrite (IH _ _ _ _ _ (cosine_set_adjoint v H)). rewrite set_adjoint_adj.
      rewrite last_cons. f_equal. destruct v, (q_adj q), (last l _); cbn; try reflexivity; ring. }
  intros q axis o a c Ha H. rewrite (G l _ _ _ _ _ H), Ha. destruct (last l false); reflexivity.
Qed.

(** ** Angle indices *)

Lemma quad_index_range q o a : o < q_noct q -> a < q_nao q -> index q o a < q_noct q * q_nao q.
Proof. unfold index. nia. Qed.
Lemma quad_index_inj q o a o' a' : a < q_nao q -> a' < q_nao q ->
  index q o a = index q o' a' -> o = o' /\ a = a'.
Proof. unfold index. intros. assert (o = o') by nia. subst. split; auto. lia. Qed.
Lemma quad_index_onto q n : n < q_noct q * q_nao q ->
  exists o a, o < q_noct q /\ a < q_nao q /\ index q o a = n.
Proof.
  intros H. exists (n / q_nao q), (n mod q_nao q).
  assert (q_nao q <> 0) by nia.
  pose proof (Nat.div_mod n (q_nao q) ltac:(auto)). pose proof (Nat.mod_upper_bound n (q_nao q) ltac:(auto)).
  split; [apply Nat.div_lt_upper_bound; lia|]. split; auto. unfold index. lia.
Qed.
Lemma index_bijection dim k q : quad_new dim (k * 2 ^ dim) = Ok q ->
  q_nao q = k /\ q_noct q * q_nao q = q_nang q /\
  (forall o a, o < q_noct q -> a < q_nao q -> index q o a < q_nang q) /\
  (forall o a o' a', a < q_nao q -> a' < q_nao q -> index q o a = index q o' a' -> o = o' /\ a = a') /\
  (forall n, n < q_nang q -> exists o a, o < q_noct q /\ a < q_nao q /\ index q o a = n).
Proof.
  intros Hq. destruct (quad_new_inv Hq) as (Hd & E1 & E2 & E3 & E4 & _).
  assert (Ek : q_nao q = k). { rewrite E3. apply Nat.div_mul. apply Nat.pow_nonzero. lia. }
  assert (En : q_noct q * q_nao q = q_nang q) by (rewrite E2, E4, Ek; lia).
  split; auto. split; auto. rewrite <- En. split; [|split].
  - apply quad_index_range.
  - intros o a o' a'. apply quad_index_inj.
  - apply quad_index_onto.
Qed.

Lemma product_angle_inverse na np a p : a < na -> p < np ->
  angle_of np a p < na * np /\ azimuth_of na np (angle_of np a p) = a /\ polar_of np (angle_of np a p) = p.
Proof.
  intros Ha Hp. unfold azimuth_of, polar_of, angle_of.
  assert (L : p + a * np < na * np) by nia. split; auto. rewrite (Nat.mod_small (p + a * np)) by auto.
  split.
  - rewrite Nat.div_add by lia. rewrite Nat.div_small by lia. lia.
  - rewrite Nat.mod_add by lia. apply Nat.mod_small. auto.
Qed.
Lemma product_angle_onto na np n : n < na * np ->
  azimuth_of na np n < na /\ polar_of np n < np /\ angle_of np (azimuth_of na np n) (polar_of np n) = n.
Proof.
  intros H. unfold azimuth_of, polar_of, angle_of. rewrite (Nat.mod_small n) by auto.
  assert (np <> 0) by nia.
  pose proof (Nat.div_mod n np ltac:(auto)). pose proof (Nat.mod_upper_bound n np ltac:(auto)).
  split; [apply Nat.div_lt_upper_bound; lia|]. split; auto. lia.
Qed.

(** ** Moments *)

Definition lm_pairs (dim L : nat) : list (nat * Z) :=
  flat_map (fun l => map (pair l) (m_index dim l)) (seq 0 (S L)).

Lemma foldM_app A S (f : S -> A -> res S) l1 l2 s :
  foldM f (l1 ++ l2) s = do s' <- foldM f l1 s; foldM f l2 s'.
Proof. revert s; induction l1 as [|a t IH]; intros s; cbn; auto. destruct (f s a); cbn; auto. Qed.

Lemma foldM_flat A B S (f : S -> A * B -> res S) (g : A -> list B) l s :
  foldM (fun s a => foldM (fun s b => f s (a, b)) (g a) s) l s =
  foldM f (flat_map (fun a => map (pair a) (g a)) l) s.
Proof.
  revert s; induction l as [|a t IH]; intros s; cbn; auto.
  rewrite foldM_app.
  assert (E : forall k s, foldM (fun s b => f s (a, b)) k s = foldM f (map (pair a) k) s).
  { clear. induction k as [|b k IH]; intros s; cbn; auto. destruct (f s (a, b)); cbn; auto. }
  rewrite E. destruct (foldM f (map (pair a) (g a)) s); cbn; auto.
Qed.

Lemma upd_app_mid A (d r : list A) x y : upd (d ++ x :: r) (length d) y = (d ++ [y]) ++ r.
Proof. rewrite <- app_assoc. induction d as [|a d IH]; cbn; auto. rewrite IH. auto. Qed.
Lemma wr_app_mid A (d r : list A) x y : wr (d ++ x :: r) (length d) y = Ok ((d ++ [y]) ++ r).
Proof. unfold wr. rewrite app_length. cbn [length]. rewrite (proj2 (Nat.ltb_lt (length d) (length d + S (length r)))) by lia. rewrite upd_app_mid. auto. Qed.

Lemma fill_pairs ps : forall d,
  foldM (fun st lm => let '(dl, dm, j) := st in
      do dl' <- wr dl j (fst lm); do dm' <- wr dm j (snd lm); Ok (dl', dm', S j)) ps
    (map fst d ++ repeat 0 (length ps), map snd d ++ repeat 0%Z (length ps), length d) =
  Ok (map fst (d ++ ps), map snd (d ++ ps), length (d ++ ps)).
Proof.
  induction ps as [|[l m] ps IH]; intros d; cbn [foldM length repeat].
  - rewrite !app_nil_r. auto.
  - replace (length d) with (length (map fst d)) at 1 by apply map_length.
    rewrite wr_app_mid. cbn [bind].
    replace (length d) with (length (map (@snd nat Z) d)) at 1 by apply map_length.
    rewrite wr_app_mid. cbn [bind fst snd].
    specialize (IH (d ++ [(l, m)])). rewrite !map_app, app_length in IH. cbn [map fst snd length] in IH.
    rewrite Nat.add_1_r in IH. rewrite IH. rewrite !map_app, !app_length. cbn. rewrite <- !app_assoc. cbn.
    f_equal. f_equal. lia.
Qed.

(** Lengths. *)
Lemma m_range_length l : length (m_range l) = 2 * l + 1.
Proof. unfold m_range. rewrite map_length, seq_length. auto. Qed.
Lemma m_range_In l m : In m (m_range l) <-> (- Z.of_nat l <= m <= Z.of_nat l)%Z.
Proof.
  unfold m_range. rewrite in_map_iff. split.
  - intros (k & <- & Hk). apply in_seq in Hk. lia.
  - intros H. exists (Z.to_nat (m + Z.of_nat l)). split; [lia|]. apply in_seq. lia.
Qed.
Lemma m_range_NoDup l : NoDup (m_range l).
Proof.
  unfold m_range. apply FinFun.Injective_map_NoDup; [|apply seq_NoDup]. intros x y. lia.
Qed.
Lemma rem2_even z : (0 <= z)%Z -> (Z.eqb (Z.rem z 2) 0 = true <-> Z.Even z).
Proof.
  intros Hz. rewrite Z.rem_mod_nonneg by lia. rewrite Z.eqb_eq. rewrite Zmod_even.
  rewrite <- Z.even_spec. destruct (Z.even z); split; auto; discriminate.
Qed.
Lemma filter_even_length l : length (filter (fun k => Z.eqb (Z.rem (Z.of_nat k) 2) 0) (seq 0 (2 * l + 1))) = l + 1.
Proof.
  assert (G : forall l, length (filter (fun k => Z.eqb (Z.rem (Z.of_nat k) 2) 0) (seq 0 (2 * l))) = l).
  { clear. induction l as [|l IH]; auto. replace (2 * S l) with (S (S (2 * l))) by lia.
    rewrite !seq_S, !filter_app, !app_length, IH. cbn [filter].
    assert (E1 : Z.eqb (Z.rem (Z.of_nat (0 + 2 * l)) 2) 0 = true).
    { apply rem2_even; [lia|]. exists (Z.of_nat l). lia. }
    assert (E2 : Z.eqb (Z.rem (Z.of_nat (0 + S (2 * l))) 2) 0 = false).
    { apply not_true_is_false. intros H. apply rem2_even in H; [|lia]. destruct H as [x Hx]. lia. }
    rewrite E1, E2. cbn. lia. }
  rewrite Nat.add_1_r, seq_S, filter_app, app_length, G. cbn [filter].
  assert (E1 : Z.eqb (Z.rem (Z.of_nat (0 + 2 * l)) 2) 0 = true).
  { apply rem2_even; [lia|]. exists (Z.of_nat l). lia. }
  rewrite E1. cbn. lia.
Qed.
Lemma filter_map_comm A B (f : A -> B) p l : filter p (map f l) = map f (filter (fun x => p (f x)) l).
Proof. induction l as [|a t IH]; cbn; auto. destruct (p (f a)); cbn; rewrite IH; auto. Qed.

Lemma m_index_length dim l : 0 < dim < 4 ->
  length (m_index dim l) = match dim with 1 => 1 | 2 => l + 1 | _ => 2 * l + 1 end.
Proof.
  intros Hd. assert (Hd' : dim = 1 \/ dim = 2 \/ dim = 3) by lia.
  destruct Hd' as [->|[->| ->]]; cbn [m_index].
  - reflexivity.
  - unfold m_range. rewrite filter_map_comm, map_length. etransitivity; [|apply (filter_even_length l)]. f_equal.
    apply filter_ext. intros k. f_equal. f_equal. lia.
  - apply m_range_length.
Qed.
Lemma m_index_In dim l m : 0 < dim < 4 ->
  (In m (m_index dim l) <-> (- Z.of_nat l <= m <= Z.of_nat l)%Z /\
    match dim with 1 => m = 0%Z | 2 => Z.Even (m + Z.of_nat l) | _ => True end).
Proof.
  intros Hd. assert (Hd' : dim = 1 \/ dim = 2 \/ dim = 3) by lia.
  destruct Hd' as [->|[->| ->]]; cbn [m_index].
  - cbn. split; [intros [<-|[]]; split; [lia|auto] | intros [_ ->]; auto].
  - rewrite filter_In, m_range_In. split; intros [H1 H2]; split; auto.
    + apply rem2_even; auto. lia.
    + apply rem2_even; auto. lia.
  - rewrite m_range_In. tauto.
Qed.
Lemma m_index_NoDup dim l : NoDup (m_index dim l).
Proof.
  destruct dim as [|[|[|]]]; cbn [m_index]; try apply m_range_NoDup.
  - constructor; [tauto|constructor].
  - apply NoDup_filter, m_range_NoDup.
Qed.

Lemma lm_pairs_In dim L l m : 0 < dim < 4 -> (In (l, m) (lm_pairs dim L) <-> valid_lm dim L l m).
Proof.
  intros Hd. unfold lm_pairs, valid_lm. rewrite in_flat_map. split.
  - intros (x & Hx & H). apply in_map_iff in H. destruct H as (y & E & Hy). inversion E; subst.
    apply in_seq in Hx. apply (m_index_In l m Hd) in Hy. split; [lia|auto].
  - intros (H1 & H2). exists l. split; [apply in_seq; lia|]. apply in_map. apply m_index_In; auto.
Qed.
Lemma lm_pairs_NoDup dim L : NoDup (lm_pairs dim L).
Proof.
  unfold lm_pairs. generalize 0. induction (S L) as [|n IH]; intros b; cbn; [constructor|].
  assert (Hd : forall x, In x (map (pair b) (m_index dim b)) -> ~ In x (flat_map (fun l => map (pair l) (m_index dim l)) (seq (S b) n))).
  { intros x H1 H2. apply in_map_iff in H1. destruct H1 as (y & <- & _). apply in_flat_map in H2.
    destruct H2 as (z & Hz & H2). apply in_map_iff in H2. destruct H2 as (w & E & _). inversion E; subst.
    apply in_seq in Hz. lia. }
  assert (H1 : NoDup (map (pair b) (m_index dim b))).
  { apply FinFun.Injective_map_NoDup; [|apply m_index_NoDup]. intros x y E. inversion E. auto. }
  revert H1 Hd. generalize (map (pair b) (m_index dim b)) as u. induction u as [|a u IHu]; intros H1 Hd; cbn; auto.
  inversion H1; subst. constructor.
  - rewrite in_app_iff. intros [H|H]; auto. apply (Hd a); cbn; auto.
  - apply IHu; auto. intros x Hx. apply Hd. cbn; auto.
Qed.
Lemma lm_pairs_length dim L : 0 < dim < 4 -> length (lm_pairs dim L) = number_moments dim L.
Proof.
  intros Hd. unfold lm_pairs.
  assert (E : forall n, length (flat_map (fun l => map (pair l) (m_index dim l)) (seq 0 n)) =
    match dim with 1 => n | 2 => n * (n + 1) / 2 | _ => n * n end).
  { induction n as [|n IH].
    - destruct dim as [|[|[|]]]; auto.
    - rewrite seq_S, flat_map_app, app_length, IH. cbn [flat_map]. rewrite app_nil_r, map_length.
      rewrite m_index_length by auto. cbn [Nat.add].
      assert (Hd' : dim = 1 \/ dim = 2 \/ dim = 3) by lia. destruct Hd' as [->|[->| ->]].
      + lia.
      + replace (S n * S (n + 1)) with (n * (n + 1) + (n + 1) * 2) by lia. rewrite Nat.div_add by lia. auto.
      + lia. }
  rewrite E. assert (Hd' : dim = 1 \/ dim = 2 \/ dim = 3) by lia. destruct Hd' as [->|[->| ->]]; cbn [number_moments]; try lia.
  f_equal. lia.
Qed.

Lemma indexer_new_ok dim L : 0 < dim < 4 ->
  indexer_new dim L = Ok {| mi_n := number_moments dim L; mi_l := map fst (lm_pairs dim L); mi_m := map snd (lm_pairs dim L) |}.
Proof.
  intros Hd. unfold indexer_new, fill_lm.
  rewrite (@foldM_flat nat Z (list nat * list Z * nat)
     (fun st lm => let '(dl, dm, j) := st in do dl' <- wr dl j (fst lm); do dm' <- wr dm j (snd lm); Ok (dl', dm', S j))
     (m_index dim)).
  fold (lm_pairs dim L). rewrite <- (lm_pairs_length L Hd).
  pose proof (fill_pairs (lm_pairs dim L) []) as F. cbn [map app length] in F. rewrite F. reflexivity.
Qed.

Lemma find_lm_spec ps : forall l m i, NoDup ps ->
  find_lm (map fst ps) (map snd ps) l m i <= i + length ps /\
  (In (l, m) ps -> exists k, find_lm (map fst ps) (map snd ps) l m i = i + k /\ nth_error ps k = Some (l, m)).
Proof.
  induction ps as [|[a b] ps IH]; intros l m i ND; cbn [find_lm map fst snd length].
  - split; [lia|intros []].
  - inversion ND; subst. destruct ((a =? l) && Z.eqb b m) eqn:E.
    + split; [lia|]. intros _. exists 0. split; [lia|]. apply andb_prop in E. destruct E as [E1 E2].
      apply Nat.eqb_eq in E1. apply Z.eqb_eq in E2. subst. reflexivity.
    + destruct (IH l m (S i) H2) as [I1 I2]. split; [lia|]. intros [Heq|Hin].
      * inversion Heq; subst. rewrite Nat.eqb_refl, Z.eqb_refl in E. discriminate.
      * destruct (I2 Hin) as (k & E1 & E2). exists (S k). split; [lia|auto].
Qed.

Lemma moment_index dim L : 0 < dim < 4 -> exists x, indexer_new dim L = Ok x /\
  mi_n x = match dim with 1 => L + 1 | 2 => (L + 1) * (L + 2) / 2 | _ => (L + 1) * (L + 1) end /\
  length (mi_l x) = mi_n x /\ length (mi_m x) = mi_n x /\
  (forall i, i < mi_n x -> exists l m, rd (mi_l x) i = Ok l /\ rd (mi_m x) i = Ok m /\
     valid_lm dim L l m /\ mi_index x l m = i) /\
  (forall l m, valid_lm dim L l m -> mi_index x l m < mi_n x /\
     rd (mi_l x) (mi_index x l m) = Ok l /\ rd (mi_m x) (mi_index x l m) = Ok m).
Proof.
  intros Hd. rewrite (indexer_new_ok L Hd). eexists. split; [reflexivity|]. cbn [mi_n mi_l mi_m].
  rewrite !map_length, (lm_pairs_length L Hd). unfold rd, mi_index. cbn [mi_n mi_l mi_m].
  split; [destruct dim as [|[|[|]]]; reflexivity|]. split; auto. split; auto. split.
  - intros i Hi. rewrite <- (lm_pairs_length L Hd) in Hi.
    destruct (nth_error (lm_pairs dim L) i) as [[l m]|] eqn:E; [|apply nth_error_None in E; lia].
    exists l, m. rewrite !nth_error_map, E. cbn [option_map fst snd]. split; auto. split; auto.
    assert (Hin : In (l, m) (lm_pairs dim L)) by (eapply nth_error_In; eauto).
    split; [apply lm_pairs_In; auto|].
    destruct (find_lm_spec l m 0 (lm_pairs_NoDup dim L)) as [_ F]. destruct (F Hin) as (k & F1 & F2).
    rewrite F1. cbn [Nat.add]. eapply NoDup_nth_error; [apply (lm_pairs_NoDup dim L)| |congruence].
    apply nth_error_Some. congruence.
  - intros l m V. apply (lm_pairs_In L l m Hd) in V.
    destruct (find_lm_spec l m 0 (lm_pairs_NoDup dim L)) as [_ F]. destruct (F V) as (k & F1 & F2).
    rewrite F1. cbn [Nat.add]. rewrite !nth_error_map, F2. cbn [option_map fst snd]. split; auto.
    rewrite <- (lm_pairs_length L Hd). apply nth_error_Some. congruence.
Qed.

(** ** Base rules *)

Lemma vec_sum_sumR v : vec_sum v = sumR v.
Proof.
  unfold vec_sum. assert (G : forall l s, fold_left Rplus l s = (s + sumR l)%R).
  { induction l as [|a t IH]; intros s; cbn [fold_left]; [unfold sumR; simpl; ring|]. rewrite IH, sumR_cons. ring. }
  rewrite G. ring.
Qed.
Lemma sumR_scale v s : sumR (vec_scale v s) = (sumR v * s)%R.
Proof. unfold vec_scale. induction v as [|a t IH]; cbn [map]; [unfold sumR; simpl; ring|]. rewrite !sumR_cons, IH. ring. Qed.

Lemma scale_and_shift_sum a0 b0 a1 b1 x w : (a0 < b0)%R ->
  (sumR (snd (scale_and_shift a0 b0 a1 b1 (x, w))) * (b0 - a0) = sumR w * (b1 - a1))%R.
Proof. intros H. unfold scale_and_shift. cbn [snd]. rewrite sumR_scale. field. lra. Qed.

Lemma uniform_sum a b m : 0 < m ->
  length (snd (uniform_rule a b m)) = m /\ sumR (snd (uniform_rule a b m)) = (b - a)%R.
Proof.
  intros Hm. unfold uniform_rule. cbn [snd]. split; [rewrite map_length, seq_length; auto|].
  rewrite sumR_map_const, seq_length. field. apply not_0_INR. lia.
Qed.
Lemma uniform_cosine_sum srt a b m : 0 < m ->
  length (snd (uniform_cosine_rule srt a b m)) = m /\ sumR (snd (uniform_cosine_rule srt a b m)) = (b - a)%R.
Proof.
  intros Hm. unfold uniform_cosine_rule. split.
  - cbn. unfold vec_scale. rewrite !map_length, seq_length. auto.
  - pose proof PI_RGT_0.
    match goal with |- context [scale_and_shift ?p ?q a b (?x, ?w)] => pose proof (@scale_and_shift_sum p q a b x w) as H' end.
    rewrite sumR_map_const, seq_length in H'. specialize (H' H).
    apply Rmult_eq_reg_r with (PI - 0)%R; [|lra]. rewrite H'. field. apply not_0_INR. lia.
Qed.

Lemma rsum_blocks w0 w1 k :
  rsum (3 * k) (fun i => if (i mod 3) mod 2 =? 0 then w0 else w1) = (INR k * (w0 + w1 + w0))%R.
Proof.
  induction k as [|k IH]; [simpl; ring|]. replace (3 * S k) with (S (S (S (3 * k)))) by lia.
  cbn [rsum]. rewrite IH.
  assert (E0 : (3 * k) mod 3 = 0) by (rewrite Nat.mul_comm; apply Nat.mod_mul; lia).
  assert (E1 : S (3 * k) mod 3 = 1) by (replace (S (3 * k)) with (1 + k * 3) by lia; rewrite Nat.mod_add by lia; auto).
  assert (E2 : S (S (3 * k)) mod 3 = 2) by (replace (S (S (3 * k))) with (2 + k * 3) by lia; rewrite Nat.mod_add by lia; auto).
  rewrite E0, E1, E2, S_INR. cbn. ring.
Qed.

Lemma simpson_weight_sum m : 0 < m ->
  sumR (map (simpson_weight m) (seq 0 m)) = (if m mod 3 =? 2 then 1 - 1 / INR m else 1)%R.
Proof.
  intros Hm. assert (HI : INR m <> 0%R) by (apply not_0_INR; lia).
  rewrite <- rsum_sumR. set (k := m / 3).
  assert (D : m = 3 * k + m mod 3) by (apply Nat.div_mod; lia).
  pose proof (Nat.mod_upper_bound m 3 ltac:(lia)) as Hr.
  set (w0 := (1.125 / INR m)%R). set (w1 := (0.75 / INR m)%R).
  assert (B : rsum (3 * k) (simpson_weight m) = (INR (3 * k) / INR m)%R).
  { transitivity (rsum (3 * k) (fun i => if (i mod 3) mod 2 =? 0 then w0 else w1)).
    - apply rsum_ext. intros i Hi. unfold simpson_weight. fold w0 w1.
      rewrite (proj2 (Nat.ltb_lt i (m - m mod 3))) by lia.
      destruct (Nat.eqb_spec (m mod 3) 2) as [E|E].
      + destruct (Nat.eqb_spec i (m - 2)); [lia|auto].
      + destruct (Nat.eqb_spec (m mod 3) 0) as [E'|E']; cbn [negb]; auto.
        destruct (Nat.eqb_spec i (m - 1)); [lia|auto].
    - rewrite rsum_blocks. unfold w0, w1. rewrite mult_INR. replace (INR 3) with 3%R by (simpl; lra).
      replace 1.125%R with (9 / 8)%R by lra. replace 0.75%R with (3 / 4)%R by lra. field; auto. }
  assert (Hw : forall i, i = m - 1 \/ i = m - 2 -> 3 * k <= i -> simpson_weight m i =
     if m mod 3 =? 2 then (if i =? m - 2 then 1 / INR m else 0)%R else (if i =? m - 1 then 1 / INR m else 0)%R).
  { intros i Hi Hk. unfold simpson_weight. rewrite (proj2 (Nat.ltb_ge i (m - m mod 3))) by lia.
    destruct (Nat.eqb_spec (m mod 3) 2) as [E|E]; auto.
    destruct (Nat.eqb_spec (m mod 3) 0) as [E'|E']; cbn [negb]; auto. lia. }
  assert (Hm3 : m mod 3 = 0 \/ m mod 3 = 1 \/ m mod 3 = 2) by lia.
  destruct Hm3 as [E|[E|E]]; rewrite E; cbn [Nat.eqb].
  - replace (rsum m) with (rsum (3 * k)) by (f_equal; lia). rewrite B. replace (3 * k) with m by lia. field; auto.
  - replace (rsum m) with (rsum (S (3 * k))) by (f_equal; lia). cbn [rsum]. rewrite B.
    rewrite (Hw (3 * k)) by lia. rewrite E. cbn [Nat.eqb]. rewrite (proj2 (Nat.eqb_eq (3 * k) (m - 1))) by lia.
    replace (INR m) with (INR (3 * k) + 1)%R by (rewrite <- S_INR; f_equal; lia).
    field. rewrite <- S_INR. apply not_0_INR. lia.
  - replace (rsum m) with (rsum (S (S (3 * k)))) by (f_equal; lia). cbn [rsum]. rewrite B.
    rewrite (Hw (3 * k)) by lia. rewrite (Hw (S (3 * k))) by lia. rewrite E, (Nat.eqb_refl 2).
    rewrite (proj2 (Nat.eqb_eq (3 * k) (m - 2))) by lia. rewrite (proj2 (Nat.eqb_neq (S (3 * k)) (m - 2))) by lia.
    replace (INR (3 * k)) with (INR m - 2)%R; [field; auto|].
    replace (INR m) with (INR (3 * k) + 2)%R; [ring|]. replace (INR m) with (INR (S (S (3 * k)))) by (f_equal; lia). rewrite !S_INR. ring.
Qed.

Lemma simpson_sum a b m : 0 < m ->
  length (snd (simpson_rule a b m)) = m /\
  sumR (snd (simpson_rule a b m)) = (if m mod 3 =? 2 then (b - a) * (1 - 1 / INR m) else b - a)%R.
Proof.
  intros Hm. unfold simpson_rule. split; [cbn; unfold vec_scale; rewrite !map_length, seq_length; auto|].
  pose proof (@scale_and_shift_sum 0 1 a b (linspace_center 0 1 m) (map (simpson_weight m) (seq 0 m)) Rlt_0_1) as H.
  rewrite simpson_weight_sum in H by auto.
  destruct (m mod 3 =? 2); lra.
Qed.
Lemma simpson_ok a b m : 0 < m -> m mod 3 <> 2 -> sumR (snd (simpson_rule a b m)) = (b - a)%R.
Proof. intros H1 H2. rewrite (proj2 (simpson_sum a b H1)). rewrite (proj2 (Nat.eqb_neq _ _) H2). auto. Qed.
Lemma simpson_bad a b m : (a < b)%R -> m mod 3 = 2 -> sumR (snd (simpson_rule a b m)) <> (b - a)%R.
Proof.
  intros H1 H2. assert (Hm : 0 < m) by (destruct m; [discriminate|lia]).
  rewrite (proj2 (simpson_sum a b Hm)), H2. cbn [Nat.eqb].
  assert (0 < INR m)%R by (apply lt_0_INR; lia). intros E.
  assert (E' : ((b - a) * (1 / INR m) = 0)%R) by lra.
  apply Rmult_integral in E'. destruct E' as [E'|E']; [lra|].
  unfold Rdiv in E'. rewrite Rmult_1_l in E'. apply Rinv_neq_0_compat in E'; auto. lra.
Qed.
Lemma simpson_two : sumR (snd (simpson_rule 0 1 2)) = (1 / 2)%R.
Proof. rewrite (proj2 (simpson_sum 0 1 (ltac:(lia) : 0 < 2))). cbn. lra. Qed.

(** Points of the uniform rule are inside and increasing. *)
Lemma uniform_points a b m k : 0 < m -> (a < b)%R -> k < m ->
  (a < nth k (fst (uniform_rule a b m)) 0 < b)%R /\
  (S k < m -> (nth k (fst (uniform_rule a b m)) 0 < nth (S k) (fst (uniform_rule a b m)) 0)%R).
Proof.
  intros Hm Hab Hk. unfold uniform_rule. cbn [fst].
  destruct (@linspace_center_spec a b m ltac:(lia)) as [_ H].
  assert (0 < INR m)%R by (apply lt_0_INR; lia).
  assert (HI : (0 < / INR m)%R) by (apply Rinv_0_lt_compat; auto).
  assert (HK : (INR k + 1 <= INR m)%R) by (rewrite <- S_INR; apply le_INR; lia).
  pose proof (pos_INR k).
  assert (P : forall j, j < m -> nth j (linspace_center a b m) 0%R = (a + (b - a) * ((INR j + 1 / 2) * / INR m))%R).
  { intros j Hj. rewrite H by auto. rewrite plus_INR. simpl (INR 1). field. lra. }
  rewrite P by auto. split.
  - assert (A1 : (0 < (INR k + 1 / 2) * / INR m)%R) by (apply Rmult_lt_0_compat; lra).
    assert (A2 : ((INR k + 1 / 2) * / INR m < 1)%R).
    { apply Rmult_lt_reg_r with (INR m); auto. rewrite Rmult_assoc, Rinv_l by lra. lra. }
    nra.
  - intros HS. rewrite P by auto. rewrite S_INR.
    assert (((b - a) * ((INR k + 1 + 1 / 2) * / INR m)) - ((b - a) * ((INR k + 1 / 2) * / INR m)) = (b - a) * / INR m)%R by ring.
    assert (0 < (b - a) * / INR m)%R by (apply Rmult_lt_0_compat; lra). lra.
Qed.

(** Double rules. *)
Lemma double_rule_spec a b xh wh : length xh = length wh -> (a < b)%R ->
  let h := length xh in
  let r := double_rule a b (xh, wh) in
  length (fst r) = 2 * h /\ length (snd r) = 2 * h /\
  sumR (snd r) = (sumR wh * (b - a) / 2)%R /\
  (forall i, i < 2 * h ->
     nth i (snd r) 0%R = nth (2 * h - 1 - i) (snd r) 0%R /\
     (nth i (fst r) 0 + nth (2 * h - 1 - i) (fst r) 0 = a + b)%R).
Proof.
  intros HL Hab h r. unfold r, double_rule.
  destruct (scale_and_shift (-1) 1 0 1 (xh, wh)) as [x w] eqn:E.
  assert (Lx : length x = h). { inversion E. unfold vec_scale. rewrite !map_length. auto. }
  assert (Lw : length w = h). { inversion E. unfold vec_scale. rewrite !map_length. auto. }
  assert (Sw : sumR w = (sumR wh / 2)%R).
  { pose proof (@scale_and_shift_sum (-1) 1 0 1 xh wh ltac:(lra)) as H. rewrite E in H. cbn [snd] in H. lra. }
  set (X := rev (map Ropp x) ++ x). set (W := rev w ++ w).
  assert (LX : length X = 2 * h) by (unfold X; rewrite app_length, rev_length, map_length; lia).
  assert (LW : length W = 2 * h) by (unfold W; rewrite app_length, rev_length; lia).
  cbn [fst snd scale_and_shift]. unfold vec_scale. rewrite !map_length.
  split; auto. split; auto. split.
  - change (map (fun x0 : R => x0 * ((b - a) / (1 - -1)))%R W) with (vec_scale W ((b - a) / (1 - -1))).
    rewrite sumR_scale. unfold W. rewrite sumR_app.
    rewrite <- (sumR_perm (Permutation_rev w)), Sw. field.
  - assert (NW : forall i, i < 2 * h -> nth i W 0%R = nth (2 * h - 1 - i) W 0%R).
    { intros i Hi. unfold W. destruct (lt_dec i h) as [L|L].
      - rewrite app_nth1 by (rewrite rev_length; lia). rewrite app_nth2 by (rewrite rev_length; lia).
        rewrite rev_nth by lia. rewrite rev_length. f_equal. lia.
      - rewrite app_nth2 by (rewrite rev_length; lia). rewrite app_nth1 by (rewrite rev_length; lia).
        rewrite rev_nth by lia. rewrite rev_length. f_equal. lia. }
    assert (NX : forall i, i < 2 * h -> nth i X 0%R = (- nth (2 * h - 1 - i) X 0)%R).
    { intros i Hi. unfold X. destruct (lt_dec i h) as [L|L].
      - rewrite app_nth1 by (rewrite rev_length, map_length; lia).
        rewrite app_nth2 by (rewrite rev_length, map_length; lia).
        rewrite rev_nth by (rewrite map_length; lia). rewrite rev_length, map_length.
        rewrite <- Ropp_0 at 1. rewrite map_nth. f_equal. f_equal. lia.
      - rewrite app_nth2 by (rewrite rev_length, map_length; lia).
        rewrite app_nth1 by (rewrite rev_length, map_length; lia).
        rewrite rev_nth by (rewrite map_length; lia). rewrite rev_length, map_length.
        rewrite <- Ropp_0 at 2. rewrite map_nth. rewrite Ropp_involutive. f_equal. lia. }
    assert (ML : forall (f : R -> R) l i, i < length l -> nth i (map f l) 0%R = f (nth i l 0%R)).
    { intros f l i Hi. rewrite nth_indep with (d' := f 0%R) by (rewrite map_length; auto). apply map_nth. }
    intros i Hi. rewrite !ML by (rewrite ?map_length; lia). split.
    + rewrite (NW i Hi). auto.
    + rewrite (NX i Hi). field.
Qed.

(** ** Azimuthal, polar, product *)

Lemma normalize_sum w s : sumR w <> 0%R -> sumR (vec_scale w (s / vec_sum w)) = s.
Proof. intros H. rewrite sumR_scale, vec_sum_sumR. field. auto. Qed.
Lemma vec_scale_length w s : length (vec_scale w s) = length w.
Proof. unfold vec_scale. apply map_length. Qed.

Lemma flat_map_len T (f : nat -> nat -> T) np : forall na k,
  length (flat_map (fun a => map (f a) (seq 0 np)) (seq k na)) = na * np.
Proof.
  induction na as [|na IH]; intros k; cbn [seq flat_map]; auto.
  rewrite app_length, map_length, seq_length, IH. lia.
Qed.
Lemma product_set_length dim A P na np : length (product_set dim A P na np) = na * np.
Proof. unfold product_set. cbv zeta. apply flat_map_len. Qed.
Lemma flat_map_nth T (f : nat -> nat -> T) np d : forall na k a p, a < na -> p < np ->
  nth (p + a * np) (flat_map (fun a => map (f a) (seq 0 np)) (seq k na)) d = f (k + a) p.
Proof.
  induction na as [|na IH]; intros k a p Ha Hp; [lia|]. cbn [seq flat_map].
  destruct a as [|a].
  - rewrite app_nth1 by (rewrite map_length, seq_length; lia). rewrite nth_map_seq by lia. f_equal; lia.
  - rewrite app_nth2 by (rewrite map_length, seq_length; lia). rewrite map_length, seq_length.
    replace (p + S a * np - np) with (p + a * np) by lia. rewrite IH by lia. f_equal; lia.
Qed.
Lemma sumR_flat T (g : T -> R) (f : nat -> nat -> T) np : forall l,
  sumR (map g (flat_map (fun a => map (f a) (seq 0 np)) l)) = sumR (map (fun a => rsum np (fun p => g (f a p))) l).
Proof.
  induction l as [|a l IH]; cbn [flat_map map]; auto.
  rewrite map_app, sumR_app, IH, sumR_cons. f_equal. rewrite map_map, rsum_sumR. auto.
Qed.
Lemma sumR_rsum_nth l n : length l = n -> rsum n (fun i => nth i l 0%R) = sumR l.
Proof. intros <-. symmetry. apply sumR_nth. Qed.

Lemma product_set_sum dim A P na np : length (az_wt A) = na -> length (po_wt P) = np ->
  sumR (map e_wt (product_set dim A P na np)) =
  ((if dim =? 2 then 2 else 1) * sumR (po_wt P) * sumR (az_wt A))%R.
Proof.
  intros HA HP. unfold product_set. rewrite sumR_flat. cbn [e_wt]. rewrite <- rsum_sumR.
  set (sc := (if dim =? 2 then 2 else 1)%R).
  transitivity (rsum na (fun a => sc * sumR (po_wt P) * nth a (az_wt A) 0)%R).
  - apply rsum_ext. intros a _. rewrite <- (sumR_rsum_nth HP).
    rewrite rsum_scal_r. rewrite rsum_scal. ring.
  - rewrite rsum_scal. rewrite (sumR_rsum_nth HA). auto.
Qed.

Lemma acos_0 : acos 0 = (PI / 2)%R.
Proof. rewrite <- cos_PI2. apply acos_cos. pose proof PI_RGT_0. lra. Qed.

Lemma Rltb_true x y : Rltb x y = true <-> (x < y)%R.
Proof. unfold Rltb. destruct (Rlt_dec x y); split; auto; discriminate. Qed.

(** The chain AzimuthalQuadrature, PolarQuadrature, ProductQuadratureAP for any
    base rules. *)
Lemma product_normalised dim QA QP na np es : dim < 4 ->
  (forall a b m, length (fst (QA a b m)) = m /\ length (snd (QA a b m)) = m) ->
  sumR (az_wt (azimuthal QA na false)) <> 0%R -> sumR (po_wt (polar_quad QP np false)) <> 0%R ->
  product_build dim (azimuthal QA na true) (polar_quad QP np true) na np = Ok es ->
  length es = na * np /\ (INR (2 ^ dim) * sumR (map e_wt es) = 1 / angular_norm dim)%R.
Proof.
  intros Hd HQ HA HP H. unfold product_build in H. destruct (1 <? dim) eqn:E1; [|discriminate]. apply Nat.ltb_lt in E1.
  destruct (verify _ _ na np); [|discriminate]. inversion H; subst es; clear H.
  split; [apply product_set_length|].
  assert (LA : length (az_wt (azimuthal QA na true)) = na).
  { unfold azimuthal. destruct (HQ 0%R (acos 0) na) as [_ L]. destruct (QA 0%R (acos 0) na) as [x w]. cbn in *.
    rewrite vec_scale_length. auto. }
  assert (LP : length (po_wt (polar_quad QP np true)) = np).
  { unfold polar_quad. destruct (QP (-1)%R 1%R (2 * np)) as [x w]. cbn. rewrite vec_scale_length, map_length, seq_length. auto. }
  assert (SA : sumR (az_wt (azimuthal QA na true)) = (PI / 2)%R).
  { unfold azimuthal in *. destruct (QA 0%R (acos 0) na) as [x w]. cbn [az_wt] in *. rewrite normalize_sum by auto. apply acos_0. }
  assert (SP : sumR (po_wt (polar_quad QP np true)) = 1%R).
  { unfold polar_quad in *. destruct (QP (-1)%R 1%R (2 * np)) as [x w]. cbn [po_wt] in *. rewrite normalize_sum by auto. auto. }
  rewrite product_set_sum by auto. rewrite SA, SP. unfold angular_norm. pose proof PI_RGT_0.
  assert (Hd' : dim = 2 \/ dim = 3) by lia. destruct Hd' as [->| ->]; cbn [Nat.eqb Nat.pow Nat.mul Nat.add]; simpl INR; field; lra.
Qed.

Lemma product_on_sphere dim QA QP na np es n : 
  (forall a b m, length (fst (QA a b m)) = m) ->
  (forall p, p < np -> (-1 <= nth p (po_cos (polar_quad QP np true)) 0 <= 1)%R) ->
  product_build dim (azimuthal QA na true) (polar_quad QP np true) na np = Ok es ->
  n < na * np ->
  let e := nth n es entry0 in on_sphere (e_mu e) (e_eta e) (e_xi e).
Proof.
  intros HQ HC H Hn e. unfold product_build in H. destruct (1 <? dim); [|discriminate].
  destruct (verify _ _ na np); [|discriminate]. inversion H; subst es; clear H.
  destruct (product_angle_onto Hn) as (Ha & Hp & En).
  set (a := azimuth_of na np n) in *. set (p := polar_of np n) in *. unfold e. rewrite <- En. unfold angle_of, product_set.
  rewrite flat_map_nth by auto. unfold on_sphere. cbn [e_mu e_eta e_xi Nat.add].
  specialize (HC p Hp).
  assert (Es : nth p (po_sin (polar_quad QP np true)) 0%R = sqrt (1 - nth p (po_cos (polar_quad QP np true)) 0 * nth p (po_cos (polar_quad QP np true)) 0)%R).
  { unfold polar_quad. destruct (QP (-1)%R 1%R (2 * np)) as [x w]. cbn [po_sin po_cos].
    rewrite map_map. rewrite !nth_map_seq by auto. auto. }
  assert (Ea : exists phi, nth a (az_cos (azimuthal QA na true)) 0%R = cos phi /\ nth a (az_sin (azimuthal QA na true)) 0%R = sin phi).
  { pose proof (HQ 0%R (acos 0) na) as L. unfold azimuthal. destruct (QA 0%R (acos 0) na) as [x w]. cbn [az_cos az_sin fst] in *.
    exists (nth a x 0%R).
    split.
    - rewrite nth_indep with (d' := cos 0) by (rewrite map_length; lia). apply map_nth.
    - rewrite nth_indep with (d' := sin 0) by (rewrite map_length; lia). apply map_nth. }
  destruct Ea as (phi & -> & ->). rewrite Es.
  set (t := nth p (po_cos (polar_quad QP np true)) 0%R) in *.
  assert (Q : (sqrt (1 - t * t) * sqrt (1 - t * t) = 1 - t * t)%R) by (apply sqrt_sqrt; nra).
  pose proof (sin2_cos2 phi) as SC. unfold Rsqr in SC.
  replace (sqrt (1 - t * t) * cos phi * (sqrt (1 - t * t) * cos phi))%R with ((sqrt (1 - t * t) * sqrt (1 - t * t)) * (cos phi * cos phi))%R by ring.
  replace (sqrt (1 - t * t) * sin phi * (sqrt (1 - t * t) * sin phi))%R with ((sqrt (1 - t * t) * sqrt (1 - t * t)) * (sin phi * sin phi))%R by ring.
  rewrite Q. replace (cos phi * cos phi)%R with (1 - sin phi * sin phi)%R by lra. ring.
Qed.

(** What verify guarantees. *)
Lemma product_verified dim A P na np es : product_build dim A P na np = Ok es ->
  (forall p, p < np -> (0 < nth p (po_cos P) 0)%R) /\
  (forall p, S p < np -> (nth p (po_cos P) 0 < nth (S p) (po_cos P) 0)%R) /\
  (forall a p, S a < na -> p < np -> (e_mu (nth (angle_of np (S a) p) es entry0) < e_mu (nth (angle_of np a p) es entry0))%R).
Proof.
  intros H. unfold product_build in H. destruct (1 <? dim); [|discriminate].
  destruct (verify P _ na np) eqn:V; [|discriminate]. inversion H; subst es; clear H.
  unfold verify in V. rewrite forallb_forall in V.
  assert (V1 : forall p, p < np -> ((if p =? 0 then 0 else nth (p - 1) (po_cos P) 0) < nth p (po_cos P) 0)%R).
  { intros p Hp. specialize (V p ltac:(apply in_seq; lia)). apply andb_prop in V. destruct V as [V _]. apply Rltb_true in V. auto. }
  split; [|split].
  - induction p as [|p IH]; intros Hp; specialize (V1 _ Hp); cbn [Nat.eqb] in V1; auto.
    replace (S p - 1) with p in V1 by lia. specialize (IH ltac:(lia)). lra.
  - intros p Hp. specialize (V1 _ Hp). cbn [Nat.eqb] in V1. replace (S p - 1) with p in V1 by lia. auto.
  - intros a p Ha Hp. specialize (V p ltac:(apply in_seq; lia)). apply andb_prop in V. destruct V as [_ V].
    rewrite forallb_forall in V. specialize (V (S a) ltac:(apply in_seq; lia)). apply Rltb_true in V. cbn [Nat.eqb] in V.
    replace (S a - 1) with a in V by lia. auto.
Qed.

(** UniformEqual *)
Lemma ue_xi_val order i : 0 < order -> ue_xi order i = ((INR i + 1 / 2) / INR order)%R.
Proof.
  intros H. unfold ue_xi. rewrite mult_INR. simpl (INR 2). field. apply not_0_INR. lia.
Qed.
Lemma ue_counts order : 2 * order / 2 = order /\ 4 * order / 4 = order.
Proof. split; rewrite Nat.mul_comm; apply Nat.div_mul; lia. Qed.
Lemma uniform_equal_spec dim order : 0 < order ->
  length (uniform_equal dim order) = order * order /\
  (INR (2 ^ dim) * sumR (map e_wt (uniform_equal dim order)) = 4 * PI)%R /\
  (forall e, In e (uniform_equal dim order) ->
     on_sphere (e_mu e) (e_eta e) (e_xi e) /\ (0 < e_mu e)%R /\ (0 < e_eta e)%R /\ (0 < e_xi e)%R).
Proof.
  intros Ho. destruct (ue_counts order) as [C1 C2].
  assert (H2 : 2 ^ dim <> 0) by (apply Nat.pow_nonzero; lia).
  assert (HR : INR order <> 0%R) by (apply not_0_INR; lia).
  assert (HRp : (0 < INR order)%R) by (apply lt_0_INR; lia).
  assert (HP : INR (2 ^ dim) <> 0%R) by (apply not_0_INR; auto).
  assert (Enao : 2 ^ dim * order * order / 2 ^ dim = order * order).
  { replace (2 ^ dim * order * order) with (order * order * 2 ^ dim) by lia. apply Nat.div_mul. auto. }
  unfold uniform_equal. rewrite Enao, C1, C2.
  set (coef := (4 * PI / (INR (order * order) * 8 * (ue_xi order 1 - ue_xi order 0)))%R).
  assert (Ec : coef = (PI / 2 / INR order)%R).
  { unfold coef. rewrite !ue_xi_val by auto. rewrite mult_INR. simpl INR. field. auto. }
  split; [|split].
  - apply flat_map_len.
  - rewrite sumR_flat. cbn [e_wt]. rewrite <- rsum_sumR. rewrite rsum_const, rsum_const. rewrite !mult_INR. field. auto.
  - intros e He. apply in_flat_map in He. destruct He as (j & Hj & He). apply in_map_iff in He. destruct He as (i & <- & Hi).
    apply in_seq in Hi. apply in_seq in Hj. cbn [e_mu e_eta e_xi].
    set (t := ue_xi order i). set (w := (coef * (INR j + 1 / 2))%R).
    assert (Ht : (0 < t < 1)%R).
    { unfold t. rewrite ue_xi_val by auto. pose proof (pos_INR i).
      assert (INR i + 1 <= INR order)%R by (rewrite <- S_INR; apply le_INR; lia). split.
      - apply Rdiv_lt_0_compat; lra.
      - apply Rmult_lt_reg_r with (INR order); auto. unfold Rdiv. rewrite Rmult_assoc, Rinv_l by auto. lra. }
    assert (Hw : (0 < w < PI / 2)%R).
    { unfold w. rewrite Ec. pose proof PI_RGT_0. pose proof (pos_INR j).
      assert (INR j + 1 <= INR order)%R by (rewrite <- S_INR; apply le_INR; lia).
      replace (PI / 2 / INR order * (INR j + 1 / 2))%R with (PI / 2 * ((INR j + 1 / 2) / INR order))%R by (field; auto).
      assert (0 < (INR j + 1 / 2) / INR order < 1)%R.
      { split; [apply Rdiv_lt_0_compat; lra|]. apply Rmult_lt_reg_r with (INR order); auto.
        unfold Rdiv. rewrite Rmult_assoc, Rinv_l by auto. lra. }
      nra. }
    assert (Q : (sqrt (1 - t * t) * sqrt (1 - t * t) = 1 - t * t)%R) by (apply sqrt_sqrt; nra).
    assert (Qp : (0 < sqrt (1 - t * t))%R) by (apply sqrt_lt_R0; nra).
    assert (Cp : (0 < cos w)%R) by (apply cos_gt_0; lra).
    assert (Sp : (0 < sin w)%R) by (apply sin_gt_0; lra).
    pose proof (sin2_cos2 w) as SC. unfold Rsqr in SC.
    split; [|split; [nra|split; [nra|lra]]]. unfold on_sphere.
    replace (cos w * sqrt (1 - t * t) * (cos w * sqrt (1 - t * t)))%R with ((sqrt (1 - t * t) * sqrt (1 - t * t)) * (cos w * cos w))%R by ring.
    replace (sin w * sqrt (1 - t * t) * (sin w * sqrt (1 - t * t)))%R with ((sqrt (1 - t * t) * sqrt (1 - t * t)) * (sin w * sin w))%R by ring.
    rewrite Q. replace (cos w * cos w)%R with (1 - sin w * sin w)%R by lra. ring.
Qed.

Lemma user_on_sphere mu eta w : (mu * mu + eta * eta <= 1)%R ->
  let e := user_entry mu eta w in on_sphere (e_mu e) (e_eta e) (e_xi e).
Proof. intros H. unfold on_sphere, user_entry. cbn. rewrite sqrt_sqrt by lra. ring. Qed.

(** The tables are not changed by set_adjoint, so in an adjoint quadrature the
    incident octants of a side are those whose cosines point outward. *)
Lemma adjoint_tables dim nang q0 mu eta xi wt a s : quad_new dim nang = Ok q0 ->
  let q := set_adjoint (with_cosines q0 mu eta xi wt) true in
  (forall axis, axis < dim -> exists c, nth_error (nth axis [mu; eta; xi] []) a = Some c /\ (0 < c)%R) ->
  s < 2 * dim ->
  exists i, incident_octant q s = Ok i /\
  (forall o, In o i <-> o < q_noct q /\ exists c, cosine q (s / 2) o a = Ok c /\ points_outward s c).
Proof.
  intros Hq q Hc Hs. destruct (@side_octants dim nang q0 mu eta xi wt a s Hq Hc Hs) as (i & u & H1 & _ & _ & _ & H5 & _).
  set (f := with_cosines q0 mu eta xi wt) in *.
  destruct (quad_new_inv Hq) as (_ & _ & _ & _ & _ & _ & _ & _ & E8).
  assert (Ef : q_adj f = false) by (unfold f; cbn; auto).
  exists i. destruct (set_adjoint_same f true) as (_ & Ei & _ & En & _). unfold incident_octant in *. unfold q.
  rewrite Ei, En. split; auto. intros o. rewrite H5.
  assert (X : forall c, cosine f (s / 2) o a = Ok c -> cosine (set_adjoint f true) (s / 2) o a = Ok (- c)%R).
  { intros c Hcc. rewrite (cosine_set_adjoint true Hcc). rewrite Ef. auto. }
  assert (Y : forall c, cosine (set_adjoint f true) (s / 2) o a = Ok c -> cosine f (s / 2) o a = Ok (- c)%R).
  { intros c Hcc. assert (Eb : set_adjoint (set_adjoint f true) false = f).
    { unfold set_adjoint at 2. rewrite Ef. cbn [Bool.eqb]. unfold set_adjoint. cbn [q_adj Bool.eqb].
      unfold f, with_cosines. cbn. destruct (quad_new_inv Hq) as (_ & _ & _ & _ & _ & E5 & _). rewrite E5. cbn.
      rewrite E8. f_equal. }
    rewrite <- Eb. rewrite (cosine_set_adjoint false Hcc). rewrite set_adjoint_adj. auto. }
  split; intros [Ho (c & Hc1 & Hc2)]; (split; [auto|]); exists (- c)%R.
  - split; auto. unfold points_inward, points_outward in *. destruct (Nat.even s); lra.
  - split; auto. unfold points_inward, points_outward in *. destruct (Nat.even s); lra.
Qed.
