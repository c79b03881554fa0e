From Verif Require Import Base BaseR Loop Mesh_Model Mesh_Spec Mesh_Proofs Csg_Model Csg_Spec.
Set Implicit Arguments. Unset Strict Implicit.
Open Scope R_scope.

Lemma point_eq p q : px p = px q -> py p = py q -> pz p = pz q -> p = q.
Proof. destruct p, q; simpl; intros; subst; auto. Qed.

(** ** C17 *)

Lemma sense_side s p sn : Bool.eqb (sense s p) sn = true <-> s_side s sn p.
Proof.
  unfold sense, s_side. destruct (Rle_dec 0 (qf s p)) as [H|H]; destruct sn; simpl;
    split; intros; try discriminate; try lra; auto.
Qed.

Lemma contains_den n : forall p, contains n p = true <-> den n p.
Proof.
  induction n as [s sn|a IHa b IHb|a IHa b IHb|a IHa b IHb|m IH t]; intros p; simpl.
  - apply sense_side.
  - rewrite orb_true_iff, IHa, IHb. reflexivity.
  - rewrite andb_true_iff, IHa, IHb. reflexivity.
  - rewrite andb_true_iff, negb_true_iff, IHa. unfold s_diff. rewrite <- IHb.
    destruct (contains b p); intuition congruence.
  - rewrite IH. unfold s_shift. split.
    + intros H. exists (psub p t). split; auto. apply point_eq; simpl; ring.
    + intros (q & Hq & ->). replace (psub (padd q t) t) with q; auto. apply point_eq; simpl; ring.
Qed.

Lemma contains_laws a b c p :
  contains (Diff a (Union b c)) p = contains (Inter (Diff a b) (Diff a c)) p /\
  contains (Diff a (Inter b c)) p = contains (Union (Diff a b) (Diff a c)) p /\
  contains (Inter a (Union b c)) p = contains (Union (Inter a b) (Inter a c)) p /\
  contains (Union a (Inter b c)) p = contains (Inter (Union a b) (Union a c)) p /\
  contains (Diff a (Diff a b)) p = contains (Inter a b) p.
Proof. simpl. destruct (contains a p), (contains b p), (contains c p); auto. Qed.

(** Regions: appending builds the set left to right. *)
Definition build_region (n0 : node) (l : list (node * nop)) : option node :=
  fold_left (fun c x => append_node c (fst x) (snd x)) l (append_node None n0 OInter).
Definition set_op (op : nop) (A B : pset) : pset :=
  match op with OUnion => s_union A B | OInter => s_inter A B | ODiff => s_diff A B end.

Lemma region_contains_spec n0 l lo hi m :
  exists n, build_region n0 l = Some n /\
    forall p, exists b, region_contains {| rnode := build_region n0 l; rmin := lo; rmax := hi; rmat := m |} p = Ok b /\
      (b = true <-> fold_left (fun A x => set_op (snd x) A (den (fst x))) l (den n0) p).
Proof.
  assert (G : forall l n0, exists n, fold_left (fun c x => append_node c (fst x) (snd x)) l (Some n0) = Some n /\
    den n = fold_left (fun A x => set_op (snd x) A (den (fst x))) l (den n0)).
  { clear. induction l as [|[a op] l IH]; intros n0; simpl; [eauto|].
    destruct op; simpl.
    - destruct (IH (Union n0 a)) as (n & E & H). exists n. auto.
    - destruct (IH (Inter n0 a)) as (n & E & H). exists n. auto.
    - destruct (IH (Diff n0 a)) as (n & E & H). exists n. auto. }
  destruct (G l n0) as (n & E & H). exists n. unfold build_region at 1. simpl append_node. split; auto.
  intros p. exists (contains n p). unfold region_contains, build_region. cbn [rnode append_node]. rewrite E.
  split.
  - destruct (have_bound _); auto. destruct (_ && _); auto.
  - rewrite contains_den, H. reflexivity.
Qed.

(** ** C18 *)

Lemma abc_along s r t : let '(a, b, c) := abc s r in a * t * t + b * t + c = 2 * along s r t.
Proof. unfold abc, along, at_distance, qf, qM, dot4, padd, pscale. simpl. ring. Qed.

Lemma eps13_pos : 0 < eps13.
Proof. unfold eps13. apply Rinv_0_lt_compat, pow_lt. lra. Qed.

Lemma keep_in m t x : In x (keep m t) <-> (x = t /\ 0 < t /\ (m < 0 \/ t <= m)).
Proof.
  unfold keep. destruct (Rle_dec t 0); [simpl; split; [tauto|lra]|].
  destruct (Rlt_dec m 0); [simpl; split; [intros [<-|[]]; repeat split; auto; lra|intros (-> & _); auto]|].
  destruct (Rle_dec t m); simpl.
  - split; [intros [<-|[]]; repeat split; auto; lra|intros (-> & _); auto].
  - split; [tauto|lra].
Qed.

Lemma keep_sorted m t : StronglySorted Rlt (keep m t).
Proof.
  unfold keep. destruct (Rle_dec t 0); [constructor|].
  destruct (Rlt_dec m 0); [repeat constructor|]. destruct (Rle_dec t m); repeat constructor.
Qed.

Lemma quad_factor a b c t : a <> 0 -> 4 * a * c < b * b ->
  let d := sqrt (b * b - 4 * a * c) in
  (a * t * t + b * t + c = 0 <-> (t = (- b + d) / (2 * a) \/ t = (- b - d) / (2 * a))).
Proof.
  intros Ha Hd d. assert (D2 : d * d = b * b - 4 * a * c) by (apply sqrt_sqrt; lra).
  assert (E : a * t * t + b * t + c = a * (t - (- b + d) / (2 * a)) * (t - (- b - d) / (2 * a))).
  { replace c with ((b * b - d * d) / (4 * a)) by (rewrite D2; field; auto). field. auto. }
  rewrite E. split.
  - intros H. apply Rmult_integral in H. destruct H as [H|H]; [|right; lra].
    apply Rmult_integral in H. destruct H as [H|H]; [tauto|]. left. lra.
  - intros [->| ->]; ring.
Qed.

Lemma sorted_app2 (l1 l2 : list R) : StronglySorted Rlt l1 -> StronglySorted Rlt l2 ->
  (forall x y, In x l1 -> In y l2 -> x < y) -> StronglySorted Rlt (l1 ++ l2).
Proof.
  induction 1 as [|x l Hs IH Hf]; intros H2 H; simpl; auto.
  constructor.
  - apply IH; auto. intros; apply H; simpl; auto.
  - apply Forall_app. split; auto. apply Forall_forall. intros y Hy. apply H; simpl; auto.
Qed.

Lemma transversal_abc s r : transversal s r ->
  let '(a, b, c) := abc s r in
  (eps13 <= Rabs a /\ b * b <> 4 * a * c) \/ (a = 0 /\ eps13 < Rabs b).
Proof.
  intros (a & b & c & H & C). assert (AL := abc_along s r). destruct (abc s r) as [[a' b'] c'].
  assert (c' = 2 * c) by (specialize (AL 0); rewrite H in AL; lra).
  assert (a' = 2 * a) by (assert (A1 := AL 1); assert (A2 := AL (-1)); rewrite H in A1, A2; lra).
  assert (b' = 2 * b) by (assert (A1 := AL 1); rewrite H in A1; lra).
  subst. rewrite !Rabs_mult, (Rabs_right 2) by lra. destruct C as [[C1 C2]|[C1 C2]].
  - left. split; [lra|]. intros E. apply C2. lra.
  - right. split; lra.
Qed.

Lemma hits_in s r max_t : transversal s r ->
  StronglySorted Rlt (hit_distances s r max_t) /\
  forall t, In t (hit_distances s r max_t) <-> (0 < t /\ (max_t < 0 \/ t <= max_t) /\ along s r t = 0).
Proof.
  intros T. apply transversal_abc in T.
  unfold hit_distances. assert (AL := abc_along s r).
  destruct (abc s r) as [[a b] c]. unfold roots.
  assert (EP := eps13_pos).
  destruct T as [[Ha Hd]|[Ha Hb]].
  - destruct (Rlt_dec (Rabs a) eps13); [lra|].
    assert (a <> 0) by (intros ->; rewrite Rabs_R0 in Ha; lra).
    destruct (Rlt_dec (4 * a * c) (b * b)) as [L|L].
    + set (d := sqrt (b * b - 4 * a * c)). set (t0 := (- b + d) / (2 * a)). set (t1 := (- b - d) / (2 * a)).
      assert (Dp : 0 < d) by (apply sqrt_lt_R0; lra).
      assert (Ne : t0 <> t1).
      { intros E. assert (t0 - t1 = d / a) by (unfold t0, t1; field; auto).
        assert (d / a <> 0) by (unfold Rdiv; apply Rmult_integral_contrapositive_currified; [lra|apply Rinv_neq_0_compat; auto]). lra. }
      assert (Q : forall t, along s r t = 0 <-> (t = t0 \/ t = t1)).
      { intros t. assert (X := @quad_factor a b c t H L). cbv zeta in X. fold d in X. fold t0 t1 in X.
        rewrite <- X. specialize (AL t). lra. }
      split.
      * apply sorted_app2; try apply keep_sorted. intros x y Hx Hy.
        apply keep_in in Hx. apply keep_in in Hy. destruct Hx as (-> & _), Hy as (-> & _).
        destruct (Rle_dec t1 t0), (Rlt_dec t0 t1); lra.
      * intros t. rewrite in_app_iff, !keep_in, Q.
        destruct (Rle_dec t1 t0), (Rlt_dec t0 t1); try lra; intuition (subst; auto).
    + assert (L' : b * b < 4 * a * c) by lra.
      destruct (Rle_dec 0 0); [|lra]. destruct (Rlt_dec 0 0); [lra|].
      split.
      * apply sorted_app2; try apply keep_sorted. intros x y Hx. apply keep_in in Hx. lra.
      * intros t. rewrite in_app_iff, !keep_in. split; [lra|]. intros (_ & _ & H0).
        exfalso. specialize (AL t). rewrite H0 in AL.
        assert (S2 := Rle_0_sqr (2 * a * t + b)). unfold Rsqr in S2.
        assert (H1 : (2 * a * t + b) * (2 * a * t + b) = 4 * a * (a * t * t + b * t + c) + (b * b - 4 * a * c)) by ring.
        rewrite AL in H1. lra.
  - subst a. rewrite Rabs_R0. destruct (Rlt_dec 0 eps13); [|lra]. destruct (Rlt_dec eps13 (Rabs b)); [|lra].
    assert (b <> 0) by (intros ->; rewrite Rabs_R0 in Hb; lra).
    assert (Q : forall t, along s r t = 0 <-> t = - c / b).
    { intros t. specialize (AL t). split.
      - intros H0. rewrite H0 in AL. apply Rmult_eq_reg_l with b; auto. field_simplify; auto. lra.
      - intros ->. assert (b * (- c / b) = - c) by (field; auto). lra. }
    set (u := - c / b) in *. split.
    + apply sorted_app2; try apply keep_sorted. intros x y Hx Hy.
      apply keep_in in Hx. apply keep_in in Hy. destruct Hx as (-> & Hx & _), Hy as (-> & Hy & _).
      destruct (Rle_dec 0 u), (Rlt_dec u 0); lra.
    + intros t. rewrite in_app_iff, !keep_in, Q.
      destruct (Rle_dec 0 u), (Rlt_dec u 0); try lra; intuition (try subst t; auto; lra).
Qed.

Lemma hits_spec s r max_t : transversal s r ->
  exists ts, q_intersections s r max_t = map (at_distance r) ts /\
  StronglySorted Rlt ts /\
  forall t, In t ts <-> (0 < t /\ (max_t < 0 \/ t <= max_t) /\ along s r t = 0).
Proof. intros T. exists (hit_distances s r max_t). split; [reflexivity|]. apply hits_in. auto. Qed.

(** A tangent ray: the surface function vanishes but no point is returned. *)
Lemma hits_tangent : exists s r t, 0 < t /\ along s r t = 0 /\ q_intersections s r (-1) = [].
Proof.
  exists (sphere 0 0 0 1), {| origin := P3 (-2) 1 0; direction := P3 1 0 0 |}, 2.
  split; [lra|]. split; [unfold along, qf; simpl; ring|].
  unfold q_intersections, hit_distances.
  assert (E : abc (sphere 0 0 0 1) {| origin := P3 (-2) 1 0; direction := P3 1 0 0 |} = (2, -8, 8)).
  { unfold abc, dot4, qM. simpl. f_equal; [f_equal|]; ring. }
  rewrite E. unfold roots. destruct (Rlt_dec (Rabs 2) eps13) as [L|L].
  - exfalso. rewrite Rabs_right in L by lra. unfold eps13 in L.
    assert (10 ^ 13 >= 1) by (simpl; lra).
    assert (/ 10 ^ 13 <= 1) by (rewrite <- Rinv_1; apply Rinv_le_contravar; lra). lra.
  - destruct (Rlt_dec (4 * 2 * 8) (-8 * -8)); [lra|].
    destruct (Rle_dec 0 0); [|lra]. destruct (Rlt_dec 0 0); [lra|].
    unfold keep. destruct (Rle_dec 0 0); [|lra]. reflexivity.
Qed.

(** Surfaces with small coefficients are missed altogether. *)
Lemma hits_small : exists s r t, 0 < t /\ along s r t = 0 /\
  (forall t', along s r t' = 0 -> t' = t \/ t' = t + 2) /\ q_intersections s r (-1) = [].
Proof.
  set (k := / 10 ^ 15).
  exists (Build_quadric k k k 0 0 0 0 0 0 (-k)), {| origin := P3 (-2) 0 0; direction := P3 1 0 0 |}, 1.
  assert (Kp : 0 < k) by (apply Rinv_0_lt_compat, pow_lt; lra).
  split; [lra|]. split; [unfold along, qf; simpl; ring|]. split.
  - intros t'. unfold along, qf. simpl. intros H.
    assert (k * ((t' - 1) * (t' - 3)) = 0) by (rewrite <- H; ring).
    apply Rmult_integral in H0. destruct H0; [lra|]. apply Rmult_integral in H0. destruct H0; [left|right]; lra.
  - assert (HK : k * 100 = eps13).
    { unfold k, eps13. assert (10 ^ 15 = 100 * 10 ^ 13) by (simpl; ring). rewrite H.
      assert (10 ^ 13 <> 0) by (apply pow_nonzero; lra). field; auto. }
    unfold q_intersections, hit_distances.
    assert (E : abc (Build_quadric k k k 0 0 0 0 0 0 (-k)) {| origin := P3 (-2) 0 0; direction := P3 1 0 0 |}
       = (2 * k, -8 * k, 6 * k)).
    { unfold abc, dot4, qM. simpl. f_equal; [f_equal|]; ring. }
    rewrite E. unfold roots. rewrite !Rabs_right by lra.
    destruct (Rlt_dec (2 * k) eps13); [|lra].
    replace (-8 * k) with (- (8 * k)) by ring. rewrite Rabs_Ropp, Rabs_right by lra.
    destruct (Rlt_dec eps13 (8 * k)); [lra|].
    destruct (Rle_dec 0 0); [|lra]. destruct (Rlt_dec 0 0); [lra|].
    unfold keep. destruct (Rle_dec 0 0); [|lra]. reflexivity.
Qed.

(** Intersections of a tree: all and only those of its surfaces. *)
Definition shift_ray (r : ray) (t : point) : ray := {| origin := psub (origin r) t; direction := direction r |}.
Definition pzero := P3 0 0 0.

Lemma intersections_leaves srt n r m : is_psort srt ->
  forall p, In p (intersections srt n r m) <->
    exists s t q, In (s, t) (leaves n pzero) /\ In q (q_intersections s (shift_ray r t) m) /\ p = padd q t.
Proof.
  intros HS.
  assert (G : forall n r u p, In p (intersections srt n (shift_ray r u) m) <->
    exists s t q, In (s, t) (leaves n u) /\ In q (q_intersections s (shift_ray r t) m) /\ padd p u = padd q t).
  { clear r n. induction n as [s sn|a IHa b IHb|a IHa b IHb|a IHa b IHb|n IH w]; intros r u p.
    1:{ simpl. split.
      - intros H. exists s, u, p. auto.
      - intros (s' & t & q & [H|[]] & Hq & E). inversion H; subst. 
        assert (p = q) by (inversion E; apply point_eq; lra). subst. auto. }
    1-3: cbn [intersections leaves]; 
      match goal with |- In ?p (?f ?o ?l) <-> _ => destruct (HS o l) as [HP _]; 
        assert (X : In p (f o l) <-> In p l) by (split; apply Permutation_in; auto; apply Permutation_sym; auto) end;
      rewrite X, in_app_iff, IHa, IHb; split;
      [intros [(s & t & q & H & Hq)|(s & t & q & H & Hq)]; exists s, t, q; rewrite in_app_iff; tauto
      |intros (s & t & q & H & Hq); rewrite in_app_iff in H; destruct H; [left|right]; exists s, t, q; tauto].
    cbn [intersections leaves]. rewrite in_map_iff.
    change {| origin := psub (origin (shift_ray r u)) w; direction := direction (shift_ray r u) |}
      with (shift_ray (shift_ray r u) w).
    assert (ER : shift_ray (shift_ray r u) w = shift_ray r (padd u w)).
    { unfold shift_ray. simpl. f_equal. apply point_eq; simpl; ring. }
    rewrite ER. split.
    - intros (x & <- & Hx). apply IH in Hx. destruct Hx as (s & t & q & H1 & H2 & H3).
      exists s, t, q. split; auto. split; auto. rewrite <- H3. apply point_eq; simpl; ring.
    - intros (s & t & q & H1 & H2 & H3). exists (psub p w). split; [apply point_eq; simpl; ring|].
      apply IH. exists s, t, q. split; auto. split; auto. rewrite <- H3. apply point_eq; simpl; ring. }
  intros p. specialize (G n r pzero p).
  assert (E0 : shift_ray r pzero = r).
  { destruct r as [o d]. unfold shift_ray, pzero. simpl. f_equal. apply point_eq; simpl; ring. }
  rewrite E0 in G. rewrite G. split; intros (s & t & q & H1 & H2 & H3); exists s, t, q; repeat split; auto.
  - rewrite <- H3. apply point_eq; simpl; ring.
  - rewrite H3. apply point_eq; simpl; ring.
Qed.

Lemma distance_shift o p t : distance (padd o t) (padd p t) = distance o p.
Proof. unfold distance. simpl. f_equal. ring. Qed.

Lemma distance_along r t : 0 <= t ->
  distance (origin r) (at_distance r t) = t * sqrt (px (direction r) * px (direction r) +
     py (direction r) * py (direction r) + pz (direction r) * pz (direction r)).
Proof.
  intros H. unfold distance, at_distance. simpl.
  set (d := direction r). replace (_ + _ + _) with ((t * t) * (px d * px d + py d * py d + pz d * pz d)) by ring.
  rewrite sqrt_mult; [rewrite sqrt_square; auto|nra|nra].
Qed.

(** Every tree lists its intersections by increasing distance. *)
Lemma intersections_sorted srt n : is_psort srt -> forall r m,
  (forall s t, In (s, t) (leaves n pzero) -> transversal s (shift_ray r t)) ->
  StronglySorted (fun p q => distance (origin r) p <= distance (origin r) q) (intersections srt n r m).
Proof.
  intros HS.
  assert (G : forall n r u m, (forall s t, In (s, t) (leaves n u) -> transversal s (shift_ray r t)) ->
    StronglySorted (fun p q => distance (origin (shift_ray r u)) p <= distance (origin (shift_ray r u)) q)
       (intersections srt n (shift_ray r u) m)).
  { clear n. induction n as [s sn|a IHa b IHb|a IHa b IHb|a IHa b IHb|n IH w]; intros r u m HT.
    1:{ cbn [intersections]. specialize (HT s u (or_introl eq_refl)).
      destruct (@hits_spec s (shift_ray r u) m HT) as (ts & E & SS & HI). rewrite E.
      assert (PS : forall t, In t ts -> 0 < t) by (intros t Ht; apply HI in Ht; tauto).
      clear HI E. induction SS as [|x l SS IH Hf]; cbn [map]; [constructor|]. constructor.
      - apply IH. intros; apply PS; simpl; auto.
      - apply Forall_forall. intros q Hq. apply in_map_iff in Hq. destruct Hq as (y & <- & Hy).
        rewrite Forall_forall in Hf. specialize (Hf y Hy).
        assert (0 < x) by (apply PS; simpl; auto).
        rewrite !distance_along by lra. apply Rmult_le_compat_r; [apply sqrt_pos|lra]. }
    1-3: cbn [intersections]; apply HS.
    cbn [intersections leaves] in *.
    change {| origin := psub (origin (shift_ray r u)) w; direction := direction (shift_ray r u) |}
      with (shift_ray (shift_ray r u) w).
    assert (ER : shift_ray (shift_ray r u) w = shift_ray r (padd u w)).
    { unfold shift_ray. simpl. f_equal. apply point_eq; simpl; ring. }
    rewrite ER. specialize (IH r (padd u w) m HT).
    set (l := intersections srt n (shift_ray r (padd u w)) m) in *. clearbody l.
    assert (EO : origin (shift_ray r u) = padd (origin (shift_ray r (padd u w))) w).
    { apply point_eq; simpl; ring. }
    rewrite EO. clear -IH. induction IH as [|x l SS IH' Hf]; simpl; [constructor|]. constructor; auto.
    apply Forall_forall. intros q Hq. apply in_map_iff in Hq. destruct Hq as (y & <- & Hy).
    rewrite Forall_forall in Hf. specialize (Hf y Hy). rewrite !distance_shift. auto. }
  intros r m HT. specialize (G n r pzero m HT).
  assert (E0 : shift_ray r pzero = r).
  { destruct r as [o d]. unfold shift_ray, pzero. simpl. f_equal. apply point_eq; simpl; ring. }
  rewrite E0 in G. auto.
Qed.

(** ** C19 *)

Lemma reverse_once h t : t_rev t = false ->
  enter (reverse t) = exit t /\ exit (reverse t) = enter t /\ listed h (reverse t) = rev (listed h t).
Proof. destruct t as [a b w v g]. simpl. intros ->. repeat split. Qed.

Lemma reverse_twice_ends t : enter (reverse (reverse t)) = enter t /\ exit (reverse (reverse t)) = exit t.
Proof. destruct t as [a b w [|] g]; split; reflexivity. Qed.

Lemma reverse_twice_wrong : exists h t, t_rev t = false /\ listed h (reverse (reverse t)) <> listed h t.
Proof.
  exists [[{| sregion := 0; slength := 1 |}; {| sregion := 1; slength := 1 |}]],
    {| t_enter := P3 0 0 0; t_exit := P3 2 0 0; t_weight := 1; t_rev := false; t_segs := 0 |}.
  split; auto. unfold listed. simpl. intros E. inversion E.
Qed.

(** ** C66: mesh geometry *)

Lemma edges_from_nth w : forall e i, (i <= length w)%nat ->
  nth i (edges_from e w) 0 = e + left_edge w i.
Proof.
  induction w as [|a r IH]; intros e [|i] Hi; simpl in *; try lia.
  - unfold left_edge. simpl. ring.
  - unfold left_edge. simpl. ring.
  - rewrite IH by lia. unfold left_edge.
    replace (rsum (S i) (fun k => nth k (a :: r) 0)) with (a + rsum i (fun k => nth k r 0)); [ring|].
    clear. induction i as [|i IH]; [simpl; ring|].
    change (rsum (S (S i)) (fun k => nth k (a :: r) 0)) with (rsum (S i) (fun k => nth k (a :: r) 0) + nth i r 0).
    rewrite <- IH. simpl. ring.
Qed.

Lemma plane_sense a b c d p : sense (plane a b c d) p = true <-> d <= a * px p + b * py p + c * pz p.
Proof.
  unfold sense, qf, plane. simpl. destruct (Rle_dec 0 _) as [H|H]; split; intros; try discriminate; auto; lra.
Qed.

Lemma cell_region_contains d3 x0 x1 y0 y1 z0 z1 m p :
  exists b, region_contains (cell_region d3 x0 x1 y0 y1 z0 z1 m) p = Ok b /\
    (b = true <-> x0 <= px p < x1 /\ y0 <= py p < y1 /\ (d3 = true -> z0 <= pz p < z1)).
Proof.
  assert (PT : forall a b c d, contains (Prim (plane a b c d) true) p = true <-> d <= a * px p + b * py p + c * pz p).
  { intros. simpl. rewrite <- plane_sense. destruct (sense _ p); simpl; intuition. }
  assert (PF : forall a b c d, contains (Prim (plane a b c d) false) p = true <-> a * px p + b * py p + c * pz p < d).
  { intros. simpl. assert (X := plane_sense a b c d p). destruct (sense _ p); simpl.
    - split; [discriminate|]. intros. assert (true = true) by auto. apply X in H0. lra.
    - split; auto. intros _. destruct (Rlt_dec (a * px p + b * py p + c * pz p) d); auto.
      assert (false = true) by (apply X; lra). discriminate. }
  destruct d3; unfold cell_region; cbv beta zeta; cbn [append_node];
    match goal with |- context [region_contains {| rnode := Some ?n; rmin := _; rmax := _; rmat := _ |}] =>
      exists (contains n p) end; split.
  1,3: unfold region_contains; cbn [rnode append_node cell_region];
       destruct (have_bound _); auto; destruct (_ && _); auto.
  - cbn [contains]. rewrite !andb_true_iff.
    change (Bool.eqb (sense (plane 1 0 0 x0) p) true) with (contains (Prim (plane 1 0 0 x0) true) p).
    change (Bool.eqb (sense (plane 1 0 0 x1) p) false) with (contains (Prim (plane 1 0 0 x1) false) p).
    change (Bool.eqb (sense (plane 0 1 0 y0) p) true) with (contains (Prim (plane 0 1 0 y0) true) p).
    change (Bool.eqb (sense (plane 0 1 0 y1) p) false) with (contains (Prim (plane 0 1 0 y1) false) p).
    change (Bool.eqb (sense (plane 0 0 1 z0) p) true) with (contains (Prim (plane 0 0 1 z0) true) p).
    change (Bool.eqb (sense (plane 0 0 1 z1) p) false) with (contains (Prim (plane 0 0 1 z1) false) p).
    rewrite !PT, !PF. split; [intros; repeat split; intros; lra|intros (A & B & C); specialize (C eq_refl); lra].
  - cbn [contains]. rewrite !andb_true_iff.
    change (Bool.eqb (sense (plane 1 0 0 x0) p) true) with (contains (Prim (plane 1 0 0 x0) true) p).
    change (Bool.eqb (sense (plane 1 0 0 x1) p) false) with (contains (Prim (plane 1 0 0 x1) false) p).
    change (Bool.eqb (sense (plane 0 1 0 y0) p) true) with (contains (Prim (plane 0 1 0 y0) true) p).
    change (Bool.eqb (sense (plane 0 1 0 y1) p) false) with (contains (Prim (plane 0 1 0 y1) false) p).
    rewrite !PT, !PF. split; [intros; repeat split; intros; try discriminate; lra|intros (A & B & C); lra].
Qed.

Lemma geo_find_spec rs p (b : nat -> bool) :
  (forall i, (i < length rs)%nat -> exists r, nth_error rs i = Some r /\ region_contains r p = Ok (b i)) ->
  exists o, geo_find rs p = Ok o /\
    match o with
    | Some c => (c < length rs)%nat /\ b c = true /\ forall i, (i < c)%nat -> b i = false
    | None => forall i, (i < length rs)%nat -> b i = false
    end.
Proof.
  unfold geo_find.
  assert (G : forall rs i0 b, (forall i, (i < length rs)%nat -> exists r, nth_error rs i = Some r /\ region_contains r p = Ok (b i)) ->
    exists o, geo_find_from i0 rs p = Ok o /\
    match o with
    | Some c => (i0 <= c < i0 + length rs)%nat /\ b (c - i0)%nat = true /\ forall i, (i < c - i0)%nat -> b i = false
    | None => forall i, (i < length rs)%nat -> b i = false
    end).
  { clear. induction rs as [|r rs IH]; intros i0 b H; simpl.
    - exists None. split; auto. intros; lia.
    - destruct (H 0%nat) as (r' & E & HB); [simpl; lia|]. simpl in E. inversion E; subst r'. rewrite HB. simpl.
      destruct (b 0%nat) eqn:B0.
      + exists (Some i0). split; auto. replace (i0 - i0)%nat with 0%nat by lia.
        split; [lia|]. split; auto. intros; lia.
      + destruct (IH (S i0) (fun i => b (S i))) as (o & Eo & Ho).
        { intros i Hi. destruct (H (S i)) as (r' & X & Y); [simpl; lia|]. simpl in X. eauto. }
        exists o. split; auto. destruct o as [c|].
        * destruct Ho as (H1 & H2 & H3). split; [lia|].
          replace (c - i0)%nat with (S (c - S i0)) by lia. split; auto.
          intros [|i] Hi; auto. apply H3. lia.
        * intros [|i] Hi; auto. apply Ho. lia. }
  intros H. destruct (G rs 0%nat b H) as (o & E & Ho). exists o. split; auto.
  destruct o as [c|]; auto. replace (c - 0)%nat with c in Ho by lia. destruct Ho as (A & B). split; [lia|auto].
Qed.

Lemma flat_map_block A (f : nat -> list A) n w : (forall i, (i < n)%nat -> length (f i) = w) ->
  length (flat_map f (seq 0 n)) = (w * n)%nat /\
  forall j i, (j < n)%nat -> (i < w)%nat -> nth_error (flat_map f (seq 0 n)) (i + j * w) = nth_error (f j) i.
Proof.
  induction n as [|n IH]; intros H.
  - simpl. split; [lia|]. intros; lia.
  - destruct IH as [L N]; [auto|]. rewrite seq_S, flat_map_app. simpl. rewrite app_nil_r.
    split; [rewrite app_length, L, H; lia|].
    intros j i Hj Hi. destruct (Nat.eq_dec j n) as [->|D].
    + rewrite nth_error_app2; rewrite L; [|lia]. f_equal. lia.
    + rewrite nth_error_app1; [apply N; lia|]. rewrite L. nia.
Qed.

Lemma geometry_nth m i j k : (i < ncx m)%nat -> (j < ncy m)%nat -> (k < ncz m)%nat ->
  nth_error (geometry_of_mesh m) (index (ncx m) (ncy m) i j k) =
  Some (let ex := edges_from 0 (mdx m) in let ey := edges_from 0 (mdy m) in let ez := edges_from 0 (mdz m) in
    cell_region (Nat.eqb (dim m) 3) (nth i ex 0) (nth (S i) ex 0) (nth j ey 0) (nth (S j) ey 0)
                (nth k ez 0) (nth (S k) ez 0) (nth (index (ncx m) (ncy m) i j k) (mat m) 0%Z)).
Proof.
  intros Hi Hj Hk. unfold geometry_of_mesh.
  set (C := fun k j i => cell_region (Nat.eqb (dim m) 3) (nth i (edges_from 0 (mdx m)) 0) (nth (S i) (edges_from 0 (mdx m)) 0)
    (nth j (edges_from 0 (mdy m)) 0) (nth (S j) (edges_from 0 (mdy m)) 0)
                (nth k (edges_from 0 (mdz m)) 0) (nth (S k) (edges_from 0 (mdz m)) 0) (nth (index (ncx m) (ncy m) i j k) (mat m) 0%Z)).
  change (nth_error (flat_map (fun k => flat_map (fun j => map (C k j) (seq 0 (ncx m))) (seq 0 (ncy m))) (seq 0 (ncz m)))
    (index (ncx m) (ncy m) i j k) = Some (C k j i)).
  assert (L1 : forall k j, length (map (C k j) (seq 0 (ncx m))) = ncx m) by (intros; rewrite map_length, seq_length; auto).
  destruct (@flat_map_block _ (fun k => flat_map (fun j => map (C k j) (seq 0 (ncx m))) (seq 0 (ncy m))) (ncz m) (ncx m * ncy m)) as [_ N].
  { intros k' _. apply flat_map_block. auto. }
  replace (index (ncx m) (ncy m) i j k) with ((i + j * ncx m) + k * (ncx m * ncy m))%nat by (unfold index; ring).
  rewrite N; [|auto|nia].
  destruct (@flat_map_block _ (fun j => map (C k j) (seq 0 (ncx m))) (ncy m) (ncx m)) as [_ N2]; [auto|].
  rewrite N2 by auto. apply map_nth_error.
  rewrite nth_error_nth' with (d := 0%nat); [|rewrite seq_length; auto]. rewrite seq_nth; auto.
Qed.

Lemma geometry_length m : length (geometry_of_mesh m) = ncells m.
Proof.
  unfold geometry_of_mesh, ncells.
  match goal with |- length (flat_map ?f _) = _ => destruct (@flat_map_block _ f (ncz m) (ncx m * ncy m)) as [L _] end.
  { intros k' _. cbv beta. match goal with |- length (flat_map ?f _) = _ => destruct (@flat_map_block _ f (ncy m) (ncx m)) as [L _] end.
    - intros; rewrite map_length, seq_length; auto.
    - exact L. }
  exact L.
Qed.

Definition in_box_cell (m : mesh) (c : nat) (p : point) : Prop :=
  in_cell_ho (mdx m) (cell_to_i (ncx m) c) (px p) /\
  in_cell_ho (mdy m) (cell_to_j (ncx m) (ncy m) c) (py p) /\
  (dim m = 3%nat -> in_cell_ho (mdz m) (cell_to_k (ncx m) (ncy m) c) (pz p)).

Lemma geometry_cell m c p : mesh_good m -> (c < ncells m)%nat ->
  exists r, nth_error (geometry_of_mesh m) c = Some r /\ rmat r = nth c (mat m) 0%Z /\
    exists b, region_contains r p = Ok b /\ (b = true <-> in_box_cell m c p).
Proof.
  intros (LX & LY & LZ & _ & _ & _ & _ & PX & PY & PZ & _) Hc.
  destruct (mesh_index_bijection (ncx m) (ncy m) (ncz m)) as (_ & BIJ & _).
  destruct (BIJ c Hc) as (Hi & Hj & Hk & EI).
  set (i := cell_to_i (ncx m) c) in *. set (j := cell_to_j (ncx m) (ncy m) c) in *. set (k := cell_to_k (ncx m) (ncy m) c) in *.
  assert (N := geometry_nth Hi Hj Hk). rewrite EI in N. rewrite N. eexists. split; [reflexivity|].
  split; [reflexivity|].
  cbv zeta.
  rewrite !edges_from_nth by lia. rewrite !Rplus_0_l.
  match goal with |- context [cell_region ?d ?a ?b ?e ?f ?g ?h ?mm] =>
    destruct (cell_region_contains d a b e f g h mm p) as (bb & E & H) end.
  exists bb. split; auto. rewrite H. unfold in_box_cell, in_cell_ho. fold i j k.
  rewrite LX, LY, LZ. rewrite Nat.eqb_eq. intuition.
Qed.

Lemma left_edge_mono w i j : (forall x, In x w -> 0 < x) -> (i <= j <= length w)%nat -> left_edge w i <= left_edge w j.
Proof.
  intros Hp [Hij Hj]. induction Hij as [|j Hij IH]; [lra|].
  unfold left_edge in *. simpl. assert (0 < nth j w 0) by (apply Hp, nth_In; lia).
  specialize (IH ltac:(lia)). lra.
Qed.

Lemma in_cell_ho_unique w i j x : (forall x, In x w -> 0 < x) -> in_cell_ho w i x -> in_cell_ho w j x -> i = j.
Proof.
  intros Hp [Hi Ix] [Hj Jx]. destruct (Nat.lt_trichotomy i j) as [L|[L|L]]; auto; exfalso.
  - assert (X := @left_edge_mono w (S i) j Hp ltac:(lia)). lra.
  - assert (X := @left_edge_mono w (S j) i Hp ltac:(lia)). lra.
Qed.

Lemma geometry_find m p : mesh_good m ->
  exists o, geo_find (geometry_of_mesh m) p = Ok o /\
    forall c, o = Some c <-> ((c < ncells m)%nat /\ in_box_cell m c p).
Proof.
  intros G.
  assert (HB : exists b : nat -> bool, forall c, (c < ncells m)%nat ->
     exists r, nth_error (geometry_of_mesh m) c = Some r /\ region_contains r p = Ok (b c) /\
       (b c = true <-> in_box_cell m c p)).
  { exists (fun c => match nth_error (geometry_of_mesh m) c with
                     | Some r => match region_contains r p with Ok b => b | _ => false end | None => false end).
    intros c Hc. destruct (@geometry_cell m c p G Hc) as (r & E & _ & b & Eb & Hb).
    exists r. rewrite E, Eb. auto. }
  destruct HB as (b & HB).
  destruct (@geo_find_spec (geometry_of_mesh m) p b) as (o & E & Ho).
  { intros i Hi. rewrite geometry_length in Hi. destruct (HB i Hi) as (r & A & B & _). eauto. }
  exists o. split; auto. intros c. rewrite geometry_length in Ho.
  assert (UN : forall c c', (c < ncells m)%nat -> (c' < ncells m)%nat -> in_box_cell m c p -> in_box_cell m c' p -> c = c').
  { destruct G as (LX & LY & LZ & HP & _ & _ & _ & PX & PY & PZ & D1 & D2 & D3).
    intros c1 c2 H1 H2 (A1 & A2 & A3) (B1 & B2 & B3).
    destruct (mesh_index_bijection (ncx m) (ncy m) (ncz m)) as (_ & BIJ & _).
    destruct (BIJ c1 H1) as (_ & _ & K1 & E1). destruct (BIJ c2 H2) as (_ & _ & K2 & E2).
    rewrite <- E1, <- E2. f_equal.
    - eapply in_cell_ho_unique; [|exact A1|exact B1]; auto.
    - eapply in_cell_ho_unique; [|exact A2|exact B2]; auto.
    - destruct (Nat.eq_dec (dim m) 3) as [D|D].
      + eapply in_cell_ho_unique; [|exact (A3 D)|exact (B3 D)]; auto.
      + rewrite D3 in K1, K2 by lia. lia. }
  split.
  - intros ->. destruct Ho as (Hc & Hb & _). split; auto. destruct (HB c Hc) as (? & _ & _ & X). apply X. auto.
  - intros [Hc Hin]. destruct (HB c Hc) as (_ & _ & _ & Hb). apply Hb in Hin.
    destruct o as [c'|].
    + destruct Ho as (Hc' & Hb' & _). f_equal. apply UN; auto; [destruct (HB c' Hc') as (? & _ & _ & X); apply X; auto|apply Hb; auto].
    + rewrite Ho in Hin by auto. discriminate.
Qed.

(** ... and with Mesh::find_cell away from the cell faces. *)
Definition strictly_in (w : list R) (i : nat) (x : R) : Prop :=
  (i < length w)%nat /\ left_edge w i < x < left_edge w (S i).

Lemma in_cell_strict w i j x : (forall x, In x w -> 0 < x) -> strictly_in w i x -> in_cell w j x -> i = j.
Proof.
  intros Hp [Hi Ix] [Hj Jx]. destruct (Nat.lt_trichotomy i j) as [L|[L|L]]; auto; exfalso.
  - assert (X := @left_edge_mono w (S i) j Hp ltac:(lia)). lra.
  - assert (X := @left_edge_mono w (S j) i Hp ltac:(lia)). lra.
Qed.

Lemma geometry_find_cell m p c : mesh_good m -> (c < ncells m)%nat ->
  strictly_in (mdx m) (cell_to_i (ncx m) c) (px p) ->
  strictly_in (mdy m) (cell_to_j (ncx m) (ncy m) c) (py p) ->
  strictly_in (mdz m) (cell_to_k (ncx m) (ncy m) c) (pz p) ->
  geo_find (geometry_of_mesh m) p = Ok (Some c) /\ find_cell m (px p, py p, pz p) = Some c /\
  exists r, nth_error (geometry_of_mesh m) c = Some r /\ rmat r = nth c (mat m) 0%Z.
Proof.
  intros G Hc IX IY IZ. split; [|split].
  - destruct (@geometry_find m p G) as (o & -> & H). f_equal. apply H. split; auto.
    split; [|split; [|intros _]]; match goal with |- in_cell_ho _ _ _ => idtac end;
    [destruct IX as (A & B)|destruct IY as (A & B)|destruct IZ as (A & B)]; split; auto; lra.
  - assert (G' := G). destruct G as (LX & LY & LZ & HP & SX & SY & SZ & PX & PY & PZ & D1 & D2 & D3).
    assert (RX : 0 <= px p <= twx m).
    { rewrite <- SX, <- LX. destruct IX as (A & B).
      assert (X := @left_edge_mono (mdx m) 0 (cell_to_i (ncx m) c) ltac:(auto) ltac:(lia)).
      assert (Y := @left_edge_mono (mdx m) (S (cell_to_i (ncx m) c)) (length (mdx m)) ltac:(auto) ltac:(lia)).
      unfold left_edge at 1 in X. simpl in X. lra. }
    assert (RY : 0 <= py p <= twy m).
    { rewrite <- SY, <- LY. destruct IY as (A & B).
      assert (X := @left_edge_mono (mdy m) 0 (cell_to_j (ncx m) (ncy m) c) ltac:(auto) ltac:(lia)).
      assert (Y := @left_edge_mono (mdy m) (S (cell_to_j (ncx m) (ncy m) c)) (length (mdy m)) ltac:(auto) ltac:(lia)).
      unfold left_edge at 1 in X. simpl in X. lra. }
    assert (RZ : 0 <= pz p <= twz m).
    { rewrite <- SZ, <- LZ. destruct IZ as (A & B).
      assert (X := @left_edge_mono (mdz m) 0 (cell_to_k (ncx m) (ncy m) c) ltac:(auto) ltac:(lia)).
      assert (Y := @left_edge_mono (mdz m) (S (cell_to_k (ncx m) (ncy m) c)) (length (mdz m)) ltac:(auto) ltac:(lia)).
      unfold left_edge at 1 in X. simpl in X. lra. }
    destruct (@find_cell_spec m (px p) (py p) (pz p) G') as [HN HS].
    destruct (find_cell m (px p, py p, pz p)) as [c'|] eqn:E; [|exfalso; apply HN; auto].
    destruct (HS c' eq_refl) as (Hc' & A & B & C).
    destruct (mesh_index_bijection (ncx m) (ncy m) (ncz m)) as (_ & BIJ & _).
    destruct (BIJ c Hc) as (_ & _ & K1 & E1). destruct (BIJ c' Hc') as (_ & _ & K2 & E2).
    f_equal. rewrite <- E1, <- E2. symmetry. f_equal.
    + eapply in_cell_strict; [|exact IX|exact A]; auto.
    + eapply in_cell_strict; [|exact IY|exact B]; auto.
    + eapply in_cell_strict; [|exact IZ|exact C]; auto.
  - destruct (@geometry_cell m c p G Hc) as (r & E & Hm & _). eauto.
Qed.

(** ** C67: translated regions *)

Lemma translated_contains r o : forall r', translated_region r o = Ok r' ->
  forall p b, region_contains r p = Ok b -> region_contains r' (padd p o) = Ok b.
Proof.
  intros r' E p b H. unfold translated_region in E. destruct (rnode r) as [n|] eqn:En; [|discriminate].
  inversion E; subst r'. unfold region_contains in *. rewrite En in H. cbn [rnode].
  assert (Hb : contains n p = b).
  { destruct (have_bound r); [destruct (_ && _)|]; inversion H; auto. }
  assert (Ht : contains (Trans n o) (padd p o) = b).
  { simpl. replace (psub (padd p o) o) with p; auto. apply point_eq; simpl; ring. }
  rewrite Ht. match goal with |- (if ?c then if ?d then _ else _ else _) = _ => destruct c; [destruct d|]; auto end.
Qed.

(** A unit square region in its box, moved to (10, 10): the ray meets the
    region but is rejected by its bounding box. *)
Lemma translated_box_wrong : exists r o r' y p, 
  (forall q, region_contains r q = Ok true -> in_box (rmin r) (rmax r) q) /\
  translated_region r o = Ok r' /\ (exists t, 0 < t < 20 /\ p = at_distance y t) /\
  region_contains r' p = Ok true /\ intersects_box r' y 20 = false.
Proof.
  set (r := cell_region true 0 1 0 1 0 1 0).
  exists r, (P3 10 10 10), {| rnode := match rnode r with Some n => Some (Trans n (P3 10 10 10)) | None => None end;
     rmin := psub (rmin r) (P3 10 10 10); rmax := psub (rmax r) (P3 10 10 10); rmat := rmat r |},
    {| origin := P3 0 0 0; direction := P3 1 1 1 |}, (P3 (105/10) (105/10) (105/10)).
  assert (EP : 0 < / 10 ^ 5 < 1).
  { split; [apply Rinv_0_lt_compat, pow_lt; lra|]. rewrite <- Rinv_1. apply Rinv_lt_contravar; simpl; lra. }
  split; [|split; [reflexivity|split; [|split]]].
  - intros q H. destruct (cell_region_contains true 0 1 0 1 0 1 0 q) as (b & E & Hb). fold r in E.
    rewrite E in H. inversion H; subst b. destruct Hb as [Hb _]. specialize (Hb eq_refl).
    destruct Hb as (A & B & C). specialize (C eq_refl). unfold in_box, r, cell_region. 
    cbn [rmin rmax px py pz]. lra.
  - exists (105/10). split; [lra|]. unfold at_distance. apply point_eq; simpl; lra.
  - destruct (cell_region_contains true 0 1 0 1 0 1 0 (P3 (5/10) (5/10) (5/10))) as (b & E & Hb). fold r in E.
    assert (b = true) by (apply Hb; simpl; repeat split; intros; lra). subst b.
    replace (P3 (105/10) (105/10) (105/10)) with (padd (P3 (5/10) (5/10) (5/10)) (P3 10 10 10)) by (apply point_eq; simpl; lra).
    eapply translated_contains; [|exact E]. reflexivity.
  - unfold intersects_box, slab, times_inverse. unfold r, cell_region. set (e := / 10 ^ 5) in *. clearbody e.
    cbn [origin direction rmin rmax px py pz psub].
    rewrite Rinv_1. destruct (Rlt_dec 1 0); [lra|]. destruct (Req_EM_T 1 0); [lra|]. cbn [xgt]. unfold rgt.
    repeat match goal with |- context [Rlt_dec ?a ?b] =>
      lazymatch a with context [Rlt_dec] => fail | _ => lazymatch b with context [Rlt_dec] => fail | _ =>
        destruct (Rlt_dec a b); cbn [orb andb xgt]; unfold rgt; try lra; try reflexivity end end end.
Qed.

(** ** C68: the bounding box test *)

Lemma rgt_iff a b : rgt a b = true <-> b < a.
Proof. unfold rgt. destruct (Rlt_dec b a); split; intros; auto; try discriminate; lra. Qed.
Lemma rgt_false a b : rgt a b = false <-> a <= b.
Proof. unfold rgt. destruct (Rlt_dec b a); split; intros; auto; try discriminate; lra. Qed.

(** A pair of entry and exit distances describes the parameters [S]; the second
    form allows the unconstrained ends that are not numbers. *)
Definition spans (p : xr * xr) (S : R -> Prop) : Prop :=
  match p with
  | (Fin a, Fin b) => a <= b /\ forall t, S t <-> a <= t <= b
  | (MInf, PInf) => forall t, S t
  | (PInf, PInf) | (MInf, MInf) => forall t, ~ S t
  | _ => False
  end.
Definition spans' (p : xr * xr) (S : R -> Prop) : Prop :=
  match p with
  | (NaN, PInf) | (MInf, NaN) | (NaN, NaN) => forall t, S t
  | _ => spans p S
  end.
Lemma slab_spans lo hi o d : lo <= hi -> spans' (slab lo hi o d) (fun t => lo <= o + d * t <= hi).
Proof.
  intros Hl. unfold slab, times_inverse. destruct (Req_EM_T d 0) as [->|Hd].
  - destruct (Rlt_dec 0 0); [lra|].
    destruct (Rlt_dec 0 (lo - o)), (Rlt_dec 0 (hi - o)), (Rlt_dec (lo - o) 0), (Rlt_dec (hi - o) 0); cbn; intros; lra.
  - assert (K : forall v t, (v - o) * / d - t = (v - (o + d * t)) * / d) by (intros; field; auto).
    destruct (Rlt_dec d 0) as [N|N]; cbn.
    + assert (D : / d < 0) by (apply Rinv_lt_0_compat; auto). split; [nra|]. intros t. pose proof (K lo t). pose proof (K hi t). split; intros; split; nra.
    + assert (D : 0 < / d) by (apply Rinv_0_lt_compat; lra). split; [nra|]. intros t. pose proof (K lo t). pose proof (K hi t). split; intros; split; nra.
Qed.
Lemma slab_number lo hi o d : ~ (d = 0 /\ (o = lo \/ o = hi)) -> forall S, spans' (slab lo hi o d) S -> spans (slab lo hi o d) S.
Proof.
  intros H S. unfold slab, times_inverse. destruct (Req_EM_T d 0) as [->|Hd]; [|destruct (Rlt_dec d 0); auto].
  destruct (Rlt_dec 0 0); [lra|].
  destruct (Rlt_dec 0 (lo - o)), (Rlt_dec 0 (hi - o)), (Rlt_dec (lo - o) 0), (Rlt_dec (hi - o) 0); auto; exfalso; apply H; split; auto; lra.
Qed.
(** One step of the test. *)
Definition meet (p q : xr * xr) : option (xr * xr) :=
  if xgt (fst p) (snd q) || xgt (fst q) (snd p) then None
  else Some (if xgt (fst q) (fst p) then fst q else fst p, if xgt (snd p) (snd q) then snd q else snd p).
Lemma meet_spans p q S T : spans p S -> spans' q T ->
  match meet p q with None => forall t, ~ (S t /\ T t) | Some r => spans r (fun t => S t /\ T t) end.
Proof.
  destruct p as [[a| | |] [b| | |]]; cbn [spans]; try tauto; destruct q as [[c| | |] [d| | |]]; cbn [spans' spans]; try tauto; intros H K;
    unfold meet; cbn [fst snd xgt orb spans]; try solve [intros t; specialize (H t) || idtac; specialize (K t) || idtac; tauto].
  all: try (destruct H as [H H']). all: try (destruct K as [K K']).
  all: try solve [intros t [A B]; first [eapply H; eauto|eapply K; eauto]].
  all: try solve [split; [auto|]; intros t; first [rewrite H'|rewrite K']; split; [intros; tauto|intros; split; auto; apply H || apply K]].
  all: try solve [split; auto; intros t; first [rewrite H'|rewrite K']; intuition auto].
  destruct (rgt a d || rgt c b) eqn:E.
  - intros t [A B]. apply H' in A. apply K' in B. apply orb_true_iff in E. rewrite !rgt_iff in E. lra.
  - apply orb_false_iff in E. rewrite !rgt_false in E.
    destruct (rgt c a) eqn:E1; [apply rgt_iff in E1|apply rgt_false in E1]; (destruct (rgt b d) eqn:E2; [apply rgt_iff in E2|apply rgt_false in E2]);
      cbn [spans]; (split; [lra|]); intros t; rewrite H', K'; lra.
Qed.
Lemma spans_test p S L : spans p S ->
  (xgt (Fin L) (fst p) && xgt (snd p) (Fin 0) = true <-> exists t1 t2, t1 <= t2 /\ t1 < L /\ 0 < t2 /\ S t1 /\ S t2).
Proof.
  destruct p as [[a| | |] [b| | |]]; cbn [spans fst snd xgt andb]; try tauto; intros H.
  - destruct H as [H H']. rewrite andb_true_iff, !rgt_iff. split.
    + intros [A B]. exists a, b. rewrite !H'. lra.
    + intros (t1 & t2 & A & B & C & D & E). rewrite H' in D, E. lra.
  - split; [discriminate|]. intros (t1 & t2 & _ & _ & _ & D & _). destruct (H _ D).
  - split; auto. intros _. exists (Rmin L 0 - 1), 1. pose proof (Rmin_l L 0). pose proof (Rmin_r L 0). repeat split; auto; lra.
  - split; [discriminate|]. intros (t1 & t2 & _ & _ & _ & D & _). destruct (H _ D).
Qed.

Lemma intersects_box_meet r y L : intersects_box r y L =
  match meet (slab (px (rmin r)) (px (rmax r)) (px (origin y)) (px (direction y))) (slab (py (rmin r)) (py (rmax r)) (py (origin y)) (py (direction y))) with
  | None => false
  | Some p =>
      if rgt (pz (rmax r)) (pz (rmin r)) then
        match meet p (slab (pz (rmin r)) (pz (rmax r)) (pz (origin y)) (pz (direction y))) with
        | None => false
        | Some q => xgt (Fin L) (fst q) && xgt (snd q) (Fin 0)
        end
      else xgt (Fin L) (fst p) && xgt (snd p) (Fin 0)
  end.
Proof.
  unfold intersects_box, meet. destruct (slab (px (rmin r)) _ _ _) as [a b]. destruct (slab (py (rmin r)) _ _ _) as [c d]. destruct (slab (pz (rmin r)) _ _ _) as [e f].
  cbn [fst snd]. destruct (xgt a d || xgt c b); auto. destruct (rgt _ _); auto. cbn [fst snd]. destruct (xgt _ f || xgt e _); auto.
Qed.

(** [true] exactly when the box is met before [L] and not left behind. *)
Lemma intersects_box_spec r y L :
  px (rmin r) <= px (rmax r) -> py (rmin r) <= py (rmax r) -> ~ grazes_x r y ->
  (intersects_box r y L = true <->
   exists t1 t2, t1 <= t2 /\ t1 < L /\ 0 < t2 /\ in_bounds r (at_distance y t1) /\ in_bounds r (at_distance y t2)).
Proof.
  intros Bx By G. rewrite intersects_box_meet.
  set (o := origin y). set (d := direction y).
  pose proof (@slab_spans _ _ (px o) (px d) Bx) as SX. apply slab_number in SX; [|exact G].
  pose proof (@slab_spans _ _ (py o) (py d) By) as SY.
  set (X := fun t : R => px (rmin r) <= px o + px d * t <= px (rmax r)) in *. set (Y := fun t : R => py (rmin r) <= py o + py d * t <= py (rmax r)) in *.
  assert (IB : forall t, in_bounds r (at_distance y t) <-> (X t /\ Y t) /\ (pz (rmin r) < pz (rmax r) -> pz (rmin r) <= pz o + pz d * t <= pz (rmax r))).
  { intros t. unfold in_bounds, at_distance, padd, pscale, X, Y. cbn [px py pz]. fold o d. tauto. }
  pose proof (meet_spans SX SY) as M. destruct (meet _ _) as [p|].
  2: { split; [discriminate|]. intros (t1 & t2 & _ & _ & _ & D & _). apply IB in D. destruct D as [D _]. destruct (M _ D). }
  destruct (rgt (pz (rmax r)) (pz (rmin r))) eqn:EZ.
  - apply rgt_iff in EZ. pose proof (@slab_spans _ _ (pz o) (pz d) (Rlt_le _ _ EZ)) as SZ. pose proof (meet_spans M SZ) as M2. destruct (meet p _) as [q|].
    + rewrite (spans_test L M2). split; intros (t1 & t2 & A & B & C & D & E); exists t1, t2; (split; [auto|split; [auto|split; [auto|]]]); rewrite !IB in *; tauto.
    + split; [discriminate|]. intros (t1 & t2 & _ & _ & _ & D & _). apply IB in D. destruct D as [D F]. destruct (M2 t1). split; auto.
  - apply rgt_false in EZ. rewrite (spans_test L M). split; intros (t1 & t2 & A & B & C & D & E); exists t1, t2; (split; [auto|split; [auto|split; [auto|]]]); rewrite !IB in *; (split; [|]); try tauto; (split; [tauto|intros; lra]).
Qed.
(** A ray running in the face x = 0 of the unit box is rejected. *)
Lemma graze_rejected : exists r y L, px (rmin r) <= px (rmax r) /\ py (rmin r) <= py (rmax r) /\
  (exists t1 t2, t1 <= t2 /\ t1 < L /\ 0 < t2 /\ in_bounds r (at_distance y t1) /\ in_bounds r (at_distance y t2)) /\ intersects_box r y L = false.
Proof.
  exists {| rnode := None; rmin := P3 0 0 0; rmax := P3 1 1 1; rmat := 0%Z |}, {| origin := P3 0 (-1) (/ 2); direction := P3 0 1 0 |}, 3.
  cbn [rmin rmax px py]. split; [lra|]. split; [lra|]. split.
  - exists 1, 2. unfold in_bounds, at_distance. cbn. lra.
  - unfold intersects_box, slab, times_inverse. cbn [origin direction rmin rmax px py pz]. destruct (Rlt_dec 0 0); [lra|]. destruct (Req_EM_T 0 0); [|lra].
    destruct (Rlt_dec 1 0); [lra|]. destruct (Req_EM_T 1 0); [lra|]. destruct (Rlt_dec 0 (0 - 0)); [lra|]. destruct (Rlt_dec (0 - 0) 0); [lra|]. cbn [xgt orb andb].
    destruct (Rlt_dec 0 (1 - 0)); [|lra]. cbn [xgt orb]. destruct (rgt _ _); auto.
    destruct (Rlt_dec 0 (0 - / 2)); [lra|]. destruct (Rlt_dec (0 - / 2) 0); [|lra]. destruct (Rlt_dec 0 (1 - / 2)); [|lra]. reflexivity.
Qed.

(** ** C70: macrobodies *)
Lemma macro_wrong : exists ss p, (exists s, In s ss /\ sense s p = true) /\ macro_contains ss p = true.
Proof.
  exists [sphere 0 0 0 1; sphere 0 0 0 10], (P3 5 0 0). split.
  - exists (sphere 0 0 0 1). split; [simpl; auto|]. unfold sense, qf. simpl.
    destruct (Rle_dec 0 _); auto. exfalso. apply n. lra.
  - unfold macro_contains, sense, qf. simpl. destruct (Rle_dec 0 _); auto. exfalso. lra.
Qed.
Lemma macro_single s p : macro_contains [s] p = negb (sense s p).
Proof. reflexivity. Qed.

(** ** C69: track database *)

Lemma upd_length_eq A (l : list A) i v : length (upd l i v) = length l.
Proof. revert i; induction l as [|a l IH]; intros [|i]; simpl; auto. Qed.

Lemma nth_upd A (l : list A) i j v d : nth j (upd l i v) d = if (Nat.eqb i j && Nat.ltb i (length l))%bool then v else nth j l d.
Proof.
  revert i j; induction l as [|a l IH]; intros [|i] [|j]; simpl; auto.
  - destruct (Nat.eqb i j); auto.
  - rewrite IH. destruct (Nat.eqb i j); simpl; auto.
Qed.

(** Which stored segment vectors are scaled how often. *)
Lemma normalize_fold f ts h : NoDup (map t_segs ts) ->
  forall i, nth i (fold_left (normalize_track f) ts h) [] =
    if existsb (Nat.eqb i) (map t_segs ts) then scale_segs f (nth i h []) else nth i h [].
Proof.
  revert h; induction ts as [|t ts IH]; intros h ND i; simpl; auto.
  inversion ND as [|? ? NI ND']; subst. rewrite IH by auto.
  unfold normalize_track. rewrite nth_upd. rewrite Nat.eqb_sym.
  destruct (Nat.eqb i (t_segs t)) eqn:E; simpl.
  - apply Nat.eqb_eq in E. subst i.
    assert (N : existsb (Nat.eqb (t_segs t)) (map t_segs ts) = false).
    { apply not_true_is_false. intros H. apply existsb_exists in H. destruct H as (x & Hx & E). apply Nat.eqb_eq in E. subst. auto. }
    rewrite N. destruct (Nat.ltb (t_segs t) (length h)) eqn:L; auto.
    apply Nat.ltb_ge in L. rewrite nth_overflow by auto. reflexivity.
  - auto.
Qed.

Lemma fold_flat f d h : fold_left (fun h a => fold_left (normalize_track f) (snd a) h) d h =
  fold_left (normalize_track f) (flat_map (@snd R (list track)) d) h.
Proof. revert h; induction d as [|a d IH]; intros h; simpl; auto. rewrite fold_left_app. auto. Qed.

Lemma seg_volume_scaled f h h' r w t : nth (t_segs t) h' [] = scale_segs f (nth (t_segs t) h []) ->
  seg_volume h' r w t = f r * seg_volume h r w t.
Proof.
  intros E. unfold seg_volume. rewrite E. unfold scale_segs. generalize (nth (t_segs t) h []) as l.
  induction l as [|s l IH]; [cbn [map]; unfold sumR; simpl; ring|].
  cbn [map]. rewrite !sumR_cons, IH. simpl. destruct (Nat.eqb_spec (sregion s) r) as [->|]; ring.
Qed.

Lemma normalize_ok h d ref r : no_sharing d -> db_volume h d r <> 0 ->
  db_volume (normalize h d ref) d r = ref r.
Proof.
  intros NS NZ. unfold normalize. rewrite fold_flat. set (f := fun q => ref q / db_volume h d q).
  set (h' := fold_left _ _ h).
  assert (HS : forall t, In t (flat_map (@snd R (list track)) d) -> nth (t_segs t) h' [] = scale_segs f (nth (t_segs t) h [])).
  { intros t Ht. unfold h'. rewrite normalize_fold by exact NS.
    assert (E : existsb (Nat.eqb (t_segs t)) (map t_segs (flat_map (@snd R (list track)) d)) = true).
    { apply existsb_exists. exists (t_segs t). split; [apply in_map; auto|apply Nat.eqb_refl]. }
    rewrite E. reflexivity. }
  assert (E : db_volume h' d r = f r * db_volume h d r).
  { unfold db_volume. unfold Rdiv. rewrite <- Rmult_assoc. f_equal. clearbody h' f. clear NS NZ.
    induction d as [|[w ts] d IH]; [cbn [map]; unfold sumR; simpl; ring|].
    cbn [map fst snd]. rewrite !sumR_cons, IH.
    2:{ intros t Ht. apply HS. simpl. apply in_or_app. auto. }
    rewrite Rmult_plus_distr_l. f_equal.
    assert (HT : forall t, In t ts -> nth (t_segs t) h' [] = scale_segs f (nth (t_segs t) h [])).
    { intros t Ht. apply HS. simpl. apply in_or_app. auto. }
    clear -HT. induction ts as [|t ts IH]; [cbn [map]; unfold sumR; simpl; ring|].
    cbn [map]. rewrite !sumR_cons, IH by (intros; apply HT; simpl; auto).
    rewrite (@seg_volume_scaled f h h') by (apply HT; simpl; auto). ring. }
  rewrite E. unfold f. field. auto.
Qed.

(** A track stored with its reverse. *)
Lemma normalize_shared : exists h t ref, t_rev t = false /\
  db_volume h [(1, [t]); (1, [reverse t])] 0 = 1 /\ ref 0%nat = 2 /\
  db_volume (normalize h [(1, [t]); (1, [reverse t])] ref) [(1, [t]); (1, [reverse t])] 0 = 4.
Proof.
  exists [[{| sregion := 0; slength := 1 |}]],
    {| t_enter := P3 0 0 0; t_exit := P3 1 0 0; t_weight := 1; t_rev := false; t_segs := 0 |}, (fun _ => 2).
  assert (E : db_volume [[{| sregion := 0; slength := 1 |}]]
    [(1, [{| t_enter := P3 0 0 0; t_exit := P3 1 0 0; t_weight := 1; t_rev := false; t_segs := 0 |}]);
     (1, [reverse {| t_enter := P3 0 0 0; t_exit := P3 1 0 0; t_weight := 1; t_rev := false; t_segs := 0 |}])] 0 = 1).
  { unfold db_volume, seg_volume, reverse. simpl. unfold sumR. simpl. field. }
  split; [reflexivity|]. split; [exact E|]. split; [reflexivity|].
  unfold normalize. cbn [fold_left snd]. unfold normalize_track.
  cbn [t_segs reverse nth upd scale_segs map sregion slength].
  rewrite E. unfold db_volume, seg_volume, reverse. cbn. unfold sumR. simpl. field.
Qed.

(** A sort exists. *)
Fixpoint pins (o p : point) (l : list point) : list point :=
  match l with
  | [] => [p]
  | q :: r => if Rle_dec (distance o p) (distance o q) then p :: q :: r else q :: pins o p r
  end.
Lemma pins_perm o p l : Permutation (p :: l) (pins o p l).
Proof.
  induction l as [|q r IH]; simpl; auto. destruct (Rle_dec _ _); auto.
  eapply perm_trans; [apply perm_swap|]. auto.
Qed.
Lemma pins_sorted o p l : StronglySorted (fun p q => distance o p <= distance o q) l ->
  StronglySorted (fun p q => distance o p <= distance o q) (pins o p l).
Proof.
  induction 1 as [|q r Hs IH Hf]; simpl; [repeat constructor|].
  destruct (Rle_dec (distance o p) (distance o q)).
  - constructor; [constructor; auto|]. constructor; auto. eapply Forall_impl; [|exact Hf]. simpl; intros; lra.
  - constructor; auto. eapply Permutation_Forall; [apply pins_perm|]. constructor; auto. lra.
Qed.
Lemma psort_exists : is_psort (fun o => fold_right (pins o) []).
Proof.
  intros o l. induction l as [|p l [IH1 IH2]]; cbn [fold_right]; [split; constructor|]. split.
  - eapply perm_trans; [|apply pins_perm]. auto.
  - apply pins_sorted. auto.
Qed.

(** The unit sphere met along a diameter. *)
Lemma transversal_case : transversal (sphere 0 0 0 1) {| origin := P3 (-2) 0 0; direction := P3 1 0 0 |}.
Proof.
  exists 1, (-4), 3. split; [intros t; unfold along, qf; simpl; ring|]. left. split; [|lra].
  rewrite Rabs_right by lra. unfold eps13.
  assert (/ 10 ^ 13 <= 1) by (rewrite <- Rinv_1; apply Rinv_le_contravar; [lra|apply pow_R1_Rle; lra]). lra.
Qed.

(** Volumes over all regions: each track of width t_weight sweeps its whole
    length, averaged over the angles. *)
Lemma rsum_pick n k (c : R) : (k < n)%nat -> rsum n (fun r => if Nat.eqb k r then c else 0) = c.
Proof.
  intros H. transitivity (rsum n (fun i => if Nat.eqb i k then c else 0)); [|apply rsum_delta; exact H].
  apply rsum_ext. intros i _. rewrite Nat.eqb_sym. reflexivity.
Qed.
Lemma rsum_sumR_map A n (f : nat -> A -> R) l :
  rsum n (fun r => sumR (map (f r) l)) = sumR (map (fun a => rsum n (fun r => f r a)) l).
Proof.
  induction l as [|a l IH]; [apply rsum_zero; reflexivity|].
  cbn [map]. rewrite sumR_cons, <- IH, <- rsum_plus. apply rsum_ext. reflexivity.
Qed.
Lemma volume_total h d n : sumR (map fst d) <> 0 ->
  (forall t s, In t (flat_map snd d) -> In s (nth (t_segs t) h []) -> (sregion s < n)%nat) ->
  rsum n (db_volume h d) =
  sumR (map (fun a => fst a * sumR (map (fun t => t_weight t * sumR (map slength (nth (t_segs t) h []))) (snd a))) d)
  / sumR (map fst d).
Proof.
  intros NZ HR. unfold db_volume.
  transitivity (rsum n (fun r => sumR (map (fun a => sumR (map (seg_volume h r (fst a)) (snd a))) d) * / sumR (map fst d)));
    [apply rsum_ext; reflexivity|].
  rewrite rsum_scal_r. unfold Rdiv. f_equal.
  rewrite rsum_sumR_map. apply sumR_map_ext. intros [w ts] Ha. cbn [fst snd].
  rewrite rsum_sumR_map, <- sumR_map_scal. apply sumR_map_ext. intros t Ht. unfold seg_volume.
  rewrite rsum_sumR_map, <- Rmult_assoc, <- sumR_map_scal.
  apply sumR_map_ext. intros s Hs. rewrite rsum_pick; [ring|].
  apply HR with t; auto. apply in_flat_map. exists (w, ts). auto.
Qed.
(** Tracks filling a strip of a one-region problem: the volume is the swept area. *)
Lemma volume_region h d r : sumR (map fst d) <> 0 ->
  (forall t, In t (flat_map snd d) -> forall s, In s (nth (t_segs t) h []) -> sregion s <> r) ->
  db_volume h d r = 0.
Proof.
  intros NZ H. unfold db_volume. rewrite sumR_map_zero; [unfold Rdiv; ring|].
  intros [w ts] Ha. apply sumR_map_zero. intros t Ht. unfold seg_volume. apply sumR_map_zero. intros s Hs.
  destruct (Nat.eqb_spec (sregion s) r); auto. exfalso. apply (H t) with s; auto.
  apply in_flat_map. exists (w, ts). auto.
Qed.
