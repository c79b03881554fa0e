(** * Theorems on quadratures and moments (C24-C28, C72, C73) *)
From Verif Require Import Base BaseR Util_Model Angle_Model Angle_Spec Angle_Proofs Angle_Tables_Proofs.
Open Scope nat_scope.

(** C24: one angle a of any quadrature with positive stored cosines *)
Theorem C24_octants_partition :
  forall dim nang q0 mu eta xi wt a,
  quad_new dim nang = Ok q0 ->
  let q := with_cosines q0 mu eta xi wt in
  (forall axis, axis < dim -> exists c, nth_error (nth axis [mu; eta; xi] []) a = Some c /\ (0 < c)%R) ->
  forall b : nat -> bool, exists! o, o < q_noct q /\
    forall axis, axis < dim -> exists c, cosine q axis o a = Ok c /\ if b axis then (0 < c)%R else (c < 0)%R.
Proof. exact @octants_partition. Qed.
Print Assumptions C24_octants_partition.
Theorem C24_side_octants :
  forall dim nang q0 mu eta xi wt a s,
  quad_new dim nang = Ok q0 ->
  let q := with_cosines q0 mu eta xi wt in
  (forall axis, axis < dim -> exists c, nth_error (nth axis [mu; eta; xi] []) a = Some c /\ (0 < c)%R) ->
  s < 2 * dim ->
  exists i u, incident_octant q s = Ok i /\ outgoing_octant q s = Ok u /\ NoDup i /\ NoDup u /\
  (forall o, In o i <-> o < q_noct q /\ exists c, cosine q (s / 2) o a = Ok c /\ points_inward s c) /\
  (forall o, In o u <-> o < q_noct q /\ exists c, cosine q (s / 2) o a = Ok c /\ points_outward s c).
Proof. exact @side_octants. Qed.
Print Assumptions C24_side_octants.
Theorem C24_adjoint_history :
  forall l,
  forall q axis o a c, q_adj q = false -> cosine q axis o a = Ok c ->
  cosine (set_adjoints q l) axis o a = Ok (if last l false then (- c)%R else c).
Proof. exact @set_adjoints_spec. Qed.
Print Assumptions C24_adjoint_history.
Theorem C24_adjoint_tables :
  forall dim nang q0 mu eta xi wt a s,
  quad_new dim nang = Ok q0 ->
  let q := set_adjoint (with_cosines q0 mu eta xi wt) true in
  (forall axis, axis < dim -> exists c, nth_error (nth axis [mu; eta; xi] []) a = Some c /\ (0 < c)%R) ->
  s < 2 * dim ->
  exists i, incident_octant q s = Ok i /\
  (forall o, In o i <-> o < q_noct q /\ exists c, cosine q (s / 2) o a = Ok c /\ points_outward s c).
Proof. exact @adjoint_tables. Qed.
Print Assumptions C24_adjoint_tables.
Example C24_case : exists q, quad_new 2 8 = Ok q /\
  cosine (with_cosines q [0.3; 0.8] [0.8; 0.3] [0.5; 0.5] [1; 1])%R 1 2 0 = Ok (-1 * 0.8)%R /\
  cosine (set_adjoints (with_cosines q [0.3; 0.8] [0.8; 0.3] [0.5; 0.5] [1; 1])%R [true; true]) 1 2 0 = Ok (1 * 0.8)%R /\
  incident_octant q 1 = Ok [1; 2].
Proof. eexists. repeat split; reflexivity. Qed.

(** C25 *)
Theorem C25_angle_index :
  forall dim k q,
  quad_new dim (k * 2 ^ dim) = Ok q ->
  q_nao q = k /\ q_noct q * q_nao q = q_nang q /\
  (forall o a, o < q_noct q -> a < q_nao q -> index q o a < q_nang q) /\
  (forall o a o' a', a < q_nao q -> a' < q_nao q -> index q o a = index q o' a' -> o = o' /\ a = a') /\
  (forall n, n < q_nang q -> exists o a, o < q_noct q /\ a < q_nao q /\ index q o a = n).
Proof. exact @index_bijection. Qed.
Print Assumptions C25_angle_index.
Theorem C25_product_angle :
  forall na np a p,
  a < na -> p < np ->
  angle_of np a p < na * np /\ azimuth_of na np (angle_of np a p) = a /\ polar_of np (angle_of np a p) = p.
Proof. exact @product_angle_inverse. Qed.
Print Assumptions C25_product_angle.
Theorem C25_product_angle_onto :
  forall na np n,
  n < na * np ->
  azimuth_of na np n < na /\ polar_of np n < np /\ angle_of np (azimuth_of na np n) (polar_of np n) = n.
Proof. exact @product_angle_onto. Qed.
Print Assumptions C25_product_angle_onto.
Example C25_case : exists q, quad_new 3 (4 * 2 ^ 3) = Ok q /\ index q 7 3 = 31 /\ azimuth_of 2 3 5 = 1 /\ polar_of 3 5 = 2.
Proof. eexists. repeat split; reflexivity. Qed.

(** C26 *)
Theorem C26_moment_index :
  forall dim L,
  0 < dim < 4 -> exists x, indexer_new dim L = Ok x /\
  mi_n x = match dim with 1 => L + 1 | 2 => (L + 1) * (L + 2) / 2 | _ => (L + 1) * (L + 1) end /\
  length (mi_l x) = mi_n x /\ length (mi_m x) = mi_n x /\
  (forall i, i < mi_n x -> exists l m, rd (mi_l x) i = Ok l /\ rd (mi_m x) i = Ok m /\
     valid_lm dim L l m /\ mi_index x l m = i) /\
  (forall l m, valid_lm dim L l m -> mi_index x l m < mi_n x /\
     rd (mi_l x) (mi_index x l m) = Ok l /\ rd (mi_m x) (mi_index x l m) = Ok m).
Proof. exact @moment_index. Qed.
Print Assumptions C26_moment_index.
Example C26_case : valid_lm 2 3 3 (-1) /\ exists x, indexer_new 2 3 = Ok x /\ mi_n x = 10 /\ mi_index x 3 (-1) = 7.
Proof. split; [repeat split; try lia; exists 1%Z; lia|]. eexists. repeat split; reflexivity. Qed.

(** C27 *)
Theorem C27_uniform_weights :
  forall a b m,
  0 < m ->
  length (snd (uniform_rule a b m)) = m /\ sumR (snd (uniform_rule a b m)) = (b - a)%R.
Proof. exact @uniform_sum. Qed.
Print Assumptions C27_uniform_weights.
Theorem C27_uniform_points :
  forall a b m k,
  0 < m -> (a < b)%R -> k < m ->
  (a < nth k (fst (uniform_rule a b m)) 0 < b)%R /\
  (S k < m -> (nth k (fst (uniform_rule a b m)) 0 < nth (S k) (fst (uniform_rule a b m)) 0)%R).
Proof. exact @uniform_points. Qed.
Print Assumptions C27_uniform_points.
Theorem C27_uniform_cosine_weights :
  forall srt a b m,
  0 < m ->
  length (snd (uniform_cosine_rule srt a b m)) = m /\ sumR (snd (uniform_cosine_rule srt a b m)) = (b - a)%R.
Proof. exact @uniform_cosine_sum. Qed.
Print Assumptions C27_uniform_cosine_weights.
Theorem C27_simpson_refuted :
  forall a b m,
  (a < b)%R -> m mod 3 = 2 -> sumR (snd (simpson_rule a b m)) <> (b - a)%R.
Proof. exact @simpson_bad. Qed.
Print Assumptions C27_simpson_refuted.
Theorem C27_simpson_partial :
  forall a b m,
  0 < m -> m mod 3 <> 2 -> sumR (snd (simpson_rule a b m)) = (b - a)%R.
Proof. exact @simpson_ok. Qed.
Print Assumptions C27_simpson_partial.
Example C27_case : sumR (snd (simpson_rule 0 1 2)) = (1 / 2)%R /\ 2 mod 3 = 2 /\ 4 mod 3 <> 2.
Proof. split; [exact simpson_two|]. split; [reflexivity|discriminate]. Qed.

(** C28: any base rules, any orders *)
Theorem C28_product_weights :
  forall dim QA QP na np es,
  dim < 4 ->
  (forall a b m, length (fst (QA a b m)) = m /\ length (snd (QA a b m)) = m) ->
  sumR (az_wt (azimuthal QA na false)) <> 0%R -> sumR (po_wt (polar_quad QP np false)) <> 0%R ->
  product_build dim (azimuthal QA na true) (polar_quad QP np true) na np = Ok es ->
  length es = na * np /\ (INR (2 ^ dim) * sumR (map e_wt es) = 1 / angular_norm dim)%R.
Proof. exact @product_normalised. Qed.
Print Assumptions C28_product_weights.
Theorem C28_product_on_sphere :
  forall dim QA QP na np es n,
  (forall a b m, length (fst (QA a b m)) = m) ->
  (forall p, p < np -> (-1 <= nth p (po_cos (polar_quad QP np true)) 0 <= 1)%R) ->
  product_build dim (azimuthal QA na true) (polar_quad QP np true) na np = Ok es ->
  n < na * np ->
  let e := nth n es entry0 in on_sphere (e_mu e) (e_eta e) (e_xi e).
Proof. exact @product_on_sphere. Qed.
Print Assumptions C28_product_on_sphere.
Theorem C28_product_verified :
  forall dim A P na np es,
  product_build dim A P na np = Ok es ->
  (forall p, p < np -> (0 < nth p (po_cos P) 0)%R) /\
  (forall p, S p < np -> (nth p (po_cos P) 0 < nth (S p) (po_cos P) 0)%R) /\
  (forall a p, S a < na -> p < np -> (e_mu (nth (angle_of np (S a) p) es entry0) < e_mu (nth (angle_of np a p) es entry0))%R).
Proof. exact @product_verified. Qed.
Print Assumptions C28_product_verified.
Theorem C28_uniform_equal :
  forall dim order,
  0 < order ->
  length (uniform_equal dim order) = order * order /\
  (INR (2 ^ dim) * sumR (map e_wt (uniform_equal dim order)) = 4 * PI)%R /\
  (forall e, In e (uniform_equal dim order) ->
     on_sphere (e_mu e) (e_eta e) (e_xi e) /\ (0 < e_mu e)%R /\ (0 < e_eta e)%R /\ (0 < e_xi e)%R).
Proof. exact @uniform_equal_spec. Qed.
Print Assumptions C28_uniform_equal.
Theorem C28_user_on_sphere :
  forall mu eta w,
  (mu * mu + eta * eta <= 1)%R ->
  let e := user_entry mu eta w in on_sphere (e_mu e) (e_eta e) (e_xi e).
Proof. exact @user_on_sphere. Qed.
Print Assumptions C28_user_on_sphere.
Example C28_case : exists es, product_build 2 (azimuthal uniform_rule 1 true) (polar_quad uniform_rule 1 true) 1 1 = Ok es /\
  sumR (az_wt (azimuthal uniform_rule 1 false)) <> 0%R /\ sumR (po_wt (polar_quad uniform_rule 1 false)) <> 0%R.
Proof.
  pose proof PI_RGT_0 as HP.
  assert (Ec : po_cos (polar_quad uniform_rule 1 true) = [(1 / 2)%R]).
  { unfold polar_quad, uniform_rule. cbn [po_cos map seq]. f_equal.
    destruct (@Util_Proofs.linspace_center_spec (-1) 1 2 ltac:(lia)) as [_ H].
    change (2 * 1) with 2. change (0 + 1) with 1. rewrite H by lia. simpl. lra. }
  unfold product_build. cbn [Nat.ltb Nat.leb].
  assert (V : verify (polar_quad uniform_rule 1 true) (product_set 2 (azimuthal uniform_rule 1 true) (polar_quad uniform_rule 1 true) 1 1) 1 1 = true).
  { unfold verify. cbn [seq forallb Nat.eqb]. rewrite !andb_true_r. apply andb_true_intro. split; apply Rltb_true.
    - rewrite Ec. simpl. lra.
    - unfold product_set, angle_of. cbn [seq flat_map map app nth Nat.add Nat.mul e_mu].
      assert (Es : po_sin (polar_quad uniform_rule 1 true) = [sqrt (1 - (1 / 2) * (1 / 2))]%R).
      { change (po_sin (polar_quad uniform_rule 1 true)) with (map (fun t => sqrt (1 - t * t)) (po_cos (polar_quad uniform_rule 1 true)))%R.
        rewrite Ec. reflexivity. }
      rewrite Es. cbn [nth].
      assert (Hs : (sqrt (1 - 1 / 2 * (1 / 2)) < 1)%R).
      { apply Rlt_le_trans with (sqrt 1); [apply sqrt_lt_1; lra|rewrite sqrt_1; lra]. }
      assert (Hs0 : (0 <= sqrt (1 - 1 / 2 * (1 / 2)))%R) by apply sqrt_pos.
      match goal with |- (_ * ?c < 1)%R => assert (Hc : (-1 <= c <= 1)%R) end.
      { unfold azimuthal. cbn [az_cos uniform_rule]. destruct (map cos _) as [|c l] eqn:E; cbn [nth]; [lra|].
        assert (Hin : In c (map cos (linspace_center 0 (acos 0) 1))) by (rewrite E; simpl; auto).
        apply in_map_iff in Hin. destruct Hin as (x & <- & _). pose proof (COS_bound x). lra. }
      nra. }
  rewrite V. eexists. split; [reflexivity|]. split.
  - unfold azimuthal, uniform_rule. cbn [az_wt]. rewrite acos_0. simpl. lra.
  - unfold polar_quad, uniform_rule. cbn. lra.
Qed.

(** C72 *)
Theorem C72_incident_bijection :
  forall dim na np s,
  dim23 dim -> s < 2 * dim ->
  exists octs, rd (incident_table dim) s = Ok octs /\
  table_bijection (number_azimuths na s) (number_polar dim np s) (na * np) octs (incident_index dim na np s).
Proof. exact @incident_bijection. Qed.
Print Assumptions C72_incident_bijection.
Theorem C72_outgoing_bijection :
  forall dim na np s,
  dim23 dim -> s < 2 * dim ->
  exists octs, rd (outgoing_table dim) s = Ok octs /\
  table_bijection (number_azimuths na s) (number_polar dim np s) (na * np) octs (outgoing_index dim na np s).
Proof. exact @outgoing_bijection. Qed.
Print Assumptions C72_outgoing_bijection.
Theorem C72_order :
  forall dim na np s mu eta xi,
  dim23 dim -> s < 2 * dim -> product_ordered na np mu eta xi ->
  let inc := incident_index dim na np s in let out := outgoing_index dim na np s in
  let right inw x := rightward (fst (facing s inw)) (snd (facing s inw)) (slot_cos mu 0 x) (slot_cos eta 1 x) in
  (* vertical sides: right to left *)
  (s < 4 -> forall az az' p x x', az < az' -> az' < number_azimuths na s -> p < number_polar dim np s ->
     (inc az p = Ok x -> inc az' p = Ok x' -> (right true x' < right true x)%R) /\
     (out az p = Ok x -> out az' p = Ok x' -> (right false x' < right false x)%R)) /\
  (* three dimensions: top to bottom *)
  (dim = 3 -> forall az p p' x x', p < p' -> p' < number_polar dim np s -> az < number_azimuths na s ->
     (inc az p = Ok x -> inc az p' = Ok x' -> (slot_cos xi 2 x' < slot_cos xi 2 x)%R) /\
     (out az p = Ok x -> out az p' = Ok x' -> (slot_cos xi 2 x' < slot_cos xi 2 x)%R)).
Proof. exact @table_order. Qed.
Print Assumptions C72_order.
Theorem C72_azimuth_order :
  forall na np s (phi : nat -> R),
  s = 4 \/ s = 5 ->
  (forall z, z < na -> (0 < phi z < PI / 2)%R) -> (forall z z', z < z' -> z' < na -> (phi z < phi z')%R) ->
  let ang x := octant_azimuth (s_oct x) (phi (azimuth_of na np (s_ang x))) in
  forall az az' p x x', az < az' -> az' < number_azimuths na s -> p < number_polar 3 np s ->
     (incident_index 3 na np s az p = Ok x -> incident_index 3 na np s az' p = Ok x' -> (ang x < ang x')%R) /\
     (outgoing_index 3 na np s az p = Ok x -> outgoing_index 3 na np s az' p = Ok x' -> (ang x < ang x')%R).
Proof. exact @table_azimuth_order. Qed.
Print Assumptions C72_azimuth_order.
Theorem C72_azimuth_cosines :
  forall o phi,
  (cos (octant_azimuth o phi) = IZR (octant_signs o 0) * cos phi /\
  sin (octant_azimuth o phi) = IZR (octant_signs o 1) * sin phi)%R.
Proof. exact @azimuth_cos. Qed.
Print Assumptions C72_azimuth_cosines.
Example C72_case : incident_index 2 2 1 0 1 0 = Ok {| s_oct := 3; s_ang := 0; s_io := 0 |} /\
  outgoing_index 3 1 2 4 3 1 = Ok {| s_oct := 7; s_ang := 1; s_io := 3 |}.
Proof. split; vm_compute; reflexivity. Qed.

(** C73 *)
Theorem C73_double_rule :
  forall a b xh wh,
  length xh = length wh -> (a < b)%R ->
  let h := length xh in
  let r := double_rule a b (xh, wh) in
  length (fst r) = 2 * h /\ length (snd r) = 2 * h /\
  sumR (snd r) = (sumR wh * (b - a) / 2)%R /\
  (forall i, i < 2 * h ->
     nth i (snd r) 0%R = nth (2 * h - 1 - i) (snd r) 0%R /\
     (nth i (fst r) 0 + nth (2 * h - 1 - i) (fst r) 0 = a + b)%R).
Proof. exact @double_rule_spec. Qed.
Print Assumptions C73_double_rule.
Example C73_case : length [(-1 / 2)%R; (1 / 2)%R] = length [1%R; 1%R] /\ sumR [1; 1]%R = 2%R.
Proof. split; [reflexivity|]. unfold sumR; simpl; ring. Qed.
