From Verif Require Import Base BaseR Loop Mesh_Model Mesh_Spec Csg_Model Csg_Spec Csg_Proofs Pin_Model Pin_Spec Pin_Proofs.
Set Implicit Arguments. Unset Strict Implicit.
Open Scope nat_scope.

(** ** Regions as intersections *)
Lemma fold_nodes l : forall n0, exists n, fold_left (fun cur n => append_node cur n OInter) l (Some n0) = Some n /\
  forall p, contains n p = contains n0 p && forallb (fun k => contains k p) l.
Proof.
  induction l as [|a l IH]; intros n0; cbn [fold_left forallb append_node].
  - exists n0. split; auto. intros p. rewrite andb_true_r. auto.
  - destruct (IH (Inter n0 a)) as (n & E & H). exists n. split; auto. intros p. rewrite H. cbn [contains]. rewrite andb_assoc. auto.
Qed.
Lemma region_nodes l lo hi m p : l <> [] ->
  region_contains {| rnode := fold_left (fun cur n => append_node cur n OInter) l None; rmin := lo; rmax := hi; rmat := m |} p = Ok (forallb (fun k => contains k p) l).
Proof.
  destruct l as [|a l]; [congruence|]. intros _. cbn [fold_left append_node forallb]. destruct (fold_nodes l a) as (n & E & H).
  unfold region_contains. cbn [rnode]. rewrite E, <- H. destruct (have_bound _); [destruct (_ && _)|]; auto.
Qed.
Lemma side_iff q b p : contains (Prim q b) p = true <-> if b then (0 <= qf q p)%R else (qf q p < 0)%R.
Proof. rewrite contains_den. reflexivity. Qed.

(** ** Sectors *)
Lemma sector2 q0 l0 q1 l1 a : a < 4 -> sector [(q0, l0); (q1, l1)] a =
  match a with 0 => [Prim q0 l0; Prim q1 (negb l1)] | 1 => [Prim q1 l1; Prim q0 l0] | 2 => [Prim q0 (negb l0); Prim q1 l1] | _ => [Prim q1 (negb l1); Prim q0 (negb l0)] end.
Proof. intros H. do 4 (destruct a as [|a]; [reflexivity|]). lia. Qed.
Lemma sector4 q0 l0 q1 l1 q2 l2 q3 l3 a : a < 8 -> sector [(q0, l0); (q1, l1); (q2, l2); (q3, l3)] a =
  match a with 0 => [Prim q0 l0; Prim q1 (negb l1)] | 1 => [Prim q1 l1; Prim q2 (negb l2)] | 2 => [Prim q2 l2; Prim q3 (negb l3)] | 3 => [Prim q3 l3; Prim q0 l0]
  | 4 => [Prim q0 (negb l0); Prim q1 l1] | 5 => [Prim q1 (negb l1); Prim q2 l2] | 6 => [Prim q2 (negb l2); Prim q3 l3] | _ => [Prim q3 (negb l3); Prim q0 (negb l0)] end.
Proof. intros H. do 8 (destruct a as [|a]; [reflexivity|]). lia. Qed.

Section Pin.
Context (P : pincell) (HM : made P) (HC : centred P).
Let X := px (pc_pitch P).
Let Y := py (pc_pitch P).
Let n := length (pc_radii P).

Lemma divisions_ok : divisions P = sectors (pc_div P).
Proof. destruct (made_ok HM) as (_ & _ & _ & D & _). unfold divisions, partitions, sectors. destruct (pc_div P) as [|[|[|[|]]]]; try reflexivity; lia. Qed.

Lemma plane_y p : (qf (plane 0 1 0 (/ 2 * Y - py (pc_center P))) p = Y * rel_y P p)%R.
Proof. destruct (made_ok HM) as (_ & PY & _). destruct HC as [_ C]. unfold rel_y, qf, plane. cbn. rewrite C. fold Y in PY |- *. field. lra. Qed.
Lemma plane_x p : (qf (plane 1 0 0 (/ 2 * X - px (pc_center P))) p = X * rel_x P p)%R.
Proof. destruct (made_ok HM) as (PX & _). destruct HC as [C _]. unfold rel_x, qf, plane. cbn. rewrite C. fold X in PX |- *. field. lra. Qed.
Lemma plane_d p : (qf (plane (Y / X) (-1) 0 0) p = Y * (rel_x P p - rel_y P p))%R.
Proof. destruct (made_ok HM) as (PX & PY & _). destruct HC as [C D]. unfold rel_x, rel_y, qf, plane. cbn. rewrite C, D. fold X Y in PX, PY |- *. field. lra. Qed.
Lemma plane_e p : (qf (plane (Y / X) 1 0 Y) p = Y * (rel_x P p + rel_y P p))%R.
Proof. destruct (made_ok HM) as (PX & PY & _). destruct HC as [C D]. unfold rel_x, rel_y, qf, plane. cbn. rewrite C, D. fold X Y in PX, PY |- *. field. lra. Qed.
Lemma scale_nonneg s t : (0 < s)%R -> (0 <= s * t <-> 0 <= t)%R.
Proof. intros Hs. split; intros H; [|apply Rmult_le_pos; lra]. destruct (Rle_or_lt 0 t); auto. nra. Qed.
Lemma scale_neg s t : (0 < s)%R -> (s * t < 0 <-> t < 0)%R.
Proof. intros Hs. split; intros H; [|nra]. destruct (Rle_or_lt 0 t); auto. nra. Qed.

Lemma sector_true a p : a < sectors (pc_div P) ->
  (forallb (fun k => contains k p) (sector (partitions P) a) = true <-> in_sector (pc_div P) a (rel_x P p) (rel_y P p)).
Proof.
  destruct (made_ok HM) as (PX & PY & _ & D & _). fold X Y in PX, PY. unfold partitions. fold X Y.
  destruct (pc_div P) as [|[|[|[|]]]] eqn:ED; [..|lia]; cbn [Nat.eqb orb app sectors nth]; intros Ha.
  - cbn. intuition.
  - rewrite sector2 by auto. do 4 (destruct a as [|a]; [cbn [forallb negb in_sector]; rewrite !andb_true_iff, !side_iff, plane_x, plane_y, ?scale_nonneg, ?scale_neg by auto; intuition|]). lia.
  - rewrite sector2 by auto. do 4 (destruct a as [|a]; [cbn [forallb negb in_sector]; rewrite !andb_true_iff, !side_iff, plane_d, plane_e, ?scale_nonneg, ?scale_neg by auto; intuition lra|]). lia.
  - rewrite sector4 by auto. do 8 (destruct a as [|a]; [cbn [forallb negb in_sector]; rewrite !andb_true_iff, !side_iff, ?plane_d, ?plane_e, ?plane_x, ?plane_y, ?scale_nonneg, ?scale_neg by auto; intuition lra|]). lia.
Qed.
Lemma sector_exists u v : exists a, a < sectors (pc_div P) /\ in_sector (pc_div P) a u v.
Proof.
  destruct (made_ok HM) as (_ & _ & _ & D & _).
  destruct (pc_div P) as [|[|[|[|]]]]; [..|lia]; cbn [sectors nth].
  - exists 0. split; [lia|exact I].
  - destruct (Rle_or_lt 0 u), (Rle_or_lt 0 v); [exists 0|exists 3|exists 1|exists 2]; (split; [lia|]); cbn; lra.
  - destruct (Rle_or_lt v u), (Rle_or_lt 0 (u + v)); [exists 3|exists 2|exists 0|exists 1]; (split; [lia|]); cbn; lra.
  - destruct (Rle_or_lt 0 u), (Rle_or_lt 0 v), (Rle_or_lt v u), (Rle_or_lt 0 (u + v));
      first [exists 0; split; [lia|]; cbn; lra|exists 1; split; [lia|]; cbn; lra|exists 2; split; [lia|]; cbn; lra|exists 3; split; [lia|]; cbn; lra
            |exists 4; split; [lia|]; cbn; lra|exists 5; split; [lia|]; cbn; lra|exists 6; split; [lia|]; cbn; lra|exists 7; split; [lia|]; cbn; lra|exfalso; lra].
Qed.
Lemma sector_unique u v a b : a < sectors (pc_div P) -> b < sectors (pc_div P) -> in_sector (pc_div P) a u v -> in_sector (pc_div P) b u v -> a = b.
Proof.
  destruct (made_ok HM) as (_ & _ & _ & D & _).
  destruct (pc_div P) as [|[|[|[|]]]]; [..|lia]; cbn [sectors nth]; intros Ha Hb; [lia|..].
  - do 4 (destruct a as [|a]; [do 4 (destruct b as [|b]; [cbn; intros; first [reflexivity|exfalso; lra]|]); lia|]). lia.
  - do 4 (destruct a as [|a]; [do 4 (destruct b as [|b]; [cbn; intros; first [reflexivity|exfalso; lra]|]); lia|]). lia.
  - do 8 (destruct a as [|a]; [do 8 (destruct b as [|b]; [cbn; intros; first [reflexivity|exfalso; lra]|]); lia|]). lia.
Qed.

(** ** Rings *)
Lemma cyl_nth k : nth_error (cylinders P) k = if k <? n then Some (cylinderZ (px (pc_center P) + X * / 2) (py (pc_center P) + Y * / 2) (nth k (pc_radii P) 0%R)) else None.
Proof.
  unfold cylinders. fold X Y. rewrite nth_error_map. destruct (k <? n) eqn:E.
  - apply Nat.ltb_lt in E. rewrite (nth_error_nth' (pc_radii P) 0%R) by (fold n; lia). reflexivity.
  - apply Nat.ltb_ge in E. rewrite (proj2 (nth_error_None (pc_radii P) k)) by (fold n; lia). reflexivity.
Qed.
Lemma sq_lt a b : (0 <= a)%R -> (0 < b)%R -> (sqrt a < b <-> a < b * b)%R.
Proof.
  intros Ha Hb. split; intros H.
  - apply sqrt_lt_0_alt. rewrite sqrt_square by lra. auto.
  - rewrite <- (sqrt_square b) by lra. apply sqrt_lt_1; auto. nra.
Qed.
Lemma cyl_inside rr p : (0 < rr)%R ->
  (qf (cylinderZ (px (pc_center P) + X * / 2) (py (pc_center P) + Y * / 2) rr) p < 0 <-> off_axis P (px p) (py p) < rr)%R.
Proof.
  intros Hr. unfold off_axis. fold X Y. set (a := (px p - (X / 2 + px (pc_center P)))%R). set (b := (py p - (Y / 2 + py (pc_center P)))%R).
  rewrite sq_lt by (auto; nra). replace (qf _ p) with (a * a + b * b - rr * rr)%R; [split; lra|]. unfold qf, cylinderZ, a, b. cbn. field.
Qed.
Lemma ring_unique p k l : in_ring P (px p) (py p) k -> in_ring P (px p) (py p) l -> k = l.
Proof.
  intros (A & B & C) (A' & B' & C'). destruct (lt_eq_lt_dec k l) as [[H|H]|H]; auto; exfalso.
  - specialize (C' k H). specialize (B ltac:(lia)). lra.
  - specialize (C l H). specialize (B' ltac:(lia)). lra.
Qed.
Lemma ring_exists p : exists k, in_ring P (px p) (py p) k.
Proof. destruct (first_ring_spec (off_axis P (px p) (py p)) (pc_radii P) 0) as (k & _ & H). exists k. exact H. Qed.
Lemma ring_bounds p k : k <= n -> (in_ring P (px p) (py p) k <->
  (k < n -> (off_axis P (px p) (py p) < nth k (pc_radii P) 0)%R) /\ (0 < k -> (nth (k - 1) (pc_radii P) 0 <= off_axis P (px p) (py p))%R)).
Proof.
  destruct (made_ok HM) as (_ & _ & _ & _ & RO). intros Hk. split.
  - intros (_ & B & C). split; auto. intros H. apply C. lia.
  - intros [B C]. split; auto. split; auto. intros i Hi. specialize (C ltac:(lia)). pose proof (@radii_mono _ RO i (k - 1) ltac:(lia) ltac:(fold n; lia)). lra.
Qed.

Lemma sides_true p : forallb (fun k => contains k p) (sides P) = true <-> in_pin_cell P p.
Proof.
  unfold sides, in_pin_cell. fold X Y. destruct (Rlt_dec 0 (pz (pc_pitch P))) as [H|H]; cbn [app forallb]; rewrite !andb_true_iff, !side_iff; unfold qf, plane; cbn.
  - split; [intros ?; repeat split; intros; lra|intros (A & B & C); specialize (C H); lra].
  - split; [intros ?; repeat split; intros; lra|intros (A & B & C); lra].
Qed.
Lemma nodes_true k a p : k <= n -> a < sectors (pc_div P) ->
  (forallb (fun q => contains q p) (pin_nodes P k a) = true <->
   in_ring P (px p) (py p) k /\ in_sector (pc_div P) a (rel_x P p) (rel_y P p) /\ (k = n -> in_pin_cell P p)).
Proof.
  destruct (made_ok HM) as (_ & _ & _ & _ & RO). intros Hk Ha. rewrite (ring_bounds p Hk), <- (sector_true p Ha). unfold pin_nodes. rewrite !forallb_app, !andb_true_iff.
  assert (LC : length (cylinders P) = n) by (unfold cylinders; rewrite map_length; reflexivity). rewrite LC, !cyl_nth.
  assert (S1 : (k = n -> in_pin_cell P p) <-> forallb (fun q => contains q p) (if k =? n then sides P else []) = true).
  { destruct (k =? n) eqn:E; [apply Nat.eqb_eq in E; rewrite sides_true; intuition|]. apply Nat.eqb_neq in E. cbn. intuition. }
  rewrite S1.
  assert (C1 : (k < n -> (off_axis P (px p) (py p) < nth k (pc_radii P) 0)%R) <->
    forallb (fun q => contains q p) (match (if k <? n then Some (cylinderZ (px (pc_center P) + X * / 2) (py (pc_center P) + Y * / 2) (nth k (pc_radii P) 0%R)) else None) with Some c => [Prim c false] | None => [] end) = true).
  { destruct (k <? n) eqn:E; [apply Nat.ltb_lt in E|apply Nat.ltb_ge in E; cbn; split; [auto|intros; lia]].
    cbn [forallb]. rewrite andb_true_r, side_iff. pose proof (@radii_pos _ RO k ltac:(fold n; lia)). rewrite cyl_inside by auto. intuition. }
  rewrite C1.
  assert (C2 : (0 < k -> (nth (k - 1) (pc_radii P) 0 <= off_axis P (px p) (py p))%R) <->
    forallb (fun q => contains q p) (if 0 <? k then match (if k - 1 <? n then Some (cylinderZ (px (pc_center P) + X * / 2) (py (pc_center P) + Y * / 2) (nth (k - 1) (pc_radii P) 0%R)) else None) with Some c => [Prim c true] | None => [] end else []) = true).
  { destruct (0 <? k) eqn:E; [apply Nat.ltb_lt in E|apply Nat.ltb_ge in E; cbn; split; [auto|intros; lia]]. rewrite (proj2 (Nat.ltb_lt (k - 1) n)) by lia.
    cbn [forallb]. rewrite andb_true_r, side_iff. pose proof (@radii_pos _ RO (k - 1) ltac:(fold n; lia)) as R0. pose proof (cyl_inside p R0) as CI.
    split; intros H; [specialize (H E)|intros _].
    - apply Rnot_lt_le. intros C. apply CI in C. lra.
    - apply Rnot_lt_le. intros C. apply CI in C. lra. }
  rewrite C2. intuition.
Qed.
Lemma nodes_nonempty k a : k <= n -> pin_nodes P k a <> [].
Proof.
  intros Hk. unfold pin_nodes. rewrite !cyl_nth. destruct (k <? n) eqn:E; [discriminate|]. apply Nat.ltb_ge in E. cbn [app].
  assert (LC : length (cylinders P) = n) by (unfold cylinders; rewrite map_length; reflexivity). rewrite LC. replace (k =? n) with true by (symmetry; apply Nat.eqb_eq; lia).
  intros H. apply app_eq_nil in H. destruct H as [_ H]. discriminate.
Qed.
End Pin.
