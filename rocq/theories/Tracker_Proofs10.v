From Verif Require Import Base BaseR Util_Model Util_Proofs Mesh_Model Mesh_Spec Csg_Model Csg_Spec Csg_Proofs Pin_Model Pin_Spec Angle_Model Angle_Proofs Tracker_Model Tracker_Spec Tracker_Proofs Tracker_Proofs2 Tracker_Proofs3 Tracker_Proofs4 Tracker_Proofs6 Tracker_Proofs7 Tracker_Proofs8 Tracker_Proofs9.
Set Implicit Arguments. Unset Strict Implicit.
Open Scope R_scope.

(** ** Tracking a mesh *)
Lemma crosses_distance X Y c s t : c * c + s * s = 1 -> crosses X Y c s t -> exists a, 0 < a /\ distance (enter t) (exit t) = a /\ px (exit t) - px (enter t) = a * c /\ py (exit t) - py (enter t) = a * s.
Proof.
  intros U (_ & _ & _ & _ & a & Ha & E). exists a. rewrite E. cbn [px py pz padd pscale]. split; auto. split; [|split; ring].
  unfold distance. cbn [px py pz padd pscale]. transitivity (sqrt (a * a)); [|apply sqrt_square; lra]. f_equal. transitivity (a * a * (c * c + s * s)); [ring|rewrite U; ring].
Qed.
Lemma crosses_mesh m c s t : dim m = 2%nat -> (forall w, In w (mdx m) \/ In w (mdy m) -> 2 * / 10 ^ 5 <= w) -> eps13 / 2 < Rabs c -> eps13 / 2 < Rabs s -> c * c + s * s = 1 ->
  crosses (twx m) (twy m) c s t -> clear_of_corners m (enter t) (exit t) -> mesh_track m (enter t) (exit t).
Proof.
  intros D W Hc Hs U C K. destruct (crosses_distance U C) as (a & Ha & L & DX & DY). unfold mesh_track. rewrite L, DX, DY, !Rabs_mult, (Rabs_right a) by lra.
  destruct C as (B0 & B1 & _). split; auto. split; auto. split; auto. split; auto. split; [|split; auto]; rewrite (Rmult_comm a); apply Rmult_lt_compat_r; auto.
Qed.
Theorem trackit_mesh base srt msrt m width minn np azi h tm : face_rule base -> is_psort srt -> is_msort msrt -> mesh_good m -> dim m = 2%nat ->
  (forall w, In w (mdx m) \/ In w (mdy m) -> 2 * / 10 ^ 5 <= w) -> (0 < minn)%nat -> (0 < np)%nat -> good_azimuths azi ->
  generate base width minn np azi (twx m) (twy m) ([], []) = Ok (h, tm) ->
  (forall o a ts t, (o < 2)%nat -> map_find tm (o, a) = Some ts -> In t ts -> clear_of_corners m (enter t) (exit t)) ->
  exists h', trackit srt msrt base width minn np azi (twx m) (twy m) (geometry_of_mesh m) ([], []) = Ok (h', tm) /\
  forall o a ts t, map_find tm (o, a) = Some ts -> In t ts ->
    let L := distance (enter t) (exit t) in
    sumR (map slength (listed h' t)) = L /\
    (t_rev t = false -> tiles (geometry_of_mesh m) (enter t) (exit t) (listed h' t) 0 L) /\ (t_rev t = true -> tiles (geometry_of_mesh m) (exit t) (enter t) (rev (listed h' t)) 0 L).
Proof.
  intros FR HS HM G D W MN NP GA E CC.
  assert (PX : 0 < twx m /\ 0 < twy m).
  { destruct G as (L1 & L2 & L3 & P & X1 & X2 & X3 & N1 & N2 & N3 & _). rewrite <- X1, <- X2.
    assert (PE : forall w n, length w = n -> (0 < n)%nat -> (forall x, In x w -> 0 < x) -> 0 < left_edge w n).
    { intros w n Lw Hn Hw. apply Rlt_le_trans with (left_edge w 1); [|apply left_edge_mono; [auto|lia]]. unfold left_edge. cbn. assert (0 < nth 0 w 0); [|lra]. apply Hw, nth_In. lia. }
    split; apply PE; auto. }
  eapply (@trackit_tiles base FR (twx m) (twy m) width minn np (proj1 PX) (proj2 PX) MN NP azi GA srt msrt); eauto. intros o k ts t Ho Hf Ht. apply mesh_trackable; auto.
  destruct (@tracks_run base FR (twx m) (twy m) width minn np (proj1 PX) (proj2 PX) MN NP azi GA) as (h0 & m0 & E0 & KI & K). rewrite E in E0. injection E0 as <- <-.
  destruct (KI _ _ (find_in Hf)) as (_ & a & La & Ka). cbn [fst snd] in Ka. subst k. destruct (nth_error azi a) as [[c s]|] eqn:Ea; [|apply nth_error_None in Ea; lia].
  destruct (K a c s Ea) as (_ & _ & _ & _ & _ & _ & _ & _ & _ & Q). destruct (Q o ts Hf) as (_ & _ & C). specialize (C t Ht). destruct (GA _ _ (nth_error_In _ _ Ea)) as (Hc & Hs & U). pose proof eps13_pos.
  assert (SX : sgn_x o = 1 \/ sgn_x o = -1) by (destruct o as [|[|o]]; cbn; auto; lia). assert (SY : sgn_y o = 1 \/ sgn_y o = -1) by (destruct o as [|[|o]]; cbn; auto; lia).
  apply (@crosses_mesh m (sgn_x o * c) (sgn_y o * s) t D W); [| | |exact C|eapply CC; eauto].
  - destruct SX as [-> | ->]; rewrite Rabs_mult, (Rabs_right c) by lra; [rewrite Rabs_R1|rewrite (Rabs_left (-1)) by lra]; lra.
  - destruct SY as [-> | ->]; rewrite Rabs_mult, (Rabs_right s) by lra; [rewrite Rabs_R1|rewrite (Rabs_left (-1)) by lra]; lra.
  - destruct SX as [-> | ->], SY as [-> | ->]; lra.
Qed.

(** ** Cases *)
Lemma corner_ok P0 P1 e f t u : px P1 <> px P0 -> py P1 <> py P0 -> 1 / 10 <= distance P0 P1 -> px (on_track P0 P1 t) = e -> py (on_track P0 P1 u) = f ->
  let d := (f - py P0) / (py P1 - py P0) - (e - px P0) / (px P1 - px P0) in d = 0 \/ 1 / 100 <= d \/ d <= - (1 / 100) -> t = u \/ / 10 ^ 12 <= Rabs (u - t).
Proof.
  intros NX NY LL E F d K. set (L := distance P0 P1) in *.
  assert (T : t = (e - px P0) / (px P1 - px P0) * L) by (rewrite <- E; unfold on_track; cbn; fold L; field; lra).
  assert (U : u = (f - py P0) / (py P1 - py P0) * L) by (rewrite <- F; unfold on_track; cbn; fold L; field; lra).
  assert (UT : u - t = d * L) by (rewrite T, U; unfold d; ring). assert (P : / 10 ^ 12 <= 1 / 1000).
  { replace (1 / 1000) with (/ 10 ^ 3) by (cbn; field). apply Rinv_le_contravar; [apply pow_lt; lra|]. apply Rle_pow; [lra|lia]. }
  destruct K as [K|[K|K]]; [left; rewrite K in UT; lra|right|right]; rewrite UT; (eapply Rle_trans; [exact P|]).
  - rewrite Rabs_right by nra. nra.
  - rewrite Rabs_left by nra. nra.
Qed.
Lemma distance_ge P0 P1 : Rabs (px P1 - px P0) <= distance P0 P1.
Proof.
  unfold distance. rewrite <- sqrt_Rsqr_abs. apply sqrt_le_1_alt. unfold Rsqr. assert (A := Rle_0_sqr (py P1 - py P0)). assert (B := Rle_0_sqr (pz P1 - pz P0)). unfold Rsqr in *. nra.
Qed.

Definition four : mesh :=
  {| dim := 2; xfm := [2]%nat; yfm := [2]%nat; zfm := [1]%nat; xcme := [0; 2]; ycme := [0; 2]; zcme := [0; 1];
     mdx := [1; 1]; mdy := [1; 1]; mdz := [1]; twx := 2; twy := 2; twz := 1; mat := [0; 1; 2; 3]%Z |}.
Lemma four_good : mesh_good four.
Proof.
  unfold mesh_good, ncx, ncy, ncz. cbn. repeat split; try lia; try (unfold left_edge; cbn; ring).
  intros w H. assert (K : 1 = w) by (cbn in H; tauto). lra.
Qed.
Lemma pow5 : 2 * / 10 ^ 5 <= 1.
Proof. cbn. lra. Qed.
Lemma two_edges i : left_edge [1; 1] i = 0 \/ left_edge [1; 1] i = 1 \/ left_edge [1; 1] i = 2.
Proof.
  destruct i as [|[|i]]; [left; reflexivity|right; left; unfold left_edge; cbn; ring|right; right]. unfold left_edge. induction i as [|i IH]; [cbn; ring|].
  change (rsum (S (S (S i))) (fun k => nth k [1; 1] 0)) with (rsum (S (S i)) (fun k => nth k [1; 1] 0) + nth (S (S i)) [1; 1] 0) || rewrite (rsum_S (S (S i))). rewrite IH. destruct i; cbn; ring.
Qed.
Lemma one_edges i : left_edge [1] i = 0 \/ left_edge [1] i = 1.
Proof.
  destruct i as [|i]; [left; reflexivity|right]. unfold left_edge. induction i as [|i IH]; [cbn; ring|].
  change (rsum (S (S i)) (fun k => nth k [1] 0)) with (rsum (S i) (fun k => nth k [1] 0) + nth (S i) [1] 0) || rewrite (rsum_S (S i)). rewrite IH. destruct i; cbn; ring.
Qed.
Lemma eps_small : eps13 / 2 < 1 / 1000.
Proof. unfold eps13. assert (/ 10 ^ 13 <= / 10 ^ 3) by (apply Rinv_le_contravar; [apply pow_lt; lra|apply Rle_pow; [lra|lia]]). simpl in *. lra. Qed.
(** Through three of the four cells. *)
Theorem case_mesh_track : mesh_track four (P3 0 (1 / 4) 0) (P3 2 (5 / 4) 0).
Proof.
  assert (L2 : 2 <= distance (P3 0 (1 / 4) 0) (P3 2 (5 / 4) 0)) by (assert (K := distance_ge (P3 0 (1 / 4) 0) (P3 2 (5 / 4) 0)); cbn [px] in K; rewrite Rabs_right in K by lra; lra).
  assert (L3 : distance (P3 0 (1 / 4) 0) (P3 2 (5 / 4) 0) <= 3).
  { unfold distance. cbn [px py pz]. rewrite <- (sqrt_square 3) by lra. apply sqrt_le_1_alt. lra. }
  pose proof eps13_pos. pose proof eps_small. unfold mesh_track. cbn [dim four mdx mdy twx twy px py pz]. split; auto. split; [intros w Hw; assert (K : 1 = w) by (cbn in Hw; tauto); rewrite <- K; apply pow5|].
  split; [unfold on_boundary; cbn; repeat split; lra|]. split; [unfold on_boundary; cbn; repeat split; lra|]. split; [rewrite Rabs_right by lra; nra|]. split; [rewrite Rabs_right by lra; nra|].
  intros i j t u E F. cbn [mdx mdy four] in E, F. refine (@corner_ok _ _ _ _ t u _ _ _ E F _); cbn [px py]; try lra.
  replace (5 / 4 - 1 / 4) with 1 by field. replace (2 - 0) with 2 by ring.
  destruct (two_edges i) as [-> | [-> | ->]], (two_edges j) as [-> | [-> | ->]]; lra.
Qed.

Definition square : mesh :=
  {| dim := 2; xfm := [1]%nat; yfm := [1]%nat; zfm := [1]%nat; xcme := [0; 1]; ycme := [0; 1]; zcme := [0; 1];
     mdx := [1]; mdy := [1]; mdz := [1]; twx := 1; twy := 1; twz := 1; mat := [0]%Z |}.
Lemma square_good : mesh_good square.
Proof.
  unfold mesh_good, ncx, ncy, ncz. cbn. repeat split; try lia; try (unfold left_edge; cbn; ring).
  intros w H. assert (K : 1 = w) by (cbn in H; tauto). lra.
Qed.
(** A mesh on which all tracks of a new tracker keep clear of the corners. *)
Theorem case_trackit : exists h tm, good_azimuths [(4 / 5, 3 / 5)] /\ generate uniform_base 1 1 1 [(4 / 5, 3 / 5)] (twx square) (twy square) ([], []) = Ok (h, tm) /\
  (exists ts, map_find tm (1%nat, 0%nat) = Some ts /\ length ts = 2%nat) /\
  forall o a ts t, (o < 2)%nat -> map_find tm (o, a) = Some ts -> In t ts -> clear_of_corners square (enter t) (exit t).
Proof.
  assert (GA : good_azimuths [(4 / 5, 3 / 5)]) by (apply good_one; lra).
  destruct (@tracks_run uniform_base uniform_face 1 1 1 1 1 ltac:(lra) ltac:(lra) ltac:(lia) ltac:(lia) _ GA) as (h & m & E & KI & K).
  destruct (K 0%nat (4 / 5) (3 / 5) eq_refl) as (ts0 & ts1 & F0 & F1 & F2 & F3 & EN & EM & EX & Q). clear K.
  rewrite (@number_is 1 1 1 (3 / 5) 1) in EN by (try lia; replace (1 / (1 / (3 / 5))) with (3 / 5) by field; lra).
  rewrite (@number_is 1 1 1 (4 / 5) 1) in EN by (try lia; replace (1 / (1 / (4 / 5))) with (4 / 5) by field; lra).
  assert (B1 : map fst (uniform_base (Z.to_nat 1) 1) = [1 / 2]).
  { destruct (uniform_face (n := Z.to_nat 1) (L := 1) ltac:(lia) ltac:(lra)) as (LB & _). assert (N := @uniform_nth (Z.to_nat 1) 1 0%nat ltac:(lia)).
    destruct (uniform_base (Z.to_nat 1) 1) as [|b [|? ?]]; cbn in LB; try lia. change (Z.to_nat 1) with 1%nat in N. cbn [map nth INR] in N. cbn [map]. f_equal. rewrite N. field. }
  assert (E2 : map enter ts0 = [P3 0 (1 / 2) 0; P3 (1 / 2) 0 0]).
  { rewrite EN. rewrite <- (map_map fst (fun y => P3 0 y 0)), <- (map_map fst (fun x => P3 x 0 0)), B1. reflexivity. }
  clear EN. destruct ts0 as [|t0 [|t1 [|? ?]]]; try discriminate. cbn [map] in E2. injection E2 as A0 A1. destruct ts1 as [|u0 [|u1 [|? ?]]]; try discriminate. cbn [map] in EM, EX. injection EM as B0 B2. injection EX as C0 C1.
  destruct (Q 0%nat _ F0) as (_ & _ & CR). cbn [sgn_x sgn_y] in CR.
  assert (X0 : exit t0 = P3 (2 / 3) 1 0).
  { destruct (CR t0 ltac:(left; auto)) as (_ & (D1 & D2 & D3 & _) & _ & G & a & Pa & X). rewrite A0 in X. assert (PX := f_equal px X). assert (PY := f_equal py X). cbn in PX, PY. apply point_eq; cbn [px py pz]; lra. }
  assert (X1 : exit t1 = P3 1 (3 / 8) 0).
  { destruct (CR t1 ltac:(right; left; auto)) as (_ & (D1 & D2 & D3 & _) & _ & G & a & Pa & X). rewrite A1 in X. assert (PX := f_equal px X). assert (PY := f_equal py X). cbn in PX, PY. apply point_eq; cbn [px py pz]; lra. }
  rewrite A0 in B0. rewrite A1 in B2. rewrite X0 in C0. rewrite X1 in C1. cbn [px py] in B0, B2, C0, C1.
  exists h, m. split; auto. split; [exact E|]. split; [eexists; split; [exact F1|reflexivity]|].
  change (0 * 1)%nat with 0%nat in *.
  assert (CL : forall x0 y0 x1 y1 rx ry, (x1 - x0) * rx = 1 -> (y1 - y0) * ry = 1 -> (1 / 10 <= x1 - x0 \/ x1 - x0 <= - (1 / 10)) -> y1 <> y0 ->
    (forall e f, (e = 0 \/ e = 1) -> (f = 0 \/ f = 1) -> let d := (f - y0) * ry - (e - x0) * rx in d = 0 \/ 1 / 100 <= d \/ d <= - (1 / 100)) -> clear_of_corners square (P3 x0 y0 0) (P3 x1 y1 0)).
  { intros x0 y0 x1 y1 rx ry RX RY HX HY HC i j t u Et Fu. cbn [mdx mdy square] in Et, Fu. refine (@corner_ok _ _ _ _ t u _ _ _ Et Fu _); cbn [px py]; unfold Rdiv; try lra.
    - assert (K := distance_ge (P3 x0 y0 0) (P3 x1 y1 0)). cbn [px] in K. unfold Rabs in K. destruct (Rcase_abs _); lra.
    - assert (NX : x1 - x0 <> 0) by lra. assert (NY : y1 - y0 <> 0) by lra.
      replace (/ (y1 - y0)) with ry by (apply Rmult_eq_reg_l with (y1 - y0); auto; rewrite RY, Rinv_r; auto). replace (/ (x1 - x0)) with rx by (apply Rmult_eq_reg_l with (x1 - x0); auto; rewrite RX, Rinv_r; auto).
      apply HC; apply one_edges. }
  intros o k ts t Ho Hf Ht. destruct (KI _ _ (find_in Hf)) as (_ & a & La & Ka). cbn [fst snd length] in *. assert (K0 : a = 0%nat) by lia. rewrite K0 in Ka. change (0 * 1)%nat with 0%nat in Ka. subst k.
  destruct o as [|[|o]]; [| |lia].
  - assert (HH := eq_trans (eq_sym Hf) F0). injection HH as ->. destruct Ht as [<-|[<-|[]]]; [rewrite A0, X0; apply (CL 0 (1 / 2) (2 / 3) 1 (3 / 2) 2)|rewrite A1, X1; apply (CL (1 / 2) 0 1 (3 / 8) 2 (8 / 3))]; try lra; intros e f [-> | ->] [-> | ->]; lra.
  - assert (HH := eq_trans (eq_sym Hf) F1). injection HH as ->. destruct Ht as [<-|[<-|[]]]; [rewrite B0, C0; apply (CL (1 - 0) (1 / 2) (1 - 2 / 3) 1 (- (3 / 2)) 2)|rewrite B2, C1; apply (CL (1 - 1 / 2) 0 (1 - 1) (3 / 8) (- 2) (8 / 3))]; try lra; intros e f [-> | ->] [-> | ->]; lra.
Qed.

(** A sort of segments exists. *)
Fixpoint mins (o : point) (p : mseg) (l : list mseg) : list mseg :=
  match l with
  | [] => [p]
  | q :: r => if Rle_dec (distance (ms_mid p) o) (distance (ms_mid q) o) then p :: q :: r else q :: mins o p r
  end.
Lemma mins_perm o p l : Permutation (p :: l) (mins o p l).
Proof.
  induction l as [|q r IH]; simpl; auto. destruct (Rle_dec _ _); auto.
  eapply perm_trans; [apply perm_swap|]. auto.
Qed.
Lemma mins_sorted o p l : StronglySorted (fun p q => distance (ms_mid p) o <= distance (ms_mid q) o) l ->
  StronglySorted (fun p q => distance (ms_mid p) o <= distance (ms_mid q) o) (mins o p l).
Proof.
  induction 1 as [|q r Hs IH Hf]; simpl; [repeat constructor|].
  destruct (Rle_dec (distance (ms_mid p) o) (distance (ms_mid q) o)).
  - constructor; [constructor; auto|]. constructor; auto. eapply Forall_impl; [|exact Hf]. simpl; intros; lra.
  - constructor; auto. eapply Permutation_Forall; [apply mins_perm|]. constructor; auto. lra.
Qed.
Lemma msort_exists : is_msort (fun o => fold_right (mins o) []).
Proof.
  intros o l. induction l as [|p l [IP IS]]; cbn [fold_right]; [split; constructor|]. split; [eapply perm_trans; [apply perm_skip; exact IP|apply mins_perm]|apply mins_sorted; auto].
Qed.
