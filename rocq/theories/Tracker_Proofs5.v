From Verif Require Import Base BaseR Util_Model Mesh_Model Mesh_Spec Csg_Model Csg_Spec Csg_Proofs Pin_Model Pin_Spec Pin_Proofs7 Pin_Proofs8 Tracker_Model Tracker_Spec Tracker_Proofs Tracker_Proofs2 Tracker_Proofs3 Tracker_Proofs4.
Set Implicit Arguments. Unset Strict Implicit.
Open Scope R_scope.

(** ** A track through a pin cell that misses the pin *)
Lemma root2 : 0 < sqrt 2 /\ sqrt 2 * sqrt 2 = 2.
Proof. split; [apply sqrt_lt_R0; lra|apply sqrt_sqrt; lra]. Qed.
Theorem pin_missed : exists P rs P0 P1, made P /\ centred P /\ pin_inside P /\ flat P /\ create_pin_cell P = Ok rs /\
  on_boundary (px (pc_pitch P)) (py (pc_pitch P)) P0 /\ on_boundary (px (pc_pitch P)) (py (pc_pitch P)) P1 /\
  (forall t, 0 < t < distance P0 P1 -> only_region rs (on_track P0 P1 t) 1) /\
  forall srt msrt, segmentize srt msrt rs P0 P1 = UB.
Proof.
  set (P := gen_pin 2 2 0 (/ 2) 0 (P3 0 0 0)). assert (HM : made P) by (apply gen_made; lra || lia).
  exists P, [pin_region P 0 0 0; pin_region P 1 1 0], (P3 0 1 0), (P3 1 0 0). destruct root2 as [Q2 QQ].
  assert (EL : distance (P3 0 1 0) (P3 1 0 0) = sqrt 2) by (unfold distance; cbn [px py pz]; f_equal; ring).
  set (P0 := P3 0 1 0) in *. set (P1 := P3 1 0 0) in *.
  assert (OT : forall t, on_track P0 P1 t = P3 (t / sqrt 2) (1 - t / sqrt 2) 0) by (intros t; unfold on_track; rewrite EL; apply point_eq; cbn; ring).
  split; auto. split; [split; reflexivity|]. split; [intros r [<-|[]]; cbn; lra|]. split; [unfold flat; cbn; lra|]. split; [reflexivity|].
  split; [unfold on_boundary; cbn; lra|]. split; [unfold on_boundary; cbn; lra|].
  set (cy := cylinderZ (0 + 2 * / 2) (0 + 2 * / 2) (/ 2)).
  assert (QC : forall t, qf cy (on_track P0 P1 t) = 1 * t * t + (- 2 / sqrt 2) * t + 3 / 4).
  { intros t. rewrite OT. unfold qf, cy, cylinderZ. cbn [qA qB qC qD qE qF qG qH qI qJ px py pz]. transitivity (2 / (sqrt 2 * sqrt 2) * t * t + - 2 / sqrt 2 * t + 3 / 4); [field; lra|rewrite QQ; field; lra]. }
  assert (QP : forall t, 0 < qf cy (on_track P0 P1 t)).
  { intros t. rewrite QC. assert (S : 0 <= (t - / sqrt 2) * (t - / sqrt 2)) by apply Rle_0_sqr. assert (E : (t - / sqrt 2) * (t - / sqrt 2) = t * t - 2 / sqrt 2 * t + / (sqrt 2 * sqrt 2)) by (field; lra). rewrite QQ in E. unfold Rdiv in *. lra. }
  split.
  - intros t Ht. rewrite EL in Ht. assert (F : 0 < t / sqrt 2 < 1).
    { split; [apply Rdiv_lt_0_compat; lra|]. apply (Rmult_lt_reg_r (sqrt 2)); auto. unfold Rdiv. rewrite Rmult_assoc, Rinv_l; lra. }
    split; [cbn; lia|]. intros j r Hr.
    assert (SC : sense cy (on_track P0 P1 t) = true) by (unfold sense; destruct (Rle_dec 0 _) as [|K]; auto; exfalso; apply K; apply Rlt_le, QP).
    destruct j as [|[|j]]; cbn [nth_error] in Hr; [| |destruct j; discriminate]; injection Hr as <-.
    + erewrite reg_contains by reflexivity. cbn [contains Nat.eqb]. f_equal. change (Bool.eqb (sense cy (on_track P0 P1 t)) false = false). rewrite SC. reflexivity.
    + erewrite reg_contains.
      2:{ unfold pin_region, pin_nodes, partitions, cylinders, sides. cbn [rnode P gen_pin pc_radii pc_pitch pc_center pc_div px py pz map nth_error length Nat.eqb Nat.ltb Nat.leb Nat.sub orb app].
          destruct (Rlt_dec 0 0); [lra|]. reflexivity. }
      cbn [Nat.eqb contains]. f_equal. change (cylinderZ _ _ _) with cy. rewrite SC.
      assert (S1 := plane_sense 1 0 0 0 (on_track P0 P1 t)). assert (S2 := plane_sense 1 0 0 2 (on_track P0 P1 t)). assert (S3 := plane_sense 0 1 0 0 (on_track P0 P1 t)). assert (S4 := plane_sense 0 1 0 2 (on_track P0 P1 t)).
      rewrite OT in *. cbn [px py pz] in S1, S2, S3, S4.
      destruct (sense (plane 1 0 0 0) _); [|exfalso; assert (false = true) by (apply S1; lra); discriminate].
      destruct (sense (plane 1 0 0 2) _); [exfalso; pose proof (proj1 S2 eq_refl); lra|].
      destruct (sense (plane 0 1 0 0) _); [|exfalso; assert (false = true) by (apply S3; lra); discriminate].
      destruct (sense (plane 0 1 0 2) _); [exfalso; pose proof (proj1 S4 eq_refl); lra|]. reflexivity.
  - intros srt msrt. unfold segmentize. cbn [all_pieces]. replace (region_pieces srt (pin_region P 0 0 0) 0 (track_ray P0 P1) (distance P0 P1 + 2 * seg_eps)) with (@UB (list mseg)); [reflexivity|]. symmetry.
    pose proof seg_eps_pos as EP. assert (LP : 0 < distance P0 P1) by (rewrite EL; auto).
    assert (AT : forall x, at_distance (track_ray P0 P1) x = on_track P0 P1 (x - seg_eps)) by (intros x; rewrite <- at_track by auto; f_equal; ring).
    assert (PE : 0 < pin_eps) by (apply Rinv_0_lt_compat, pow_lt; lra).
    unfold region_pieces. assert (BX : intersects_box (pin_region P 0 0 0) (track_ray P0 P1) (distance P0 P1 + 2 * seg_eps) = true).
    { apply intersects_box_spec; [cbn [pin_region rmin rmax px py P gen_pin pc_pitch]; lra|cbn [pin_region rmin rmax px py P gen_pin pc_pitch]; lra| |].
      - intros [K _]. unfold track_ray in K. cbn [direction pscale psub px P0 P1] in K. fold P0 P1 in K. rewrite EL in K. assert (0 < 1 / sqrt 2) by (apply Rdiv_lt_0_compat; lra). lra.
      - exists seg_eps, seg_eps. rewrite AT. replace (seg_eps - seg_eps) with 0 by ring. assert (IB : in_bounds (pin_region P 0 0 0) (on_track P0 P1 0)).
        { unfold in_bounds. rewrite OT. unfold Rdiv. rewrite Rmult_0_l. cbn [pin_region rmin rmax px py pz P gen_pin pc_pitch]. lra. }
        split; [lra|]. split; [lra|]. split; [lra|]. split; exact IB. }
    rewrite BX. change (rnode (pin_region P 0 0 0)) with (Some (Prim cy false)). cbn [intersections].
    unfold q_intersections. assert (RR : reg_ray cy (track_ray P0 P1)).
    { rewrite <- (shift_zero (track_ray P0 P1)). exists 1, (- 2 / sqrt 2 - 2 * seg_eps), (seg_eps * seg_eps + 2 / sqrt 2 * seg_eps + 3 / 4). split.
      - intros t. unfold along. rewrite at_shift, AT. replace (psub (on_track P0 P1 (t - seg_eps)) (P3 0 0 0)) with (on_track P0 P1 (t - seg_eps)) by (apply point_eq; cbn; ring). rewrite QC. field. lra.
      - left. split; [|left; lra]. rewrite Rabs_R1. unfold eps13. assert (/ 10 ^ 13 <= / 1) by (apply Rinv_le_contravar; [lra|apply pow_R1_Rle; lra]). lra. }
    destruct (hit_distances cy (track_ray P0 P1) (distance P0 P1 + 2 * seg_eps)) as [|h l] eqn:E; [reflexivity|]. exfalso.
    assert (H : In h (hit_distances cy (track_ray P0 P1) (distance P0 P1 + 2 * seg_eps))) by (rewrite E; left; auto).
    apply (hit_zero RR) in H. unfold along in H. rewrite AT in H. specialize (QP (h - seg_eps)). lra.
Qed.

(** ** Assemblies: the third pin is lost *)
Lemma tiles_last rs P0 P1 : forall l a b, tiles rs P0 P1 l a b -> a < b -> exists s reg, In s l /\ 0 < slength s /\ nth_error rs (sregion s) = Some reg /\
  forall u, b - slength s < u < b -> region_contains reg (on_track P0 P1 u) = Ok true.
Proof.
  induction l as [|s l IH]; intros a b H AB; cbn [tiles] in H; [lra|]. destruct H as (A & B & C). destruct (Rlt_dec (a + slength s) b) as [K|K].
  - destruct (IH _ _ C K) as (s' & reg & I1 & I2 & I3 & I4). exists s', reg. split; [right; auto|auto].
  - assert (E : a + slength s = b). { assert (a + slength s <= b); [|lra]. clear - C. revert C. generalize (a + slength s). induction l as [|x l IH]; intros z C; cbn [tiles] in C; [lra|]. destruct C as (A & _ & C). apply IH in C. lra. }
    destruct (B (a + slength s / 2) ltac:(lra)) as (reg & R1 & _). exists s, reg. split; [left; auto|]. split; auto. split; auto. intros u Hu. destruct (B u ltac:(lra)) as (reg' & R2 & R3). congruence.
Qed.
Definition bare : pincell := {| pc_pitch := P3 1 1 0; pc_mat := [0]%Z; pc_div := 0; pc_radii := []; pc_center := P3 0 0 0 |}.
Lemma bare_made : made bare.
Proof. exists (P3 1 1 0), [0]%Z, [], 0%nat, (P3 0 0 0). unfold pincell_new. cbn [px py]. destruct (Rlt_dec 0 1); [|lra]. destruct (Rle_dec 1 0); [lra|]. reflexivity. Qed.
Definition bare_node : node := Inter (Inter (Inter (Prim (plane 1 0 0 0) true) (Prim (plane 1 0 0 1) false)) (Prim (plane 0 1 0 0) true)) (Prim (plane 0 1 0 1) false).
Lemma bare_in p : contains bare_node p = true -> 0 <= px p < 1 /\ 0 <= py p < 1.
Proof.
  cbn [contains bare_node]. assert (S1 := plane_sense 1 0 0 0 p). assert (S2 := plane_sense 1 0 0 1 p). assert (S3 := plane_sense 0 1 0 0 p). assert (S4 := plane_sense 0 1 0 1 p).
  destruct (sense (plane 1 0 0 0) p), (sense (plane 1 0 0 1) p), (sense (plane 0 1 0 0) p), (sense (plane 0 1 0 1) p); cbn; try discriminate; intros _.
  pose proof (proj1 S1 eq_refl). pose proof (proj1 S3 eq_refl).
  assert (~ 1 <= 1 * px p + 0 * py p + 0 * pz p) by (intros K; apply S2 in K; discriminate). assert (~ 1 <= 0 * px p + 1 * py p + 0 * pz p) by (intros K; apply S4 in K; discriminate). lra.
Qed.
Lemma bare_cell : create_pin_cell bare = Ok [{| rnode := Some bare_node; rmin := P3 (0 - pin_eps) (0 - pin_eps) (0 - pin_eps); rmax := P3 (1 + pin_eps) (1 + pin_eps) (0 + pin_eps); rmat := 0%Z |}].
Proof.
  unfold create_pin_cell. cbn [bare pc_mat pc_radii length Nat.add seq mapM rd nth_error bind]. change (divisions _) with 1%nat. cbn [seq map concat app bind mapM]. f_equal. f_equal.
  unfold pin_region. f_equal. unfold pin_nodes, cylinders, sides. cbn [bare pc_pitch px py pz pc_radii map nth_error length Nat.eqb Nat.ltb Nat.leb]. destruct (Rlt_dec 0 0); [lra|]. reflexivity.
Qed.
Theorem assembly_lost : exists P rs P0 P1, made P /\ centred P /\ pin_inside P /\ flat P /\ create_assembly 3 1 [P] [0; 0; 0]%nat = Ok rs /\
  on_boundary (3 * px (pc_pitch P)) (py (pc_pitch P)) P0 /\ on_boundary (3 * px (pc_pitch P)) (py (pc_pitch P)) P1 /\
  (forall t, 0 < t < distance P0 P1 -> exists i, only_region rs (on_track P0 P1 t) i) /\
  forall srt msrt, is_msort msrt -> ~ exists segs, segmentize srt msrt rs P0 P1 = Ok segs /\ tiles rs P0 P1 segs 0 (distance P0 P1).
Proof.
  set (P0 := P3 0 (/ 4) 0). set (P1 := P3 3 (3 / 4) 0).
  assert (MK : made bare /\ centred bare /\ pin_inside bare /\ flat bare /\ same_pitch bare bare).
  { split; [apply bare_made|]. split; [split; reflexivity|]. split; [intros r []|]. split; [unfold flat; cbn; lra|split; reflexivity]. }
  destruct (@assembly_partition 3 1 [bare] [0; 0; 0]%nat bare eq_refl eq_refl) as (rs & ER & IN & _).
  { intros k [<-|[<-|[<-|[]]]]; cbn; lia. } { intros P [<-|[]]. apply MK. }
  exists bare, rs, P0, P1. destruct MK as (M1 & M2 & M3 & M4 & _). split; auto. split; auto. split; auto. split; auto. split; auto.
  split; [unfold on_boundary; cbn; lra|]. split; [unfold on_boundary; cbn; lra|].
  assert (LP : 0 < distance P0 P1) by (unfold distance; apply sqrt_lt_R0; cbn; lra). set (L := distance P0 P1) in *.
  assert (OT : forall t, on_track P0 P1 t = P3 (3 * (t / L)) (/ 4 + / 2 * (t / L)) 0) by (intros t; unfold on_track; fold L; apply point_eq; cbn; field; lra).
  split.
  - intros t Ht. assert (F : 0 < t / L < 1).
    { split; [apply Rdiv_lt_0_compat; lra|]. apply (Rmult_lt_reg_r L); auto. unfold Rdiv. rewrite Rmult_assoc, Rinv_l; lra. }
    set (f := t / L) in *. assert (C : exists i, (i < 3)%nat /\ INR i <= 3 * f < INR i + 1).
    { destruct (Rlt_dec (3 * f) 1); [exists 0%nat; split; [lia|cbn; lra]|]. destruct (Rlt_dec (3 * f) 2); [exists 1%nat; split; [lia|cbn; lra]|]. exists 2%nat. split; [lia|cbn; lra]. }
    destruct C as (i & Hi & Fi). destruct (IN i 0%nat (on_track P0 P1 t) Hi ltac:(lia)) as (c & _ & _ & _ & O & _); [|exists c; exact O].
    replace (nth (nth (i + 0 * 3) [0; 0; 0] 0) [bare] bare)%nat with bare by (destruct i as [|[|[|i]]]; [reflexivity|reflexivity|reflexivity|lia]). rewrite OT. unfold in_pin_cell. cbn [px py pz psub bare pc_pitch]. cbn [INR]. fold f. repeat split; try lra.
  - intros srt msrt HS (segs & ES & TI). destruct (tiles_last TI LP) as (s & reg & I1 & I2 & I3 & I4).
    assert (RS : rs = [{| rnode := Some (Trans bare_node (P3 (1 * 0) (1 * 0) 0)); rmin := psub (P3 (0 - pin_eps) (0 - pin_eps) (0 - pin_eps)) (P3 (1 * 0) (1 * 0) 0); rmax := psub (P3 (1 + pin_eps) (1 + pin_eps) (0 + pin_eps)) (P3 (1 * 0) (1 * 0) 0); rmat := 0%Z |};
       {| rnode := Some (Trans bare_node (P3 (1 * 1) (1 * 0) 0)); rmin := psub (P3 (0 - pin_eps) (0 - pin_eps) (0 - pin_eps)) (P3 (1 * 1) (1 * 0) 0); rmax := psub (P3 (1 + pin_eps) (1 + pin_eps) (0 + pin_eps)) (P3 (1 * 1) (1 * 0) 0); rmat := 0%Z |};
       {| rnode := Some (Trans bare_node (P3 (1 * (1 + 1)) (1 * 0) 0)); rmin := psub (P3 (0 - pin_eps) (0 - pin_eps) (0 - pin_eps)) (P3 (1 * (1 + 1)) (1 * 0) 0); rmax := psub (P3 (1 + pin_eps) (1 + pin_eps) (0 + pin_eps)) (P3 (1 * (1 + 1)) (1 * 0) 0); rmat := 0%Z |}]).
    { unfold create_assembly in ER. cbn [mapM] in ER. rewrite bare_cell in ER. cbn -[bare_node pin_eps] in ER. injection ER as <-. reflexivity. }
    assert (NB : forall r, nth_error rs 2 = Some r -> intersects_box r (track_ray P0 P1) (L + 2 * seg_eps) = false).
    { intros r Hr. rewrite RS in Hr. cbn [nth_error] in Hr. injection Hr as <-. assert (PE : 0 < pin_eps < / 2). { split; [apply Rinv_0_lt_compat, pow_lt; lra|]. apply Rinv_lt_contravar; [cbn; lra|]. cbn; lra. }
      pose proof seg_eps_pos as EP. assert (SE : seg_eps < / 100) by (apply Rinv_lt_contravar; cbn; lra).
      match goal with |- ?x = false => destruct x eqn:EB; auto end. exfalso. apply intersects_box_spec in EB; [| | |].
      - destruct EB as (t1 & t2 & T1 & T2 & T3 & _ & (B & _)). cbn [rmin rmax psub px] in B.
        replace (at_distance (track_ray P0 P1) t2) with (on_track P0 P1 (t2 - seg_eps)) in B by (rewrite <- at_track by auto; f_equal; ring). rewrite OT in B. cbn [px] in B.
        assert (- seg_eps / L < (t2 - seg_eps) / L). { unfold Rdiv. apply Rmult_lt_compat_r; [apply Rinv_0_lt_compat; auto|lra]. }
        assert (L1 : 1 < L). { unfold L, distance. rewrite <- sqrt_1 at 1. apply sqrt_lt_1; cbn; lra. }
        assert (seg_eps / L < / 100). { apply Rle_lt_trans with seg_eps; auto. apply (Rmult_le_reg_r L); [lra|]. unfold Rdiv. rewrite Rmult_assoc, Rinv_l by lra. nra. }
        unfold Rdiv in *. rewrite Ropp_mult_distr_l_reverse in H. lra.
      - cbn [rmin rmax psub px]. lra.
      - cbn [rmin rmax psub py]. lra.
      - intros [K _]. unfold track_ray in K. fold L in K. cbn [direction pscale psub px P0 P1] in K. assert (0 < 1 / L) by (apply Rdiv_lt_0_compat; lra). lra. }
    assert (N2 : sregion s <> 2%nat).
    { unfold segmentize in ES. rewrite RS in ES, NB. specialize (NB _ eq_refl). cbn [all_pieces] in ES. unfold region_pieces at 3 in ES. fold L in ES. rewrite NB in ES.
      match type of ES with bind (bind ?a (fun x => bind (bind ?b _) _)) _ = _ => remember a as ra eqn:EA; remember b as rb eqn:EBB end.
      destruct ra as [la| |]; cbn [bind] in ES; try discriminate. destruct rb as [lb| |]; cbn [bind] in ES; try discriminate. injection ES as ES.
      assert (RP : forall reg k y T l, region_pieces srt reg k y T = Ok l -> forall e, In e l -> sregion (ms_seg e) = k).
      { intros reg' k y T l H. unfold region_pieces in H. destruct (intersects_box reg' y T); [|injection H as <-; intros ? []]. destruct (rnode reg') as [n|]; [|discriminate].
        destruct (intersections srt n y T) as [|p0 pts]; [discriminate|]. revert p0 l H. induction pts as [|q pts IH]; intros p0 l H; [injection H as <-; intros ? []|]. rewrite pieces_cons in H.
        destruct (pieces reg' k (q :: pts)) as [rest| |] eqn:EP; cbn [bind] in H; try discriminate. specialize (IH q rest EP).
        destruct (soft_equiv _ _ _); [injection H as <-; auto|]. destruct (region_contains _ _) as [b| |]; cbn [bind] in H; try discriminate. injection H as <-. destruct b; auto. intros e [<-|He]; auto. }
      rewrite <- ES in I1. apply in_map_iff in I1. destruct I1 as (e & <- & He). destruct (HS P0 (la ++ lb ++ [] ++ [])) as [PM _].
      apply (Permutation_in _ (Permutation_sym PM)) in He. apply in_app_iff in He. destruct He as [He|He]; [rewrite (RP _ _ _ _ _ (eq_sym EA) e He); lia|].
      apply in_app_iff in He. destruct He as [He|[]]. rewrite (RP _ _ _ _ _ (eq_sym EBB) e He). lia. }
    assert (X : exists u, L - slength s < u < L /\ 2 * L < 3 * u). { destruct (Rlt_dec (slength s) (L / 3)); [exists (L - slength s / 2); lra|exists (L - L / 6); lra]. }
    destruct X as (u & U1 & U2). specialize (I4 u U1).
    assert (F : 2 < 3 * (u / L)). { apply (Rmult_lt_reg_r L); auto. unfold Rdiv. replace (3 * (u * / L) * L) with (3 * u * (/ L * L)) by ring. rewrite Rinv_l; lra. }
    rewrite RS in I3. destruct (sregion s) as [|[|[|k]]]; cbn [nth_error] in I3; [| |congruence|destruct k; discriminate]; injection I3 as <-; erewrite reg_contains in I4 by reflexivity; injection I4 as I4; cbn [contains] in I4; apply bare_in in I4; rewrite OT in I4; cbn in I4; lra.
Qed.
