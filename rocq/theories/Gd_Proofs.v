(** * Proofs about the operators of the generalised eigenproblem *)
From Verif Require Import Base BaseR Loop Util_Model Util_Proofs Angle_Model Angle_Spec Boundary_Model Boundary_Spec Boundary_Proofs Mesh_Model Mesh_Proofs
  Material_Model Material_Spec Material_Proofs Source_Model Source_Spec Source_Proofs SourceAll_Proofs Cell_Model Cell_Spec Sweep_Model Sweep_Spec Sweep_Proofs
  SweepAll_Proofs SweepBalance_Proofs SweepLinear_Proofs Iter_Model Iter_Spec Pi_Spec Iter_Proofs IterConv_Proofs Gs_Proofs Pi_Proofs PiLinear_Proofs
  Wg_Spec Wg_Proofs Mgk_Model Mgk_Spec Mgk_Proofs Gd_Model Gd_Spec.
Set Implicit Arguments. Unset Strict Implicit.
Open Scope R_scope.

(** ** The fission operator *)
Lemma by_length n k v : length (by_groups n k v) = k.
Proof. unfold by_groups. rewrite map_length, seq_length. auto. Qed.
Lemma by_nth n k v g : (g < k)%nat -> nth g (by_groups n k v) [] = part v n g.
Proof. intros H. unfold by_groups. rewrite nth_map_seq by auto. auto. Qed.
Lemma part_fits (v : list R) n k g : (g < k)%nat -> length v = (k * n)%nat -> (g * n + n <= length v)%nat.
Proof. intros H ->. replace (g * n + n)%nat with (S g * n)%nat by (cbn; lia). apply Nat.mul_le_mono_r. lia. Qed.
Lemma gd_groups_forward t : adj (ssrc (t_x t)) = false -> gd_groups t = seq 0 (ng (mat (ssrc (t_x t)))).
Proof. intros EA. unfold gd_groups, mg_groups, mg_upper. rewrite EA. change gd_cutoff with 0%nat. rewrite groups_forward by lia. f_equal. lia. Qed.
Lemma gd_groups_adjoint t : adj (ssrc (t_x t)) = true -> gd_groups t = [0%nat].
Proof. intros EA. unfold gd_groups, mg_groups, mg_upper. rewrite EA. change gd_cutoff with 0%nat. rewrite groups_adjoint. reflexivity. Qed.

Lemma gd_fluxes_ok t v : adj (ssrc (t_x t)) = false -> let n := cells (ssrc (t_x t)) in let k := ng (mat (ssrc (t_x t))) in length v = (k * n)%nat ->
  gd_fluxes t v = Ok (by_groups n k v).
Proof.
  intros EA n k LV. unfold gd_fluxes. rewrite gd_groups_forward by auto. fold n k.
  assert (K : forall j phi, (j <= k)%nat -> length phi = k ->
    exists phi', foldM (fun phi g => do f <- seg v ((g - gd_cutoff) * n) n; wr phi g f) (seq (k - j) j) phi = Ok phi' /\ length phi' = k /\
      forall g, (g < k)%nat -> nth g phi' [] = if (k - j <=? g)%nat then part v n g else nth g phi []).
  { induction j as [|j IH]; intros phi Hj L.
    - exists phi. cbn. split; auto. split; auto. intros g Hg. destruct (Nat.leb_spec (k - 0) g); auto. lia.
    - cbn [seq foldM]. change gd_cutoff with 0%nat. rewrite Nat.sub_0_r. rewrite seg_ok by (apply part_fits with (k := k); auto; lia). cbn [bind].
      unfold wr. rewrite L. assert (Hk : (k - S j < k)%nat) by lia. rewrite (proj2 (Nat.ltb_lt _ _) Hk). cbn [bind].
      destruct (IH (upd phi (k - S j) (part v n (k - S j)))) as (phi' & E & L' & V); [lia|rewrite upd_length; auto|].
      replace (S (k - S j)) with (k - j)%nat by lia. change gd_cutoff with 0%nat in E. exists phi'. split; auto. split; auto. intros g Hg. rewrite V by auto.
      destruct (Nat.leb_spec (k - j) g), (Nat.leb_spec (k - S j) g); auto; try lia.
      + replace g with (k - S j)%nat by lia. apply nth_upd_eq. lia.
      + apply nth_upd_neq. lia. }
  destruct (K k (repeat (repeat 0 n) k)) as (phi' & E & L & V); [lia|apply repeat_length|]. replace (k - k)%nat with 0%nat in * by lia. rewrite E. f_equal.
  apply list_ext_nth with (d := []); [rewrite by_length; auto|]. intros g Hg. rewrite L in Hg. rewrite V, by_nth by auto. reflexivity.
Qed.
Lemma gd_fission_ok t q v out : adj (ssrc (t_x t)) = false -> problem (ssrc (t_x t)) -> fiss (t_x t) = Some q -> fsrc q = ssrc (t_x t) ->
  let n := cells (ssrc (t_x t)) in let k := ng (mat (ssrc (t_x t))) in length v = (k * n)%nat -> length out = (k * n)%nat ->
  exists z, gd_fission t v out = Ok z /\ length z = (k * n)%nat /\
    forall g c, (g < k)%nat -> (c < n)%nat -> at_ (part z n g) c = fscale q * fission_sum (ssrc (t_x t)) (by_groups n k v) all_groups g c.
Proof.
  intros EA PR EF EQ n k LV LO. unfold gd_fission. rewrite gd_fluxes_ok by auto. cbn [bind]. fold n k. rewrite gd_groups_forward by auto. fold k. rewrite EF.
  assert (K : forall j out, (j <= k)%nat -> length out = (k * n)%nat ->
    exists z, foldM (fun out g => do s <- fis_total q g (by_groups n k v) (repeat 0%R n); put_seg out ((g - gd_cutoff) * n) s) (seq (k - j) j) out = Ok z /\
      length z = (k * n)%nat /\ (forall g, (g < k - j)%nat -> part z n g = part out n g) /\
      forall g c, (k - j <= g < k)%nat -> (c < n)%nat -> at_ (part z n g) c = fscale q * fission_sum (ssrc (t_x t)) (by_groups n k v) all_groups g c).
  { induction j as [|j IH]; intros o Hj L.
    - exists o. cbn. do 3 (split; auto). intros g c Hg. lia.
    - cbn [seq foldM]. change gd_cutoff with 0%nat. rewrite Nat.sub_0_r.
      destruct (@fis_total_ok q (k - S j) (by_groups n k v) (repeat 0%R n)) as (s & E & A); rewrite ?EQ; auto.
      { split; [apply by_length|]. intros g Hg. fold n. rewrite by_nth by auto. rewrite part_length. auto. }
      { fold k. lia. } { rewrite repeat_length. auto. }
      rewrite EQ in A. rewrite E. cbn [bind]. assert (Ls : length s = n) by (rewrite (proj1 A), repeat_length; auto).
      destruct (@put_ok o n (k - S j) s) as (o' & Ep & Lp & Vp & Op); auto; [apply part_fits with (k := k); auto; lia|]. rewrite Ep. cbn [bind].
      destruct (IH o') as (z & Ez & Lz & Oz & Vz); [lia|lia|]. replace (S (k - S j)) with (k - j)%nat by lia. change gd_cutoff with 0%nat in Ez. exists z. split; auto. split; auto.
      split.
      + intros g Hg. rewrite Oz by lia. apply Op. lia.
      + intros g c Hg Hc. destruct (Nat.eq_dec g (k - S j)) as [->|Ne]; [|apply Vz; auto; lia].
        rewrite Oz by lia. rewrite Vp. unfold at_. rewrite (added_val A) by (rewrite ?repeat_length; auto). rewrite nth_repeat. fold n. ring. }
  destruct (K k out) as (z & E & L & _ & V); auto. replace (k - k)%nat with 0%nat in * by lia. exists z. split; auto. split; auto. intros g c Hg Hc. apply V; auto. lia.
Qed.

(** ** The sweep operator *)
Definition direct_source (x : src) (q : quad) (xg : list R) : nat -> nat -> list R := fun o a => map (fun c => at_ xg c / solid_angle (q_dim q)) (seq 0 (cells x)).
Lemma direct_table x g f s xg : dext x = [] -> (cells (ssrc x) <= length f)%nat -> (cells (ssrc x) <= length s)%nat -> length xg = cells (ssrc x) ->
  (forall c, (c < cells (ssrc x))%nat -> nth c s 0 = 0) ->
  exists f', put_seg f 0 xg = Ok f' /\ (cells (ssrc x) <= length f')%nat /\ forall q, table_of (with_scat (with_fixed x f') s) q g (direct_source (ssrc x) q xg).
Proof.
  intros ED Lf Ls Lx Z. unfold put_seg. cbn [plus firstn app]. rewrite (proj2 (Nat.leb_le _ _)) by lia. eexists. split; [reflexivity|].
  split; [rewrite app_length; lia|]. intros q o a. unfold src_table.
  set (f' := xg ++ skipn (length xg) f).
  destruct (@sweep_source_ok (with_scat (with_fixed x f') s) (mtod (q_dim q)) g (Angle_Model.index q o a) (repeat 0%R (cells (ssrc x))))
    as (r & Er & Lr & Vr); cbn [with_scat with_fixed ssrc fixed scat] in *; try lia; [unfold f'; rewrite app_length; lia|rewrite repeat_length; lia|].
  rewrite Er. unfold direct_source. rewrite repeat_length in Lr. apply list_ext_nth with (d := 0%R); [rewrite map_length, seq_length; auto|].
  intros c Hc. rewrite Lr in Hc. rewrite nth_map_seq by auto. rewrite Vr by auto. rewrite Z by auto. unfold f'. rewrite app_nth1 by lia.
  rewrite mtod_solid. unfold discrete. cbn [with_scat with_fixed dext]. rewrite ED. cbn. unfold at_, Rdiv. ring.
Qed.
(** A sweep with nothing entering. *)
Definition dark_flow (w : sweeper) (t : tstate) (g : nat) (src : nat -> nat -> list R) (F : list R) : Prop :=
  exists b, same_setup (t_b t) b /\
    (forall s o a, valid (t_b t) s o a g -> enters (q_dim (b_q (t_b t))) s o -> no_face (bflux b s o a g)) /\ flows w (ssrc (t_x t)) g b src F.
Lemma krylov_all x g : adj x = false -> krylov_group x 0 g <-> (g < ng (mat x))%nat.
Proof. intros EA. unfold krylov_group, below. rewrite EA. split; [intros H; apply H|]. intros H. split; auto. Qed.

Lemma gd_group_ok w m half t u g x y : mg_state w m 0 t u -> open_boundary (t_b t) -> dext (t_x t) = [] ->
  let n := cells (ssrc (t_x t)) in let k := ng (mat (ssrc (t_x t))) in krylov_group (ssrc (t_x t)) 0 g ->
  length x = (k * n)%nat -> length y = (k * n)%nat ->
  exists v y', gd_group w (mg_bsize half (t_b t)) x (u, y) g = Ok (v, y') /\ mg_state w m 0 t v /\ length y' = length y /\
    dark_flow w t g (direct_source (ssrc (t_x t)) (b_q (t_b t)) (part x n g)) (part y' n g) /\ (forall j, j <> g -> part y' n j = part y n j).
Proof.
  intros MS OB ED n k KG LX LY. pose proof MS as [PO (f0 & s0 & EU) SU]. assert (Hgk : (g < k)%nat) by apply KG.
  pose proof (PO g KG) as WP.
  assert (EN : ssrc (t_x u) = ssrc (t_x t)) by (rewrite EU; reflexivity). pose proof SU as (U1 & U2 & U3).
  unfold gd_group. rewrite EN. fold n. 
  replace (mg_slot (adj (ssrc (t_x t))) gd_cutoff g) with g by (unfold mg_slot, gd_cutoff; destruct (adj _); lia).
  destruct (clear_ok WP) as (b & Eb & SS & Sh & Z & O). rewrite Eb. cbn [bind].
  pose proof (open_same (open_same OB SU) SS) as OB1. rewrite (no_reflective OB1). cbn [bind].
  pose proof WP as [RD (EM & NN) (Hg & Hgb) (Q & QE) _ _ _ _ (_ & LK)].
  destruct (reset_ok RD) as (f & s & Er & Lf & Ls & ZZ). rewrite Er. cbn [bind with_scat with_fixed fixed].
  rewrite seg_ok by (apply part_fits with (k := k); auto). cbn [bind].
  assert (Lf' : (n <= length f)%nat) by (rewrite Lf; unfold n; rewrite <- EN; apply RD).
  assert (Ls' : (n <= length s)%nat) by (rewrite Ls; unfold n; rewrite <- EN; apply RD).
  destruct (@direct_table (t_x u) g f s (part x n g)) as (f' & Ef & Lff & TB); rewrite ?EN; auto.
  { rewrite EU. exact ED. } { apply part_length. } { intros c Hc. rewrite <- EN in Hc. apply ZZ; auto. }
  rewrite Ef. cbn [bind]. rewrite EN in Lff, TB.
  set (t1 := with_x (with_b u b) (with_scat (with_fixed (t_x u) f') s)).
  match goal with |- context [do_sweep w false g ?a _] => change a with t1 end.
  assert (E1 : ssrc (t_x t1) = ssrc (t_x t)) by (cbn; auto).
  assert (SWb : sweepable w g (ssrc (t_x t)) b) by (eapply sweepable_same; [rewrite <- EN; apply (posed_sweepable WP)|exact SS|exact Sh]).
  destruct (@sweep_flows w g t1 (part x n g) (direct_source (ssrc (t_x t)) (b_q (t_b t)) (part x n g))) as (v & F & Es & EX & SV & SW & IN & LQ & OQ & OT & FL).
  { rewrite E1. exact SWb. } { rewrite E1. apply part_length. } { rewrite E1, <- EN. exact LK. }
  { intros o a. cbn. destruct SS as (-> & _). rewrite U1. apply TB. }
  { intros o a. unfold direct_source. rewrite map_length, seq_length, E1. reflexivity. }
  rewrite E1 in *. rewrite Es. cbn [bind].
  pose proof FL as (_ & _ & LF & _). fold n in LF.
  destruct (@put_ok y n g F) as (y' & Ey & Ly & Py & Oy); auto. { apply part_fits with (k := k); auto. }
  rewrite Ey. cbn [bind].
  assert (SV' : same_setup (t_b t) (t_b v)).
  { cbn in SV. destruct SS as (A1 & A2 & A3), SV as (B1 & B2 & B3). repeat split; congruence. }
  rewrite (no_reflective (open_same OB SV')).
  exists v, y'. split; auto. split.
  { eapply mg_after with (u := u) (g := g) (f := f') (s := s) (b := t_b v); eauto.
    - rewrite EX. cbn [with_x t_x t1]. rewrite EU. reflexivity.
    - apply SW. }
  split; auto. split; auto.
  exists (t_b v). split; auto. split; [|rewrite Py; exact FL].
  intros s1 o1 a1 V EN1.
  assert (V1 : valid (t_b u) s1 o1 a1 g) by (unfold valid in *; rewrite U1, U2; auto).
  assert (V2 : valid b s1 o1 a1 g) by (unfold valid in *; destruct SS as (-> & -> & _); auto).
  rewrite IN; [|exact V2|cbn; destruct SS as (-> & _); rewrite U1; auto]. cbn. rewrite Z by auto. apply dark_no_face.
Qed.
Lemma gd_sweep_ok w m half t x : open_boundary (t_b t) -> dext (t_x t) = [] ->
  let n := cells (ssrc (t_x t)) in let k := ng (mat (ssrc (t_x t))) in length x = (k * n)%nat ->
  forall gs u y, NoDup gs -> (forall g, In g gs -> krylov_group (ssrc (t_x t)) 0 g) -> mg_state w m 0 t u -> length y = (k * n)%nat ->
  exists v y', foldM (gd_group w (mg_bsize half (t_b t)) x) gs (u, y) = Ok (v, y') /\ mg_state w m 0 t v /\ length y' = (k * n)%nat /\
    (forall g, In g gs -> dark_flow w t g (direct_source (ssrc (t_x t)) (b_q (t_b t)) (part x n g)) (part y' n g)) /\
    (forall j, ~ In j gs -> part y' n j = part y n j).
Proof.
  intros OB ED n k LX. induction gs as [|g gs IH]; intros u y ND HG MS LY.
  - exists u, y. cbn [foldM]. do 3 (split; auto). split; [intros g []|auto].
  - inversion_clear ND as [|? ? NI ND']. cbn [foldM].
    destruct (@gd_group_ok w m half t u g x y MS OB ED (HG g (or_introl eq_refl)) LX LY) as (u1 & y1 & E & MS1 & L1 & V1 & O1).
    rewrite E. cbn [bind]. destruct (IH u1 y1 ND') as (v & y' & E2 & MS2 & L2 & V2 & O2); auto; [intros g' Hg'; apply HG; right; auto|lia|].
    exists v, y'. do 3 (split; auto). split.
    + intros g' [<-|Hg']; [|apply V2; auto]. rewrite O2 by auto. exact V1.
    + intros j Hj. rewrite O2 by (intros H; apply Hj; right; auto). apply O1. intros ->. apply Hj. left. auto.
Qed.

(** ** The two operators and the eigenvalue problem *)
(** The problem with nothing but scattering. *)
Definition scatter_only (x : swp) : swp :=
  {| ssrc := ssrc x; ext := []; dext := []; fiss := None; implicit := false; fixed := fixed x; scat := scat x |}.
Lemma posed_with w m g t X : wellposed w m g t -> ssrc X = ssrc (t_x t) -> sweep_ready X -> wellposed w m g (with_x t X).
Proof.
  intros [A1 A2 A3 A4 A5 A6 A7 A8 A9] ES RX. constructor; cbn [with_x t_x t_b t_psi]; rewrite ?ES; auto.
  unfold phis in *. cbn [with_x t_x]. rewrite ES. auto.
Qed.
Lemma ready_scatter x : sweep_ready x -> sweep_ready (scatter_only x).
Proof. intros (P & L1 & L2 & HQ & HI). split; [exact P|]. split; [exact L1|]. split; [exact L2|]. split; cbn; discriminate. Qed.
Lemma ready_eigen x k q : sweep_ready x -> fiss x = Some q -> sweep_ready (eigen_problem x k).
Proof.
  intros (P & L1 & L2 & HQ & HI) EF. split; [exact P|]. split; [exact L1|]. split; [exact L2|]. unfold eigen_problem. cbn [fiss implicit ssrc]. rewrite EF. split; [|discriminate].
  intros p Hp. inversion Hp; subst p. apply (HQ q EF).
Qed.
Lemma vacuum_open b : vacuum_boundary b -> open_boundary b.
Proof. intros V s Hs. rewrite V by auto. split; discriminate. Qed.

Theorem gd_problem w m half t q k u1 u2 x y1 y2 : let y := ssrc (t_x t) in let n := cells y in let G := ng (mat y) in
  adj y = false -> (forall g, (g < G)%nat -> wellposed w m g t) -> vacuum_boundary (t_b t) ->
  length (phis t) = G -> (forall g, (g < G)%nat -> length (nth g (phis t) []) = n) ->
  fiss (t_x t) = Some q -> fscale q = 1 -> implicit (t_x t) = false -> dext (t_x t) = [] -> k <> 0 ->
  mg_state w m 0 t u1 -> mg_state w m 0 t u2 -> length x = (G * n)%nat -> length y1 = (G * n)%nat -> length y2 = (G * n)%nat ->
  exists v1 a v2 f, mg_multiply w (mg_bsize half (t_b t)) 0 u1 x y1 = Ok (v1, a) /\ mg_state w m 0 t v1 /\ length a = (G * n)%nat /\
  gd_lhs w (mg_bsize half (t_b t)) u2 x y2 = Ok (v2, f) /\ mg_state w m 0 t v2 /\ length f = (G * n)%nat /\
  ((forall i, (i < G * n)%nat -> at_ f i = k * at_ a i) <-> k_mode w t k x).
Proof.
  intros y n G EA WP VB LP LPn EF FS IMP ED Hk M1 M2 LX L1 L2. pose proof (vacuum_open VB) as OB.
  assert (KW : forall g, krylov_group (ssrc (t_x t)) 0 g -> wellposed w m g t) by (intros g KG; apply WP, KG).
  assert (HC : cutoff_in (ssrc (t_x t)) 0) by (unfold cutoff_in; fold y; rewrite EA; lia).
  assert (BS : block_size (ssrc (t_x t)) 0 = G) by (unfold block_size; fold y; rewrite EA; fold G; lia).
  assert (LX' : length x = (block_size (ssrc (t_x t)) 0 * n)%nat) by (rewrite BS; auto).
  assert (L1' : length y1 = (block_size (ssrc (t_x t)) 0 * n)%nat) by (rewrite BS; auto).
  destruct (@mg_multiply_ok w m 0 half t u1 x y1 KW M1 OB HC LPn LP LX' L1') as (v1 & a & E1 & MS1 & La & VA). rewrite BS in La.
  assert (SP : spread (ssrc (t_x t)) 0 (phis t) x = by_groups n G x).
  { apply list_ext_nth with (d := []); [rewrite spread_length, by_length; auto|]. intros g Hg. rewrite spread_length, LP in Hg.
    rewrite spread_nth, by_nth by (rewrite ?LP; auto). unfold below, place. fold y. rewrite EA. cbn. rewrite Nat.sub_0_r. reflexivity. }
  rewrite SP in VA. exists v1, a. pose proof M2 as [P2 (f0 & s0 & EU) S2]. assert (EN : ssrc (t_x u2) = ssrc (t_x t)) by (rewrite EU; reflexivity).
  unfold gd_lhs.
  destruct (Nat.eq_dec G 0) as [GZ|GZ].
  { assert (EG : gd_groups u2 = []) by (rewrite gd_groups_forward by (rewrite EN; auto); rewrite EN; fold y; fold G; rewrite GZ; reflexivity).
    unfold gd_fission, gd_fluxes, gd_sweep. rewrite !EG. cbn [foldM bind]. exists u2, y2. do 6 (split; auto).
    split; [|intros _ i Hi; rewrite GZ in Hi; cbn in Hi; lia]. intros _ g Hg. fold y in Hg. fold G in Hg. lia. }
  assert (PR : problem (ssrc (t_x t)) /\ fsrc q = ssrc (t_x t)).
  { destruct (WP 0%nat ltac:(lia)) as [(PR & _ & _ & HQ & _) _ _ _ _ _ _ _ _]. split; auto. apply (HQ q EF). }
  destruct PR as (PR & FQ).
  destruct (@gd_fission_ok u2 q x (repeat 0 (length x))) as (z & Ez & Lz & Vz); rewrite ?EN; auto.
  { rewrite EU. exact EF. } { rewrite repeat_length. auto. }
  rewrite EN in Lz, Vz. fold y in Lz, Vz. fold n G in Lz, Vz. rewrite Ez. cbn [bind]. unfold gd_sweep. rewrite gd_groups_forward by (rewrite EN; auto). rewrite EN. fold y. fold G.
  destruct (@gd_sweep_ok w m half t z OB ED Lz (seq 0 G) u2 y2) as (v2 & f & Ef & MS2 & Lf & VF & _); auto.
  { apply seq_NoDup. } { intros g Hg. apply in_seq in Hg. apply krylov_all; auto. fold y. fold G. lia. }
  exists v2, f. split; auto. split; auto. split; auto. split; auto. split; auto. split; auto.
  set (phi := by_groups n G x) in *. fold y in VF. fold n in VF.
  assert (LH : length phi = G) by apply by_length. assert (LHn : forall g, (g < G)%nat -> length (nth g phi []) = n) by (intros g Hg; unfold phi; rewrite by_nth by auto; apply part_length).
  assert (EACH : forall g, (g < G)%nat -> ((forall c, (c < n)%nat -> at_ (part f n g) c = k * at_ (part a n g) c) <->
    exists b', given_entering (t_b t) b' g /\ transported w (eigen_problem (t_x t) k) g b' phi (nth g phi []))).
  { intros g Hg. pose proof (WP g Hg) as W. pose proof W as [RD (EM & NN) (Hg' & Hgb) (Q & QE) _ _ _ _ _].
    destruct (VA g) as (F1 & (b2 & SS2 & DK2 & FL2) & V1); [apply krylov_all; auto|].
    destruct (VF g) as (b5 & SS5 & DK5 & FL5); [apply in_seq; lia|].
    unfold place in V1. fold y in V1. rewrite EA, Nat.sub_0_r in V1. fold n in V1.
    destruct (clear_ok W) as (b0 & _ & SS0 & Sh0 & Z0 & _). pose proof SS0 as (S1 & S2' & S3).
    assert (SW0 : sweepable w g (ssrc (t_x t)) b0) by (eapply sweepable_same; [apply (posed_sweepable W)|exact SS0|exact Sh0]).
    assert (GE0 : given_entering (t_b t) b0 g).
    { split; auto. split.
      - intros s l io o a0 psi Hs HB. rewrite VB in HB by auto. discriminate.
      - intros s o a0 V EN1 _. apply Z0. auto. }
    assert (DK0 : forall b' , same_setup b0 b' -> (forall s o a, valid b0 s o a g -> enters (q_dim (b_q b0)) s o -> bflux b' s o a g = bflux b0 s o a g) ->
       forall s o a, valid (t_b t) s o a g -> enters (q_dim (b_q (t_b t))) s o -> no_face (bflux b' s o a g)).
    { intros b' SS' IN' s o a0 V EN1. rewrite IN'; [|unfold valid in *; rewrite S1, S2'; auto|rewrite S1; auto]. rewrite Z0 by auto. apply dark_no_face. }
    pose proof (posed_with (X := scatter_only (t_x t)) W eq_refl (ready_scatter RD)) as Ws. pose proof (posed_with (X := eigen_problem (t_x t) k) W eq_refl (ready_eigen k RD EF)) as We.
    set (zero := by_groups n G (repeat 0 (G * n))).
    assert (LZ : length zero = G) by apply by_length. assert (LZn : forall g, (g < G)%nat -> length (nth g zero []) = n) by (intros g0 Hg0; unfold zero; rewrite by_nth by auto; apply part_length).
    destruct (@any_flows w m g _ b0 zero Ws SW0 S1 LZ LZn) as (bz & Fz & SSz & SWz & INz & FLz).
    destruct (@any_flows w m g _ b0 phi Ws SW0 S1 LH LHn) as (b4 & F4 & SS4 & SW4 & IN4 & FL4).
    destruct (@any_flows w m g _ b0 phi We SW0 S1 LH LHn) as (b3 & F3 & SS3 & SW3 & IN3 & FL3).
    cbn [with_x t_x t_b scatter_only eigen_problem ssrc] in SWz, SW4, SW3, FLz, FL4, FL3. fold y in SW0, SWz, SW4, SW3, FLz, FL4, FL3, FL2, FL5.
    assert (SETUP : forall b b', same_setup (t_b t) b -> same_setup b0 b' -> same_setup b b' /\ same_setup b' b /\ same_setup (t_b t) b').
    { intros b b' (A1 & A2 & A3) (B1 & B2 & B3). repeat split; congruence. }
    assert (DINS : forall b' o a, same_setup (t_b t) b' -> (forall s o a, valid (t_b t) s o a g -> enters (q_dim (b_q (t_b t))) s o -> no_face (bflux b' s o a g)) ->
      (o < q_noct (b_q (t_b t)))%nat -> (a < q_nao (b_q (t_b t)))%nat -> Forall no_face (ins_of b' o a g)).
    { intros b' o a0 SS' DK Ho Ha. apply dark_ins with (b := t_b t); auto. }
    assert (Q0 : sn_quad (b_q b0)) by (rewrite S1; auto). assert (Hgb0 : (g < b_ng b0)%nat) by (rewrite S2'; auto).
    assert (INS : forall b', same_setup b0 b' -> (forall s o a, valid b0 s o a g -> enters (q_dim (b_q b0)) s o -> bflux b' s o a g = bflux b0 s o a g) ->
      forall o a, (o < q_noct (b_q (t_b t)))%nat -> (a < q_nao (b_q (t_b t)))%nat -> ins_of b' o a g = ins_of b0 o a g).
    { intros b' SS' IN' o a0 Ho Ha. apply ins_kept; rewrite ?S1; auto. rewrite S1 in IN'. auto. }
    assert (TZ : same_setup (t_b t) bz) by (apply (SETUP _ _ SS0 SSz)). pose proof TZ as (TZ1 & _).
    assert (T4 : same_setup (t_b t) b4) by (apply (SETUP _ _ SS0 SS4)). pose proof T4 as (T41 & _).
    assert (FZ : forall c, (c < n)%nat -> at_ Fz c = 0).
    { intros c Hc. enough (at_ Fz c = at_ Fz c + 1 * at_ Fz c) by lra.
      refine (@flows_add w y g bz bz bz _ _ _ Fz Fz Fz 1 SWz _ _ _ _ _ FLz FLz FLz c Hc); try (repeat split; auto; fail).
      - rewrite TZ1. intros o a0 Ho Ha. apply (DINS bz o a0 TZ (DK0 bz SSz INz) Ho Ha).
      - intros o a0 c0 Ho Ha Hc0. unfold emissions. cbn [scatter_only eigen_problem ssrc]. fold y. rewrite !at_tab by auto. unfold emission, external, discrete, explicit_fission. cbn [scatter_only eigen_problem fiss ext dext map sumR fold_right ssrc]. fold y.
        replace (scatter_sum y zero all_groups g c0) with 0; [unfold Rdiv; ring|]. symmetry. apply rsum_zero. intros i Hi. unfold all_groups, phi_of, zero.
        fold G in Hi. rewrite by_nth by auto. change (nth c0 (part (repeat 0 (G * n)) n i) 0) with (at_ (part (repeat 0 (G * n)) n i) c0). rewrite part_at by auto.
        unfold at_. rewrite nth_repeat. ring. }
    assert (F41 : forall c, (c < n)%nat -> at_ F4 c = at_ F1 c).
    { intros c Hc. enough (at_ F4 c = at_ Fz c + 1 * at_ F1 c) by (rewrite FZ in * by auto; lra).
      refine (@flows_add w y g bz b2 b4 _ _ _ Fz F1 F4 1 SWz _ _ _ _ _ FLz FL2 FL4 c Hc).
      - apply (SETUP _ _ SS2 SSz).
      - destruct TZ as (A1 & A2 & A3), T4 as (B1 & B2 & B3). repeat split; congruence.
      - rewrite TZ1. intros o a0 Ho Ha. apply DINS; auto.
      - rewrite TZ1. intros o a0 Ho Ha. rewrite (INS b4 SS4 IN4 o a0 Ho Ha). symmetry. exact (INS bz SSz INz o a0 Ho Ha).
      - intros o a0 c0 Ho Ha Hc0. unfold emissions, block_source. cbn [scatter_only eigen_problem ssrc]. fold y. rewrite !at_tab by auto. unfold emission, external, discrete, explicit_fission. cbn [scatter_only eigen_problem fiss ext dext map sumR fold_right ssrc]. fold y.
        rewrite IMP, EF. fold y.
        replace (scatter_sum y zero all_groups g c0) with 0.
        + replace (scatter_sum y phi (fun gp => negb (below y 0 gp)) g c0) with (scatter_sum y phi all_groups g c0); [unfold Rdiv; ring|].
          apply rsum_ext. intros i Hi. unfold all_groups, below. rewrite EA. reflexivity.
        + symmetry. apply rsum_zero. intros i Hi. unfold all_groups, phi_of, zero.
          fold G in Hi. rewrite by_nth by auto. change (nth c0 (part (repeat 0 (G * n)) n i) 0) with (at_ (part (repeat 0 (G * n)) n i) c0). rewrite part_at by auto.
          unfold at_. rewrite nth_repeat. ring. }
    assert (ADD : forall c, (c < n)%nat -> at_ F3 c = at_ F1 c + 1 / k * at_ (part f n g) c).
    { intros c Hc. rewrite <- F41 by auto.
      refine (@flows_add w y g b4 b5 b3 _ _ _ F4 (part f n g) F3 (1 / k) SW4 _ _ _ _ _ FL4 FL5 FL3 c Hc).
      - apply (SETUP _ _ SS5 SS4).
      - destruct SS4 as (A1 & A2 & A3), SS3 as (B1 & B2 & B3). repeat split; congruence.
      - rewrite T41. intros o a0 Ho Ha. apply DINS; auto.
      - rewrite T41. intros o a0 Ho Ha. rewrite (INS b3 SS3 IN3 o a0 Ho Ha). symmetry. exact (INS b4 SS4 IN4 o a0 Ho Ha).
      - intros o a0 c0 Ho Ha Hc0. unfold emissions, direct_source. cbn [scatter_only eigen_problem ssrc]. fold y. rewrite !at_tab by auto. unfold emission, external, discrete, explicit_fission.
        cbn [scatter_only eigen_problem fiss ext dext map sumR fold_right ssrc implicit]. fold y. rewrite EF. cbn [fscale]. rewrite Vz, FS by auto. unfold Rdiv. ring. }
    assert (T3 : same_setup (t_b t) b3) by (apply (SETUP _ _ SS0 SS3)). pose proof T3 as (T31 & T32 & T33).
    assert (GE3 : given_entering (t_b t) b3 g).
    { split; auto. split.
      - intros s l io o a0 psi Hs HB. rewrite VB in HB by auto. discriminate.
      - intros s o a0 V EN1 _. rewrite IN3; [apply Z0; auto|unfold valid in *; rewrite S1, S2'; auto|rewrite S1; auto]. }
    pose proof FL3 as (_ & _ & L3 & _).
    assert (XG : nth g phi [] = part x n g) by (unfold phi; apply by_nth; auto).
    assert (EQ : (forall c, (c < n)%nat -> at_ (part f n g) c = k * at_ (part a n g) c) <-> F3 = nth g phi []).
    { rewrite XG. split.
      - intros H. apply list_ext_nth with (d := 0); [rewrite part_length; auto|]. intros c Hc. rewrite L3 in Hc.
        change (at_ F3 c = at_ (part x n g) c). rewrite ADD, H, V1 by auto. field. auto.
      - intros EX c Hc. rewrite V1 by auto. rewrite <- EX, ADD by auto. field. auto. }
    rewrite EQ. split.
    - intros <-. exists b3. split; auto. unfold transported. unfold flows in FL3. rewrite T31 in FL3 |- *. exact FL3.
    - intros (b6 & GE6 & TR). pose proof GE6 as ((H1 & H2 & H3) & _). unfold transported in TR. rewrite H1 in TR.
      assert (TR' : flows w y g b6 (emissions (eigen_problem (t_x t) k) phi (b_q (t_b t)) g) (nth g phi [])) by (unfold flows; rewrite H1; exact TR).
      refine (@flows_det w y g b3 b6 _ F3 _ SW3 _ _ FL3 TR').
      + repeat split; congruence.
      + rewrite T31. intros o a0 Ho Ha. apply (given_ins Q Hgb GE3 GE6); auto. }
  split.
  - intros H g Hg. fold y in Hg. fold G in Hg. apply EACH; auto. intros c Hc. rewrite !part_at by auto. apply H.
    assert (S g * n <= G * n)%nat by (apply Nat.mul_le_mono_r; lia). cbn in *. lia.
  - intros KM i Hi. assert (Hn : n <> 0%nat) by (intros E0; rewrite E0 in Hi; lia).
    assert (Hd : (i / n < G)%nat) by (apply Nat.div_lt_upper_bound; lia). pose proof (Nat.div_mod i n Hn) as D. pose proof (Nat.mod_upper_bound i n Hn) as M.
    pose proof (proj2 (EACH (i / n)%nat Hd) (KM _ Hd) (i mod n)%nat M) as E. rewrite !part_at in E by auto. replace (i / n * n + i mod n)%nat with i in E by lia. exact E.
Qed.

(** ** Vectors that are too short *)
Lemma gd_overrun w bsize t x y : adj (ssrc (t_x t)) = false -> (0 < ng (mat (ssrc (t_x t))))%nat ->
  (length x < ng (mat (ssrc (t_x t))) * cells (ssrc (t_x t)))%nat -> gd_lhs w bsize t x y = UB.
Proof.
  intros EA HG LX. unfold gd_lhs, gd_fission. assert (E : gd_fluxes t x = UB); [|rewrite E; reflexivity]. unfold gd_fluxes. rewrite gd_groups_forward by auto.
  set (k := ng (mat (ssrc (t_x t)))) in *. set (n := cells (ssrc (t_x t))) in *.
  assert (K : forall j phi, (0 < j <= k)%nat -> length phi = k ->
    foldM (fun phi g => do f <- seg x ((g - gd_cutoff) * n) n; wr phi g f) (seq (k - j) j) phi = UB).
  { induction j as [|j IH]; intros phi Hj L; [lia|]. cbn [seq foldM]. change gd_cutoff with 0%nat in *. rewrite Nat.sub_0_r. unfold seg.
    destruct (Nat.leb_spec ((k - S j) * n + n) (length x)) as [Hle|Hlt]; [|reflexivity]. cbn [bind].
    destruct j as [|j].
    - exfalso. replace ((k - 1) * n + n)%nat with (k * n)%nat in Hle; [lia|]. destruct k; [lia|]. cbn. rewrite Nat.sub_0_r. lia.
    - unfold wr. rewrite L, (proj2 (Nat.ltb_lt _ _)) by lia. cbn [bind]. replace (S (k - S (S j))) with (k - S j)%nat by lia. apply IH; [lia|]. rewrite upd_length. auto. }
  specialize (K k (repeat (repeat 0 n) k)). replace (k - k)%nat with 0%nat in K by lia. apply K; [lia|apply repeat_length].
Qed.
(** ** Adjoint problems: only group 0 is worked on *)
Theorem gd_adjoint w m half t q u x y : let n := cells (ssrc (t_x t)) in let G := ng (mat (ssrc (t_x t))) in
  adj (ssrc (t_x t)) = true -> (0 < G)%nat -> open_boundary (t_b t) -> dext (t_x t) = [] -> fiss (t_x t) = Some q ->
  mg_state w m 0 t u -> length x = (G * n)%nat -> length y = (G * n)%nat ->
  exists v f, gd_lhs w (mg_bsize half (t_b t)) u x y = Ok (v, f) /\ length f = (G * n)%nat /\ forall i, (n <= i)%nat -> at_ f i = at_ y i.
Proof.
  intros n G EA HG OB ED EF MS LX LY. pose proof MS as [PO (f0 & s0 & EU) SU]. assert (EN : ssrc (t_x u) = ssrc (t_x t)) by (rewrite EU; reflexivity).
  assert (KG : krylov_group (ssrc (t_x t)) 0 0) by (split; auto; unfold below; rewrite EA; apply Nat.ltb_ge; lia).
  pose proof (PO 0%nat KG) as [(PR & _ & _ & HQ & _) _ _ _ (_ & _ & _ & Hn) _ _ _ _].
  assert (EFu : fiss (t_x u) = Some q) by (rewrite EU; exact EF). destruct (HQ q EFu) as (FQ & _). rewrite EN in FQ, PR, Hn. fold n in Hn.
  unfold gd_lhs, gd_fission, gd_fluxes, gd_sweep. rewrite gd_groups_adjoint by (rewrite EN; auto). rewrite EN, EFu. fold n G. cbn [foldM]. change (0 - gd_cutoff)%nat with 0%nat.
  rewrite seg_ok by (apply part_fits with (k := G); auto). cbn [bind]. unfold wr. rewrite repeat_length, (proj2 (Nat.ltb_lt _ _) HG). cbn [bind].
  destruct (@fis_total_ok q 0 (upd (repeat (repeat 0 n) G) 0 (part x n 0)) (repeat 0 n)) as (s & Es & As); rewrite ?FQ; auto.
  { split; [rewrite upd_length, repeat_length; auto|]. intros g Hg. destruct (Nat.eq_dec g 0) as [->|Ne].
    - rewrite nth_upd_eq by (rewrite repeat_length; auto). rewrite part_length. auto.
    - rewrite nth_upd_neq by auto. fold G in Hg. rewrite nth_indep with (d' := repeat 0 n) by (rewrite repeat_length; auto). rewrite nth_repeat, repeat_length. auto. }
  { rewrite repeat_length. auto. }
  rewrite Es. cbn [bind]. assert (Ls : length s = n) by (rewrite (proj1 As), repeat_length; auto).
  destruct (@put_ok (repeat 0 (length x)) n 0 s) as (z & Ez & Lz & _ & _); auto; [apply part_fits with (k := G); auto; rewrite repeat_length; auto|].
  rewrite Ez. cbn [bind]. rewrite repeat_length, LX in Lz.
  destruct (@gd_group_ok w m half t u 0 z y MS OB ED KG Lz LY) as (v & f & E & _ & L & _ & O). rewrite E. cbn [bind]. exists v, f. split; auto. split; [lia|].
  intros i Hi. destruct (Nat.lt_ge_cases i (G * n)) as [Hlt|Hge]; [|unfold at_; rewrite !nth_overflow by lia; auto].
  assert (Hn0 : n <> 0%nat) by lia. pose proof (Nat.div_mod i n Hn0) as D. pose proof (Nat.mod_upper_bound i n Hn0) as M.
  assert (Hd : (1 <= i / n)%nat) by (apply Nat.div_le_lower_bound; lia).
  assert (EE : at_ (part f n (i / n)) (i mod n) = at_ (part y n (i / n)) (i mod n)) by (fold n in O; rewrite O by lia; auto).
  rewrite !part_at in EE by auto. replace (i / n * n + i mod n)%nat with i in EE by lia. exact EE.
Qed.
