From Verif Require Import Base BaseR Util_Model Mesh_Model Mesh_Spec Mesh_Proofs Material_Model Material_Spec Matrix_Model Matrix_Spec Matrix_Proofs.
From Verif Require Import Diffusion_Model Diffusion_Spec Diffusion_Proofs Boundary_Proofs Dsolve_Model Dsolve_Spec Dsolve_Proofs.
From Coq Require Import Lra Classical.
Set Implicit Arguments. Unset Strict Implicit.
Open Scope nat_scope.

Lemma reactions_ext L phi phi' p c : p < active L -> (forall q, q < active L -> phi q c = phi' q c) -> reactions L phi p c = reactions L phi' p c.
Proof.
  intros Hp H. unfold reactions. rewrite (H p Hp). destruct (l_sf L =? 0); [|auto].
  rewrite (@rsum_ext (active L) (fun q => into (l_adj L) (l_mat L) (first_group L + p) (first_group L + q) (mt (l_mesh L) c) * phi q c)%R
             (fun q => into (l_adj L) (l_mat L) (first_group L + p) (first_group L + q) (mt (l_mesh L) c) * phi' q c)%R)
    by (intros; rewrite H; auto).
  rewrite (@rsum_ext (active L) (fun q => birth (l_adj L) (l_mat L) (first_group L + p) (first_group L + q) (mt (l_mesh L) c) * phi q c)%R
             (fun q => birth (l_adj L) (l_mat L) (first_group L + p) (first_group L + q) (mt (l_mesh L) c) * phi' q c)%R)
    by (intros; rewrite H; auto).
  auto.
Qed.

Section S.
  Variable P : dprob.
  Hypothesis PK : prob_ok P.
  Let m := q_mesh P.
  Let n := ncells m.
  Let G := ng (q_mat P).
  Let be := albedo (dim m) (q_bc P) (q_zero P).
  Let D (g c : nat) := dc (q_mat P) g (mt m c).

  Lemma full_ok k : loss_ok (full_loss P k).
  Proof. destruct PK as (A & B & C). split; [exact A|split; [exact B|exact C]]. Qed.
  Lemma full_active k : active (full_loss P k) = G.
  Proof. destruct PK as (_ & H & _). unfold active, full_loss, d_loss. cbn in *. fold G in H |- *. destruct (q_adj P); lia. Qed.
  Lemma full_first k : first_group (full_loss P k) = 0.
  Proof. unfold first_group, full_loss, d_loss. cbn. destruct (q_adj P); auto. Qed.
  Lemma D_pos g c : g < G -> c < n -> (0 < D g c)%R.
  Proof. intros Hg Hc. destruct PK as (_ & _ & MT & DP & _). apply DP; auto. Qed.

  Definition corr (i : dinput) (g c s : nat) : R :=
    (if on_edge m c s && (s <? 2 * dim m) then
       8 * D g c * at_face m (i_in i) s g c / (4 * D g c + wid m (s / 2) c) else 0)%R.
  Definition net (i : dinput) (x : list R) (g c s : nat) : R :=
    (cur m (D g) be (part n x g) c s - corr i g c s)%R.

  Lemma corr_sum i g c : g < G -> c < n ->
    rsum (dim m) (fun a => rsum 2 (fun dir => if on_edge m c (2 * a + dir) then bterm P i g c (2 * a + dir) else 0))%R =
    rsum 3 (fun a => (corr i g c (2 * a) + corr i g c (2 * a + 1)) / wid m a c)%R.
  Proof.
    intros Hg Hc. assert (T : forall a dir, a < 3 -> dir < 2 ->
      (corr i g c (2 * a + dir) / wid m a c = if a <? dim m then (if on_edge m c (2 * a + dir) then bterm P i g c (2 * a + dir) else 0) else 0)%R).
    { intros a dir Ha Hd. unfold corr, bterm. fold m.
      assert (SA : (2 * a + dir) / 2 = a) by (destruct dir as [|[|dir]]; [rewrite Nat.add_0_r; apply (half0 m a)|apply (half1 m a)|lia]).
      rewrite SA. assert (W := wid_pos (P_good PK) a Hc). fold m in W. assert (DP := D_pos Hg Hc). unfold D in *.
      destruct (Nat.ltb_spec a (dim m)), (Nat.ltb_spec (2 * a + dir) (2 * dim m)); try lia;
        destruct (on_edge m c (2 * a + dir)); cbn [andb]; field; lra. }
    assert (E : rsum 3 (fun a => (corr i g c (2 * a) + corr i g c (2 * a + 1)) / wid m a c)%R =
      rsum 3 (fun a => if a <? dim m then rsum 2 (fun dir => if on_edge m c (2 * a + dir) then bterm P i g c (2 * a + dir) else 0)%R else 0%R)).
    { apply rsum_ext. intros a Ha. assert (T0 := @T a 0 Ha). assert (T1 := @T a 1 Ha).
      rewrite Nat.add_0_r in T0. unfold Rdiv in *. rewrite Rmult_plus_distr_r. rewrite T0, T1 by lia. cbn [rsum]. rewrite !Nat.add_0_r.
      destruct (a <? dim m); ring. }
    rewrite E. assert (DL := dim_le PK). fold m in DL.
    destruct (dim m) as [|[|[|[|d]]]]; try lia; cbn [rsum Nat.ltb Nat.leb]; ring.
  Qed.

  Lemma net_leak i x g c : g < G -> c < n ->
    (leakage m (net i x g) c = leakage m (cur m (D g) be (part n x g)) c - 
      rsum (dim m) (fun a => rsum 2 (fun dir => if on_edge m c (2 * a + dir) then bterm P i g c (2 * a + dir) else 0)))%R.
  Proof.
    intros Hg Hc. rewrite (corr_sum i Hg Hc). unfold leakage, net. cbn [rsum].
    assert (W0 := wid_pos (P_good PK) 0 Hc). assert (W1 := wid_pos (P_good PK) 1 Hc). assert (W2 := wid_pos (P_good PK) 2 Hc).
    fold m in W0, W1, W2. field. repeat split; lra.
  Qed.

  Lemma outer_edge s c : outer m s c -> c < n /\ on_edge m c s = true.
  Proof.
    intros (a & [(-> & H)|(-> & H)]).
    - assert (Hc := low_lt H). split; [exact Hc|]. apply edge_low; auto.
    - assert (Hc := high_lt H). split; [exact Hc|]. apply edge_high; auto.
  Qed.
  Lemma be_range s : (-1 <= be s <= 1)%R. Proof. apply albedo_range. Qed.

  Lemma net_currents i x out g : g < G ->
    (q_fill P = true -> forall s c, s < 2 * dim m -> c < n -> on_edge m c s = true -> at_face m out s g c = jout P x i g c s) ->
    forall phi, (forall c, c < n -> phi c = part n x g c) -> currents P i out g phi (net i x g).
  Proof.
    intros Hg HO phi HP. assert (MG := P_good PK). fold m in MG. assert (DP : forall c, c < n -> (0 < D g c)%R) by (intros; apply D_pos; auto).
    destruct (@cur_fick m (D g) be MG DP be_range (part n x g)) as (F1 & F2 & F3).
    split; [|split; [|split]]; fold m.
    - intros a c c' Ha AD. destruct (adjacent_lt AD) as [L L']. destruct (adjacent_up Ha AD) as [E1 E2].
      destruct (adjacent_down Ha AD) as [G1 G2]. unfold net, corr. rewrite E1, G1. cbn [andb].
      destruct (F1 a c c' Ha AD) as (X & pf & Y & Z). rewrite !Rminus_0_r. split; [exact X|]. exists pf. rewrite !HP by auto. split; [exact Y|exact Z].
    - intros s c Hs HS HB. destruct (outer_edge HS) as [Hc HE]. exists (jout P x i g c s). split.
      + assert (W := wid_pos MG (s / 2) Hc). assert (DC := DP c Hc).
        exists (2 * (jout P x i g c s + at_face m (i_in i) s g c))%R. unfold net, corr, cur, dt1, jout. fold m n.
        rewrite HE. cbn [andb]. assert (SL := Hs). apply Nat.ltb_lt in SL. rewrite SL.
        assert (BE : be s = 0%R). { unfold be, albedo. rewrite SL. destruct HB as [->|(-> & ->)]; auto. }
        rewrite BE. rewrite (@hw_wid m c (s / 2) Hc). unfold dtilde_edge. rewrite HP by auto. fold (D g c).
        repeat split; field; lra.
      + intros QF. apply HO; auto.
    - intros s c b Hs HS HB HZ. destruct (outer_edge HS) as [Hc HE].
      assert (C0 : corr i g c s = 0%R) by (unfold corr; rewrite HZ; destruct (on_edge m c s && (s <? 2 * dim m)); unfold Rdiv; ring).
      unfold net. rewrite C0.
      assert (SL := Hs). apply Nat.ltb_lt in SL.
      assert (BE : be s = b). { unfold be, albedo. rewrite SL. destruct HB as [(-> & ->)|(-> & -> & ->)]; auto. }
      rewrite !Rminus_0_r. rewrite HP by auto.
      assert (DL := dim_le PK). fold m in DL.
      destruct HS as (a & [(-> & HS)|(-> & HS)]).
      + destruct (half0 m a) as [-> _]. destruct (F2 a c) as (pf & X & Y); [lia|auto|]. exists pf. rewrite <- BE. split; [exact X|exact Y].
      + destruct (half1 m a) as [-> _]. destruct (F3 a c) as (pf & X & Y); [lia|auto|]. exists pf. rewrite <- BE. split; [exact X|exact Y].
    - intros s c Hs H6 HS. destruct (outer_edge HS) as [Hc HE]. unfold net, corr.
      assert (SL : (s <? 2 * dim m) = false) by (apply Nat.ltb_ge; auto). rewrite SL, andb_false_r.
      unfold cur, dt1. rewrite HE. unfold be, albedo. rewrite SL. unfold dtilde_edge, Rdiv. ring.
  Qed.

  Lemma net_outflow i x g : g < G -> rsum n (fun c => vol m c * leakage m (net i x g) c)%R = outflow m (net i x g).
  Proof.
    intros Hg. assert (MG := P_good PK). fold m in MG. apply net_leakage; [exact MG|]. intros a c c' Ha AD.
    assert (DP : forall c, c < n -> (0 < D g c)%R) by (intros; apply D_pos; auto).
    destruct (@cur_fick m (D g) be MG DP be_range (part n x g)) as (F1 & _).
    destruct (adjacent_up Ha AD) as [E1 E2]. destruct (adjacent_down Ha AD) as [G1 G2]. unfold net, corr. rewrite E1, G1. cbn [andb].
    rewrite !Rminus_0_r. apply (F1 a c c' Ha AD).
  Qed.

  Variables (srt : list triplet -> list triplet) (lin : csr -> list R -> list R -> res (list R)).
  Hypothesis SRT : is_sort srt.
  Hypothesis LIN : exact lin.

  Definition good_state (s : dstate) : Prop :=
    d_build srt (full_loss P (s_keff s)) = Ok (s_M s) /\ length (s_x s) = d_size P /\ (q_adj P = true -> s_keff s = 1%R).

  Lemma full_builds k : exists C, d_build srt (full_loss P k) = Ok C /\
    forall v, length v = d_size P -> exists y, multiply C v = Ok y /\ length y = d_size P /\
      forall g c, g < G -> c < n -> part n y g c = (leakage m (cur m (D g) be (part n v g)) c + reactions (full_loss P k) (part n v) g c)%R.
  Proof.
    destruct (loss_builds (full_ok k) SRT) as (C & B & H). exists C. split; [exact B|]. intros v Hv.
    destruct (H v) as (y & M & LY & Y).
    - rewrite full_active. rewrite Hv. unfold d_size. cbn. fold m n G. lia.
    - exists y. split; [exact M|]. split.
      + rewrite LY, full_active. unfold d_size. cbn. fold m n G. lia.
      + intros g c Hg Hc. assert (Y' := Y g c). rewrite full_active in Y'. unfold l_J in Y'. rewrite full_first in Y'. apply Y'; auto.
  Qed.

  Lemma new_good : exists s, d_new srt P = Ok s /\ good_state s.
  Proof.
    destruct (full_builds 1) as (C & B & _). exists {| s_keff := 1%R; s_M := C; s_x := repeat 0%R (d_size P) |}. split.
    - unfold d_new. unfold full_loss in B. rewrite B. auto.
    - split; [exact B|split; [apply repeat_length|auto]].
  Qed.

  Lemma refresh_good s k : good_state s -> keffs_ok P [k] ->
    exists s', (if Req_EM_T (s_keff s) k then Ok s else refresh srt P k s) = Ok s' /\ good_state s' /\ s_keff s' = k /\ s_x s' = s_x s.
  Proof.
    intros (B & LX & KA) KO. destruct (Req_EM_T (s_keff s) k) as [E|N].
    - exists s. split; [auto|]. split; [split; auto|auto].
    - destruct KO as [F|K1].
      + destruct (full_builds k) as (C & B' & _). exists {| s_keff := k; s_M := C; s_x := s_x s |}. split.
        * unfold refresh. unfold full_loss in B'. rewrite F in B'. rewrite B'. auto.
        * split; [|auto]. split; [exact B'|split; [exact LX|]]. rewrite F. discriminate.
      + destruct (q_adj P) eqn:A.
        * exfalso. apply N. rewrite KA by auto. symmetry. apply K1. cbn; auto.
        * destruct (full_builds k) as (C & B' & _). exists {| s_keff := k; s_M := C; s_x := s_x s |}. split.
          -- unfold refresh. unfold full_loss in B'. rewrite A in B'. rewrite B'. auto.
          -- split; [|auto]. split; [exact B'|split; [exact LX|]]. rewrite A. discriminate.
  Qed.

  Lemma fill_current_ok phi : length phi = G -> exists cs, fill_current P phi = Ok cs.
  Proof.
    intros L. unfold fill_current. fold m n G.
    exists (map (fun g => map (fun c => cell_current P g (fun c => nth c (nth g phi []) 0%R) c) (seq 0 n)) (seq 0 G)).
    apply mapM_map. intros g Hg. apply in_seq in Hg. unfold rd. rewrite (nth_error_nth' phi []) by lia. cbn [bind].
    apply mapM_map. auto.
  Qed.

  (** What solve() does, given what the linear solver returns. *)
  Lemma solve_shape s i k : good_state s -> keffs_ok P [k] -> call_ok P i ->
    exists A Q, d_build srt (full_loss P k) = Ok A /\ length Q = d_size P /\
      (forall g c, g < G -> c < n -> part n Q g c = (vsource P i c g +
         rsum (dim m) (fun a => rsum 2 (fun dir => if on_edge m c (2 * a + dir) then bterm P i g c (2 * a + dir) else 0)))%R) /\
      match lin A Q (s_x s) with
      | Ok x => exists r, d_solve srt lin P s i k = Ok r /\ good_state (r_state r) /\ s_x (r_state r) = x /\
          (forall g c, g < G -> c < n -> nth c (nth g (r_phi r) []) 0%R = part n x g c) /\
          (q_fill P = true -> forall s g c, s < 2 * dim m -> g < G -> c < n -> on_edge m c s = true -> at_face m (r_out r) s g c = jout P x i g c s)
      | Err => d_solve srt lin P s i k = Err
      | UB => d_solve srt lin P s i k = UB
      end.
  Proof.
    intros GS KO CK. destruct (refresh_good GS KO) as (s' & ER & GS' & EK & EX).
    destruct (volume_ok P i) as (Q1 & E1 & L1 & N1). destruct (boundary_ok PK CK L1) as (Q2 & E2 & L2 & N2).
    assert (GSa := GS'). destruct GSa as (B & LX & KA). rewrite EK in B. exists (s_M s'), Q2. split; [exact B|]. split; [exact L2|]. split.
    - intros g c Hg Hc. unfold part. rewrite N2, N1 by auto. auto.
    - destruct (lin (s_M s') Q2 (s_x s)) as [x| |] eqn:EL.
      + destruct (LIN EL) as [LX' MX]. rewrite EX in LX. rewrite LX in LX'.
        destruct (@fill_state_ok P x LX') as (phi & EP & LP & NP).
        assert (EC : exists cs, (if q_store P then fill_current P phi else Ok []) = Ok cs)
          by (destruct (q_store P); [apply fill_current_ok; auto|eauto]).
        destruct EC as (cs & EC).
        assert (EO : exists out, (if q_fill P then fill_boundary P x i else Ok (i_out i)) = Ok out /\
          (q_fill P = true -> forall s g c, s < 2 * dim m -> g < G -> c < n -> on_edge m c s = true -> at_face m out s g c = jout P x i g c s)).
        { destruct (fill_boundary_ok PK CK LX') as (b' & F & _ & V).
          destruct (q_fill P); [exists b'|exists (i_out i)]; split; auto; discriminate. }
        destruct EO as (out & EO & VO).
        exists {| r_state := {| s_keff := s_keff s'; s_M := s_M s'; s_x := x |}; r_phi := phi; r_cur := cs; r_out := out |}.
        split; [|split; [|split; [auto|split; [exact NP|exact VO]]]].
        * unfold d_solve. rewrite ER. cbn [bind]. rewrite E1. cbn [bind]. rewrite E2. cbn [bind]. rewrite EX, EL. cbn [bind].
          rewrite EP. cbn [bind]. rewrite EC. cbn [bind]. rewrite EO. auto.
        * destruct GS' as (B' & _ & KA'). split; [exact B'|split; [exact LX'|exact KA']].
      + unfold d_solve. rewrite ER. cbn [bind]. rewrite E1. cbn [bind]. rewrite E2. cbn [bind]. rewrite EX, EL. auto.
      + unfold d_solve. rewrite ER. cbn [bind]. rewrite E1. cbn [bind]. rewrite E2. cbn [bind]. rewrite EX, EL. auto.
  Qed.

  Lemma runs_good_from calls : forall s0, good_state s0 -> keffs_ok P (map snd calls) -> (forall i k, In (i, k) calls -> call_ok P i) ->
    forall s, foldM (fun s '(i, k) => do r <- d_solve srt lin P s i k; Ok (r_state r)) calls s0 = Ok s -> good_state s.
  Proof.
    induction calls as [|[i k] calls IH]; intros s0 G0 KO CO s H.
    - inversion H. subst. auto.
    - cbn [foldM] in H.
      assert (K1 : keffs_ok P [k]) by (destruct KO as [?|K]; [left; auto|right; intros k' [<-|[]]; apply K; cbn; auto]).
      assert (K2 : keffs_ok P (map snd calls)) by (destruct KO as [?|K]; [left; auto|right; intros; apply K; cbn; auto]).
      destruct (@solve_shape s0 i k G0 K1) as (A & Q & B & LQ & NQ & X); [apply (CO i k); cbn; auto|].
      destruct (lin A Q (s_x s0)) as [x| |].
      + destruct X as (r & ES & GR & _). rewrite ES in H. cbn [bind] in H. apply (IH (r_state r)); auto.
        intros; eapply CO; cbn; eauto.
      + rewrite X in H. discriminate.
      + rewrite X in H. discriminate.
  Qed.
  Lemma runs_good calls : keffs_ok P (map snd calls) -> (forall i k, In (i, k) calls -> call_ok P i) ->
    forall s, d_runs srt lin P calls = Ok s -> good_state s.
  Proof.
    intros KO CO s. unfold d_runs. destruct new_good as (s0 & E0 & G0). rewrite E0. cbn [bind]. apply runs_good_from; auto.
  Qed.

  Lemma keffs_app a b : keffs_ok P (a ++ b) -> keffs_ok P a /\ keffs_ok P b.
  Proof. intros [?|K]; [split; left; auto|]. split; right; intros; apply K; apply in_or_app; auto. Qed.

  (** ** The solution *)
  Lemma solve_balances calls s i k r : keffs_ok P (map snd calls ++ [k]) -> (forall i k, In (i, k) calls -> call_ok P i) -> call_ok P i ->
    d_runs srt lin P calls = Ok s -> d_solve srt lin P s i k = Ok r ->
    exists J, (forall g, g < G -> currents P i (r_out r) g (fun c => nth c (nth g (r_phi r) []) 0%R) (J g)) /\
      balanced P i k (r_phi r) J /\ balanced_total P i k (r_phi r) J.
  Proof.
    intros KO CO CK HR HS. destruct (keffs_app KO) as [K1 K2]. assert (GS := runs_good K1 CO HR).
    destruct (solve_shape GS K2 CK) as (A & Q & B & LQ & NQ & X).
    destruct (lin A Q (s_x s)) as [x| |] eqn:EL; [|congruence|congruence].
    destruct X as (r' & ES & GR & EX & NP & VO). assert (r' = r) by congruence. subst r'.
    destruct (full_builds k) as (C & B' & H). assert (C = A) by congruence. subst C.
    destruct (LIN EL) as [LX MX]. destruct GS as (_ & LS & _). rewrite LS in LX.
    destruct (H x LX) as (y & M & LY & Y). assert (y = Q) by congruence. subst y.
    assert (BAL : balanced P i k (r_phi r) (net i x)).
    { intros g c Hg Hc. fold m in Hc |- *. fold n in Hc. fold G in Hg. rewrite (net_leak i x Hg Hc).
      assert (Y' := Y g c Hg Hc). rewrite NQ in Y' by auto.
      rewrite (@reactions_ext (full_loss P k) (fun g c => nth c (nth g (r_phi r) []) 0%R) (part n x) g c).
      - lra.
      - rewrite full_active. auto.
      - rewrite full_active. intros q Hq. apply NP; auto. }
    exists (net i x). split; [|split; [exact BAL|]].
    - intros g Hg. apply net_currents; auto.
    - intros g Hg. fold m. fold n. fold G in Hg. rewrite <- (net_outflow i x Hg). rewrite <- rsum_plus. apply rsum_ext.
      intros c Hc. cbn beta. rewrite <- (BAL g c Hg Hc). fold m. ring.
  Qed.

  (** Nothing but the linear solver can fail. *)
  Lemma solve_safe calls s i k : keffs_ok P (map snd calls ++ [k]) -> (forall i k, In (i, k) calls -> call_ok P i) -> call_ok P i ->
    d_runs srt lin P calls = Ok s ->
    exists A Q, length Q = d_size P /\
      match lin A Q (s_x s) with
      | Ok x => exists r, d_solve srt lin P s i k = Ok r
      | Err => d_solve srt lin P s i k = Err
      | UB => d_solve srt lin P s i k = UB
      end.
  Proof.
    intros KO CO CK HR. destruct (keffs_app KO) as [K1 K2]. assert (GS := runs_good K1 CO HR).
    destruct (solve_shape GS K2 CK) as (A & Q & B & LQ & NQ & X). exists A, Q. split; [auto|].
    destruct (lin A Q (s_x s)); auto. destruct X as (r & ES & _). eauto.
  Qed.
End S.
