(** * Proofs about the multigroup Krylov operator and its right hand side *)
From Verif Require Import Base BaseR Loop Util_Model Util_Proofs Angle_Model Angle_Spec Boundary_Model Boundary_Spec Boundary_Proofs Mesh_Model Mesh_Proofs
  Material_Model Material_Spec Material_Proofs Source_Model Source_Spec Source_Proofs SourceAll_Proofs Cell_Model Cell_Spec Sweep_Model Sweep_Spec Sweep_Proofs
  SweepAll_Proofs SweepBalance_Proofs SweepLinear_Proofs Iter_Model Iter_Spec Pi_Spec Iter_Proofs IterConv_Proofs Gs_Proofs Pi_Proofs PiLinear_Proofs
  Wg_Spec Wg_Proofs Mgk_Model Mgk_Spec.
Set Implicit Arguments. Unset Strict Implicit.
Open Scope R_scope.

(** ** Parts of vectors *)
Lemma part_length v n i : length (part v n i) = n.
Proof. unfold part. rewrite map_length, seq_length. auto. Qed.
Lemma part_at v n i c : (c < n)%nat -> at_ (part v n i) c = at_ v (i * n + c).
Proof. intros H. unfold part. rewrite at_tab by auto. auto. Qed.
Lemma skipn_nth (l : list R) k i d : nth i (skipn k l) d = nth (k + i) l d.
Proof. revert l. induction k; intros [|a l]; cbn [skipn plus nth]; auto. destruct i; auto. Qed.
Lemma firstn_nth_R (l : list R) k i d : (i < k)%nat -> nth i (firstn k l) d = nth i l d.
Proof. revert l i. induction k; intros [|a l] [|i] H; cbn; auto; try lia. apply IHk. lia. Qed.
Lemma seg_ok v n i : (i * n + n <= length v)%nat -> seg v (i * n) n = Ok (part v n i).
Proof.
  intros H. unfold seg. rewrite (proj2 (Nat.leb_le _ _) H). f_equal.
  assert (L : length (firstn n (skipn (i * n) v)) = n) by (rewrite firstn_length, skipn_length; lia).
  apply list_ext_nth with (d := 0); [rewrite part_length; auto|]. intros c Hc. rewrite L in Hc.
  rewrite firstn_nth_R by auto. rewrite skipn_nth. symmetry. apply (part_at v i Hc).
Qed.
Lemma put_ok y n i l : (i * n + n <= length y)%nat -> length l = n ->
  exists y', put_seg y (i * n) l = Ok y' /\ length y' = length y /\ part y' n i = l /\
    forall j, j <> i -> part y' n j = part y n j.
Proof.
  intros H L. unfold put_seg. rewrite L, (proj2 (Nat.leb_le _ _) H). eexists. split; [reflexivity|].
  assert (LL : length (firstn (i * n) y ++ l ++ skipn (i * n + n) y) = length y).
  { rewrite !app_length, firstn_length, skipn_length, L. lia. }
  split; auto.
  assert (LF : length (firstn (i * n) y) = (i * n)%nat) by (rewrite firstn_length; lia).
  split.
  - apply list_ext_nth with (d := 0); [rewrite part_length; auto|]. intros c Hc. rewrite part_length in Hc.
    change (at_ (part (firstn (i * n) y ++ l ++ skipn (i * n + n) y) n i) c = at_ l c). rewrite part_at by auto. unfold at_.
    rewrite app_nth2 by lia. rewrite LF. replace (i * n + c - i * n)%nat with c by lia. apply app_nth1. lia.
  - intros j Hj. apply list_ext_nth with (d := 0); [rewrite !part_length; auto|]. intros c Hc. rewrite part_length in Hc.
    match goal with |- nth c ?a 0 = nth c ?b 0 => change (at_ a c = at_ b c) end. rewrite !part_at by auto. unfold at_.
    destruct (le_lt_dec j i) as [Hl|Hg].
    + assert (j * n + n <= i * n)%nat by (replace (j * n + n)%nat with (S j * n)%nat by (cbn; lia); apply Nat.mul_le_mono_r; lia).
      rewrite app_nth1 by lia. apply firstn_nth_R. lia.
    + assert (i * n + n <= j * n)%nat by (replace (i * n + n)%nat with (S i * n)%nat by (cbn; lia); apply Nat.mul_le_mono_r; lia).
      rewrite app_nth2 by lia. rewrite app_nth2 by lia. rewrite LF, L, skipn_nth. f_equal. lia.
Qed.
Lemma parts_eq y r n k : length y = (k * n)%nat -> length r = (k * n)%nat -> (forall i, (i < k)%nat -> part y n i = part r n i) -> y = r.
Proof.
  intros L1 L2 H. apply list_ext_nth with (d := 0); [lia|]. intros c Hc. rewrite L1 in Hc.
  assert (Hn : n <> O) by (intros ->; lia).
  assert (Hi : (c / n < k)%nat) by (apply Nat.div_lt_upper_bound; lia). pose proof (Nat.div_mod c n Hn) as D. pose proof (Nat.mod_upper_bound c n Hn) as M.
  assert (E : at_ (part y n (c / n)) (c mod n) = at_ (part r n (c / n)) (c mod n)) by (rewrite H; auto).
  rewrite !part_at in E by auto. replace (c / n * n + c mod n)%nat with c in E by lia. exact E.
Qed.
Lemma part_concat (B : list (list R)) n i : (forall l, In l B -> length l = n) -> (i < length B)%nat -> part (concat B) n i = nth i B [].
Proof.
  intros HB Hi. apply list_ext_nth with (d := 0); [rewrite part_length; symmetry; apply HB, nth_In; auto|]. intros c Hc. rewrite part_length in Hc.
  change (at_ (part (concat B) n i) c = nth c (nth i B []) 0). rewrite part_at by auto. unfold at_. revert i Hi. induction B as [|b B IH]; intros i Hi; [cbn in Hi; lia|].
  cbn [concat]. assert (LB : length b = n) by (apply HB; left; auto). destruct i.
  - cbn. rewrite app_nth1 by lia. auto.
  - cbn [nth]. rewrite app_nth2 by (rewrite LB; cbn; lia). rewrite LB. replace (S i * n + c - n)%nat with (i * n + c)%nat by (cbn; lia).
    apply IH; [intros l Hl; apply HB; right; auto|cbn in Hi; lia].
Qed.
Lemma concat_length_R (B : list (list R)) n : (forall l, In l B -> length l = n) -> length (concat B) = (length B * n)%nat.
Proof. induction B as [|b B IH]; intros H; auto. cbn. rewrite app_length, (H b) by (left; auto). rewrite IH; auto. intros l Hl. apply H. right. auto. Qed.

(** ** The groups of the block *)
Lemma groups_of x cutoff : cutoff_in x cutoff ->
  NoDup (mg_groups (ng (mat x)) (adj x) cutoff) /\ (forall g, In g (mg_groups (ng (mat x)) (adj x) cutoff) <-> krylov_group x cutoff g) /\
  mg_active (ng (mat x)) (adj x) cutoff = block_size x cutoff.
Proof.
  unfold cutoff_in, mg_groups, mg_active, mg_upper, krylov_group, below, block_size. destruct (adj x); intros H.
  - rewrite groups_adjoint. split; [apply NoDup_rev, seq_NoDup|]. split; [|lia]. intros g. rewrite <- in_rev, in_seq, Nat.ltb_ge. lia.
  - rewrite groups_forward by auto. split; [apply seq_NoDup|]. split; [|lia]. intros g. rewrite in_seq, Nat.ltb_ge. lia.
Qed.
Lemma place_lt x cutoff g : krylov_group x cutoff g -> (place x cutoff g < block_size x cutoff)%nat.
Proof. unfold krylov_group, below, place, block_size. destruct (adj x); rewrite Nat.ltb_ge; lia. Qed.
Lemma place_inj x cutoff g g' : krylov_group x cutoff g -> krylov_group x cutoff g' -> place x cutoff g = place x cutoff g' -> g = g'.
Proof. unfold krylov_group, below, place. destruct (adj x); rewrite !Nat.ltb_ge; lia. Qed.
Lemma place_onto x cutoff i : cutoff_in x cutoff -> (i < block_size x cutoff)%nat -> exists g, krylov_group x cutoff g /\ place x cutoff g = i.
Proof.
  unfold cutoff_in, krylov_group, below, place, block_size. destruct (adj x); intros H Hi.
  - exists i. rewrite Nat.ltb_ge. lia.
  - exists (cutoff + i)%nat. rewrite Nat.ltb_ge. lia.
Qed.

(** ** The fluxes *)
Lemma spread_length x cutoff phi v : length (spread x cutoff phi v) = length phi.
Proof. unfold spread. rewrite map_length, seq_length. auto. Qed.
Lemma spread_nth x cutoff phi v g : (g < length phi)%nat ->
  nth g (spread x cutoff phi v) [] = if below x cutoff g then nth g phi [] else part v (cells x) (place x cutoff g).
Proof. intros H. unfold spread. rewrite nth_map_seq by auto. auto. Qed.
Lemma place_fits x cutoff g (v : list R) k : krylov_group x cutoff g -> length v = (block_size x cutoff * k)%nat -> (place x cutoff g * k + k <= length v)%nat.
Proof.
  intros H ->. pose proof (place_lt H) as P. replace (place x cutoff g * k + k)%nat with (S (place x cutoff g) * k)%nat by (cbn; lia). apply Nat.mul_le_mono_r. lia.
Qed.
Lemma fluxes_ok t cutoff v : let x := ssrc (t_x t) in cutoff_in x cutoff -> length (phis t) = ng (mat x) -> length v = (block_size x cutoff * cells x)%nat ->
  mg_fluxes t cutoff v = Ok (spread x cutoff (phis t) v).
Proof.
  intros x HC LP LV. unfold mg_fluxes. fold x. destruct (groups_of HC) as (ND & IN & _). set (gs := mg_groups _ _ _) in *.
  assert (K : forall l phi, NoDup l -> (forall g, In g l -> krylov_group x cutoff g) -> length phi = ng (mat x) ->
    exists phi', foldM (fun phi g => do f <- seg v (mg_slot (adj x) cutoff g * cells x) (cells x); wr phi g f) l phi = Ok phi' /\
      length phi' = length phi /\ forall g, nth g phi' [] = if in_dec Nat.eq_dec g l then part v (cells x) (place x cutoff g) else nth g phi []).
  { induction l as [|g l IH]; intros phi NDl HG L.
    - exists phi. split; auto.
    - cbn [foldM]. change (mg_slot (adj x) cutoff g) with (place x cutoff g). assert (KG : krylov_group x cutoff g) by (apply HG; left; auto).
      rewrite seg_ok by (apply place_fits; auto). cbn [bind]. unfold wr. rewrite L, (proj2 (Nat.ltb_lt _ _) (proj1 KG)). cbn [bind].
      inversion_clear NDl as [|? ? NI ND'].
      destruct (IH (upd phi g (part v (cells x) (place x cutoff g)))) as (phi' & E & L' & V); auto.
      { intros g0 H0. apply HG. right. auto. } { rewrite upd_length. auto. }
      exists phi'. split; auto. split; [rewrite L', upd_length; auto|]. intros g0. rewrite V.
      destruct (in_dec Nat.eq_dec g0 l) as [I|I]; destruct (in_dec Nat.eq_dec g0 (g :: l)) as [I'|I']; auto.
      + exfalso. apply I'. right. auto.
      + destruct I' as [->|I']; [|congruence]. apply nth_upd_eq. destruct KG. lia.
      + apply nth_upd_neq. intros ->. apply I'. left. auto. }
  destruct (K gs (phis t) ND (fun g H => proj1 (IN g) H) LP) as (phi' & E & L & V). rewrite E. f_equal.
  apply list_ext_nth with (d := []); [rewrite spread_length; auto|]. intros g Hg. rewrite L in Hg. rewrite V, spread_nth by auto.
  destruct (in_dec Nat.eq_dec g gs) as [I|I].
  - apply IN in I. rewrite (proj2 I). auto.
  - destruct (below x cutoff g) eqn:B; auto. exfalso. apply I, IN. split; auto. lia.
Qed.

(** ** The sources *)
(** What the block makes for group g, and what is given. *)
Definition block_source (x : swp) (g cutoff : nat) (q : quad) (phi : list (list R)) : nat -> nat -> list R := fun o a =>
  map (fun c => (scatter_sum (ssrc x) phi (fun gp => negb (below (ssrc x) cutoff gp)) g c +
    match fiss x with Some p => if implicit x then fscale p * fission_sum (ssrc x) phi all_groups g c else 0 | None => 0 end) / solid_angle (q_dim q))
    (seq 0 (cells (ssrc x))).
Definition given_source (x : swp) (g cutoff : nat) (q : quad) : nat -> nat -> list R := fun o a =>
  map (fun c => (external x g c + explicit_fission x g c +
      scatter_sum (ssrc x) (Source_Model.flux (ssrc x)) (fun gp => existsb (Nat.eqb gp) (groups (lo (ssrc x) g) cutoff false)) g c) / solid_angle (q_dim q) +
      discrete x g (Angle_Model.index q o a) c) (seq 0 (cells (ssrc x))).

Lemma quiet_discrete x g an c : discrete (quiet x) g an c = 0.
Proof. reflexivity. Qed.
Lemma band_order x m g : mat x = finalize m -> (g < ng (mat x))%nat -> if adj x then (hi x g <= lo x g)%nat else (lo x g <= hi x g)%nat.
Proof. intros EM Hg. unfold lo, hi. rewrite EM in *. destruct (finalize_bounds m) as [_ BA]. specialize (BA g Hg). destruct (adj x); lia. Qed.
Lemma total_table x m g cutoff phi f s : sweep_ready x -> mat (ssrc x) = finalize m -> nonneg_scatter m -> krylov_group (ssrc x) cutoff g ->
  flux_ok (cells (ssrc x)) (ng (mat (ssrc x))) phi -> cutoff_in (ssrc x) cutoff ->
  (cells (ssrc x) <= length f)%nat -> (forall c, (c < cells (ssrc x))%nat -> nth c f 0 = 0) ->
  exists s', build_total_scatter (with_scat (with_fixed x f) s) g cutoff phi = Ok (with_scat (with_fixed x f) s') /\
    (cells (ssrc x) <= length s')%nat /\ forall q, table_of (quiet (with_scat (with_fixed x f) s')) q g (block_source x g cutoff q phi).
Proof.
  intros RD EM NN (Hg & HB) FO HC Lf HF. pose proof RD as (PR & _ & _ & HQ & HI). pose proof FO as (FO1 & FO2).
  unfold build_total_scatter. rewrite (@rd_ok _ phi g []) by lia. cbn [bind with_scat with_fixed ssrc].
  destruct (bounds_range EM Hg) as [B1 B2].
  assert (HI1 : if adj (ssrc x) then (hi (ssrc x) g <= cutoff /\ hi (ssrc x) g <= lo (ssrc x) g)%nat else (cutoff <= hi (ssrc x) g /\ lo (ssrc x) g <= hi (ssrc x) g)%nat).
  { unfold below, cutoff_in, lo, hi in *. rewrite EM in *. destruct (finalize_bounds m) as [_ BA]. specialize (BA g Hg).
    destruct (adj (ssrc x)); apply Nat.ltb_ge in HB; lia. }
  assert (LP : (cells (ssrc x) <= length (repeat 0%R (length (nth g phi []))))%nat) by (rewrite repeat_length; apply FO2; auto).
  destruct (@scat_groups_ok (ssrc x) g (groups cutoff (hi (ssrc x) g) true) phi (repeat 0%R (length (nth g phi [])))) as (s1 & E1 & A1); auto.
  - apply nodup_groups.
  - intros i Hi. apply in_groups in Hi. unfold cutoff_in, below in *. destruct (adj (ssrc x)); apply Nat.ltb_ge in HB; lia.
  - unfold scat_total. rewrite E1. cbn [bind implicit fiss with_scat with_fixed].
    assert (A2 : added (cells (ssrc x)) (scatter_sum (ssrc x) phi (fun gp => negb (below (ssrc x) cutoff gp)) g) (repeat 0%R (length (nth g phi []))) s1).
    { eapply added_ext; [|exact A1]. intros c Hc. cbv beta. apply rsum_ext. intros i Hi.
      destruct (existsb (Nat.eqb i) (groups cutoff (hi (ssrc x) g) true)) eqn:E.
      - apply existsb_in, in_groups in E. replace (below (ssrc x) cutoff i) with false; auto.
        unfold below. destruct (adj (ssrc x)); symmetry; apply Nat.ltb_ge; lia.
      - destruct (below (ssrc x) cutoff i) eqn:Bi; auto. cbn [negb].
        rewrite (@outside_zero (ssrc x) m g i c); auto; [ring|]. intros H.
        apply not_true_iff_false in E. apply E. apply existsb_in, in_groups. unfold below in Bi.
        destruct (adj (ssrc x)); apply Nat.ltb_ge in Bi; split; auto; lia. }
    assert (K : exists s', (if implicit x then match fiss x with Some q => fis_total q g phi s1 | None => UB end else Ok s1) = Ok s' /\ length s' = length s1 /\
       forall c, (c < cells (ssrc x))%nat -> nth c s' 0 = nth c s1 0 +
         match fiss x with Some p => if implicit x then fscale p * fission_sum (ssrc x) phi all_groups g c else 0 | None => 0 end).
    { pose proof (proj1 A2) as L1. destruct (implicit x) eqn:EI.
      - destruct (fiss x) as [p|] eqn:EF; [|exfalso; apply HI; auto]. destruct (HQ p eq_refl) as (Q0 & _ & _).
        destruct (@fis_total_ok p g phi s1) as (s2 & E2 & A3); rewrite ?Q0; auto; [lia|]. rewrite Q0 in A3. exists s2. split; auto. split; [apply A3|].
        intros c Hc. apply (added_val A3); auto. lia.
      - exists s1. split; auto. split; auto. intros c Hc. destruct (fiss x); ring. }
    destruct K as (s' & -> & L' & V'). cbn [bind]. exists s'. split; [reflexivity|].
    pose proof (proj1 A2) as L1. assert (Ls' : (cells (ssrc x) <= length s')%nat) by lia. split; auto.
    intros q o a. unfold src_table.
    destruct (@sweep_source_ok (quiet (with_scat (with_fixed x f) s')) (mtod (q_dim q)) g (Angle_Model.index q o a) (repeat 0%R (cells (ssrc x))))
      as (r & Er & Lr & Vr); cbn [quiet with_scat with_fixed ssrc fixed scat] in *; try lia; [rewrite repeat_length; lia|].
    rewrite Er. unfold block_source. rewrite repeat_length in Lr. apply list_ext_nth with (d := 0%R); [rewrite map_length, seq_length; auto|].
    intros c Hc. rewrite Lr in Hc. rewrite nth_map_seq by auto. rewrite Vr by auto. rewrite HF, V' by auto. rewrite (added_val A2) by auto.
    rewrite nth_repeat, mtod_solid. unfold discrete. cbn [quiet dext map sumR fold_right]. unfold Rdiv. cbn. ring.
Qed.
Lemma given_table x m g cutoff f s : sweep_ready x -> mat (ssrc x) = finalize m -> nonneg_scatter m -> (g < ng (mat (ssrc x)))%nat -> cutoff_in (ssrc x) cutoff ->
  (cells (ssrc x) <= length f)%nat -> (cells (ssrc x) <= length s)%nat -> (forall c, (c < cells (ssrc x))%nat -> nth c s 0 = 0) ->
  exists f', build_fixed_with_downscatter (with_scat (with_fixed x f) s) g cutoff = Ok (with_scat (with_fixed x f') s) /\
    (cells (ssrc x) <= length f')%nat /\ forall q, table_of (with_scat (with_fixed x f') s) q g (given_source x g cutoff q).
Proof.
  intros RD EM NN Hg HC Lf Ls HS. pose proof RD as (PR & _). unfold build_fixed_with_downscatter.
  destruct (@build_fixed_ok (with_scat (with_fixed x f) s) g (ready_tables RD Lf Ls) Hg) as (f1 & E1 & L1 & V1). rewrite E1. cbn [bind].
  cbn [with_scat with_fixed ssrc fixed] in *. destruct (bounds_range EM Hg) as [B1 B2].
  destruct (@scat_groups_ok (ssrc x) g (groups (lo (ssrc x) g) cutoff false) (Source_Model.flux (ssrc x)) f1) as (f2 & E2 & A2); auto.
  - apply PR.
  - lia.
  - apply nodup_groups.
  - intros i Hi. apply in_groups in Hi. destruct Hi as (Hi & Hc). assert (i <> cutoff) by (intros ->; specialize (Hc eq_refl); discriminate).
    unfold cutoff_in in HC. destruct (adj (ssrc x)); lia.
  - unfold scat_down. rewrite E2. cbn [bind]. exists f2. split; [reflexivity|]. pose proof (proj1 A2) as L2. assert (Lf2 : (cells (ssrc x) <= length f2)%nat) by lia.
    split; auto. intros q o a. unfold src_table.
    destruct (@sweep_source_ok (with_scat (with_fixed x f2) s) (mtod (q_dim q)) g (Angle_Model.index q o a) (repeat 0%R (cells (ssrc x))))
      as (r & Er & Lr & Vr); cbn [with_scat with_fixed ssrc fixed scat] in *; try lia; [rewrite repeat_length; lia|].
    rewrite Er. unfold given_source. rewrite repeat_length in Lr. apply list_ext_nth with (d := 0%R); [rewrite map_length, seq_length; auto|].
    intros c Hc. rewrite Lr in Hc. rewrite nth_map_seq by auto. rewrite Vr by auto. rewrite (added_val A2) by (auto; lia). rewrite V1, HS by auto.
    rewrite mtod_solid. change (external (with_scat (with_fixed x f) s) g c) with (external x g c).
    change (explicit_fission (with_scat (with_fixed x f) s) g c) with (explicit_fission x g c).
    change (discrete (with_scat (with_fixed x f2) s) g (Angle_Model.index q o a) c) with (discrete x g (Angle_Model.index q o a) c). unfold Rdiv. ring.
Qed.
(** Together they are the whole source. *)
Lemma sources_join x m g cutoff q v o a c : sweep_ready x -> mat (ssrc x) = finalize m -> nonneg_scatter m -> krylov_group (ssrc x) cutoff g ->
  reaches_cutoff (ssrc x) cutoff -> (c < cells (ssrc x))%nat ->
  let phi := spread (ssrc x) cutoff (Source_Model.flux (ssrc x)) v in
  at_ (emissions x phi q g o a) c = 1 * at_ (given_source x g cutoff q o a) c + 1 * at_ (block_source x g cutoff q phi o a) c.
Proof.
  intros RD EM NN KG RC Hc phi. specialize (RC g KG). pose proof KG as (Hg & HB). pose proof RD as (PR & _). destruct (bounds_range EM Hg) as [B1 B2]. pose proof (band_order EM Hg) as BO.
  unfold emissions, given_source, block_source. rewrite !at_tab by auto. unfold emission.
  assert (S : scatter_sum (ssrc x) phi all_groups g c =
    scatter_sum (ssrc x) (Source_Model.flux (ssrc x)) (fun gp => existsb (Nat.eqb gp) (groups (lo (ssrc x) g) cutoff false)) g c +
    scatter_sum (ssrc x) phi (fun gp => negb (below (ssrc x) cutoff gp)) g c).
  { unfold scatter_sum. rewrite <- rsum_plus. apply rsum_ext. intros i Hi. unfold all_groups.
    assert (FP : below (ssrc x) cutoff i = true -> phi_of phi i c = phi_of (Source_Model.flux (ssrc x)) i c).
    { intros Bi. unfold phi_of, phi. rewrite spread_nth by (destruct PR as (_ & _ & (-> & _)); auto). rewrite Bi. auto. }
    destruct (existsb (Nat.eqb i) (groups (lo (ssrc x) g) cutoff false)) eqn:E.
    - apply existsb_in, in_groups in E. destruct E as [E E'].
      assert (i <> cutoff) by (intros ->; specialize (E' eq_refl); discriminate).
      assert (Bi : below (ssrc x) cutoff i = true) by (unfold below in *; destruct (adj (ssrc x)); apply Nat.ltb_lt; lia).
      rewrite Bi, FP by auto. cbn [negb]. ring.
    - destruct (below (ssrc x) cutoff i) eqn:Bi; cbn [negb]; [|ring].
      rewrite (@outside_zero (ssrc x) m g i c); auto; [ring|]. intros H.
      apply not_true_iff_false in E. apply E. apply existsb_in, in_groups. unfold below in Bi.
      destruct (adj (ssrc x)); apply Nat.ltb_lt in Bi; split; lia. }
  rewrite S. unfold Rdiv. ring.
Qed.

(** ** One group *)
Lemma no_unknowns half b : open_boundary b -> mg_bsize half b = O.
Proof.
  intros OB. unfold mg_bsize. assert (K : forall l, (forall s, In s l -> (s < 2 * q_dim (b_q b))%nat) ->
    list_sum (map (fun s => if is_reflective b s then half s else 0%nat) l) = O).
  { induction l as [|s l IH]; intros H; auto. cbn [map]. assert (E : forall a l, list_sum (a :: l) = (a + list_sum l)%nat) by reflexivity. rewrite E, IH by (intros s' Hs; apply H; right; auto).
    destruct (OB s (H s (or_introl eq_refl))) as (N & _). unfold is_reflective. destruct (b_bc b s); auto; congruence. }
  apply K. intros s Hs. apply in_seq in Hs. lia.
Qed.
Lemma state_mg w m cutoff t : (forall g, krylov_group (ssrc (t_x t)) cutoff g -> wellposed w m g t) -> mg_state w m cutoff t t.
Proof.
  intros H. constructor; auto.
  - exists (fixed (t_x t)), (scat (t_x t)). destruct (t_x t); reflexivity.
  - repeat split; auto.
Qed.
(** A sweep of group g in a state of the solve. *)
Lemma mg_after w m cutoff t u g b f s v : mg_state w m cutoff t u -> krylov_group (ssrc (t_x t)) cutoff g ->
  t_x v = with_scat (with_fixed (t_x t) f) s -> (cells (ssrc (t_x t)) <= length f)%nat -> (cells (ssrc (t_x t)) <= length s)%nat ->
  same_setup (t_b t) b -> t_b v = b -> shaped b (g_nx (w_grid w)) (g_ny (w_grid w)) (g_nz (w_grid w)) ->
  (forall o a, w_keep w = true -> length (t_psi v g o a) = cells (ssrc (t_x t))) ->
  (forall g' o a, g' <> g -> t_psi v g' o a = t_psi u g' o a) ->
  mg_state w m cutoff t v.
Proof.
  intros [PO (f0 & s0 & EU) SU] KG EX Lf Ls SB EB SH LP OP. constructor.
  - intros g' KG'. pose proof (PO g' KG') as WP. pose proof WP as [_ _ _ _ _ _ _ _ (_ & LK)].
    assert (EN : ssrc (t_x u) = ssrc (t_x t)) by (rewrite EU; reflexivity).
    eapply posed_x with (t := with_b u (t_b v)) (f := f) (s := s).
    + eapply posed_b with (t := u) (b := b); eauto. destruct SU as (A1 & A2 & A3), SB as (B1 & B2 & B3). repeat split; congruence.
    + reflexivity.
    + cbn [with_b t_x]. rewrite EX, EU. reflexivity.
    + intros o a HK. cbn [with_b t_x]. rewrite EN. destruct (Nat.eq_dec g' g) as [->|Ne]; [auto|]. rewrite OP, <- EN by auto. auto.
    + cbn [with_b t_x]. rewrite EN. auto.
    + cbn [with_b t_x]. rewrite EN. auto.
  - exists f, s. auto.
  - rewrite EB. auto.
Qed.

Lemma mg_group_ok w m cutoff half t u g phi x y : mg_state w m cutoff t u -> open_boundary (t_b t) -> krylov_group (ssrc (t_x t)) cutoff g ->
  cutoff_in (ssrc (t_x t)) cutoff -> length phi = ng (mat (ssrc (t_x t))) -> (forall gp, (gp < ng (mat (ssrc (t_x t))))%nat -> length (nth gp phi []) = cells (ssrc (t_x t))) ->
  let n := cells (ssrc (t_x t)) in let i := place (ssrc (t_x t)) cutoff g in
  length x = (block_size (ssrc (t_x t)) cutoff * n)%nat -> length y = (block_size (ssrc (t_x t)) cutoff * n)%nat ->
  exists v y' F, mg_group w (mg_bsize half (t_b t)) cutoff phi x (u, y) g = Ok (v, y') /\ mg_state w m cutoff t v /\ length y' = length y /\
    (forall c, (c < n)%nat -> at_ (part y' n i) c = at_ (part x n i) c - at_ F c) /\ (forall j, j <> i -> part y' n j = part y n j) /\
    (forall s o a, valid (t_b t) s o a g -> enters (q_dim (b_q (t_b t))) s o -> no_face (bflux (t_b v) s o a g)) /\
    flows w (ssrc (t_x t)) g (t_b v) (block_source (t_x t) g cutoff (b_q (t_b t)) phi) F.
Proof.
  intros MS OB KG HC LP LPn n i LX LY. pose proof MS as [PO (f0 & s0 & EU) SU]. pose proof (PO g KG) as WP.
  assert (EN : ssrc (t_x u) = ssrc (t_x t)) by (rewrite EU; reflexivity). pose proof SU as (U1 & U2 & U3).
  unfold mg_group. rewrite EN. fold n. change (mg_slot (adj (ssrc (t_x t))) cutoff g) with i.
  destruct (clear_ok WP) as (b & Eb & SS & Sh & Z & O). rewrite Eb. cbn [bind].
  pose proof (open_same (open_same OB SU) SS) as OB1. rewrite (no_reflective OB1). cbn [bind].
  pose proof WP as [RD (EM & NN) (Hg & Hgb) (Q & QE) _ _ _ _ (_ & LK)].
  destruct (reset_ok RD) as (f & s & Er & Lf & Ls & ZZ). rewrite Er. cbn [bind].
  assert (Lf' : (n <= length f)%nat) by (rewrite Lf; unfold n; rewrite <- EN; apply RD).
  assert (FO : flux_ok (cells (ssrc (t_x t))) (ng (mat (ssrc (t_x t)))) phi) by (split; [auto|intros gp Hgp; rewrite LPn; auto]).
  destruct (@total_table (t_x u) m g cutoff phi f s) as (s' & Ew & Lw & TB); rewrite ?EN; auto.
  { rewrite <- EN. auto. }
  { intros c Hc. rewrite <- EN in Hc. apply ZZ; auto. }
  rewrite Ew. cbn [bind]. rewrite (@rd_ok _ phi g []) by (rewrite LP; apply KG). cbn [bind].
  rewrite EN in Lw.
  set (t1 := with_x (with_b u b) (quiet (with_scat (with_fixed (t_x u) f) s'))).
  assert (E1 : ssrc (t_x t1) = ssrc (t_x t)) by (cbn; auto).
  assert (SWb : sweepable w g (ssrc (t_x t)) b) by (eapply sweepable_same; [rewrite <- EN; apply (posed_sweepable WP)|exact SS|exact Sh]).
  destruct (@sweep_flows w g t1 (nth g phi []) (block_source (t_x t) g cutoff (b_q (t_b t)) phi)) as (v & F & Es & EX & SV & SW & IN & LQ & OQ & OT & FL).
  { rewrite E1. exact SWb. } { rewrite E1. apply LPn. apply KG. } { rewrite E1, <- EN. exact LK. }
  { intros o a. cbn. destruct SS as (-> & _). rewrite U1. rewrite (TB (b_q (t_b t)) o a). rewrite EU. reflexivity. }
  { intros o a. unfold block_source. rewrite map_length, seq_length, E1. reflexivity. }
  rewrite E1 in *. rewrite Es. cbn [bind].
  rewrite seg_ok by (apply (@place_fits (ssrc (t_x t)) cutoff g x n); auto). cbn [bind].
  pose proof FL as (_ & _ & LF & _). fold n in LF.
  destruct (@put_ok y n i (map (fun p => fst p - snd p) (combine (part x n i) F))) as (y' & Ey & Ly & Py & Oy).
  { apply (@place_fits (ssrc (t_x t)) cutoff g y n); auto. } { rewrite map_length, combine_length, part_length. lia. }
  rewrite Ey. cbn [bind]. cbn [with_x t_b].
  assert (SV' : same_setup (t_b t) (t_b v)).
  { cbn in SV. destruct SS as (A1 & A2 & A3), SV as (B1 & B2 & B3). repeat split; congruence. }
  rewrite (no_reflective (open_same OB SV')).
  exists (with_x v (with_scat (with_fixed (t_x u) f) s')), y', F. split; auto. split.
  { eapply mg_after with (u := u) (g := g) (f := f) (s := s') (b := t_b v); eauto.
    - cbn [with_x t_x]. rewrite EU. reflexivity.
    - apply SW. }
  split; auto. split.
  { intros c Hc. rewrite Py. apply minus_at; rewrite part_length; auto. }
  split; auto. split; auto.
  - intros s1 o1 a1 V EN1. cbn [with_x t_b].
    assert (V1 : valid (t_b u) s1 o1 a1 g) by (unfold valid in *; rewrite U1, U2; auto).
    assert (V2 : valid b s1 o1 a1 g) by (unfold valid in *; destruct SS as (-> & -> & _); auto).
    rewrite IN; [|exact V2|cbn; destruct SS as (-> & _); rewrite U1; auto]. cbn. rewrite Z by auto. apply dark_no_face.
Qed.

Lemma rhs_group_ok w m tol cutoff t u g B : wellposed w m g t -> mg_state w m cutoff t u -> open_boundary (t_b t) -> krylov_group (ssrc (t_x t)) cutoff g ->
  cutoff_in (ssrc (t_x t)) cutoff -> let n := cells (ssrc (t_x t)) in let i := place (ssrc (t_x t)) cutoff g in
  length B = block_size (ssrc (t_x t)) cutoff -> (forall l, In l B -> length l = n) ->
  exists v r, rhs_group w tol cutoff (u, B) g = Ok (v, upd B i r) /\ mg_state w m cutoff t v /\ length r = n /\
    given_entering (t_b t) (t_b v) g /\ sweepable w g (ssrc (t_x t)) (t_b v) /\
    flows w (ssrc (t_x t)) g (t_b v) (given_source (t_x t) g cutoff (b_q (t_b t))) r.
Proof.
  intros WPT MS OB KG HC n i LB LBn. pose proof MS as [PO (f0 & s0 & EU) SU]. pose proof (PO g KG) as WP.
  assert (EN : ssrc (t_x u) = ssrc (t_x t)) by (rewrite EU; reflexivity). pose proof SU as (U1 & U2 & U3).
  unfold rhs_group. rewrite EN. change (mg_slot (adj (ssrc (t_x t))) cutoff g) with i.
  destruct (clear_ok WP) as (b & Eb & SS & Sh & Z & O). rewrite Eb. cbn [bind].
  assert (WPb : wellposed w m g (with_b u b)) by (eapply posed_b with (b := b); eauto).
  destruct (set_ok WPb) as (b1 & Eb1 & FT & Sh1). cbn [with_b t_b] in Eb1, FT. rewrite Eb1. cbn [bind].
  destruct FT as (SS1 & FX & OX).
  pose proof WP as [RD (EM & NN) (Hg & Hgb) (Q & QE) _ _ (ShU & _) _ (_ & LK)].
  destruct (reset_ok RD) as (f & s & Er & Lf & Ls & ZZ). rewrite Er. cbn [bind].
  assert (Lf' : (n <= length f)%nat) by (rewrite Lf; unfold n; rewrite <- EN; apply RD).
  assert (Ls' : (n <= length s)%nat) by (rewrite Ls; unfold n; rewrite <- EN; apply RD).
  destruct (@given_table (t_x u) m g cutoff f s) as (f' & Ef & Lff & TB); rewrite ?EN; auto.
  { rewrite <- EN. auto. }
  { apply KG. } { intros c Hc. rewrite <- EN in Hc. apply ZZ; auto. }
  rewrite Ef. cbn [bind]. rewrite EN in Lff.
  assert (SSb : same_setup (t_b u) b1).
  { destruct SS as (A1 & A2 & A3), SS1 as (B1 & B2 & B3). repeat split; congruence. }
  assert (HiB : (i < length B)%nat) by (rewrite LB; apply place_lt; auto).
  rewrite (@rd_ok _ B i []) by auto. cbn [bind].
  rewrite (no_reflective (open_same (open_same OB SU) SSb)).
  set (t1 := with_x (with_b u b1) (with_scat (with_fixed (t_x u) f') s)).
  assert (E1 : ssrc (t_x t1) = ssrc (t_x t)) by (cbn; auto).
  assert (SWb : sweepable w g (ssrc (t_x t)) b1) by (eapply sweepable_same; [rewrite <- EN; apply (posed_sweepable WP)|exact SSb|exact Sh1]).
  destruct (@sweep_flows w g t1 (nth i B []) (given_source (t_x t) g cutoff (b_q (t_b t)))) as (v & F & Es & EX & SV & SW & IN & LQ & OQ & OT & FL).
  { rewrite E1. exact SWb. } { rewrite E1. apply LBn, nth_In; auto. } { rewrite E1, <- EN. exact LK. }
  { intros o a. cbn. destruct SSb as (-> & _). rewrite U1. rewrite (TB (b_q (t_b t)) o a). rewrite EU. reflexivity. }
  { intros o a. unfold given_source. rewrite map_length, seq_length, E1. reflexivity. }
  rewrite E1 in *. rewrite Es. cbn [bind]. unfold wr. rewrite (proj2 (Nat.ltb_lt _ _) HiB). cbn [bind].
  assert (SV' : same_setup (t_b t) (t_b v)).
  { cbn in SV. destruct SSb as (A1 & A2 & A3), SV as (B1 & B2 & B3). repeat split; congruence. }
  pose proof FL as (_ & _ & LF & _).
  exists v, F. split; auto. split.
  { eapply mg_after with (u := u) (g := g) (f := f') (s := s) (b := t_b v); eauto.
    - rewrite EX. cbn [with_x t_x t1]. rewrite EU. reflexivity.
    - apply SW. }
  split; auto. split; [|split; auto].
  pose proof SSb as (A1 & A2 & A3). pose proof SS as (G1 & G2 & G3). split; auto. split.
  - intros s1 l io o a psi Hs HB HI Hio Ha. rewrite <- U1 in Hs, HI, Ha. destruct (incident_enters Q Hs HI Hio) as (Ho & EN1).
    rewrite IN; [|unfold valid, t1; cbn; rewrite A1, A2; auto|cbn; rewrite A1; auto].
    cbn. apply (FX s1 l io o a psi); rewrite ?G1, ?G3; auto. rewrite U3; auto.
  - intros s1 o a V EN1 NF. assert (V1 : valid (t_b u) s1 o a g) by (unfold valid in *; rewrite U1, U2; auto). rewrite <- U1 in EN1.
    rewrite IN; [|unfold valid, t1 in *; cbn; rewrite A1, A2; auto|cbn; rewrite A1; auto].
    cbn. rewrite OX; [rewrite Z by auto|unfold valid in *; rewrite G1, G2; auto|rewrite G3, U3; auto].
    apply dark_shape. rewrite ShU by auto. rewrite U1. symmetry. destruct WPT as [_ _ _ _ _ _ (ShT & _) _ _]. apply ShT. auto.
Qed.

(** ** All groups of the block *)
Definition operated (w : sweeper) (t : tstate) (cutoff : nat) (phi : list (list R)) (g : nat) (F : list R) : Prop :=
  exists b, same_setup (t_b t) b /\
    (forall s o a, valid (t_b t) s o a g -> enters (q_dim (b_q (t_b t))) s o -> no_face (bflux b s o a g)) /\
    flows w (ssrc (t_x t)) g b (block_source (t_x t) g cutoff (b_q (t_b t)) phi) F.
Definition righted (w : sweeper) (t : tstate) (cutoff g : nat) (r : list R) : Prop :=
  exists b, given_entering (t_b t) b g /\ sweepable w g (ssrc (t_x t)) b /\ flows w (ssrc (t_x t)) g b (given_source (t_x t) g cutoff (b_q (t_b t))) r.
Lemma mg_all_ok w m cutoff half t phi x : open_boundary (t_b t) ->
  cutoff_in (ssrc (t_x t)) cutoff -> length phi = ng (mat (ssrc (t_x t))) -> (forall gp, (gp < ng (mat (ssrc (t_x t))))%nat -> length (nth gp phi []) = cells (ssrc (t_x t))) ->
  let n := cells (ssrc (t_x t)) in let pl := place (ssrc (t_x t)) cutoff in
  length x = (block_size (ssrc (t_x t)) cutoff * n)%nat -> forall gs u y, NoDup gs -> (forall g, In g gs -> krylov_group (ssrc (t_x t)) cutoff g) ->
  mg_state w m cutoff t u -> length y = (block_size (ssrc (t_x t)) cutoff * n)%nat ->
  exists v y', foldM (mg_group w (mg_bsize half (t_b t)) cutoff phi x) gs (u, y) = Ok (v, y') /\ mg_state w m cutoff t v /\ length y' = length y /\
    (forall g, In g gs -> exists F, operated w t cutoff phi g F /\ forall c, (c < n)%nat -> at_ (part y' n (pl g)) c = at_ (part x n (pl g)) c - at_ F c) /\
    (forall j, (forall g, In g gs -> pl g <> j) -> part y' n j = part y n j).
Proof.
  intros OB HC LP LPn n pl LX. induction gs as [|g gs IH]; intros u y ND HG MS LY.
  - exists u, y. cbn [foldM]. do 3 (split; auto). split; [intros g []|auto].
  - inversion_clear ND as [|? ? NI ND']. cbn [foldM]. assert (KG : krylov_group (ssrc (t_x t)) cutoff g) by (apply HG; left; auto).
    destruct (@mg_group_ok w m cutoff half t u g phi x y MS OB KG HC LP LPn LX LY) as (u1 & y1 & F & E & MS1 & L1 & V1 & O1 & D1 & FL1).
    rewrite E. cbn [bind]. destruct (IH u1 y1 ND') as (v & y' & E2 & MS2 & L2 & V2 & O2); auto; [intros g' Hg'; apply HG; right; auto|congruence|].
    exists v, y'. split; auto. split; auto. split; [congruence|]. split.
    + intros g' [<-|Hg']; [|apply V2; auto]. exists F. split; [exists (t_b u1); split; [apply MS1|auto]|].
      intros c Hc. rewrite O2; [apply V1; auto|]. intros g' Hg' EP. apply NI.
      rewrite (@place_inj (ssrc (t_x t)) cutoff g g'); auto. apply HG. right. auto.
    + intros j Hj. rewrite O2 by (intros g' Hg'; apply Hj; right; auto). apply O1. intros ->. apply (Hj g); [left; auto|reflexivity].
Qed.
Lemma rhs_all_ok w m tol cutoff t : (forall g, krylov_group (ssrc (t_x t)) cutoff g -> wellposed w m g t) -> open_boundary (t_b t) ->
  cutoff_in (ssrc (t_x t)) cutoff -> let n := cells (ssrc (t_x t)) in let pl := place (ssrc (t_x t)) cutoff in
  forall gs u B, NoDup gs -> (forall g, In g gs -> krylov_group (ssrc (t_x t)) cutoff g) ->
  mg_state w m cutoff t u -> length B = block_size (ssrc (t_x t)) cutoff -> (forall l, In l B -> length l = n) ->
  exists v B', foldM (rhs_group w tol cutoff) gs (u, B) = Ok (v, B') /\ mg_state w m cutoff t v /\ length B' = length B /\ (forall l, In l B' -> length l = n) /\
    (forall g, In g gs -> righted w t cutoff g (nth (pl g) B' [])) /\
    (forall j, (forall g, In g gs -> pl g <> j) -> nth j B' [] = nth j B []).
Proof.
  intros WP OB HC n pl. induction gs as [|g gs IH]; intros u B ND HG MS LB LBn.
  - exists u, B. cbn [foldM]. do 4 (split; auto). split; [intros g []|auto].
  - inversion_clear ND as [|? ? NI ND']. cbn [foldM]. assert (KG : krylov_group (ssrc (t_x t)) cutoff g) by (apply HG; left; auto).
    destruct (@rhs_group_ok w m tol cutoff t u g B (WP g KG) MS OB KG HC LB LBn) as (u1 & r & E & MS1 & L1 & GE & SW & FL1).
    rewrite E. cbn [bind]. assert (Hi : (pl g < length B)%nat) by (rewrite LB; apply place_lt; auto).
    destruct (IH u1 (upd B (pl g) r) ND') as (v & B' & E2 & MS2 & L2 & LN & V2 & O2); auto.
    { intros g' Hg'. apply HG. right. auto. } { rewrite upd_length. auto. }
    { intros l Hl. apply In_nth with (d := []) in Hl. destruct Hl as (j & Hj & <-). rewrite upd_length in Hj.
      destruct (Nat.eq_dec (pl g) j) as [<-|Ne]; [rewrite nth_upd_eq; auto|rewrite nth_upd_neq by auto; apply LBn, nth_In; auto]. }
    rewrite upd_length in L2. exists v, B'. do 4 (split; auto). split.
    + intros g' [<-|Hg']; [|apply V2; auto]. rewrite O2.
      * rewrite nth_upd_eq by auto. exists (t_b u1). auto.
      * intros g' Hg' EP. apply NI. rewrite (@place_inj (ssrc (t_x t)) cutoff g g'); auto. apply HG. right. auto.
    + intros j Hj. rewrite O2 by (intros g' Hg'; apply Hj; right; auto). apply nth_upd_neq. apply Hj. left. auto.
Qed.

Lemma mg_multiply_ok w m cutoff half t u x y0 : (forall g, krylov_group (ssrc (t_x t)) cutoff g -> wellposed w m g t) -> mg_state w m cutoff t u -> open_boundary (t_b t) ->
  cutoff_in (ssrc (t_x t)) cutoff -> (forall gp, (gp < ng (mat (ssrc (t_x t))))%nat -> length (nth gp (phis t) []) = cells (ssrc (t_x t))) ->
  length (phis t) = ng (mat (ssrc (t_x t))) ->
  let n := cells (ssrc (t_x t)) in let k := block_size (ssrc (t_x t)) cutoff in
  length x = (k * n)%nat -> length y0 = (k * n)%nat ->
  exists u' y, mg_multiply w (mg_bsize half (t_b t)) cutoff u x y0 = Ok (u', y) /\ mg_state w m cutoff t u' /\ length y = (k * n)%nat /\
    forall g, krylov_group (ssrc (t_x t)) cutoff g -> exists F, operated w t cutoff (spread (ssrc (t_x t)) cutoff (phis t) x) g F /\
      forall c, (c < n)%nat -> at_ (part y n (place (ssrc (t_x t)) cutoff g)) c = at_ (part x n (place (ssrc (t_x t)) cutoff g)) c - at_ F c.
Proof.
  intros WP MS OB HC LPn LP n k LX LY. pose proof MS as [_ (f0 & s0 & EU) _].
  assert (EN : ssrc (t_x u) = ssrc (t_x t)) by (rewrite EU; reflexivity). assert (EP : phis u = phis t) by (unfold phis; rewrite EN; auto).
  unfold mg_multiply. rewrite fluxes_ok; rewrite ?EN, ?EP; auto. cbn [bind]. destruct (groups_of HC) as (ND & IN & _).
  destruct (@mg_all_ok w m cutoff half t (spread (ssrc (t_x t)) cutoff (phis t) x) x OB HC) with (gs := mg_groups (ng (mat (ssrc (t_x t)))) (adj (ssrc (t_x t))) cutoff) (u := u) (y := y0)
    as (v & y' & E & MS' & L & V & _); auto.
  - rewrite spread_length. auto.
  - intros gp Hgp. rewrite spread_nth by lia. destruct (below _ _ _); [auto|apply part_length].
  - intros g Hg. apply IN. auto.
  - exists v, y'. split; auto. split; auto. split; [unfold n, k in *; congruence|]. intros g KG. apply V, IN. auto.
Qed.
Lemma mg_rhs_ok w m tol cutoff half t : (forall g, krylov_group (ssrc (t_x t)) cutoff g -> wellposed w m g t) -> open_boundary (t_b t) ->
  cutoff_in (ssrc (t_x t)) cutoff ->
  let n := cells (ssrc (t_x t)) in let k := block_size (ssrc (t_x t)) cutoff in
  exists t1 r, mg_rhs w tol (mg_bsize half (t_b t)) cutoff t = Ok (t1, r) /\ mg_state w m cutoff t t1 /\ length r = (k * n)%nat /\
    forall g, krylov_group (ssrc (t_x t)) cutoff g -> righted w t cutoff g (part r n (place (ssrc (t_x t)) cutoff g)).
Proof.
  intros WP OB HC n k. unfold mg_rhs. destruct (groups_of HC) as (ND & IN & AC). rewrite AC. rewrite no_unknowns by auto. rewrite Nat.mul_0_r. fold k n.
  assert (RP : forall l, In l (repeat (repeat 0%R n) k) -> length l = n) by (intros l Hl; apply repeat_spec in Hl; subst l; apply repeat_length).
  destruct (@rhs_all_ok w m tol cutoff t WP OB HC) with (gs := mg_groups (ng (mat (ssrc (t_x t)))) (adj (ssrc (t_x t))) cutoff) (u := t) (B := repeat (repeat 0%R n) k)
    as (v & B & E & MS' & L & LN & V & _); auto.
  - intros g Hg. apply IN. auto.
  - apply state_mg. auto.
  - apply repeat_length.
  - rewrite E. cbn [bind repeat]. rewrite app_nil_r. rewrite repeat_length in L. exists v, (concat B). split; auto. split; auto.
    split; [rewrite (concat_length_R LN), L; auto|]. intros g KG. rewrite part_concat; auto; [apply V, IN; auto|]. rewrite L. apply place_lt. auto.
Qed.

(** ** The source of any fluxes *)
Lemma posed_phis w m g t phi : wellposed w m g t -> length phi = ng (mat (ssrc (t_x t))) ->
  (forall gp, (gp < ng (mat (ssrc (t_x t))))%nat -> length (nth gp phi []) = cells (ssrc (t_x t))) -> wellposed w m g (with_x t (with_phis (t_x t) phi)).
Proof.
  intros [A1 A2 A3 A4 A5 A6 A7 A8 (B1 & B2)] L LN. constructor; auto.
  - apply ready_phis; auto. intros g0 Hg0. rewrite LN; auto.
  - split; auto. cbn. apply LN. apply A3.
Qed.
Lemma with_same phi g : with_group phi g (nth g phi []) = phi.
Proof.
  apply list_ext_nth with (d := []); [apply with_group_length|]. intros gp H. rewrite with_group_length in H. rewrite with_group_nth by auto.
  destruct (Nat.eqb_spec gp g); subst; auto.
Qed.
Lemma emission_phis x phi0 phi dim g an c : emission (with_phis x phi0) phi dim g an c = emission x phi dim g an c.
Proof. unfold emission, explicit_fission. cbn [with_phis fiss implicit ssrc]. destruct (fiss x) as [q|]; reflexivity. Qed.
Lemma any_flows w m g t b phi : wellposed w m g t -> sweepable w g (ssrc (t_x t)) b -> b_q b = b_q (t_b t) ->
  length phi = ng (mat (ssrc (t_x t))) -> (forall gp, (gp < ng (mat (ssrc (t_x t))))%nat -> length (nth gp phi []) = cells (ssrc (t_x t))) ->
  exists b' F, same_setup b b' /\ sweepable w g (ssrc (t_x t)) b' /\
    (forall s o a, valid b s o a g -> enters (q_dim (b_q b)) s o -> bflux b' s o a g = bflux b s o a g) /\
    flows w (ssrc (t_x t)) g b' (emissions (t_x t) phi (b_q (t_b t)) g) F.
Proof.
  intros WP SW EQ L LN. pose proof WP as [RD _ (Hg & _) _ _ _ _ _ _]. set (t1 := with_x t (with_phis (t_x t) phi)).
  assert (SW1 : sweepable w g (ssrc (t_x t1)) b).
  { destruct SW as ((P1 & P2 & P3) & SW). split; [|exact SW]. split; [exact P1|]. split; [exact P2|]. split; [exact L|]. intros g0 Hg0. cbn in *. rewrite LN; auto. }
  destruct (@full_flows w m g t1 b (t_x t1) (nth g phi []) (posed_phis WP L LN) SW1 EQ) as (b' & F & SS & SW' & IN & FL); auto.
  { apply (posed_phis WP L LN). }
  exists b', F. split; auto. split.
  { destruct SW' as (_ & SW'). split; [apply SW|exact SW']. }
  split; auto. change (phis t1) with phi in FL. rewrite with_same in FL. destruct FL as (P & A & B & C). exists P. split; [|split; auto].
  intros o a Ho Ha. eapply equation_ext; [|apply (A o a Ho Ha)]. cbv beta. unfold emissions. apply map_ext_in. intros c Hc. apply emission_phis.
Qed.

(** ** The linear system of the block *)
Theorem mg_system w m tol cutoff half t : cutoff_in (ssrc (t_x t)) cutoff -> (forall g, krylov_group (ssrc (t_x t)) cutoff g -> wellposed w m g t) ->
  open_boundary (t_b t) -> (forall g, (g < ng (mat (ssrc (t_x t))))%nat -> length (nth g (phis t) []) = cells (ssrc (t_x t))) -> length (phis t) = ng (mat (ssrc (t_x t))) ->
  reaches_cutoff (ssrc (t_x t)) cutoff ->
  let k := (block_size (ssrc (t_x t)) cutoff * cells (ssrc (t_x t)))%nat in let nb := mg_bsize half (t_b t) in
  exists t1 r, mg_rhs w tol nb cutoff t = Ok (t1, r) /\ mg_state w m cutoff t t1 /\ length r = k /\
  forall u x y0, mg_state w m cutoff t u -> length x = k -> length y0 = k ->
  exists u' y, mg_multiply w nb cutoff u x y0 = Ok (u', y) /\ mg_state w m cutoff t u' /\ length y = k /\
  (y = r <-> mg_flux w (t_x t) (t_b t) (krylov_group (ssrc (t_x t)) cutoff) (spread (ssrc (t_x t)) cutoff (phis t) x)).
Proof.
  intros HC WP OB LPn LP RC k nb. destruct (@mg_rhs_ok w m tol cutoff half t WP OB HC) as (t1 & r & E & MS1 & Lr & VR). exists t1, r. do 3 (split; auto).
  intros u x y0 MS LX LY. destruct (@mg_multiply_ok w m cutoff half t u x y0 WP MS OB HC LPn LP LX LY) as (u' & y & E' & MS' & Ly & VY). exists u', y. do 3 (split; auto).
  set (n := cells (ssrc (t_x t))) in *. set (phi := spread (ssrc (t_x t)) cutoff (phis t) x) in *. set (pl := place (ssrc (t_x t)) cutoff) in *.
  assert (LH : length phi = ng (mat (ssrc (t_x t)))) by (unfold phi; rewrite spread_length; auto).
  assert (LHn : forall gp, (gp < ng (mat (ssrc (t_x t))))%nat -> length (nth gp phi []) = n).
  { intros gp Hgp. unfold phi. rewrite spread_nth by lia. destruct (below _ _ _); [apply LPn; auto|apply part_length]. }
  assert (EACH : forall g, krylov_group (ssrc (t_x t)) cutoff g -> (part y n (pl g) = part r n (pl g) <->
    exists b', given_entering (t_b t) b' g /\ transported w (t_x t) g b' phi (nth g phi []))).
  { intros g KG. pose proof (WP g KG) as W. pose proof W as [RD (EM & NN) (Hg & Hgb) (Q & QE) _ _ _ _ _].
    destruct (VR g KG) as (b1 & GE & SW & FL). destruct (VY g KG) as (F & (b2 & SS2 & DK & FL2) & VF). pose proof GE as ((S1 & S2 & S3) & GF & GZ).
    destruct (@any_flows w m g t b1 phi W SW S1 LH LHn) as (b3 & F3 & SS3 & SW3 & IN3 & FL3). pose proof SS3 as (C1 & C2 & C3). pose proof SS2 as (D1 & D2 & D3).
    assert (Q1 : sn_quad (b_q b1)) by (rewrite S1; auto). assert (Hgb1 : (g < b_ng b1)%nat) by (rewrite S2; auto).
    assert (ADD : forall c, (c < n)%nat -> at_ F3 c = at_ (part r n (pl g)) c + 1 * at_ F c).
    { refine (@flows_add w (ssrc (t_x t)) g b1 b2 b3 _ _ _ _ F F3 1 SW _ SS3 _ _ _ FL FL2 FL3).
      - repeat split; congruence.
      - intros o a Ho Ha. rewrite S1 in *. apply dark_ins with (b := t_b t); auto.
      - intros o a Ho Ha. apply ins_kept; auto.
      - intros o a c Ho Ha Hc. apply (@sources_join (t_x t) m); auto. }
    assert (GE3 : given_entering (t_b t) b3 g).
    { split; [repeat split; congruence|]. split.
      - intros s0 l io o a psi Hs HB HI Hio Ha. destruct (incident_enters Q Hs HI Hio) as (Ho & EN).
        rewrite IN3; [eapply GF; eauto|unfold valid; rewrite S1, S2; auto|rewrite S1; auto].
      - intros s0 o a V EN NF. rewrite IN3; [auto|unfold valid in *; rewrite S1, S2; auto|rewrite S1; auto]. }
    pose proof FL3 as (_ & _ & L3 & _). pose proof FL2 as (_ & _ & L2 & _). fold n in L2, L3.
    assert (XG : nth g phi [] = part x n (pl g)) by (unfold phi; rewrite spread_nth by lia; rewrite (proj2 KG); auto).
    assert (EQ : part y n (pl g) = part r n (pl g) <-> F3 = nth g phi []).
    { rewrite XG. split.
      - intros EY. apply list_ext_nth with (d := 0); [rewrite part_length; auto|]. intros c Hc. rewrite L3 in Hc.
        change (at_ F3 c = at_ (part x n (pl g)) c). rewrite ADD by auto. specialize (VF c Hc). rewrite EY in VF. lra.
      - intros EF. apply list_ext_nth with (d := 0); [rewrite !part_length; auto|]. intros c Hc. rewrite part_length in Hc.
        change (at_ (part y n (pl g)) c = at_ (part r n (pl g)) c). rewrite VF by auto. rewrite <- EF, ADD by auto. ring. }
    rewrite EQ. split.
    - intros <-. exists b3. split; auto. unfold transported. unfold flows in FL3. rewrite C1, S1 in FL3 |- *. exact FL3.
    - intros (b4 & GE4 & TR). pose proof GE4 as ((H1 & H2 & H3) & _). unfold transported in TR. rewrite H1 in TR.
      assert (TR' : flows w (ssrc (t_x t)) g b4 (emissions (t_x t) phi (b_q (t_b t)) g) (nth g phi [])) by (unfold flows; rewrite H1; exact TR).
      refine (@flows_det w (ssrc (t_x t)) g b3 b4 _ F3 _ SW3 _ _ FL3 TR').
      + repeat split; congruence.
      + rewrite C1, S1. intros o a Ho Ha. apply (given_ins Q Hgb GE3 GE4); auto. }
  split.
  - intros -> g KG. apply EACH; auto.
  - intros MF. apply parts_eq with (n := n) (k := block_size (ssrc (t_x t)) cutoff); auto. intros i Hi.
    destruct (place_onto HC Hi) as (g & KG & <-). apply EACH; auto.
Qed.

(** Copied into the state, the fluxes of all groups are a solution, when the
    other groups were solved and take nothing from the block. *)
Lemma emission_apart x phi phi' dim g an c : (c < cells (ssrc x))%nat ->
  (forall gp, (gp < ng (mat (ssrc x)))%nat -> nth gp phi [] = nth gp phi' [] \/ takes_nothing x g gp) -> emission x phi dim g an c = emission x phi' dim g an c.
Proof.
  intros Hc H. unfold emission. f_equal. f_equal. f_equal.
  - f_equal. destruct (fiss x) as [q|]; auto. destruct (implicit x) eqn:EI; auto. f_equal. apply rsum_ext. intros gp Hgp. unfold all_groups, phi_of.
    destruct (H gp Hgp) as [->|T]; auto. destruct (T c Hc) as (_ & ->); auto. ring.
  - apply rsum_ext. intros gp Hgp. unfold all_groups, phi_of. destruct (H gp Hgp) as [->|T]; auto. destruct (T c Hc) as (-> & _). ring.
Qed.
Theorem mg_complete w m cutoff t u x : let y := ssrc (t_x t) in cutoff_in y cutoff -> length (phis t) = ng (mat y) -> mg_state w m cutoff t u ->
  length x = (block_size y cutoff * cells y)%nat ->
  mg_flux w (t_x t) (t_b t) (fun g => (g < ng (mat y))%nat /\ below y cutoff g = true) (phis t) ->
  (forall g gp, below y cutoff g = true -> krylov_group y cutoff gp -> takes_nothing (t_x t) g gp) ->
  mg_flux w (t_x t) (t_b t) (krylov_group y cutoff) (spread y cutoff (phis t) x) ->
  exists t', mg_copy cutoff u x = Ok t' /\ phis t' = spread y cutoff (phis t) x /\ mg_flux w (t_x t) (t_b t) (fun g => (g < ng (mat y))%nat) (phis t').
Proof.
  intros y HC LP [_ (f & s & EU) _] LX SB TN SK. assert (EN : ssrc (t_x u) = ssrc (t_x t)) by (rewrite EU; reflexivity).
  assert (EP : phis u = phis t) by (unfold phis; rewrite EN; auto).
  assert (FX : mg_fluxes u cutoff x = Ok (spread y cutoff (phis t) x)) by (rewrite fluxes_ok; rewrite ?EN, ?EP; auto).
  unfold mg_copy. rewrite FX. cbn [bind]. eexists. split; [reflexivity|]. split; [reflexivity|].
  match goal with |- mg_flux _ _ _ _ ?p => change p with (spread y cutoff (phis t) x) end.
  intros g Hg. destruct (below y cutoff g) eqn:HB; [|apply SK; split; auto].
  destruct (SB g (conj Hg HB)) as (b' & GE & P & A & B & C). exists b'. split; auto.
  rewrite spread_nth by (rewrite LP; auto). rewrite HB. exists P. split; [|split; auto]. intros o a Ho Ha. eapply equation_ext; [|apply (A o a Ho Ha)].
  cbv beta. unfold emissions. apply map_ext_in. intros c Hc. apply in_seq in Hc. apply emission_apart; [lia|]. intros gp Hgp. fold y in Hgp.
  rewrite spread_nth by (rewrite LP; auto). destruct (below y cutoff gp) eqn:HB'; auto. right. apply TN; auto. split; auto.
Qed.
