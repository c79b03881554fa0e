(** * Proofs about the within-group Krylov operator and its right hand side *)
From Verif Require Import Base BaseR Loop Util_Model Angle_Model Angle_Spec Boundary_Model Boundary_Spec Boundary_Proofs Mesh_Model Mesh_Proofs
  Material_Model Material_Spec Source_Model Source_Spec Source_Proofs SourceAll_Proofs Cell_Model Cell_Spec Sweep_Model Sweep_Spec Sweep_Proofs
  SweepAll_Proofs SweepBalance_Proofs SweepLinear_Proofs Iter_Model Iter_Spec Pi_Spec Iter_Proofs IterConv_Proofs Gs_Proofs Pi_Proofs PiLinear_Proofs Wg_Spec.
Set Implicit Arguments. Unset Strict Implicit.
Open Scope R_scope.
Local Notation idx := Mesh_Model.index.

(** ** One direction *)
Lemma split_cell nx ny nz c : (c < nx * ny * nz)%nat -> exists i j k, (i < nx)%nat /\ (j < ny)%nat /\ (k < nz)%nat /\ idx nx ny i j k = c.
Proof. intros Hc. destruct (@index_total _ _ _ _ Hc) as (A & B & C & D). eauto 10. Qed.
Section Eqn.
Variables (E : eqn) (G : grid) (ds : list dir) (nq : nat).
Hypotheses (HG : grid_ok (eq_dim E) G) (HS : sig_ok (eq_strict E) G) (HD : dirs_ok (eq_dim E) nq ds).
Local Notation n := (cells_of (eq_dim E) G).

(** Adding the fluxes of a source without entering fluxes. *)
Lemma equation_add al s s' s'' o a ins ins' outs outs' p p' : Forall no_face ins' ->
  equation E G ds s o a ins outs p -> equation E G ds s' o a ins' outs' p' ->
  (forall c, (c < n)%nat -> at_ (s'' o a) c = 1 * at_ (s o a) c + al * at_ (s' o a) c) ->
  exists outs'', equation E G ds s'' o a ins outs'' (fun c => 1 * p c + al * p' c).
Proof.
  intros Z EQ EQ' HQ. pose proof (@dir_at E ds nq HD) as DA. destruct E as [e|e|]; cbn [equation eq_dim eq_strict] in *.
  - destruct EQ as (d & x & y & Hd & -> & -> & S1), EQ' as (d' & x' & y' & Hd' & -> & -> & S2).
    rewrite Hd in Hd'. injection Hd' as <-. specialize (DA a d Hd).
    inversion_clear Z as [|? ? Z1 _]. inversion_clear Z1 as [|? ? Z2 _]. inversion_clear Z2 as [|? ? Z3 _]. subst x'.
    exists [[[1 * y + al * y']]], d, x, (1 * y + al * y'). do 3 (split; auto).
    pose proof (@solves1_lin 1 al e G d _ _ _ _ _ _ _ _ _ (s'' o a) HG HS DA S1 S2) as L.
    replace (1 * x + al * 0) with x in L by ring. apply L.
    intros i Hi. apply HQ. unfold cells_of. cbn. lia.
  - destruct EQ as (d & v & h & v1 & h1 & Hd & -> & -> & S1), EQ' as (d' & v' & h' & v1' & h1' & Hd' & -> & -> & S2).
    rewrite Hd in Hd'. injection Hd' as <-.
    inversion_clear Z as [|? ? Z1 Z2]. inversion_clear Z2 as [|? ? Z3 _]. inversion_clear Z1 as [|? ? Z4 _]. inversion_clear Z3 as [|? ? Z5 _].
    exists [[map (fun c => 1 * at_ v1 c + al * at_ v1' c) (seq 0 (g_ny G))]; [map (fun c => 1 * at_ h1 c + al * at_ h1' c) (seq 0 (g_nx G))]],
      d, v, h, (map (fun c => 1 * at_ v1 c + al * at_ v1' c) (seq 0 (g_ny G))), (map (fun c => 1 * at_ h1 c + al * at_ h1' c) (seq 0 (g_nx G))).
    do 3 (split; auto). eapply (@solves2_lin 1 al e G d); [exact S1|exact S2| | |].
    + intros i j Hi Hj c. apply HQ. unfold c, cells_of. cbn. pose proof (index_lt Hi Hj Nat.lt_0_1). lia.
    + intros j Hj. rewrite at_tab by auto. rewrite (at_zero j Z4). split; [ring|auto].
    + intros j Hj. rewrite at_tab by auto. rewrite (at_zero j Z5). split; [ring|auto].
  - destruct EQ as (d & x & y & z & x1 & y1 & z1 & Hd & -> & -> & S1), EQ' as (d' & x' & y' & z' & x1' & y1' & z1' & Hd' & -> & -> & S2).
    rewrite Hd in Hd'. injection Hd' as <-.
    inversion_clear Z as [|? ? Z1 Z2]. inversion_clear Z2 as [|? ? Z3 Z4]. inversion_clear Z4 as [|? ? Z5 _].
    set (mix := fun (f f' : list (list R)) r c => map (fun k => map (fun j => 1 * at2 f k j + al * at2 f' k j) (seq 0 c)) (seq 0 r)).
    assert (MX : forall f f' r c k j, (k < r)%nat -> (j < c)%nat -> at2 (mix f f' r c) k j = 1 * at2 f k j + al * at2 f' k j).
    { intros f f' r c k j Hk Hj. unfold mix. unfold at2 at 1. rewrite nth_map_seq by auto. rewrite nth_map_seq by auto. auto. }
    exists [mix x1 x1' (g_nz G) (g_ny G); mix y1 y1' (g_nz G) (g_nx G); mix z1 z1' (g_ny G) (g_nx G)], d, x, y, z, (mix x1 x1' (g_nz G) (g_ny G)), (mix y1 y1' (g_nz G) (g_nx G)), (mix z1 z1' (g_ny G) (g_nx G)).
    do 3 (split; auto). eapply (@solves3_lin 1 al G d); [exact S1|exact S2| | | |].
    + intros i j k Hi Hj Hk c. apply HQ. unfold c, cells_of. cbn. pose proof (index_lt Hi Hj Hk). lia.
    + intros j k Hj Hk. rewrite MX by auto. rewrite !(at2_zero _ _ Z1). split; [ring|auto].
    + intros j k Hj Hk. rewrite MX by auto. rewrite !(at2_zero _ _ Z3). split; [ring|auto].
    + intros j k Hj Hk. rewrite MX by auto. rewrite !(at2_zero _ _ Z5). split; [ring|auto].
Qed.

(** Source and entering fluxes determine the fluxes. *)
Lemma equation_det s o a ins outs outs' p p' :
  equation E G ds s o a ins outs p -> equation E G ds s o a ins outs' p' ->
  forall c, (c < n)%nat -> p c = p' c.
Proof.
  intros EQ EQ' c Hc. pose proof (@dir_at E ds nq HD) as DA. destruct E as [e|e|]; cbn [equation eq_dim eq_strict] in *.
  - destruct EQ as (d & x & y & Hd & -> & -> & S1), EQ' as (d' & x' & y' & Hd' & Hx & -> & S2).
    rewrite Hd in Hd'. injection Hd' as <-. injection Hx as <-. unfold cells_of in Hc. cbn in Hc.
    eapply (@solves1_unique e G d); [exact HG|exact HS|apply (DA a d Hd)| |exact S1|exact S2|]; lia.
  - destruct EQ as (d & v & h & v1 & h1 & Hd & -> & -> & S1), EQ' as (d' & v' & h' & v1' & h1' & Hd' & Hx & -> & S2).
    rewrite Hd in Hd'. injection Hd' as <-. injection Hx as <- <-.
    assert (Hc' : (c < g_nx G * g_ny G * 1)%nat) by (unfold cells_of in Hc; cbn in Hc; lia).
    destruct (split_cell Hc') as (i & j & k & Hi & Hj & Hk & <-). assert (k = 0)%nat by lia. subst k.
    assert (K := @solves2_unique e G d _ _ _ HG HS (DA a d Hd) _ _ _ _ _ _ _ _ ltac:(lia) ltac:(lia) S1 S2).
    apply K; auto.
  - destruct EQ as (d & x & y & z & x1 & y1 & z1 & Hd & -> & -> & S1), EQ' as (d' & x' & y' & z' & x1' & y1' & z1' & Hd' & Hx & -> & S2).
    rewrite Hd in Hd'. injection Hd' as <-. injection Hx as <- <- <-.
    assert (Hc' : (c < g_nx G * g_ny G * g_nz G)%nat) by (unfold cells_of in Hc; cbn in Hc; lia).
    destruct (split_cell Hc') as (i & j & k & Hi & Hj & Hk & <-).
    assert (K := @solves3_unique G d _ _ _ _ _ _ _ _ _ _ _ _ _ _ _ HG HS (DA a d Hd) ltac:(lia) ltac:(lia) ltac:(lia) S1 S2).
    apply K; auto.
Qed.
End Eqn.

(** ** The flux of a source *)
Definition flows (w : sweeper) (y : src) (g : nat) (b : bsn) (src : nat -> nat -> list R) (F : list R) : Prop :=
  exists P : nat -> nat -> nat -> R,
  (forall o a, (o < q_noct (b_q b))%nat -> (a < q_nao (b_q b))%nat ->
    equation (w_eq w) (group_grid (w_grid w) y g) (w_dirs w) src o a (ins_of b o a g) (outs_of b o a g) (P o a)) /\
  length F = cells y /\
  forall c, (c < cells y)%nat ->
    at_ F c = rsum (q_noct (b_q b)) (fun o => rsum (q_nao (b_q b)) (fun a => weight (w_dirs w) a * P o a c)).

Lemma flows_add w y g b b' b'' s s' s'' F F' F'' al : sweepable w g y b ->
  same_setup b b' -> same_setup b b'' ->
  (forall o a, (o < q_noct (b_q b))%nat -> (a < q_nao (b_q b))%nat -> Forall no_face (ins_of b' o a g)) ->
  (forall o a, (o < q_noct (b_q b))%nat -> (a < q_nao (b_q b))%nat -> ins_of b'' o a g = ins_of b o a g) ->
  (forall o a c, (o < q_noct (b_q b))%nat -> (a < q_nao (b_q b))%nat -> (c < cells y)%nat ->
     at_ (s'' o a) c = 1 * at_ (s o a) c + al * at_ (s' o a) c) ->
  flows w y g b s F -> flows w y g b' s' F' -> flows w y g b'' s'' F'' ->
  forall c, (c < cells y)%nat -> at_ F'' c = at_ F c + al * at_ F' c.
Proof.
  intros SW (E1 & _) (E2 & _) Z I HS (P & A1 & A2 & A3) (P' & B1 & B2 & B3) (P'' & C1 & C2 & C3) c Hc.
  pose proof SW as (_ & Hg & Hgb & Q & ED & GO & SO & NC & DO & _). rewrite E1 in *. rewrite E2 in *.
  rewrite A3, B3, C3 by auto. rewrite <- rsum_scal, <- rsum_plus. apply rsum_ext. intros o Ho. rewrite <- rsum_scal, <- rsum_plus. apply rsum_ext. intros a Ha.
  assert (CE : cells_of (eq_dim (w_eq w)) (group_grid (w_grid w) y g) = cells y) by (rewrite ED, NC; reflexivity).
  destruct (@equation_add (w_eq w) (group_grid (w_grid w) y g) (w_dirs w) (q_nao (b_q b)) ltac:(rewrite ED; auto) SO ltac:(rewrite ED; auto)
    al s s' s'' o a _ _ _ _ _ _ (Z o a Ho Ha) (A1 o a Ho Ha) (B1 o a Ho Ha)) as (u & X).
  { intros d Hd. rewrite CE in Hd. auto. }
  pose proof (C1 o a Ho Ha) as Y. rewrite (I o a Ho Ha) in Y.
  rewrite (@equation_det (w_eq w) (group_grid (w_grid w) y g) (w_dirs w) (q_nao (b_q b)) ltac:(rewrite ED; auto) SO ltac:(rewrite ED; auto)
    s'' o a _ _ _ _ _ Y X c) by (rewrite CE; auto). ring.
Qed.
Lemma flows_det w y g b b' s F F' : sweepable w g y b -> same_setup b b' ->
  (forall o a, (o < q_noct (b_q b))%nat -> (a < q_nao (b_q b))%nat -> ins_of b' o a g = ins_of b o a g) ->
  flows w y g b s F -> flows w y g b' s F' -> F = F'.
Proof.
  intros SW (E1 & _) I (P & A1 & A2 & A3) (P' & B1 & B2 & B3).
  pose proof SW as (_ & Hg & Hgb & Q & ED & GO & SO & NC & DO & _). rewrite E1 in *.
  apply list_ext_nth with (d := 0); [congruence|]. intros c Hc. rewrite A2 in Hc.
  change (at_ F c = at_ F' c). rewrite A3, B3 by auto. apply rsum_ext. intros o Ho. apply rsum_ext. intros a Ha. f_equal.
  assert (CE : cells_of (eq_dim (w_eq w)) (group_grid (w_grid w) y g) = cells y) by (rewrite ED, NC; reflexivity).
  pose proof (B1 o a Ho Ha) as Y. rewrite (I o a Ho Ha) in Y.
  apply (@equation_det (w_eq w) (group_grid (w_grid w) y g) (w_dirs w) (q_nao (b_q b)) ltac:(rewrite ED; auto) SO ltac:(rewrite ED; auto)
    s o a _ _ _ _ _ (A1 o a Ho Ha) Y c). rewrite CE. auto.
Qed.

(** A sweep without updates computes it. *)
Lemma ins_kept b b' o a g : sn_quad (b_q b) -> (g < b_ng b)%nat -> same_setup b b' ->
  (forall s o a, valid b s o a g -> enters (q_dim (b_q b)) s o -> bflux b' s o a g = bflux b s o a g) ->
  (o < q_noct (b_q b))%nat -> (a < q_nao (b_q b))%nat -> ins_of b' o a g = ins_of b o a g.
Proof. intros Q Hg SS H Ho Ha. apply (@incoming_ins b b' g o a); auto. split; auto. Qed.

Lemma sweep_flows w g t phi src :
  sweepable w g (ssrc (t_x t)) (t_b t) -> length phi = cells (ssrc (t_x t)) ->
  (forall o a, w_keep w = true -> length (t_psi t g o a) = cells (ssrc (t_x t))) ->
  table_of (t_x t) (b_q (t_b t)) g src -> (forall o a, length (src o a) = cells (ssrc (t_x t))) ->
  exists t' F, do_sweep w false g t phi = Ok (t', F) /\ t_x t' = t_x t /\ same_setup (t_b t) (t_b t') /\
    sweepable w g (ssrc (t_x t)) (t_b t') /\
    (forall s o a, valid (t_b t) s o a g -> enters (q_dim (b_q (t_b t))) s o -> bflux (t_b t') s o a g = bflux (t_b t) s o a g) /\
    (forall o a, w_keep w = true -> length (t_psi t' g o a) = cells (ssrc (t_x t))) /\
    (forall g' o a, g' <> g -> t_psi t' g' o a = t_psi t g' o a) /\
    (forall s o a g', valid (t_b t) s o a g' -> g' <> g -> bflux (t_b t') s o a g' = bflux (t_b t) s o a g') /\
    flows w (ssrc (t_x t)) g (t_b t') src F.
Proof.
  intros SW Lp Lk TB LS. destruct (@do_sweep_ok w false g t phi src SW Lp Lk TB LS) as (b' & F & psi' & E & X & SW' & LQ).
  exists {| t_b := b'; t_x := t_x t; t_psi := put1 (t_psi t) g psi'; t_sweeps := S (t_sweeps t) |}, F.
  cbn [t_b t_x t_psi]. destruct X as [S1 S2 (P & S3 & S4 & S5) S6 _ _]. pose proof S1 as (E1 & E2 & E3).
  split; auto. split; auto. split; auto. split; auto. split; [intros; apply S6; auto|]. split.
  { intros o a HK. unfold put1. rewrite Nat.eqb_refl. auto. }
  split.
  { intros g' o a Hg. unfold put1. destruct (Nat.eqb_spec g' g); [congruence|auto]. }
  split; auto.
  exists P. rewrite E1. split; [|split]; auto. intros o a Ho Ha. apply S3; auto.
Qed.

(** ** The tables *)
Lemma reset_ok x : sweep_ready x -> exists f s, sweep_reset x = Ok (with_scat (with_fixed x f) s) /\
  length f = length (fixed x) /\ length s = length (scat x) /\
  (forall c, (c < cells (ssrc x))%nat -> nth c f 0 = 0 /\ nth c s 0 = 0).
Proof.
  intros (_ & Lf & Ls & _). unfold sweep_reset. destruct (zero_cells_ok Lf) as (f & E1 & L1 & Z1), (zero_cells_ok Ls) as (s & E2 & L2 & Z2).
  rewrite E1, E2. cbn [bind]. exists f, s. auto 10.
Qed.
Lemma ready_tables x f s : sweep_ready x -> (cells (ssrc x) <= length f)%nat -> (cells (ssrc x) <= length s)%nat ->
  sweep_ready (with_scat (with_fixed x f) s).
Proof. intros (A & B & C & D & E) Lf Ls. split; [exact A|]. split; [exact Lf|]. split; [exact Ls|]. split; auto. Qed.

(** The source the flux phi of group g makes in its own group. *)
Definition own_source (x : swp) (g : nat) (q : quad) (phi : list R) : nat -> nat -> list R := fun o a =>
  map (fun c => self_transfer x g c * at_ phi c / solid_angle (q_dim q) + discrete x g (Angle_Model.index q o a) c) (seq 0 (cells (ssrc x))).

Lemma build_own x0 g phi f s : sweep_ready x0 -> (g < ng (mat (ssrc x0)))%nat -> length phi = cells (ssrc x0) ->
  (cells (ssrc x0) <= length f)%nat -> (cells (ssrc x0) <= length s)%nat -> (forall c, (c < cells (ssrc x0))%nat -> nth c f 0 = 0) ->
  exists s', build_within_group_scatter (with_scat (with_fixed x0 f) s) g phi = Ok (with_scat (with_fixed x0 f) s') /\
    (cells (ssrc x0) <= length s')%nat /\ forall q, table_of (with_scat (with_fixed x0 f) s') q g (own_source x0 g q phi).
Proof.
  intros RD Hg Lp Lf Ls HF. set (P := with_group (Source_Model.flux (ssrc x0)) g phi).
  assert (LF : length (Source_Model.flux (ssrc x0)) = ng (mat (ssrc x0))) by apply RD.
  assert (LP : length P = ng (mat (ssrc x0))) by (unfold P; rewrite with_group_length; auto).
  assert (NP : nth g P [] = phi) by (unfold P; rewrite with_group_nth, Nat.eqb_refl; auto; lia).
  set (x1 := with_scat (with_fixed x0 f) s).
  destruct (@within_scatter_ok (with_phis x1 P) g) as (s' & E & L & V).
  { apply ready_phis; auto.
    - apply ready_tables; auto.
    - intros gp Hgp. change (ssrc x1) with (ssrc x0) in *. unfold P. rewrite with_group_nth by lia.
      destruct (gp =? g)%nat; [lia|]. apply RD. auto. }
  { exact Hg. }
  cbn [with_phis x1 ssrc Source_Model.flux src_flux] in E. rewrite NP in E. rewrite within_phis in E.
  destruct (build_within_group_scatter x1 g phi) as [x2| |] eqn:E2; cbn [bind] in E; try discriminate.
  assert (X2 : exists s2, x2 = with_scat x1 s2).
  { unfold build_within_group_scatter in E2.
    destruct (zero_cells (cells (ssrc x1)) (scat x1)) as [v| |]; cbn [bind] in E2; try discriminate.
    destruct (scat_within (ssrc x1) g phi v) as [v0| |]; cbn [bind] in E2; try discriminate.
    destruct (if implicit x1 then match fiss x1 with Some q => fis_within q g phi v0 | None => UB end else Ok v0);
      cbn [bind] in E2; try discriminate. inversion E2. eexists. reflexivity. }
  destruct X2 as (s2 & ->). assert (s2 = s') by (inversion E; auto). subst s2.
  exists s'. split; [reflexivity|]. assert (Ls' : (cells (ssrc x0) <= length s')%nat) by (cbn in L; lia). split; auto.
  intros q o a. unfold src_table.
  destruct (@sweep_source_ok (with_scat (with_fixed x0 f) s') (mtod (q_dim q)) g (Angle_Model.index q o a) (repeat 0%R (cells (ssrc x0))))
    as (r & Er & Lr & Vr); cbn [with_scat with_fixed ssrc fixed scat] in *; try lia; [rewrite repeat_length; lia|].
  rewrite Er. unfold own_source. rewrite repeat_length in Lr. apply list_ext_nth with (d := 0%R); [rewrite map_length, seq_length; auto|].
  intros c Hc. rewrite Lr in Hc. rewrite nth_map_seq by auto. rewrite Vr, HF, V by auto. rewrite mtod_solid.
  assert (S1 : forall xs : nat -> R, rsum (ng (mat (ssrc x0))) (fun gp => if (g =? gp)%nat then phi_of P gp c * xs gp else 0) = at_ phi c * xs g).
  { intros xs. transitivity (rsum (ng (mat (ssrc x0))) (fun gp => if (gp =? g)%nat then phi_of P gp c * xs gp else 0)).
    - apply rsum_ext. intros i Hi. rewrite Nat.eqb_sym. auto.
    - rewrite (@pick_group (ng (mat (ssrc x0))) g (fun gp => phi_of P gp c * xs gp) Hg). unfold phi_of. rewrite NP. auto. }
  unfold implicit_fission, scatter_sum, fission_sum, self_transfer, discrete.
  cbn [with_phis x1 with_scat with_fixed fiss implicit ssrc Source_Model.flux src_flux dext mat].
  change (transfer_xs (src_flux (ssrc x0) P) c g) with (transfer_xs (ssrc x0) c g). rewrite S1.
  destruct (fiss x0) as [q0|]; cbn [option_map]; [destruct (implicit x0)|]; unfold Rdiv; try ring.
  change (fission_xs (src_flux (ssrc x0) P) c g) with (fission_xs (ssrc x0) c g). rewrite S1. cbn [fis_flux fscale]. ring.
Qed.

(** The tables of the right hand side. *)
Lemma build_fixed_table x0 m g : sweep_ready x0 -> mat (ssrc x0) = finalize m -> nonneg_scatter m -> (g < ng (mat (ssrc x0)))%nat ->
  forall f s, (cells (ssrc x0) <= length f)%nat -> (cells (ssrc x0) <= length s)%nat -> (forall c, (c < cells (ssrc x0))%nat -> nth c s 0 = 0) ->
  exists f', build_fixed_with_scatter (with_scat (with_fixed x0 f) s) g = Ok (with_scat (with_fixed x0 f') s) /\
    (cells (ssrc x0) <= length f')%nat /\
    forall q, table_of (with_scat (with_fixed x0 f') s) q g
      (emissions x0 (with_group (Source_Model.flux (ssrc x0)) g (repeat 0 (cells (ssrc x0)))) q g).
Proof.
  intros RD EM NN Hg f s Lf Ls HZ. pose proof (ready_tables RD Lf Ls) as RD1.
  destruct (@fixed_with_scatter_ok (with_scat (with_fixed x0 f) s) m g) as (f' & E & L & V); auto.
  exists f'. split; auto. cbn [with_scat with_fixed fixed] in L. assert (Lf' : (cells (ssrc x0) <= length f')%nat) by lia. split; auto.
  intros q. apply sources_table; auto. exists f', s. split; [reflexivity|]. split; auto. split; auto. split.
  - intros c Hc. rewrite V by auto. reflexivity.
  - intros c Hc. rewrite HZ by auto.
    assert (S1 : forall xs : nat -> R, rsum (ng (mat (ssrc x0))) (fun gp => if (g =? gp)%nat then
        phi_of (with_group (Source_Model.flux (ssrc x0)) g (repeat 0 (cells (ssrc x0)))) gp c * xs gp else 0) = 0).
    { intros xs. apply rsum_zero. intros gp Hgp. destruct (Nat.eqb_spec g gp); auto. subst gp. unfold phi_of.
      rewrite with_group_nth by (rewrite (proj1 (proj2 (proj2 (proj1 RD)))); auto). rewrite Nat.eqb_refl, nth_repeat. ring. }
    unfold scatter_sum, fission_sum. rewrite S1. destruct (fiss x0); [destruct (implicit x0); [rewrite S1|]|]; ring.
Qed.

(** The two add up to the source with directional sources counted twice. *)
Lemma discrete_twice x g an c : discrete (twice_directed x) g an c = discrete x g an c + discrete x g an c.
Proof. unfold discrete. cbn [twice_directed dext]. rewrite map_app, sumR_app. auto. Qed.
Lemma sources_add x q g phi f o a c : sweep_ready x -> (g < ng (mat (ssrc x)))%nat -> length phi = ng (mat (ssrc x)) -> (c < cells (ssrc x))%nat ->
  at_ (emissions (twice_directed x) (with_group phi g f) q g o a) c =
  1 * at_ (emissions x (with_group phi g (repeat 0 (cells (ssrc x)))) q g o a) c + 1 * at_ (own_source x g q f o a) c.
Proof.
  intros RD Hg L Hc. unfold emissions, own_source. rewrite !at_tab by auto.
  pose proof (@emission_diff x phi (q_dim q) g (Angle_Model.index q o a) c f (repeat 0 (cells (ssrc x))) RD Hg L) as D.
  unfold at_ at 2 in D. rewrite nth_repeat in D. rewrite Rminus_0_r in D.
  assert (T : emission (twice_directed x) (with_group phi g f) (q_dim q) g (Angle_Model.index q o a) c =
    emission x (with_group phi g f) (q_dim q) g (Angle_Model.index q o a) c + discrete x g (Angle_Model.index q o a) c).
  { unfold emission. rewrite discrete_twice. cbn [twice_directed ssrc fiss implicit].
    change (external (twice_directed x) g c) with (external x g c). change (explicit_fission (twice_directed x) g c) with (explicit_fission x g c). ring. }
  rewrite T. lra.
Qed.

(** ** The states *)
Lemma posed_b w m g t u b : wellposed w m g t -> t_x u = t_x t -> (forall o a, t_psi u g o a = t_psi t g o a) -> t_b u = b -> same_setup (t_b t) b ->
  shaped b (g_nx (w_grid w)) (g_ny (w_grid w)) (g_nz (w_grid w)) -> wellposed w m g u.
Proof.
  intros [A1 A2 A3 A4 A5 A6 (B1 & B2 & B3) A8 A9] EX EP EB (S1 & S2 & S3) Sh.
  constructor; rewrite ?EX, ?EB, ?S1, ?S2; auto.
  - split; auto. split; [|rewrite S3; auto]. intros s psi io a. rewrite S1, S3. apply B2.
  - unfold phis in *. rewrite EX. destruct A9 as (H1 & H2). split; auto. intros o a HK. rewrite EP. auto.
Qed.
Lemma posed_x w m g t u f s : wellposed w m g t -> t_b u = t_b t -> t_x u = with_scat (with_fixed (t_x t) f) s ->
  (forall o a, w_keep w = true -> length (t_psi u g o a) = cells (ssrc (t_x t))) ->
  (cells (ssrc (t_x t)) <= length f)%nat -> (cells (ssrc (t_x t)) <= length s)%nat -> wellposed w m g u.
Proof.
  intros [A1 A2 A3 A4 A5 A6 A7 A8 A9] EB EX HP Lf Ls.
  constructor; rewrite ?EB; auto; try (rewrite EX; cbn [with_scat with_fixed ssrc]; assumption).
  - rewrite EX. apply ready_tables; auto.
  - unfold phis in *. rewrite EX. cbn [with_scat with_fixed ssrc]. split; [apply A9|auto].
Qed.
Lemma posed_sweepable w m g t : wellposed w m g t -> sweepable w g (ssrc (t_x t)) (t_b t).
Proof.
  intros [RD (EM & NN) (Hg & Hgb) (Q & QE) (G1 & G2 & G3 & G4) D (Sh & FS & PR) OR (LF & LK)].
  unfold sweepable. do 11 (split; [assumption || apply RD|]). assumption.
Qed.

(** ** The boundary *)
Lemma dark_face (f f' : face) : map (@length R) f' = map (@length R) f -> (forall row x, In row f' -> In x row -> x = 0) ->
  f' = map (map (fun _ => 0)) f.
Proof.
  revert f. induction f' as [|r' f' IH]; intros [|r f] L Z; try discriminate; auto. cbn [map] in *. injection L as L1 L2. f_equal.
  - assert (ZR : forall x, In x r' -> x = 0) by (intros x; apply (Z r' x); left; auto). clear - L1 ZR. revert r L1.
    induction r' as [|v r' IH]; intros [|v0 r] L; try discriminate; auto. cbn in *. f_equal; [apply ZR; auto|apply IH; auto].
  - apply IH; auto. intros row x H. apply Z. right. auto.
Qed.
Lemma dark_no_face (f : face) : no_face (map (map (fun _ => 0)) f).
Proof. apply Forall_forall. intros r Hr. apply in_map_iff in Hr. destruct Hr as (r0 & <- & _). apply Forall_forall. intros v Hv. apply in_map_iff in Hv. destruct Hv as (v0 & <- & _). auto. Qed.
Lemma dark_length (f : face) : map (@length R) (map (map (fun _ => 0)) f) = map (@length R) f.
Proof. rewrite map_map. apply map_ext. intros. apply map_length. Qed.
Lemma dark_shape (f f' : face) : map (@length R) f = map (@length R) f' -> map (map (fun _ => 0)) f = map (map (fun _ => 0)) f'.
Proof.
  revert f'. induction f as [|r f IH]; intros [|r' f'] L; try discriminate; auto. cbn [map] in *. injection L as L1 L2. f_equal; auto.
  clear - L1. revert r' L1. induction r; intros [|v r'] L; try discriminate; auto. cbn in *. f_equal. auto.
Qed.

Lemma clear_ok w m g t : wellposed w m g t ->
  exists b, bsn_clear (t_b t) g = Ok b /\ same_setup (t_b t) b /\ shaped b (g_nx (w_grid w)) (g_ny (w_grid w)) (g_nz (w_grid w)) /\
  (forall s o a, valid (t_b t) s o a g -> bflux b s o a g = map (map (fun _ => 0)) (bflux (t_b t) s o a g)) /\
  (forall s o a g', valid (t_b t) s o a g' -> g' <> g -> bflux b s o a g' = bflux (t_b t) s o a g').
Proof.
  intros [_ _ (_ & Hg) (Q & _) _ _ (Sh & _) _ _]. destruct (clear_group Q Hg) as (b & E & SS & Z & O). exists b. split; auto. split; auto.
  pose proof SS as (S1 & S2 & S3).
  assert (Z' : forall s o a, valid (t_b t) s o a g -> bflux b s o a g = map (map (fun _ => 0)) (bflux (t_b t) s o a g)).
  { intros s o a V. destruct (Z s o a V) as (A & B). apply dark_face; auto. }
  split; [|split; auto]. intros s o a g' V. assert (V' : valid (t_b t) s o a g') by (unfold valid in *; rewrite S1, S2 in V; exact V).
  rewrite S1. destruct (Nat.eq_dec g' g) as [->|Ne]; [rewrite Z', dark_length by auto|rewrite O by auto]; apply Sh; auto.
Qed.
Lemma no_reflective b : open_boundary b -> has_reflective b = false.
Proof.
  intros OB. unfold has_reflective. destruct (existsb _ _) eqn:E; auto. apply existsb_exists in E. destruct E as (s & Hs & H).
  apply in_seq in Hs. destruct (OB s ltac:(lia)) as (N & _). unfold is_reflective in H. destruct (b_bc b s); congruence.
Qed.
Lemma open_same b b' : open_boundary b -> same_setup b b' -> open_boundary b'.
Proof. intros OB (S1 & S2 & S3) s. rewrite S1, S3. apply OB. Qed.
Lemma dark_ins b b' o a g : sn_quad (b_q b) -> (g < b_ng b)%nat -> same_setup b b' ->
  (forall s o a, valid b s o a g -> enters (q_dim (b_q b)) s o -> no_face (bflux b' s o a g)) ->
  (o < q_noct (b_q b))%nat -> (a < q_nao (b_q b))%nat -> Forall no_face (ins_of b' o a g).
Proof.
  intros Q Hg (S1 & S2 & S3) H Ho Ha. unfold ins_of. rewrite S1. apply Forall_forall. intros f Hf.
  apply in_map_iff in Hf. destruct Hf as (y & <- & Hy). apply in_seq in Hy.
  assert (Ho' : (o < 2 ^ q_dim (b_q b))%nat) by (destruct Q as (_ & <- & _); auto).
  apply H; [|apply in_side_enters; auto]. repeat split; auto. apply in_side_lt. lia.
Qed.

Lemma incident_enters q s l io o : sn_quad q -> (s < 2 * q_dim q)%nat -> incident_octant q s = Ok l -> nth_error l io = Some o ->
  (o < q_noct q)%nat /\ enters (q_dim q) s o.
Proof.
  intros (Hd & Hn & Hna & Hi & Ho) Hs HI Hio. destruct (inc_table_spec Hd Hs) as (i & u & T1 & _ & _ & _ & T5 & _).
  unfold incident_octant in HI. rewrite Hi, T1 in HI. injection HI as <-. apply nth_error_In in Hio. apply T5 in Hio.
  split; auto. rewrite Hn. apply Hio.
Qed.

(** ** The operator and the right hand side *)
Definition clean (w : sweeper) (g : nat) (t t' : tstate) : Prop :=
  forall s o a g', valid (t_b t) s o a g' -> g' <> g -> bflux (t_b t') s o a g' = bflux (t_b t) s o a g'.

Lemma multiply_ok w m g t x : wellposed w m g t -> open_boundary (t_b t) -> length x = cells (ssrc (t_x t)) ->
  exists u F, wg_multiply w g t x = Ok (u, map (fun p => fst p - snd p) (combine x F)) /\ wellposed w m g u /\
    (exists f s, t_x u = with_scat (with_fixed (t_x t) f) s) /\ same_setup (t_b t) (t_b u) /\ clean w g t u /\
    (forall s o a, valid (t_b t) s o a g -> enters (q_dim (b_q (t_b t))) s o -> bflux (t_b u) s o a g = map (map (fun _ => 0)) (bflux (t_b t) s o a g)) /\
    flows w (ssrc (t_x t)) g (t_b u) (own_source (t_x t) g (b_q (t_b t)) x) F.
Proof.
  intros WP OB LX. unfold wg_multiply. destruct (clear_ok WP) as (b & Eb & SS & Sh & Z & O). rewrite Eb. cbn [bind].
  pose proof (open_same OB SS) as OB1. rewrite (no_reflective OB1). cbn [bind].
  pose proof WP as [RD (EM & NN) (Hg & Hgb) (Q & QE) _ _ _ _ (_ & LK)].
  destruct (reset_ok RD) as (f & s & Er & Lf & Ls & ZZ). rewrite Er. cbn [bind].
  rewrite firstn_all2 by lia.
  assert (Lf' : (cells (ssrc (t_x t)) <= length f)%nat) by (rewrite Lf; apply RD).
  assert (Ls' : (cells (ssrc (t_x t)) <= length s)%nat) by (rewrite Ls; apply RD).
  destruct (@build_own (t_x t) g x f s RD Hg LX Lf' Ls' (fun c Hc => proj1 (ZZ c Hc))) as (s' & Ew & Lw & TB). rewrite Ew. cbn [bind].
  set (t1 := with_x (with_b t b) (with_scat (with_fixed (t_x t) f) s')).
  assert (WP1 : wellposed w m g t1).
  { eapply posed_x with (t := with_b t b) (f := f) (s := s').
    - eapply posed_b with (b := b); eauto.
    - reflexivity.
    - reflexivity.
    - intros o a HK. apply LK; auto.
    - auto.
    - auto. }
  destruct (@sweep_flows w g t1 x (own_source (t_x t) g (b_q (t_b t)) x)) as (u & F & Es & EX & SU & SW & IN & LQ & _ & OT & FL).
  { apply (posed_sweepable WP1). } { exact LX. } { exact LK. }
  { intros o a. rewrite <- (TB (b_q (t_b t)) o a). cbn. destruct SS as (-> & _). reflexivity. }
  { intros o a. unfold own_source. rewrite map_length, seq_length. reflexivity. }
  rewrite Es. cbn [bind]. assert (SU' : same_setup (t_b t) (t_b u)).
  { cbn in SU. destruct SS as (A1 & A2 & A3), SU as (B1 & B2 & B3). repeat split; congruence. }
  rewrite (no_reflective (open_same OB SU')). exists u, F. split; auto. split.
  { eapply posed_x with (t := with_b t (t_b u)) (f := f) (s := s'); auto.
    assert (SHU : shaped (t_b u) (g_nx (w_grid w)) (g_ny (w_grid w)) (g_nz (w_grid w))) by apply SW.
    eapply posed_b with (t := t) (b := t_b u); eauto. }
  split; [exists f, s'; rewrite EX; reflexivity|]. split; auto. split.
  { intros s0 o a g' V Ng. rewrite OT; [cbn; auto| |auto]. unfold valid, t1 in *. cbn. destruct SS as (-> & -> & _). auto. }
  split; auto.
  - intros s0 o0 a0 V EN.
    assert (V1 : valid b s0 o0 a0 g) by (unfold valid in *; destruct SS as (-> & -> & _); auto).
    rewrite IN; [|exact V1|cbn; destruct SS as (-> & _); auto]. cbn. apply Z. auto.
Qed.

Lemma rhs_ok w m tol g t : wellposed w m g t -> open_boundary (t_b t) ->
  exists u r, build_rhs w tol g t = Ok (u, r) /\ wellposed w m g u /\
    (exists f s, t_x u = with_scat (with_fixed (t_x t) f) s) /\ clean w g t u /\ given_entering (t_b t) (t_b u) g /\
    sweepable w g (ssrc (t_x t)) (t_b u) /\
    flows w (ssrc (t_x t)) g (t_b u) (emissions (t_x t) (with_group (phis t) g (repeat 0 (cells (ssrc (t_x t))))) (b_q (t_b t)) g) r.
Proof.
  intros WP OB. unfold build_rhs. destruct (clear_ok WP) as (b & Eb & SS & Sh & Z & O). rewrite Eb. cbn [bind].
  assert (WPb : wellposed w m g (with_b t b)) by (eapply posed_b with (b := b); eauto).
  destruct (set_ok WPb) as (b1 & Eb1 & FT & Sh1). cbn [with_b t_b] in Eb1, FT. rewrite Eb1. cbn [bind].
  destruct FT as (SS1 & FX & OX).
  pose proof WP as [RD (EM & NN) (Hg & Hgb) (Q & QE) _ _ _ _ (_ & LK)].
  destruct (reset_ok RD) as (f & s & Er & Lf & Ls & ZZ). rewrite Er. cbn [bind].
  assert (Lf' : (cells (ssrc (t_x t)) <= length f)%nat) by (rewrite Lf; apply RD).
  assert (Ls' : (cells (ssrc (t_x t)) <= length s)%nat) by (rewrite Ls; apply RD).
  destruct (@build_fixed_table (t_x t) m g RD EM NN Hg f s Lf' Ls' (fun c Hc => proj2 (ZZ c Hc))) as (f' & Ef & Lff & TB). rewrite Ef. cbn [bind].
  assert (SSb : same_setup (t_b t) b1).
  { destruct SS as (A1 & A2 & A3), SS1 as (B1 & B2 & B3). repeat split; congruence. }
  rewrite (no_reflective (open_same OB SSb)).
  set (t1 := with_x (with_b t b1) (with_scat (with_fixed (t_x t) f') s)).
  assert (WP1 : wellposed w m g t1).
  { eapply posed_x with (t := with_b t b1) (f := f') (s := s).
    - eapply posed_b with (t := t) (b := b1); eauto.
    - reflexivity.
    - reflexivity.
    - intros o a HK. apply LK; auto.
    - auto.
    - auto. }
  destruct (@sweep_flows w g t1 (repeat 0 (cells (ssrc (t_x t)))) (emissions (t_x t) (with_group (phis t) g (repeat 0 (cells (ssrc (t_x t))))) (b_q (t_b t)) g))
    as (u & F & Es & EX & SU & SW & IN & LQ & _ & OT & FL).
  { apply (posed_sweepable WP1). } { apply repeat_length. } { exact LK. }
  { intros o a. unfold phis. rewrite <- (TB (b_q (t_b t)) o a). cbn. destruct SSb as (-> & _). reflexivity. }
  { intros o a. rewrite emissions_length. reflexivity. }
  rewrite Es. assert (SU' : same_setup (t_b t) (t_b u)).
  { cbn in SU. destruct SSb as (A1 & A2 & A3), SU as (B1 & B2 & B3). repeat split; congruence. }
  exists u, F. split; auto. split.
  { eapply posed_x with (t := with_b t (t_b u)) (f := f') (s := s); auto.
    assert (SHU : shaped (t_b u) (g_nx (w_grid w)) (g_ny (w_grid w)) (g_nz (w_grid w))) by apply SW.
    eapply posed_b with (t := t) (b := t_b u); eauto. }
  pose proof SS as (A1 & A2 & A3). pose proof SSb as (B1 & B2 & B3).
  split; [exists f', s; rewrite EX; reflexivity|]. split.
  { intros s0 o a g' V Ng. rewrite OT; [|unfold valid, t1 in *; cbn; rewrite B1, B2; auto|auto]. cbn.
    rewrite OX; [auto|unfold valid in *; rewrite A1, A2; auto|auto]. }
  split; [|split; auto]. split; [auto|split].
  - intros s0 l io o a psi Hs HB HI Hio Ha. destruct (incident_enters Q Hs HI Hio) as (Ho & EN).
    rewrite IN; [|unfold valid, t1; cbn; rewrite B1, B2; auto|cbn; rewrite B1; auto].
    cbn. apply (FX s0 l io o a psi); rewrite ?A1, ?A3; auto.
  - intros s0 o a V EN NF. rewrite IN; [|unfold valid, t1 in *; cbn; rewrite B1, B2; auto|cbn; rewrite B1; auto].
    cbn. rewrite OX; [apply Z; auto|unfold valid in *; rewrite A1, A2; auto|rewrite A3; auto].
Qed.

Lemma given_same b b1 b2 g : sn_quad (b_q b) -> given_entering b b1 g -> given_entering b b2 g ->
  forall s o a, valid b s o a g -> enters (q_dim (b_q b)) s o -> bflux b1 s o a g = bflux b2 s o a g.
Proof.
  intros Q (_ & F1 & Z1) (_ & F2 & Z2) s o a V EN.
  assert (D : (exists psi, b_bc b s = Fixed psi) \/ forall psi, b_bc b s <> Fixed psi) by (destruct (b_bc b s); eauto; right; congruence).
  destruct D as [(psi & HB)|D]; [|rewrite Z1, Z2; auto].
  pose proof Q as (Hd & Hn & Hna & Hi & Ho). destruct V as (V1 & V2 & V3 & V4).
  destruct (inc_table_spec Hd V1) as (i & u & T1 & _ & _ & _ & T5 & _). apply T5 in EN. destruct (In_nth_error _ _ EN) as (io & Hio).
  assert (IO : incident_octant (b_q b) s = Ok i) by (unfold incident_octant; rewrite Hi; exact T1).
  rewrite (F1 s i io o a psi), (F2 s i io o a psi) by auto. auto.
Qed.
Lemma given_ins b b1 b2 g o a : sn_quad (b_q b) -> (g < b_ng b)%nat -> given_entering b b1 g -> given_entering b b2 g ->
  (o < q_noct (b_q b))%nat -> (a < q_nao (b_q b))%nat -> ins_of b2 o a g = ins_of b1 o a g.
Proof.
  intros Q Hg G1 G2 Ho Ha. pose proof G1 as ((A1 & A2 & A3) & _). pose proof G2 as ((B1 & B2 & B3) & _).
  apply ins_kept; rewrite ?A1, ?A2; auto; [repeat split; congruence|].
  intros s o' a' V EN. symmetry. apply (given_same Q G1 G2); auto. unfold valid in *. rewrite <- A1, <- A2. auto.
Qed.

(** Some boundary goes with any source. *)
Lemma full_flows w m g t b X x : wellposed w m g t -> sweepable w g (ssrc (t_x t)) b -> b_q b = b_q (t_b t) -> sweep_ready X -> ssrc X = ssrc (t_x t) ->
  length x = cells (ssrc (t_x t)) ->
  exists b' F, same_setup b b' /\ sweepable w g (ssrc (t_x t)) b' /\
    (forall s o a, valid b s o a g -> enters (q_dim (b_q b)) s o -> bflux b' s o a g = bflux b s o a g) /\
    flows w (ssrc (t_x t)) g b' (emissions X (with_group (phis t) g x) (b_q (t_b t)) g) F.
Proof.
  intros WP SW EQ RX ES LX. pose proof WP as [RD (EM & NN) (Hg & Hgb) _ _ _ _ _ (_ & LK)].
  assert (EMX : mat (ssrc X) = finalize m) by (rewrite ES; auto). assert (HgX : (g < ng (mat (ssrc X)))%nat) by (rewrite ES; auto).
  destruct (fixed_with_scatter_ok RX EMX NN HgX) as (f & _ & L1 & V1).
  assert (Lf : (cells (ssrc X) <= length f)%nat) by (rewrite L1; apply RX).
  assert (Ls : (cells (ssrc X) <= length (scat X))%nat) by apply RX. rewrite <- ES in LX.
  destruct (@build_within X g x f (scat X) RX HgX LX Lf Ls V1) as (X1 & _ & SO). pose proof (@sources_table X g x X1 (b_q b) RX SO) as TB.
  assert (EX1 : ssrc X1 = ssrc (t_x t)) by (destruct SO as (f1 & s1 & -> & _); exact ES).
  destruct (@sweep_flows w g {| t_b := b; t_x := X1; t_psi := t_psi t; t_sweeps := 0 |} x
    (emissions X (with_group (phis t) g x) (b_q (t_b t)) g)) as (u & F & Es & EX & SU & SW' & IN & LQ & _ & OT & FL); cbn [t_b t_x t_psi] in *; rewrite ?EX1; auto.
  - congruence.
  - intros o a. rewrite TB, EQ. unfold phis. rewrite ES. auto.
  - intros o a. rewrite emissions_length, ES. auto.
  - exists (t_b u), F. rewrite EX1 in FL, SW'. auto.
Qed.

(** ** The linear system of the group *)
Lemma ready_twice x : sweep_ready x -> sweep_ready (twice_directed x).
Proof. intros H. exact H. Qed.
Lemma state_refl w m g t : wellposed w m g t -> krylov_state w m g t t.
Proof.
  intros WP. constructor; auto.
  - exists (fixed (t_x t)), (scat (t_x t)). destruct (t_x t); reflexivity.
  - repeat split; auto.
Qed.
Lemma minus_at x F c : length F = length x -> (c < length x)%nat -> at_ (map (fun p => fst p - snd p) (combine x F)) c = at_ x c - at_ F c.
Proof.
  intros L H. unfold at_. rewrite (@nth_map _ _ (fun p : R * R => fst p - snd p) (combine x F) c (0, 0) 0) by (rewrite combine_length; lia).
  rewrite combine_nth by auto. reflexivity.
Qed.

Theorem krylov_system w m tol g t : wellposed w m g t -> open_boundary (t_b t) ->
  exists t1 r, build_rhs w tol g t = Ok (t1, r) /\ krylov_state w m g t t1 /\ length r = cells (ssrc (t_x t)) /\
  forall u x, krylov_state w m g t u -> length x = cells (ssrc (t_x t)) ->
  exists u' y, wg_multiply w g u x = Ok (u', y) /\ krylov_state w m g t u' /\ length y = cells (ssrc (t_x t)) /\
  (y = r <-> group_flux w (twice_directed (t_x t)) g (phis t) (t_b t) x).
Proof.
  intros WP OB. destruct (rhs_ok tol WP OB) as (t1 & r & E & WP1 & EX & CL & GE & SW & FL). pose proof GE as (SS & GF & GZ).
  exists t1, r. split; auto. split; [constructor; auto|]. pose proof FL as (_ & _ & Lr & _). split; auto.
  intros u x [WPU (f & s & EU) (SU & CU)] LX. set (n := cells (ssrc (t_x t))) in *.
  assert (ESU : ssrc (t_x u) = ssrc (t_x t)) by (rewrite EU; reflexivity).
  destruct (@multiply_ok w m g u x WPU (open_same OB SU)) as (u' & F & Em & WPm & (f2 & s2 & EXm) & SSm & CLm & DK & FLm); [rewrite ESU; auto|].
  pose proof SU as (U1 & U2 & U3). pose proof SSm as (M1 & M2 & M3). pose proof SS as (S1 & S2 & S3).
  exists u', (map (fun p => fst p - snd p) (combine x F)). split; auto. split; [|].
  { constructor; auto.
    - exists f2, s2. rewrite EXm, EU. reflexivity.
    - split; [repeat split; congruence|]. intros s0 o a g' V Ng. rewrite CLm; auto. unfold valid in *. rewrite U1, U2. auto. }
  pose proof FLm as (_ & _ & LF & _). rewrite ESU in LF. split; [rewrite map_length, combine_length; lia|].
  (** the sweep with the full source *)
  pose proof WP as [RD _ (Hg & Hgb) (Q & QE) _ _ _ _ _].
  destruct (@full_flows w m g t (t_b t1) (twice_directed (t_x t)) x WP SW S1 (ready_twice RD) eq_refl LX) as (b2 & F2 & SS2 & SW2 & IN2 & FL2).
  assert (Q1 : sn_quad (b_q (t_b t1))) by (rewrite S1; auto). assert (Hgb1 : (g < b_ng (t_b t1))%nat) by (rewrite S2; auto).
  assert (ADD : forall c, (c < n)%nat -> at_ F2 c = at_ r c + 1 * at_ F c).
  { rewrite ESU in FLm. rewrite EU in FLm. change (own_source (with_scat (with_fixed (t_x t) f) s)) with (own_source (t_x t)) in FLm.
    refine (@flows_add w (ssrc (t_x t)) g (t_b t1) (t_b u') b2 _ _ _ r F F2 1 SW _ SS2 _ _ _ FL FLm FL2).
    - repeat split; congruence.
    - intros o a Ho Ha. apply dark_ins with (b := t_b u); rewrite ?U1, ?U2; rewrite ?S1 in *; auto. intros s0 o0 a0 V EN. rewrite DK; [apply dark_no_face|auto|rewrite U1; auto].
    - intros o a Ho Ha. apply ins_kept; auto.
    - intros o a c Ho Ha Hc. rewrite U1. apply sources_add; auto. apply RD. }
  assert (GE2 : given_entering (t_b t) b2 g).
  { destruct SS2 as (B1 & B2 & B3). split; [repeat split; congruence|]. split.
    - intros s0 l io o a psi Hs HB HI Hio Ha. destruct (incident_enters Q Hs HI Hio) as (Ho & EN).
      rewrite IN2; [eapply GF; eauto|unfold valid; rewrite S1, S2; auto|rewrite S1; auto].
    - intros s0 o a V EN NF. rewrite IN2; [auto|unfold valid in *; rewrite S1, S2; auto|rewrite S1; auto]. }
  pose proof FL2 as (_ & _ & L2 & _). pose proof SS2 as (B1 & B2 & B3).
  assert (EQ : map (fun p => fst p - snd p) (combine x F) = r <-> F2 = x).
  { split.
    - intros EY. apply list_ext_nth with (d := 0); [lia|]. intros c Hc. rewrite L2 in Hc. change (at_ F2 c = at_ x c). rewrite ADD by auto.
      rewrite <- EY. rewrite minus_at by (unfold n in *; lia). ring.
    - intros <-. apply list_ext_nth with (d := 0); [rewrite map_length, combine_length; unfold n in *; lia|].
      intros c Hc. rewrite map_length, combine_length in Hc. change (at_ (map (fun p => fst p - snd p) (combine F2 F)) c = at_ r c).
      rewrite minus_at by (unfold n in *; lia). rewrite ADD by (unfold n in *; lia). ring. }
  rewrite EQ. split.
  - intros <-. exists b2. split; auto. unfold transported. unfold flows in FL2. rewrite B1, S1 in FL2 |- *. exact FL2.
  - intros (b3 & GE3 & TR). pose proof GE3 as ((C1 & C2 & C3) & _). unfold transported in TR. rewrite C1 in TR.
    assert (TR' : flows w (ssrc (t_x t)) g b3 (emissions (twice_directed (t_x t)) (with_group (phis t) g x) (b_q (t_b t)) g) x) by (unfold flows; rewrite C1; exact TR).
    refine (@flows_det w (ssrc (t_x t)) g b2 b3 _ F2 x _ _ _ FL2 TR').
    + exact SW2.
    + repeat split; congruence.
    + rewrite B1, S1. intros o a Ho Ha. apply (given_ins Q Hgb GE2 GE3); auto.
Qed.

(** Without directional sources it is the transport equation of the group. *)
Lemma twice_undirected w x g phi b F : undirected x g -> group_flux w (twice_directed x) g phi b F <-> group_flux w x g phi b F.
Proof.
  intros U. assert (EM : forall p q o a, emissions (twice_directed x) p q g o a = emissions x p q g o a).
  { intros p q o a. unfold emissions. apply map_ext_in. intros c Hc. apply in_seq in Hc.
    unfold emission. rewrite discrete_twice, U by (cbn in Hc; lia). cbn [twice_directed ssrc fiss implicit].
    change (external (twice_directed x) g c) with (external x g c). change (explicit_fission (twice_directed x) g c) with (explicit_fission x g c). ring. }
  split; intros (b' & GE & P & A & B); exists b'; (split; [auto|]); exists P; (split; [|exact B]); intros o a Ho Ha;
    (eapply equation_ext; [|apply (A o a Ho Ha)]); [apply EM|symmetry; apply EM].
Qed.
Theorem krylov_undirected w m tol g t : wellposed w m g t -> open_boundary (t_b t) -> undirected (t_x t) g ->
  exists t1 r, build_rhs w tol g t = Ok (t1, r) /\ krylov_state w m g t t1 /\ length r = cells (ssrc (t_x t)) /\
  forall u x, krylov_state w m g t u -> length x = cells (ssrc (t_x t)) ->
  exists u' y, wg_multiply w g u x = Ok (u', y) /\ krylov_state w m g t u' /\ length y = cells (ssrc (t_x t)) /\
  (y = r <-> group_flux w (t_x t) g (phis t) (t_b t) x).
Proof.
  intros WP OB U. destruct (@krylov_system w m tol g t WP OB) as (t1 & r & E & K & L & H). exists t1, r. do 3 (split; auto).
  intros u x KU LX. destruct (H u x KU LX) as (u' & y & E' & K' & L' & IFF). exists u', y. do 3 (split; auto).
  rewrite IFF. apply twice_undirected. auto.
Qed.

(** The operator is linear, whatever the state it is applied in. *)
Theorem multiply_linear w m g t al u1 u2 u3 x1 x2 x3 : open_boundary (t_b t) -> undirected (t_x t) g ->
  krylov_state w m g t u1 -> krylov_state w m g t u2 -> krylov_state w m g t u3 ->
  length x1 = cells (ssrc (t_x t)) -> length x2 = cells (ssrc (t_x t)) -> length x3 = cells (ssrc (t_x t)) ->
  (forall c, (c < cells (ssrc (t_x t)))%nat -> at_ x3 c = at_ x1 c + al * at_ x2 c) ->
  exists v1 v2 v3 y1 y2 y3, wg_multiply w g u1 x1 = Ok (v1, y1) /\ wg_multiply w g u2 x2 = Ok (v2, y2) /\ wg_multiply w g u3 x3 = Ok (v3, y3) /\
  length y3 = cells (ssrc (t_x t)) /\
  forall c, (c < cells (ssrc (t_x t)))%nat -> at_ y3 c = at_ y1 c + al * at_ y2 c.
Proof.
  intros OB UD [WP1 (f1 & s1 & E1) (S1 & C1)] [WP2 (f2 & s2 & E2) (S2 & C2)] [WP3 (f3 & s3 & E3) (S3 & C3)] L1 L2 L3 HX.
  set (n := cells (ssrc (t_x t))) in *.
  assert (N1 : ssrc (t_x u1) = ssrc (t_x t)) by (rewrite E1; reflexivity).
  assert (N2 : ssrc (t_x u2) = ssrc (t_x t)) by (rewrite E2; reflexivity).
  assert (N3 : ssrc (t_x u3) = ssrc (t_x t)) by (rewrite E3; reflexivity).
  destruct (@multiply_ok w m g u1 x1 WP1 (open_same OB S1)) as (v1 & F1 & M1 & WV1 & _ & SV1 & _ & D1 & FL1); [rewrite N1; auto|].
  destruct (@multiply_ok w m g u2 x2 WP2 (open_same OB S2)) as (v2 & F2 & M2 & WV2 & _ & SV2 & _ & D2 & FL2); [rewrite N2; auto|].
  destruct (@multiply_ok w m g u3 x3 WP3 (open_same OB S3)) as (v3 & F3 & M3 & WV3 & _ & SV3 & _ & D3 & FL3); [rewrite N3; auto|].
  do 6 eexists. split; [exact M1|]. split; [exact M2|]. split; [exact M3|].
  pose proof FL1 as (_ & _ & LF1 & _). pose proof FL2 as (_ & _ & LF2 & _). pose proof FL3 as (_ & _ & LF3 & _).
  rewrite N1 in *. rewrite N2 in *. rewrite N3 in *. fold n in LF1, LF2, LF3.
  split; [rewrite map_length, combine_length; lia|]. intros c Hc. rewrite !minus_at by lia.
  rewrite E1 in FL1. rewrite E2 in FL2. rewrite E3 in FL3.
  change (own_source (with_scat (with_fixed (t_x t) f1) s1)) with (own_source (t_x t)) in FL1.
  change (own_source (with_scat (with_fixed (t_x t) f2) s2)) with (own_source (t_x t)) in FL2.
  change (own_source (with_scat (with_fixed (t_x t) f3) s3)) with (own_source (t_x t)) in FL3.
  destruct S1 as (A1 & A2 & A3), S2 as (B1 & B2 & B3), S3 as (G1 & G2 & G3).
  pose proof SV1 as (A1' & A2' & A3'). pose proof SV2 as (B1' & B2' & B3'). pose proof SV3 as (G1' & G2' & G3').
  rewrite A1 in FL1. rewrite B1 in FL2. rewrite G1 in FL3.
  pose proof WP1 as [RD1 _ (Hg & Hgb) (Q & QE) _ _ (Sh1 & _) _ _]. pose proof WP3 as [_ _ _ _ _ _ (Sh3 & _) _ _].
  assert (SWv : sweepable w g (ssrc (t_x t)) (t_b v1)).
  { eapply sweepable_same; [rewrite <- N1; apply (posed_sweepable WP1)|exact SV1|]. destruct WV1 as [_ _ _ _ _ _ (X & _) _ _]. exact X. }
  assert (V : forall s o a, valid (t_b u1) s o a g -> valid (t_b u3) s o a g) by (intros s o a; unfold valid; rewrite A1, A2, G1, G2; auto).
  assert (ADD : at_ F3 c = at_ F1 c + al * at_ F2 c).
  { refine (@flows_add w (ssrc (t_x t)) g (t_b v1) (t_b v2) (t_b v3) _ _ _ F1 F2 F3 al SWv _ _ _ _ _ FL1 FL2 FL3 c Hc).
    - repeat split; congruence.
    - repeat split; congruence.
    - rewrite A1', A1. intros o a Ho Ha. apply dark_ins with (b := t_b u2); rewrite ?B1, ?B2; auto; [rewrite <- A1; auto|rewrite <- A2; auto|].
      intros s0 o0 a0 V0 EN. rewrite D2; [apply dark_no_face|auto|rewrite B1; auto].
    - intros o a Ho Ha. apply ins_kept; auto; [rewrite A1'; auto|rewrite A2'; auto|repeat split; congruence|].
      intros s0 o0 a0 V0 EN. assert (V1 : valid (t_b u1) s0 o0 a0 g) by (unfold valid in *; rewrite <- A1', <- A2'; auto).
      rewrite A1' in EN. rewrite D1 by auto. rewrite D3; [|auto|rewrite G1, <- A1; auto].
      apply dark_shape. rewrite Sh1, Sh3 by auto. rewrite A1, G1. auto.
    - intros o a d Ho Ha Hd. unfold own_source. rewrite !at_tab by auto. rewrite HX, UD by auto. unfold Rdiv. ring. }
  rewrite HX, ADD by auto. ring.
Qed.
