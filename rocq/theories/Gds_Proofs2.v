(** * Gds_Proofs2: the modes of the fission operator are modes of all groups *)
From Coq Require Import Lra Lia.
From Verif Require Import Base BaseR Loop Util_Model Mesh_Model Angle_Model Boundary_Model Boundary_Spec Boundary_Proofs Cell_Model Cell_Spec
  Material_Model Material_Spec Material_Proofs Source_Model Source_Spec Source_Proofs Sweep_Model Sweep_Spec Sweep_Proofs
  Iter_Model Iter_Spec Wg_Spec Iter_Proofs Wg_Proofs Mgk_Model Mgk_Spec Mgk_Proofs Gd_Model Gd_Spec Gd_Proofs Gds_Model Gds_Spec Gds_Proofs Pi_Spec.
Open Scope nat_scope.
Set Implicit Arguments. Unset Strict Implicit.

Lemma zeros_map (l : list (list R)) : Forall (Forall (fun v => v = 0%R)) l -> l = map (map (fun _ => 0%R)) l.
Proof.
  induction 1 as [|r l Hr _ IH]; cbn; auto. f_equal; auto. clear IH. induction Hr as [|v r Hv _ IH]; cbn; auto. subst v. f_equal. auto.
Qed.
Lemma fission_production x phi g c : adj x = false -> fission_sum x phi all_groups g c = (production x phi c * spectrum x g c)%R.
Proof.
  intros A. unfold fission_sum, production, spectrum, fission_xs, all_groups. rewrite A.
  rewrite <- rsum_scal_r. apply rsum_ext. intros. ring.
Qed.
(** ** Modes of all groups and eigenpairs *)
Section Modes.
Variables (w : sweeper) (nc : nat) (t0 : tstate) (q0 : fis) (k : R).
Hypotheses (HO : homogeneous t0) (A : adj (ssrc (t_x t0)) = false) (F : fiss (t_x t0) = Some q0) (NC : cells (ssrc (t_x t0)) = nc).
Local Notation G := (ng (mat (ssrc (t_x t0)))).

Lemma source_same q phi g dim a c : g < G -> c < nc ->
  nth c (nth g (fsource q) []) 0%R = (1 / k * production (ssrc (t_x t0)) phi c * spectrum (ssrc (t_x t0)) g c)%R ->
  emission (with_fiss (t_x t0) (Some q)) phi dim g a c = emission (eigen_problem (t_x t0) k) phi dim g a c.
Proof.
  intros Hg Hc E. destruct HO as [_ _ HX HF]. destruct (HX g c) as (X1 & X2). unfold external in X1. unfold discrete in X2.
  unfold emission, explicit_fission, external, discrete. cbn [with_fiss eigen_problem ssrc fiss implicit ext dext fsource fscale]. rewrite F.
  rewrite HF, X1, X2, E. cbn [map fscale]. change (sumR []) with 0%R. rewrite fission_production by auto. unfold Rdiv. ring.
Qed.
Lemma transported_same q phi g b f : g < G ->
  (forall c, c < nc -> nth c (nth g (fsource q) []) 0%R = (1 / k * production (ssrc (t_x t0)) phi c * spectrum (ssrc (t_x t0)) g c)%R) ->
  transported w (with_fiss (t_x t0) (Some q)) g b phi f <-> transported w (eigen_problem (t_x t0) k) g b phi f.
Proof.
  intros Hg E.
  assert (EE : forall o a, emissions (with_fiss (t_x t0) (Some q)) phi (b_q b) g o a = emissions (eigen_problem (t_x t0) k) phi (b_q b) g o a).
  { intros o a. unfold emissions. cbn [with_fiss eigen_problem ssrc]. apply map_ext_in. intros c Hc. apply in_seq in Hc. apply source_same; auto; try lia. apply E. lia. }
  split; intros (P & T1 & T2 & T3); exists P; (split; [|split; [exact T2|exact T3]]); intros o a Ho Ha.
  - eapply equation_ext; [apply EE|apply (T1 o a Ho Ha)].
  - eapply equation_ext; [symmetry; apply EE|apply (T1 o a Ho Ha)].
Qed.
Lemma enter_same b' g : entering (t_b t0) b' g <-> given_entering (t_b t0) b' g.
Proof.
  destruct HO as [HS HE _ _]. split; intros (E1 & E2 & E3); (split; [exact E1|]); split.
  - intros s l io o a psi Hs HB. rewrite HS in HB by auto. discriminate.
  - intros s o a Va En NF. assert (Hs : s < 2 * q_dim (b_q (t_b t0))) by apply Va. rewrite E3; auto; try (rewrite HS by auto; discriminate). apply zeros_map. auto.
  - intros s l io o a psi Hs HB. rewrite HS in HB by auto. discriminate.
  - intros s o a Va En _ _ NF. rewrite E3 by auto. symmetry. apply zeros_map. auto.
Qed.

Theorem eigenpair_modes V : eigenpair w nc t0 k V <->
  (0 < k)%R /\ (forall c, c < nc -> (0 <= V c)%R) /\ (exists c, c < nc /\ (0 < V c)%R) /\
  exists phi, length phi = G /\ (forall c, c < nc -> production (ssrc (t_x t0)) phi c = V c) /\
    mg_flux w (eigen_problem (t_x t0) k) (t_b t0) (fun g => g < G) phi.
Proof.
  split.
  - intros (K & V0 & V1 & q & phi & SH & FQ & (LP & MS) & PV). split; auto. split; auto. split; auto. exists phi. split; [exact LP|]. split; auto.
    intros g Hg. destruct (MS g Hg) as (b' & E & T). exists b'. split; [apply enter_same; exact E|].
    apply (transported_same (q := q)); auto. intros c Hc. rewrite FQ, PV; auto.
  - intros (K & V0 & V1 & phi & LP & PV & MF). split; auto. split; auto. split; auto.
    exists {| fsrc := ssrc (t_x t0); dens := repeat 0%R nc;
      fsource := map (fun g => map (fun c => 1 / k * V c * spectrum (ssrc (t_x t0)) g c)%R (seq 0 nc)) (seq 0 G); fscale := 1%R |}, phi.
    assert (FS : forall g c, g < G -> c < nc ->
      nth c (nth g (map (fun g => map (fun c => 1 / k * V c * spectrum (ssrc (t_x t0)) g c)%R (seq 0 nc)) (seq 0 G)) []) 0%R = (1 / k * V c * spectrum (ssrc (t_x t0)) g c)%R).
    { intros g c Hg Hc. rewrite nth_map_seq by auto. rewrite nth_map_seq by auto. reflexivity. }
    split; [|split; [exact FS|split; [|exact PV]]].
    + split; [reflexivity|]. cbn [dens fsource]. split; [apply repeat_length|]. split; [rewrite map_length, seq_length; reflexivity|].
      intros g Hg. rewrite nth_map_seq by auto. rewrite map_length, seq_length. reflexivity.
    + split; [exact LP|]. intros g Hg. destruct (MF g Hg) as (b' & E & T). exists b'. split; [apply enter_same; exact E|].
      apply transported_same; auto. intros c Hc. cbn [fsource]. rewrite FS, PV; auto.
Qed.
End Modes.

Lemma mode_finds_gd w m half t q k x : let y := ssrc (t_x t) in let n := cells y in let N := ng (mat y) * n in
  adj y = false -> (forall g, g < ng (mat y) -> wellposed w m g t) -> vacuum_boundary (t_b t) ->
  length (phis t) = ng (mat y) -> (forall g, g < ng (mat y) -> length (nth g (phis t) []) = n) ->
  fiss (t_x t) = Some q -> fscale q = 1%R -> implicit (t_x t) = false -> dext (t_x t) = [] -> mg_state w m 0 t t ->
  k <> 0%R -> length x = N -> (exists i, i < N /\ at_ x i <> 0%R) -> k_mode w t k x ->
  finds_gd_pair w m half t (fun u _ _ => Ok (u, x, k)).
Proof.
  intros y n N A W V LP LR F FS I D M Nk Lx X0 KM. exists t, x, k. split; [reflexivity|]. split; auto. split; auto. split; auto. split; auto.
  intros u1 u2 y1 y2 v1 a v2 f M1 M2 L1 L2 E1 E2 i Hi.
  destruct (@gd_problem w m half t q k u1 u2 x y1 y2 A W V LP LR F FS I D Nk M1 M2 Lx L1 L2) as (v1' & a' & v2' & f' & E1' & _ & _ & E2' & _ & _ & EQ).
  rewrite E1 in E1'. rewrite E2 in E2'. injection E1' as _ <-. injection E2' as _ <-. apply EQ; auto.
Qed.

(** Nonnegative fission: the pair of the other solvers. *)
Theorem gd_physical w m half t q es t' k : let y := ssrc (t_x t) in let n := cells y in let G := ng (mat y) in
  homogeneous t -> adj y = false -> (forall g, g < G -> wellposed w m g t) ->
  length (phis t) = G -> (forall g, g < G -> length (nth g (phis t) []) = n) ->
  fiss (t_x t) = Some q -> fscale q = 1%R -> dext (t_x t) = [] ->
  mg_state w m 0 t t -> finds_gd_pair w m half t es -> gd_solve es (G * n) t = Ok (t', k) -> (0 < k)%R ->
  (forall c, c < n -> (0 <= production y (phis t') c)%R) -> (exists c, c < n /\ production y (phis t') c <> 0%R) ->
  eigenpair w n t k (production y (phis t')).
Proof.
  intros y n G HO A W LP LR F FS D M FP E K P0 (c1 & Hc1 & P1).
  destruct (@gd_solved w m half t q es A W (ho_sides HO) LP LR F FS (ho_fission HO) D M FP) as (t2 & k2 & E2 & _ & _ & MF & LQ).
  fold y n G in E2. rewrite E in E2. injection E2 as <- <-.
  apply (@eigenpair_modes w n t q k HO A F eq_refl). split; auto. split; auto. split; [exists c1; split; auto; specialize (P0 c1 Hc1); lra|].
  exists (phis t'). split; [exact LQ|]. split; auto.
Qed.
