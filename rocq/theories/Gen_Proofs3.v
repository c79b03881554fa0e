(** * Gen_Proofs3: the first generation, and sums of generations *)
From Verif Require Import Base BaseR Loop Util_Model Util_Proofs Angle_Model Angle_Spec Boundary_Model Boundary_Spec Boundary_Proofs Mesh_Model Mesh_Proofs
  Material_Model Material_Spec Source_Model Source_Spec Source_Proofs Cell_Model Cell_Spec Sweep_Model Sweep_Spec Sweep_Proofs
  SweepAll_Proofs SweepLinear_Proofs Vector_Proofs Iter_Model Iter_Spec Pi_Spec Iter_Proofs IterConv_Proofs Gs_Proofs Pi_Proofs PiLinear_Proofs PiGs_Proofs
  Wg_Spec Wg_Proofs Mgk_Proofs Gen_Model Gen_Spec Gen_Proofs Gen_Proofs2.
From Coq Require Import ZArith.
Set Implicit Arguments. Unset Strict Implicit.
Open Scope nat_scope.

(** ** The first generation *)
Lemma posed_drop w m g t : wellposed w m g t -> wellposed w m g (drop_sources t).
Proof.
  intros [A1 A2 A3 A4 A5 A6 A7 A8 A9]. constructor; auto. destruct A1 as (P1 & P2 & P3 & P4 & P5).
  repeat split; auto; cbn; try (rewrite repeat_length; lia); try (apply P1); try (apply P4; auto); auto.
Qed.
Theorem first_ok mg w m n nc t t1 : 0 < n -> mg t = Ok t1 -> all_wellposed w m n nc t -> all_wellposed w m n nc t1 ->
  exists t', iterate mg 0 t = Ok (t', flux_change n nc (phis t') (phis t)) /\ phis t' = phis t1 /\ ext (t_x t') = [] /\ dext (t_x t') = [] /\
  t_b t' = t_b t1 /\ ssrc (t_x t') = ssrc (t_x t1) /\ fiss (t_x t') = fiss (t_x t1) /\ (no_fission_source t1 -> no_fission_source t') /\
  ((forall s, s < 2 * q_dim (b_q (t_b t1)) -> b_bc (t_b t1) s = Vacuum) ->
   (forall s o a g, valid (t_b t1) s o a g -> enters (q_dim (b_q (t_b t1))) s o -> Forall (Forall (fun v => v = 0%R)) (bflux (t_b t1) s o a g)) ->
   implicit (t_x t1) = false -> eigen_ready nc t1 -> homogeneous t' /\ same_case w m nc t' t').
Proof.
  intros Hn M W W1. pose proof W1 as (E1 & E2 & WG). destruct (all_wellposed_flux Hn W) as (_ & L1 & L2). destruct (all_wellposed_flux Hn W1) as (_ & L3 & L4).
  exists (drop_sources t1). split.
  { unfold iterate. change (Z.eqb 0 0) with true. cbn iota. rewrite M. cbn [bind]. change (mat (ssrc (t_x (drop_sources t1)))) with (mat (ssrc (t_x t1))).
    rewrite E1. change (phis (drop_sources t1)) with (phis t1). rewrite (@change_ok n nc) by auto. reflexivity. }
  do 6 (split; [reflexivity|]). split; [auto|]. intros V NE IM ER. split.
  - constructor; auto.
  - constructor; auto.
    + intros g Hg. split; [repeat split|auto].
    + change (mat (ssrc (t_x (drop_sources t1)))) with (mat (ssrc (t_x t1))). rewrite E1. split; [auto|]. split; auto. intros g Hg. apply posed_drop. auto.
Qed.

(** ** All the generations, from a fixed source problem between vacua *)
Section Gs.
Variables (w : sweeper) (m : mtl) (n nc : nat) (tol : R) (max : nat) (p : gs) (keff : R).
Hypotheses (Hn : 0 < n) (NM : gs_multiply p = false) (HB : gs_norm p <> BadFlag) (GL : group_lists n p) (HT : gs_norm p = Linf -> (0 < gs_tol p)%R).
Local Notation mg := (gs_solve (si_solve w tol max) p keff).
Definition ready (t : tstate) : Prop := all_wellposed w m n nc t /\ eigen_ready nc t.
Lemma ready_si : group_solver n ready (si_sol w tol max) (si_solve w tol max).
Proof.
  intros g t (W & R) Hg. destruct (@si_solver w m tol max n nc g t W Hg) as (t' & E & AW & OG & SS).
  exists t'. split; auto. split; [|split; auto]. split; auto. destruct SS as (k & B & F & IT).
  destruct (it_problem IT) as (f & s & EP).
  destruct R as (P & EC & q & Eq & E1 & E2 & E3 & E4). split; [|split].
  - apply (proj2 (proj2 AW) 0 Hn).
  - apply AW.
  - rewrite EP. cbn. rewrite Eq. cbn. eexists. split; [reflexivity|]. cbn. repeat split; cbn; auto. rewrite E1. auto.
Qed.
Theorem gs_all t : all_wellposed w m n nc t -> eigen_ready nc t -> no_fission_source t -> implicit (t_x t) = false ->
  (forall s, s < 2 * q_dim (b_q (t_b t)) -> b_bc (t_b t) s = Vacuum) ->
  (forall s o a g, valid (t_b t) s o a g -> enters (q_dim (b_q (t_b t))) s o -> Forall (Forall (fun v => v = 0%R)) (bflux (t_b t) s o a g)) ->
  (forall g, g < n -> eq_positive (w_eq w) = true \/ sig_ok true (group_grid (w_grid w) (ssrc (t_x t)) g)) ->
  exists t1 T e, mg t = Ok t1 /\ (exists k P, gs_history (si_sol w tol max) p t t1 k P) /\ T 0 = t /\ phis (T 1) = phis t1 /\ forall i, iterate mg (Z.of_nat i) (T i) = Ok (T (S i), e i) /\
  no_flux (T (S (S i))) /\ e (S (S i)) = 0%R.
Proof.
  intros W ER NF IM VA NE GS.
  destruct (@gs_generic n nc ready (si_sol w tol max) (si_solve w tol max) ready_si (proj1 (all_wellposed_flux Hn W))
    (fun t H => proj2 (all_wellposed_flux Hn (proj1 H))) p keff t t) as (t1 & k & P & E & HI & IV); auto.
  { unfold started. rewrite NM. auto. }
  { apply W. }
  { split; auto. }
  pose proof (history_alike HI (le_n k)) as AL. pose proof (history_kept HI (le_n k)) as KP. destruct (IV k (le_n k)) as (W1 & ER1).
  rewrite (gh_last _ _ _ _ _ _ HI) in *. destruct KP as ((K1 & K2 & K3) & K4). pose proof AL as (C1 & C2 & C3 & _ & _ & _ & C7 & _).
  destruct (first_ok Hn E W W1) as (t' & I1 & I2 & _ & _ & I3 & IS & _ & I4 & I5).
  assert (NF' : no_fission_source t') by (apply I4; intros g c; rewrite (alike_explicit g c AL); apply NF).
  destruct I5 as (HO & SC); [rewrite K1, K3; auto| |congruence|auto|].
  { intros s o a g V En. assert (V' : valid (t_b t) s o a g) by (unfold valid in *; rewrite K1, K2 in V; exact V). rewrite K1 in En.
    assert (EB : b_bc (t_b t) s = Vacuum) by (apply VA; apply V'). rewrite K4; auto; rewrite EB; discriminate. }
  assert (N' : ng (mat (ssrc (t_x t'))) = n) by (rewrite IS; apply W1).
  assert (GX : forall g, group_grid (w_grid w) (ssrc (t_x t')) g = group_grid (w_grid w) (ssrc (t_x t)) g).
  { intros g. rewrite IS. unfold group_grid, mat_of. rewrite C1, C2, C3. auto. }
  destruct (@gs_series w m nc t' HO) with (tol := tol) (max := max) (p := p) (keff := keff) (t := t') as (T & e & T0 & TS); rewrite ?N'; auto.
  { intros g Hg. rewrite GX. apply GS. auto. }
  exists t1, (fun i => match i with 0 => t | S i => T i end), (fun i => match i with 0 => flux_change n nc (phis t') (phis t) | S i => e i end).
  split; auto. split; [eauto|]. split; auto. split; [rewrite T0; auto|]. intros i. split.
  - destruct i as [|i]; [rewrite T0; exact I1|apply TS].
  - split; [apply TS|]. apply (TS (S i)). lia.
Qed.
End Gs.

(** ** Sums of generations *)
Section Sum.
Variables (w : sweeper) (m : mtl) (nc : nat) (t0 : tstate).
Local Notation x0 := (ssrc (t_x t0)).
Local Notation n := (ng (mat x0)).
Local Notation Inv := (same_case w m nc t0).
Hypotheses (HO : homogeneous t0) (Hn : 0 < n) (I0 : Inv t0).
Variable mg : tstate -> res tstate.
Hypotheses (MS : mg_solver nc Inv mg).
Lemma generations_phi Phi a k g c : g < n -> c < nc -> phi_of (generations n nc Phi a k) g c = rsum k (fun i => phi_of (Phi (a + i)) g c).
Proof.
  intros Hg Hc. unfold phi_of at 1, generations. rewrite nth_map with (d := 0) by (rewrite seq_length; auto). rewrite seq_nth by auto.
  rewrite nth_map_seq by auto. reflexivity.
Qed.
Theorem generations_sum Phi k : 0 < k -> (forall i, i < k -> next_generation w nc t0 (Phi i) (Phi (S i))) ->
  next_generation w nc t0 (generations n nc Phi 0 k) (generations n nc Phi 1 k).
Proof.
  intros Hk NG. destruct (sc_ready I0) as (P & NC & q0 & Eq & SH0). pose proof SH0 as (S1 & S2 & S3 & S4).
  set (q := {| fsrc := x0; dens := dens q0; fscale := 1;
     fsource := map (fun g => map (fun c => (production x0 (generations n nc Phi 0 k) c * spectrum x0 g c)%R) (seq 0 nc)) (seq 0 n) |}).
  assert (FQ : forall g c, g < n -> c < nc -> nth c (nth g (fsource q) []) 0%R = (production x0 (generations n nc Phi 0 k) c * spectrum x0 g c)%R).
  { intros g c Hg Hc. cbn. rewrite nth_map with (d := 0) by (rewrite seq_length; auto). rewrite seq_nth by auto. rewrite nth_map_seq by auto. reflexivity. }
  assert (SQ : shared_fission nc x0 q).
  { split; [reflexivity|]. split; [auto|]. split; [cbn; rewrite map_length, seq_length; auto|]. intros g Hg. cbn.
    rewrite nth_map with (d := 0) by (rewrite seq_length; auto). rewrite map_length, seq_length. auto. }
  assert (IQ : Inv (put_fission t0 q)) by (apply (ms_fission MS); auto).
  assert (SG : forall i, i < k -> streams w x0 (b_q (t_b t0)) (ins0 t0) (fun g c => (production x0 (Phi i) c * spectrum x0 g c)%R) (phi_of (Phi (S i)))).
  { intros i Hi. destruct (NG i Hi) as (qi & Si & Fi & Mi).
    assert (Ii : Inv (put_fission t0 qi)) by (apply (ms_fission MS); auto). pose proof (to_streams HO Hn I0 Ii Mi) as ST.
    eapply streams_ext; [| |exact ST]; auto. intros g c Hg Hc. unfold explicit_fission. cbn. rewrite (ho_fission HO). rewrite NC in Hc. apply Fi; auto. }
  destruct (case_posed I0 Hn) as [_ _ _ (_ & QE) (_ & _ & G3 & _) DI _ _ _].
  assert (SS : streams w x0 (b_q (t_b t0)) (ins0 t0) (fun g c => rsum k (fun i => 1 * (production x0 (Phi i) c * spectrum x0 g c))%R)
     (fun g c => rsum k (fun i => 1 * phi_of (Phi (S i)) g c)%R)).
  { apply (@streams_sum w x0 _ (ins0 t0) QE G3 DI) with (v := fun _ => 1%R); auto; [|intros; eapply case_zero; eauto].
    intros g Hg. destruct (case_posed I0 Hg) as [_ _ _ _ (G1 & G2 & _) _ _ _ _]. auto. }
  assert (ST : streams w x0 (b_q (t_b t0)) (ins0 t0) (explicit_fission (t_x (put_fission t0 q))) (phi_of (generations n nc Phi 1 k))).
  { eapply streams_ext; [| |exact SS].
    - intros g c Hg Hc. rewrite NC in Hc. unfold explicit_fission. cbn [put_fission with_x t_x with_fiss fiss implicit]. rewrite (ho_fission HO), FQ by auto.
      unfold production. rewrite <- rsum_scal_r.
      rewrite (@rsum_ext n (fun g' => _) (fun g' => rsum k (fun i => phi_of (Phi i) g' c * (if adj x0 then chi (mat x0) g' (mat_of x0 c) else nsf (mat x0) g' (mat_of x0 c)) * spectrum x0 g c)%R)).
      + rewrite rsum_swap. apply rsum_ext. intros i Hi. rewrite <- rsum_scal_r. rewrite Rmult_1_l. apply rsum_ext. intros. ring.
      + intros g' Hg'. rewrite generations_phi by auto. cbn [plus]. rewrite !rsum_scal_r. ring.
    - intros g c Hg Hc. rewrite NC in Hc. rewrite generations_phi by auto. apply rsum_ext. intros. cbn [plus]. ring. }
  exists q. split; auto. split; auto. pose proof (of_streams HO Hn I0 IQ ST) as (L & MT).
  assert (ET : tab t0 (phi_of (generations n nc Phi 1 k)) = generations n nc Phi 1 k).
  { unfold tab. rewrite NC. unfold generations at 2. apply map_ext_in. intros g Hg. apply in_seq in Hg. apply map_ext_in. intros c Hc. apply in_seq in Hc.
    apply generations_phi; lia. }
  rewrite ET in *. split; auto.
Qed.
Variable l : list nat.
Hypotheses (SO : solve_order (t_x t0) l) (DA : all_damped w t0) (EX : exact w Inv mg).
Fixpoint crun (t : tstate) (k : nat) : tstate :=
  match k with 0 => t | S k => match (do t1 <- client_setup (crun t k); iterate mg (Z.of_nat (S k)) t1) with Ok (t', _) => t' | _ => t end end.
Theorem client_series t : Inv t -> exists T, T 0 = t /\
  (forall i, exists t1 e, client_setup (T i) = Ok t1 /\ iterate mg (Z.of_nat (S i)) t1 = Ok (T (S i), e) /\ next_generation w nc t0 (phis (T i)) (phis (T (S i)))) /\
  forall k, 0 < k -> next_generation w nc t0 (generations n nc (fun i => phis (T i)) 0 k) (generations n nc (fun i => phis (T i)) 1 k).
Proof.
  intros I. exists (crun t). split; auto.
  assert (CR : forall i, Inv (crun t i)).
  { induction i as [|i IH]; auto. destruct (gen_client HO Hn I0 MS EX (gen := Z.of_nat (S i)) ltac:(lia) IH) as (t1 & t' & C1 & C2 & C3 & _).
    cbn [crun]. rewrite C1. cbn [bind]. rewrite C2. auto. }
  assert (ST : forall i, exists t1 e, client_setup (crun t i) = Ok t1 /\ iterate mg (Z.of_nat (S i)) t1 = Ok (crun t (S i), e) /\ next_generation w nc t0 (phis (crun t i)) (phis (crun t (S i)))).
  { intros i. destruct (gen_client HO Hn I0 MS EX (gen := Z.of_nat (S i)) ltac:(lia) (CR i)) as (t1 & t' & C1 & C2 & C3 & C4).
    cbn [crun]. rewrite C1. cbn [bind]. rewrite C2. eauto. }
  split; auto. intros k Hk. apply generations_sum; auto. intros i Hi. destruct (ST i) as (_ & _ & _ & _ & X). exact X.
Qed.
End Sum.
