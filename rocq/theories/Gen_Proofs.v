(** * Gen_Proofs: the generations *)
From Verif Require Import Base BaseR Loop Util_Model Util_Proofs Angle_Model Angle_Spec Boundary_Model Boundary_Spec Boundary_Proofs Mesh_Model Mesh_Proofs
  Material_Model Material_Spec Source_Model Source_Spec Source_Proofs Cell_Model Cell_Spec Sweep_Model Sweep_Spec Sweep_Proofs
  SweepAll_Proofs SweepLinear_Proofs Vector_Proofs Iter_Model Iter_Spec Pi_Spec Iter_Proofs IterConv_Proofs Gs_Proofs Pi_Proofs PiLinear_Proofs PiGs_Proofs
  Wg_Spec Wg_Proofs Mgk_Proofs Gen_Model Gen_Spec.
From Coq Require Import ZArith.
Set Implicit Arguments. Unset Strict Implicit.
Open Scope nat_scope.

(** ** The norm *)
Lemma rd_nth A (d : A) l i : i < length l -> rd l i = Ok (nth i l d).
Proof. intros H. unfold rd. destruct (nth_error l i) eqn:E; [f_equal; symmetry; apply nth_error_nth; auto|]. apply nth_error_None in E. lia. Qed.
Lemma change_ok n nc a b : length a = n -> length b = n -> (forall g, g < n -> length (nth g a []) = nc) -> (forall g, g < n -> length (nth g b []) = nc) ->
  change n a b = Ok (flux_change n nc a b).
Proof.
  intros La Lb Ra Rb. unfold change, flux_change.
  assert (K : forall k, k <= n -> for_ 0 k 0%R (fun g s => do x <- rd a g; do y <- rd b g; do e <- norm_residual x y L2; Ok (s + e * e)%R) =
    Ok (rsum k (fun g => rsum nc (fun c => ((phi_of a g c - phi_of b g c) * (phi_of a g c - phi_of b g c))%R)))).
  { induction k as [|k IH]; intros Hk; [reflexivity|]. rewrite for_S, IH by lia. cbn [bind]. rewrite (rd_nth []), (rd_nth []) by lia. cbn [bind].
    destruct (@norm_residual_L2 (nth k a []) (nth k b [])) as (v & E & _ & _ & V); [rewrite Ra, Rb by lia; auto|]. rewrite E. cbn [bind].
    rewrite V, Ra by lia. reflexivity. }
  rewrite K by lia. reflexivity.
Qed.

(** ** Clearing the boundary *)
Lemma clear_all b k : sn_quad (b_q b) -> k <= b_ng b -> exists b', for_ 0 k b (fun g b => bsn_clear b g) = Ok b' /\ same_setup b b' /\
  forall s o a g, valid b s o a g -> bflux b' s o a g = if g <? k then map (map (fun _ => 0%R)) (bflux b s o a g) else bflux b s o a g.
Proof.
  intros Q. induction k as [|k IH]; intros Hk.
  - exists b. split; auto. split; [apply same_refl|]. auto.
  - destruct IH as (b1 & E1 & S1 & F1); [lia|]. pose proof S1 as (T1 & T2 & T3).
    destruct (@clear_group b1 k) as (b2 & E2 & S2 & Z2 & O2); [rewrite T1; auto|rewrite T2; lia|].
    exists b2. rewrite for_S, E1 by lia. cbn [bind]. split; [exact E2|]. split; [eapply same_trans; eauto|].
    intros s o a g V. assert (V1 : valid b1 s o a g) by (unfold valid in *; rewrite T1, T2; exact V).
    destruct (Nat.eq_dec g k) as [->|Ne].
    + destruct (Z2 s o a V1) as (L & Z). rewrite (proj2 (Nat.ltb_lt k (S k))) by lia.
      assert (W : bflux b2 s o a k = map (map (fun _ => 0%R)) (bflux b1 s o a k)) by (apply dark_face; auto). rewrite W, (F1 s o a k V), Nat.ltb_irrefl. auto.
    + assert (W : bflux b2 s o a g = bflux b1 s o a g) by (apply O2; auto). rewrite W, (F1 s o a g V).
      destruct (Nat.ltb_spec g k), (Nat.ltb_spec g (S k)); auto; lia.
Qed.

(** ** The states of one case *)
Lemma posed_psi w m g t u : wellposed w m g t -> t_x u = t_x t -> t_b u = t_b t -> (forall o a, length (t_psi u g o a) = length (t_psi t g o a)) -> wellposed w m g u.
Proof.
  intros [A1 A2 A3 A4 A5 A6 A7 A8 (B1 & B2)] EX EB EP. constructor; rewrite ?EX, ?EB; auto.
  unfold phis in *. rewrite EX. split; auto. intros o a HK. rewrite EP. auto.
Qed.
Definition zeros (phi : list (list R)) : list (list R) := map (map (fun _ => 0%R)) phi.
Lemma zeros_row phi g : nth g (zeros phi) [] = map (fun _ => 0%R) (nth g phi []).
Proof. unfold zeros. change ([] : list R) with (map (fun _ : R => 0%R) []) at 1. apply map_nth. Qed.
Lemma map_zero (l : list R) : map (fun _ : R => 0%R) l = repeat 0%R (length l).
Proof. induction l; cbn; f_equal; auto. Qed.
Lemma zeros_phi phi g c : phi_of (zeros phi) g c = 0%R.
Proof. unfold phi_of. rewrite zeros_row, map_zero. destruct (Nat.lt_ge_cases c (length (nth g phi []))). - apply nth_repeat_lt; auto. - apply nth_overflow. rewrite repeat_length. auto. Qed.
Lemma dark_zero (f : face) : Forall (Forall (fun v => v = 0%R)) f -> map (map (fun _ => 0%R)) f = f.
Proof.
  intros H. induction H as [|r f Hr Hf IH]; cbn; f_equal; auto. clear - Hr. induction Hr; cbn; f_equal; auto.
Qed.

Section Case.
Variables (w : sweeper) (m : mtl) (nc : nat) (t0 : tstate).
Local Notation x0 := (ssrc (t_x t0)).
Local Notation q0 := (b_q (t_b t0)).
Local Notation n := (ng (mat x0)).
Local Notation Inv := (same_case w m nc t0).
Hypotheses (HO : homogeneous t0) (Hn : 0 < n) (I0 : Inv t0).
Variable mg : tstate -> res tstate.
Hypotheses (MS : mg_solver nc Inv mg).

Lemma case_shape t : Inv t -> length (phis t) = n /\ forall g, g < n -> length (nth g (phis t) []) = nc.
Proof. intros I. apply (all_wellposed_flux Hn (sc_posed I)). Qed.

Lemma case_clear t : Inv t -> exists b, clear_boundary (t_b t) = Ok b /\ Inv (with_b (clear_state t) b).
Proof.
  intros I. destruct (sc_cells I) as (A1 & A2 & A3 & A4). destruct (sc_source I) as (B1 & B2 & B3).
  destruct (case_shape I) as (L1 & L2). pose proof (sc_posed I) as (P1 & P2 & P3).
  destruct (P3 0 Hn) as [_ _ _ (Q & _) _ _ _ _ _].
  destruct (@clear_all (t_b t) (b_ng (t_b t)) Q (le_n _)) as (b & E & SS & FB). exists b. split; [exact E|].
  pose proof SS as (S1 & S2 & S3).
  set (u := with_b (clear_state t) b).
  assert (EX : t_x u = with_phis (t_x t) (zeros (phis t))) by reflexivity.
  assert (LZ : length (zeros (phis t)) = n) by (unfold zeros; rewrite map_length; auto).
  assert (LR : forall g, g < n -> length (nth g (zeros (phis t)) []) = nc) by (intros g Hg; rewrite zeros_row, map_length; auto).
  assert (FZ : forall s o a g, valid (t_b t) s o a g -> bflux b s o a g = map (map (fun _ => 0%R)) (bflux (t_b t) s o a g)).
  { intros s o a g V. rewrite (FB s o a g V). destruct (Nat.ltb_spec g (b_ng (t_b t))); auto. unfold valid in V. lia. }
  assert (PO : forall g, g < n -> wellposed w m g u).
  { intros g Hg.
    assert (W1 : wellposed w m g (with_x t (with_phis (t_x t) (zeros (phis t))))).
    { apply posed_phis; [auto|rewrite A2; auto|]. intros gp Hgp. rewrite A2 in Hgp. rewrite P2. auto. }
    assert (W2 : wellposed w m g (clear_state t)).
    { apply (posed_psi W1); try reflexivity. intros o a. cbn. apply map_length. }
    apply (@posed_b w m g (clear_state t) u b W2); try reflexivity.
    - exact SS.
    - destruct W2 as [_ _ _ _ _ _ (Sh & _) _ _]. intros s o a g' V.
      assert (V' : valid (t_b t) s o a g') by (unfold valid in *; rewrite S1, S2 in V; exact V).
      rewrite S1, FZ, dark_length by auto. apply Sh. auto. }
  constructor; try (rewrite EX; cbn; auto; fail).
  - intros g Hg. eapply same_incoming_trans; [apply (sc_enter I Hg)|]. split; [exact SS|].
    intros s o a V En. change (bflux b s o a g = bflux (t_b t) s o a g). rewrite FZ by auto. apply dark_zero.
    destruct (sc_enter I Hg) as ((T1 & T2 & T3) & EI).
    assert (V' : valid (t_b t0) s o a g) by (unfold valid in *; rewrite T1, T2 in V; exact V). rewrite T1 in En.
    rewrite EI by auto. apply (ho_enter HO); auto.
  - split; [|split]; auto.
  - destruct (sc_ready I) as (R1 & R2 & q & R3 & E1 & E2 & E3 & E4). split; [|split].
    + apply (wp_ready _ _ _ _ (PO 0 Hn)).
    + rewrite EX. auto.
    + rewrite EX. cbn. rewrite R3. cbn. eexists. split; [reflexivity|]. repeat split; cbn; auto. rewrite E1. auto.
Qed.

(** ** One generation *)
Lemma update_case t : Inv t -> exists q q', pi_fission t = Ok q /\ fis_update q = Ok q' /\ shared_fission nc (ssrc (t_x t)) q' /\ fsource q' = fsource q /\
  fiss (t_x t) = Some q /\ dens q' = map (production (ssrc (t_x t)) (phis t)) (seq 0 nc).
Proof.
  intros I. destruct (ms_ready MS I) as (P & EC & q & EF & E1 & E2 & E3 & E4).
  destruct (@fis_update_ok q) as (q3 & U1 & U2 & U3 & U4 & U5 & U6); rewrite ?E1, ?EC; auto; [lia|].
  exists q, q3. unfold pi_fission. rewrite EF. split; auto. split; auto. split; [|split; [auto|split; auto]].
  - split; [congruence|]. split; [congruence|]. rewrite U3. auto.
  - apply list_ext_nth with (d := 0%R); [rewrite map_length, seq_length; congruence|].
    rewrite U5, E2. intros c Hc. rewrite nth_map_seq by auto. rewrite U6 by (rewrite E1, EC; auto). rewrite E1. reflexivity.
Qed.

(** The state that the solver of a later generation starts from. *)
Lemma start_case t : Inv t -> exists q q' b, pi_fission t = Ok q /\ fis_update q = Ok q' /\ clear_boundary (t_b t) = Ok b /\
  let u := with_b (clear_state (put_fission t q')) b in Inv u /\ Inv (put_fission t q') /\ t_x u = with_phis (with_fiss (t_x t) (Some q')) (zeros (phis t)) /\
  (forall g c, explicit_fission (t_x u) g c = explicit_fission (t_x t) g c).
Proof.
  intros I. destruct (update_case I) as (q & q' & U1 & U2 & U3 & U4 & U5 & U6).
  assert (I1 : Inv (put_fission t q')) by (apply (ms_fission MS); auto).
  destruct (case_clear I1) as (b & C1 & C2). exists q, q', b. split; auto. split; auto. split; [exact C1|]. split; [exact C2|]. split; auto.
  split; [reflexivity|]. intros g c. unfold explicit_fission. cbn. rewrite U5, U4. reflexivity.
Qed.

Lemma later_ok gen t : gen <> 0%Z -> Inv t -> exists u t', iterate mg gen t = Ok (t', flux_change n nc (phis t') (phis t)) /\
  Inv u /\ Inv t' /\ mg u = Ok t' /\ (forall g c, explicit_fission (t_x u) g c = explicit_fission (t_x t) g c).
Proof.
  intros HG I. destruct (start_case I) as (q & q' & b & U1 & U2 & C1 & I2 & _ & _ & EF).
  set (u := with_b (clear_state (put_fission t q')) b) in *. destruct (ms_solve MS I2) as (t' & M1 & I3).
  exists u, t'. split; [|auto]. unfold iterate. destruct (Z.eqb_spec gen 0) as [|Ng]; [contradiction|]. rewrite U1. cbn [bind]. rewrite U2. cbn [bind].
  change (t_b (clear_state (put_fission t q'))) with (t_b t). rewrite C1. cbn [bind].
  change (mg (with_b (clear_state (put_fission t q')) b)) with (mg u). rewrite M1. cbn [bind].
  destruct (case_shape I) as (L1 & L2). destruct (case_shape I3) as (L3 & L4). destruct (sc_cells I3) as (_ & -> & _).
  rewrite (@change_ok n nc) by auto. reflexivity.
Qed.

Lemma streams_zero S F : streams w x0 q0 (ins0 t0) S F -> streams w x0 q0 (ins0 t0) (fun _ _ => 0%R) (fun _ _ => 0%R).
Proof.
  intros ST. destruct (case_posed I0 Hn) as [_ _ _ (_ & QE) (_ & _ & G3 & _) DI _ _ _].
  assert (Z : streams w x0 q0 (ins0 t0) (fun g c => 0 * S g c + 0 * S g c)%R (fun g c => 0 * F g c + 0 * F g c)%R).
  { apply (@streams_lin w x0 q0 (ins0 t0) QE G3 DI); auto; [|intros; eapply case_zero; eauto].
    intros g Hg. destruct (case_posed I0 Hg) as [_ _ _ _ (G1 & G2 & _) _ _ _ _]. auto. }
  eapply streams_ext; [| |exact Z]; intros; cbv beta; ring.
Qed.

Variable l : list nat.
Hypotheses (SO : solve_order (t_x t0) l) (DA : all_damped w t0) (EX : exact w Inv mg).

(** Without a source there is no flux. *)
Lemma dark_solution t phi : Inv t -> (forall g c, explicit_fission (t_x t) g c = 0%R) -> mg_solution w t phi -> forall g c, g < n -> phi_of phi g c = 0%R.
Proof.
  intros I Z MT g c Hg. pose proof (to_streams HO Hn I0 I MT) as ST. apply streams_zero in ST.
  assert (ST' : streams w x0 q0 (ins0 t0) (explicit_fission (t_x t)) (fun _ _ => 0%R)).
  { eapply streams_ext; [| |exact ST]; auto. }
  pose proof (of_streams HO Hn I0 I ST') as MT'. destruct (solution_unique HO Hn SO DA I MT MT') as (_ & U).
  unfold phi_of. rewrite (U g Hg), tab_nth by auto. 
  destruct (Nat.lt_ge_cases c (cells x0)); [rewrite nth_map_seq by auto; auto|]. apply nth_overflow. rewrite map_length, seq_length. auto.
Qed.
Lemma dark_flux t : Inv t -> (forall g c, g < n -> phi_of (phis t) g c = 0%R) -> no_flux t.
Proof.
  intros I H g c. destruct (Nat.lt_ge_cases g n); auto. destruct (case_shape I) as (L & _). unfold phi_of. rewrite (nth_overflow (phis t)) by lia. destruct c; auto.
Qed.

Theorem gen_lost gen t : keeps_fission Inv mg -> gen <> 0%Z -> Inv t -> no_fission_source t ->
  exists t', iterate mg gen t = Ok (t', flux_change n nc (phis t') (phis t)) /\ Inv t' /\ no_flux t' /\ no_fission_source t'.
Proof.
  intros KF HG I NF. destruct (later_ok HG I) as (u & t' & E & IU & I' & M & EF). exists t'. split; auto. split; auto. split.
  - apply dark_flux; auto. intros g c Hg. apply (@dark_solution u); auto. intros. rewrite EF. apply NF.
  - intros g c. rewrite (KF u t' IU M), EF. apply NF.
Qed.

(** ** With the help of the client *)
Lemma client_ok t : Inv t -> exists t1 q, client_setup t = Ok t1 /\ t1 = put_fission t q /\ Inv t1 /\ shared_fission nc (ssrc (t_x t)) q /\
  forall g c, g < n -> c < nc -> nth c (nth g (fsource q) []) 0%R = (production (ssrc (t_x t)) (phis t) c * spectrum (ssrc (t_x t)) g c)%R.
Proof.
  intros I. destruct (update_case I) as (q & q' & U1 & U2 & (E1 & E2 & E3 & E4) & U4 & U5 & U6).
  destruct (ms_ready MS I) as (P & EC & _). destruct (sc_cells I) as (A1 & A2 & A3 & A4).
  destruct (@fis_outer_ok q' 1%R) as (q1 & O1 & O2 & O3 & O4 & O5 & O6); rewrite ?E1, ?EC; auto; [lia|].
  assert (SH : shared_fission nc (ssrc (t_x t)) q1).
  { split; [congruence|]. split; [congruence|]. rewrite E1 in O5, O6. split; auto. intros g Hg. rewrite <- EC. apply O6; auto. }
  exists (put_fission t q1), q1. unfold client_setup. rewrite U1. cbn [bind]. rewrite U2. cbn [bind]. rewrite O1. cbn [bind].
  split; auto. split; auto. split; [apply (ms_fission MS); auto|]. split; auto. intros g c Hg Hc.
  rewrite E1 in O6. destruct (O6 g) as (_ & O7); [rewrite A2; auto|]. rewrite O7 by (rewrite EC; auto). rewrite U6, nth_map_seq by auto.
  unfold spectrum. rewrite Rmult_1_l. reflexivity.
Qed.

Theorem gen_client gen t : gen <> 0%Z -> Inv t -> exists t1 t', client_setup t = Ok t1 /\
  iterate mg gen t1 = Ok (t', flux_change n nc (phis t') (phis t)) /\ Inv t' /\ next_generation w nc t0 (phis t) (phis t').
Proof.
  intros HG I. destruct (client_ok I) as (t1 & q & C1 & C2 & I1 & SH & FS).
  destruct (later_ok HG I1) as (u & t' & E & IU & I' & M & EF). exists t1, t'. split; auto.
  assert (EP : phis t1 = phis t) by (rewrite C2; reflexivity). rewrite EP in E. split; auto. split; auto.
  destruct (sc_cells I) as (A1 & A2 & A3 & A4). destruct (sc_source I) as (_ & _ & B3). destruct SH as (H1 & H2 & H3 & H4).
  set (qq := {| fsrc := x0; dens := dens q; fsource := fsource q; fscale := fscale q |}).
  assert (SQ : shared_fission nc x0 qq). { repeat split; cbn; auto; [rewrite <- A2; auto|]. intros g Hg. apply H4. rewrite A2. auto. }
  exists qq. split; auto.
  split.
  - intros g c Hg Hc. cbn. rewrite FS by auto. unfold production, spectrum, mat_of. rewrite A2, A3, A4. auto.
  - assert (IQ : Inv (put_fission t0 qq)) by (apply (ms_fission MS); auto).
    pose proof (to_streams HO Hn I0 IU (EX IU M)) as ST.
    assert (ST' : streams w x0 q0 (ins0 t0) (explicit_fission (t_x (put_fission t0 qq))) (phi_of (phis t'))).
    { eapply streams_ext; [| |exact ST]; auto. intros g c Hg Hc. rewrite EF, C2. unfold explicit_fission. cbn. rewrite B3. auto. }
    pose proof (of_streams HO Hn I0 IQ ST') as MT. destruct MT as (L & MT). destruct (case_shape I') as (L1 & L2).
    assert (ET : tab t0 (phi_of (phis t')) = phis t').
    { apply list_ext_nth with (d := []); [unfold tab; rewrite map_length, seq_length; auto|]. unfold tab at 1. rewrite map_length, seq_length.
      intros g Hg. rewrite tab_nth by auto. assert (NC : cells x0 = nc) by apply (ms_ready MS I0). rewrite NC.
      apply list_ext_nth with (d := 0%R); rewrite map_length, seq_length; [rewrite L2; auto|]. intros c Hc. rewrite nth_map_seq by auto. reflexivity. }
    rewrite ET in *. split; auto.
Qed.
End Case.
