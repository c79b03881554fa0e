(** * PiEig_Proofs: power iteration finds the eigenvalue of the transport problem. *)
From Verif Require Import Base BaseR Loop Util_Model Angle_Model Angle_Spec Boundary_Model Boundary_Spec Mesh_Model Mesh_Proofs
  Material_Model Material_Spec Source_Model Source_Spec Source_Proofs Cell_Spec Sweep_Model Sweep_Spec Sweep_Proofs
  Iter_Model Iter_Spec Pi_Spec Iter_Proofs IterConv_Proofs Gs_Proofs Pi_Proofs PiConv_Proofs PiLinear_Proofs PiGs_Proofs PiPos_Proofs.
Set Implicit Arguments. Unset Strict Implicit.
Open Scope R_scope.

Section Case.
Variables (w : sweeper) (m : mtl) (nc : nat) (t0 : tstate) (l : list nat) (mg : tstate -> res tstate).
Local Notation Inv := (same_case w m nc t0).
Local Notation x0 := (ssrc (t_x t0)).
Local Notation n := (ng (mat x0)).
Hypotheses (HO : homogeneous t0) (Hn : (0 < n)%nat) (SO : solve_order (t_x t0) l) (DA : all_damped w t0) (I0 : Inv t0)
  (MS : mg_solver nc Inv mg) (EX : exact w Inv mg).

(** The density V held by the fission source, and the source it makes. *)
Definition hold (V : nat -> R) : tstate := put_fission t0
  {| fsrc := x0; dens := map V (seq 0 nc); fscale := 1; fsource := map (fun g => map (fun c => 0) (seq 0 nc)) (seq 0 n) |}.
Definition emit (k : R) (V : nat -> R) : fis :=
  {| fsrc := x0; dens := map V (seq 0 nc); fscale := 1;
     fsource := map (fun g => map (fun c => 1 / k * V c * spectrum x0 g c) (seq 0 nc)) (seq 0 n) |}.
Lemma table_shared F V : shared_fission nc x0 {| fsrc := x0; dens := map V (seq 0 nc); fscale := 1;
  fsource := map (fun g => map (F g) (seq 0 nc)) (seq 0 n) |}.
Proof.
  split; [reflexivity|]. cbn. rewrite !map_length, !seq_length. split; auto. split; auto. intros g Hg.
  rewrite nth_map with (d := 0%nat) by (rewrite seq_length; auto). rewrite map_length, seq_length. auto.
Qed.
Lemma put_twice t q q' : put_fission (put_fission t q) q' = put_fission t q'.
Proof. reflexivity. Qed.

Lemma acts_production a : acts_as nc Inv mg a -> forall k V t1, mg (put_fission t0 (emit k V)) = Ok t1 ->
  forall c, (c < nc)%nat -> production x0 (phis t1) c = 1 / k * rsum nc (fun j => a c j * V j).
Proof.
  intros AA k V t1 E c Hc.
  assert (IH : Inv (hold V)) by (apply (ms_fission MS); auto; apply table_shared).
  assert (IE : Inv (put_fission t0 (emit k V))) by (apply (ms_fission MS); auto; apply table_shared).
  destruct (ms_solve MS IE) as (t1' & E' & I1). rewrite E in E'. injection E' as <-.
  set (t' := put_fission t1 {| fsrc := ssrc (t_x t1); dens := map (production (ssrc (t_x t1)) (phis t1)) (seq 0 nc); fscale := 1; fsource := [] |}).
  assert (OU : outer nc mg k (hold V) (put_fission (hold V) (emit k V)) t1 t').
  { constructor; auto.
    - exists (emit k V). split; auto. split; [apply table_shared|]. split; [reflexivity|].
      intros g c' Hg Hc'. cbn in Hg. unfold emit. cbn [fsource]. rewrite nth_map with (d := 0%nat) by (rewrite seq_length; auto).
      rewrite seq_nth by auto. cbn [plus]. rewrite nth_map_seq by auto. unfold hold. rewrite put_density. cbn [dens].
      rewrite at_tab by auto. reflexivity.
    - eexists. split; reflexivity. }
  pose proof (AA k (hold V) _ _ _ IH OU c Hc) as A. unfold t' in A. rewrite put_density in A. cbn [dens] in A.
  rewrite at_tab in A by auto. rewrite (case_production _ _ I1) in A. rewrite A. f_equal. apply rsum_ext. intros j Hj.
  unfold hold. rewrite put_density. cbn [dens]. rewrite at_tab by auto. auto.
Qed.

Lemma mode_eigenpair a k V : acts_as nc Inv mg a -> mode nc a k V <-> eigenpair w nc t0 k V.
Proof.
  intros AA.
  assert (IE : Inv (put_fission t0 (emit k V))) by (apply (ms_fission MS); auto; apply table_shared).
  destruct (ms_solve MS IE) as (t1 & E & I1). pose proof (acts_production AA E) as PR.
  split; intros (Hk & V0 & V1 & H); (split; [auto|split; [auto|split; [auto|]]]).
  - exists (emit k V), (phis t1). split; [apply table_shared|]. split; [|split].
    + intros g c Hg Hc. unfold emit. cbn [fsource]. rewrite nth_map with (d := 0%nat) by (rewrite seq_length; auto).
      rewrite seq_nth by auto. cbn [plus]. rewrite nth_map_seq by auto. auto.
    + apply EX; auto.
    + intros c Hc. rewrite PR by auto. rewrite H by auto. field. lra.
  - destruct H as (q & phi & SH & ES & SOL & P). intros c Hc.
    assert (IQ : Inv (put_fission t0 q)) by (apply (ms_fission MS); auto).
    assert (SOL2 : mg_solution w (put_fission t0 q) (phis t1)).
    { pose proof (to_streams HO Hn I0 IE (EX IE E)) as ST.
      assert (ST2 : streams w x0 (b_q (t_b t0)) (ins0 t0) (explicit_fission (t_x (put_fission t0 q))) (phi_of (phis t1))).
      { eapply streams_ext; [| |exact ST]; auto. intros g c' Hg Hc'. rewrite (case_nc I0) in Hc'.
        unfold explicit_fission. cbn [put_fission with_x t_x with_fiss fiss implicit]. rewrite (ho_fission HO).
        rewrite ES by auto. unfold emit. cbn [fsource]. rewrite nth_map with (d := 0%nat) by (rewrite seq_length; auto).
        rewrite seq_nth by auto. cbn [plus]. rewrite nth_map_seq by auto. auto. }
      pose proof (of_streams HO Hn I0 IQ ST2) as MT. 
      destruct (EX IE E) as (L1 & X1). cbn in L1.
      assert (ET : tab t0 (phi_of (phis t1)) = phis t1).
      { apply list_ext_nth with (d := []); [unfold tab; rewrite map_length, seq_length; auto|].
        unfold tab at 1. rewrite map_length, seq_length. intros g Hg. rewrite tab_nth by auto.
        destruct (X1 g Hg) as (b & _ & PP & _ & LG & _). cbn in LG.
        apply list_ext_nth with (d := 0); [rewrite map_length, seq_length; auto|]. rewrite map_length, seq_length. intros c' Hc'.
        rewrite nth_map_seq by auto. reflexivity. }
      rewrite ET in MT. auto. }
    destruct (solution_unique HO Hn SO DA IQ SOL SOL2) as (_ & UN).
    specialize (PR c Hc). specialize (P c Hc).
    assert (production x0 phi c = production x0 (phis t1) c).
    { unfold production. apply rsum_ext. intros g Hg. unfold phi_of. rewrite (UN g Hg). auto. }
    rewrite <- H, P in PR. rewrite PR. field. lra.
Qed.

(** ** Convergence to the eigenvalue *)
Hypotheses (SPR : eq_spreads (w_eq w) = true) (CH : chain w t0 x0).
Theorem eigen_converges : exists k V C q, 0 < q < 1 /\ eigenpair w nc t0 k V /\
  (forall k' V', eigenpair w nc t0 k' V' -> k' = k) /\
  (forall tol max, (0 < max)%nat -> exists t' keff i Z K, pi_solve mg 1 tol max t0 = Ok (t', keff) /\
    pi_history nc mg 1 tol max t0 t' keff i Z K /\ Rabs (keff - k) <= C * q ^ i /\
    forall c, (c < nc)%nat -> Rabs (at_ (density t') c - V c) <= C * q ^ i) /\
  (forall tol, 0 < tol -> exists N, forall max, (N <= max)%nat -> exists t' keff i Z K, pi_solve mg 1 tol max t0 = Ok (t', keff) /\
    pi_history nc mg 1 tol max t0 t' keff i Z K /\ (i <= N)%nat).
Proof.
  destruct (ms_ready MS I0) as (_ & _ & q & Eq & _).
  assert (ED : dens q = density t0) by (unfold density; rewrite Eq; auto).
  pose proof (fission_acts HO Hn SO DA I0 MS EX ED) as AA.
  pose proof (fission_connected HO Hn SO DA I0 SPR CH MS EX ED) as CN.
  destruct (pi_converges MS AA I0 CN (ch_nsf CH)) as (k & V & C & r & R1 & MO & UN & A & B).
  exists k, V, C, r. split; auto. split; [apply (mode_eigenpair k V AA); auto|]. split; [|split; auto].
  intros k' V' EP. apply (UN k' V'). apply (mode_eigenpair k' V' AA). auto.
Qed.
End Case.

(** ** The operator the other eigensolvers use *)
Theorem eigen_multiply_times nc Inv mg a t x : mg_solver nc Inv mg -> acts_as nc Inv mg a -> Inv t -> length x = nc ->
  exists t', eigen_multiply mg t x = Ok (t', times nc a x) /\ Inv t'.
Proof.
  intros MS AA I L. destruct (ms_ready MS I) as (P & EC & q & EF & E1 & E2 & E3 & E4).
  assert (IX : Inv (put_fission t (with_dens q x))).
  { apply (ms_fission MS); auto. split; [exact E1|]. split; [exact L|]. split; auto. }
  destruct (outer_ok MS 1 IX) as (q0 & q1 & t1 & q2 & q3 & A1 & A2 & A3 & A4 & A5 & A6 & A7 & A8).
  cbn in A1. injection A1 as <-.
  unfold eigen_multiply. unfold pi_fission at 1. rewrite EF. cbn [bind]. replace (1 / 1) with 1 in A3 by field.
  rewrite A3. cbn [bind]. rewrite put_twice in A4. rewrite A4. cbn [bind]. rewrite A5. cbn [bind]. rewrite A6. cbn [bind].
  exists (put_fission t1 q3). split; auto. pose proof (density_step MS AA IX A7 A8) as D. rewrite !put_density in D. cbn [with_dens dens] in D.
  rewrite D. do 2 f_equal. rewrite <- (map_id (times nc a x)) at 2. apply map_ext. intros. field.
Qed.

Section Operator.
Variables (w : sweeper) (m : mtl) (nc : nat) (t0 : tstate) (l : list nat) (mg : tstate -> res tstate).
Local Notation Inv := (same_case w m nc t0).
Hypotheses (HO : homogeneous t0) (Hn : (0 < ng (mat (ssrc (t_x t0))))%nat) (SO : solve_order (t_x t0) l) (DA : all_damped w t0) (I0 : Inv t0)
  (MS : mg_solver nc Inv mg) (EX : exact w Inv mg).
Theorem eigen_multiply_pairs k V t : Inv t -> 0 < k -> (forall c, (c < nc)%nat -> 0 <= V c) -> (exists c, (c < nc)%nat /\ 0 < V c) ->
  (exists t', eigen_multiply mg t (map V (seq 0 nc)) = Ok (t', map (fun c => k * V c) (seq 0 nc))) <-> eigenpair w nc t0 k V.
Proof.
  intros I Hk V0 V1. destruct (fission_linear HO Hn SO DA I0 MS EX) as (a & AA).
  rewrite <- (mode_eigenpair HO Hn SO DA I0 MS EX k V AA).
  destruct (@eigen_multiply_times nc Inv mg a t (map V (seq 0 nc)) MS AA I) as (t' & E & _); [rewrite map_length, seq_length; auto|].
  assert (T : forall c, (c < nc)%nat -> nth c (times nc a (map V (seq 0 nc))) 0 = rsum nc (fun j => a c j * V j)).
  { intros c Hc. unfold times. rewrite nth_map_seq by auto. apply rsum_ext. intros j Hj. rewrite at_tab by auto. auto. }
  rewrite E. split.
  - intros (t2 & E2). split; auto. split; auto. split; auto. intros c Hc. rewrite <- T by auto.
    assert (E3 : times nc a (map V (seq 0 nc)) = map (fun c => k * V c) (seq 0 nc)) by congruence. rewrite E3, nth_map_seq by auto. auto.
  - intros (_ & _ & _ & H). exists t'. do 2 f_equal. apply list_ext_nth with (d := 0); unfold times at 1; rewrite map_length, seq_length; [rewrite map_length, seq_length; auto|].
    intros c Hc. rewrite T, H, nth_map_seq by auto. auto.
Qed.
End Operator.

Theorem eigen_gs w m nc t0 tol max p keff : homogeneous t0 -> (0 < ng (mat (ssrc (t_x t0))))%nat ->
  solve_order (t_x t0) (gs_groups (gs_lower p) (gs_upper p)) -> all_damped w t0 -> same_case w m nc t0 t0 ->
  gs_multiply p = false -> gs_norm p <> BadFlag -> group_lists (ng (mat (ssrc (t_x t0)))) p -> (gs_norm p = Linf -> 0 < gs_tol p) ->
  gs_iterate p = false -> (0 < max)%nat -> (forall g, (g < ng (mat (ssrc (t_x t0))))%nat -> takes_nothing (t_x t0) g g) ->
  mg_solver nc (same_case w m nc t0) (gs_solve (si_solve w tol max) p keff) /\
  exact w (same_case w m nc t0) (gs_solve (si_solve w tol max) p keff).
Proof.
  intros HO Hn SO DA I0 G1 G2 G3 G4 G5 G6 G7. split.
  - apply gs_mg_solver; auto.
  - apply gs_exact; auto.
Qed.
