From Verif Require Import Base BaseR Util_Model Mesh_Model Mesh_Spec Mesh_Proofs Material_Model Material_Spec Matrix_Model Matrix_Spec Matrix_Proofs.
From Verif Require Import Vector_Model Vector_Proofs Diffusion_Model Diffusion_Spec Diffusion_Proofs Dsolve_Model Dsolve_Spec Dsolve_Proofs Dsolve_Proofs2 Dsolve_Proofs3.
From Verif Require Import Dpos_Spec Dpos_Proofs Dpos_Proofs2 Dpos_Proofs3 Cpow_Model Cpow_Spec Cpow_Proofs Cpow_Proofs2 Ediff_Model Ediff_Spec Ediff_Proofs Ediff_Proofs2.
From Coq Require Import Lra Classical.
Set Implicit Arguments. Unset Strict Implicit.
Open Scope nat_scope.

Lemma image_pos n T e u d l w : mixing n T e u d -> (0 < l)%R -> eigenpair n T l w -> forall i, i < n -> (0 < nth i w 0)%R <-> (0 < e i)%R.
Proof.
  intros (D & E0 & U0 & B & _) L (LW & WN & WS & WE) i Hi.
  assert (BI : forall i, i < n -> (d * (e i * rsum n (fun j => u j * nth j w 0)) <= l * nth i w 0 <= e i * rsum n (fun j => u j * nth j w 0))%R).
  { intros j Hj. rewrite <- WE by auto. unfold image. rewrite <- !rsum_scal. split; apply rsum_le; intros c Hc; destruct (B j c Hj Hc); specialize (WN c Hc).
    - replace (d * (e j * (u c * nth c w 0)))%R with (d * (e j * u c) * nth c w 0)%R by ring. apply Rmult_le_compat_r; auto.
    - replace (e j * (u c * nth c w 0))%R with (e j * u c * nth c w 0)%R by ring. apply Rmult_le_compat_r; auto. }
  set (U := rsum n (fun j => u j * nth j w 0)%R) in *.
  assert (UN : (0 <= U)%R) by (apply rsum_nonneg; intros; apply Rmult_le_pos; auto).
  assert (UP : (0 < U)%R).
  { destruct UN as [|Z]; auto. exfalso. assert (size1 n w = 0%R); [|lra]. apply rsum_zero. intros j Hj. destruct (BI j Hj) as (_ & H). rewrite <- Z, Rmult_0_r in H.
    specialize (WN j Hj). assert (nth j w 0 = 0)%R by nra. rewrite H0. apply Rabs_R0. }
  destruct (BI i Hi) as (H1 & H2). specialize (WN i Hi). specialize (E0 i Hi). split; intros H.
  - destruct E0 as [|Z]; auto. rewrite <- Z in H2. nra.
  - assert (0 < d * (e i * U))%R by (apply Rmult_lt_0_compat; [lra|apply Rmult_lt_0_compat; auto]). nra.
Qed.

Lemma solve_length n mul slv T s x x0 r : realises n mul slv T -> length (guess x x0) = n -> (ps_maxit s <= length (ps_hist s))%nat -> length x = n ->
  power_solve mul slv s x x0 = Ok r -> length (pr_x r) = n.
Proof.
  intros RZ LG HC LX ES. destruct (solve_run RZ LG HC) as [(j & _ & _ & E)|(N & r' & HN & E & LP & X1 & X2 & _)]; [congruence|].
  assert (r' = r) by congruence. subst r'. destruct N as [|i].
  - rewrite X2; auto.
  - destruct X1 as (-> & _); [lia|]. apply xs_length; auto.
Qed.

Section E.
  Variable P : dprob.
  Hypothesis PK : prob_ok P.
  Hypothesis AB : absorbing P 1.
  Let m := q_mesh P.
  Let n := ncells m.
  Let x := q_mat P.
  Let G := ng x.
  Let be := albedo (dim m) (q_bc P) (q_zero P).
  Let D (g c : nat) := dc x g (mt m c).
  Let L := lhs m G D be (fun g c => st x g (mt m c)) (xfer P 1).
  Variable srt : list triplet -> list triplet.
  Hypothesis SRT : is_sort srt.
  Variable s : dstate.
  Hypothesis NEW : d_new srt P = Ok s.
  Variable lin : csr -> list R -> list R -> res (list R).
  Hypothesis LIN : solver_for lin (s_M s) (d_size P).

  Lemma sources : exists S1, forall c', c' < n -> forall g c, g < G -> c < n -> L (S1 c') g c = (if c =? c' then chi x g (mt m c') else 0)%R.
  Proof.
    apply (@choose_all _ (fun c' y => forall g c, g < G -> c < n -> L y g c = (if c =? c' then chi x g (mt m c') else 0)%R) (fun _ _ => 0%R) n).
    intros c' Hc'. apply (lhs_onto (pos PK AB) (fun g c => if c =? c' then chi x g (mt m c') else 0)%R).
  Qed.
  Lemma e_new_ok tol maxit : exists F, build srt (gain_caps (e_gain P)) (gain_ops (e_gain P)) = Ok F /\
    e_new srt P tol maxit = Ok {| e_M := s_M s; e_F := F; e_phi := repeat 0%R (d_size P); e_work := repeat 1%R (d_size P); e_pow := power_new tol maxit |}.
  Proof.
    destruct (@gain_operator srt (e_gain P) SRT) as (F & B & _). exists F. split; [exact B|]. unfold e_new. rewrite NEW. cbn [bind]. rewrite B. reflexivity.
  Qed.
  Lemma size_pos : 0 < d_size P.
  Proof.
    assert (A0 := axis_pos PK 0). assert (A1 := axis_pos PK 1). assert (A2 := axis_pos PK 2). cbn in A0, A1, A2. fold m in A0, A1, A2.
    assert (N0 : 0 < n) by (unfold n, ncells; repeat apply Nat.mul_pos_pos; auto). assert (G0 : 0 < G) by (apply (G_pos PK)). rewrite size_eq. fold m n x G. nia.
  Qed.
  Lemma work_guess : guess (repeat 0%R (d_size P)) (repeat 1%R (d_size P)) = repeat 1%R (d_size P).
  Proof. unfold guess. rewrite repeat_length. assert (H := size_pos). destruct (Nat.eqb_spec (d_size P) 0); [lia|auto]. Qed.
  Lemma nth_ones i : i < d_size P -> nth i (repeat 1%R (d_size P)) 0%R = 1%R.
  Proof. intros Hi. apply nth_repeat_lt. auto. Qed.

  (** What e_solve adds to the power method. *)
  Lemma e_solve_ok tol maxit E r : e_new srt P tol maxit = Ok E ->
    power_solve (multiply (e_F E)) (Some (lin (s_M s))) (power_new tol maxit) (repeat 0%R (d_size P)) (repeat 1%R (d_size P)) = Ok r -> length (pr_x r) = d_size P ->
    exists r', e_solve lin P E = Ok r' /\ er_k r' = pr_lambda r /\ er_status r' = pr_status r /\ er_it r' = pr_it r /\
      forall g c, g < G -> c < n -> flux (er_phi r') g c = part n (pr_x r) g c.
  Proof.
    destruct (e_new_ok tol maxit) as (F & B & EN). rewrite EN. intros EE PS LX. inversion EE. subst E. clear EE. unfold e_solve. cbn [e_F e_M e_pow e_phi e_work] in *.
    rewrite PS. cbn [bind]. destruct (@fill_state_ok P (pr_x r) LX) as (phi & EF & LP & FV). rewrite EF. cbn [bind]. eexists. split; [reflexivity|].
    cbn. repeat (split; [reflexivity|]). intros g c Hg Hc. apply FV; auto.
  Qed.

  Lemma e_success tol maxit E r : q_adj P = false -> e_new srt P tol maxit = Ok E -> e_solve lin P E = Ok r -> er_status r = SUCCESS ->
    exists psi k', total P (fun g c => Rabs (psi g c)) = 1%R /\ total P (fun g c => Rabs (flux (er_phi r) g c)) = 1%R /\ (0 < er_k r)%R /\
      returned P (source_of P (fissions P psi)) 1 (fun g c => er_k r * flux (er_phi r) g c)%R /\
      (distance P (fun g c => er_k r * flux (er_phi r) g c) (fun g c => k' * psi g c) < tol)%R /\ (Rabs (er_k r - k') < tol)%R.
  Proof.
    intros A EN ES SU. destruct (e_new_ok tol maxit) as (F & B & EN'). assert (EE := EN). rewrite EN' in EE. inversion EE. subst E. clear EE EN'.
    destruct sources as (S1 & S1E). assert (RZ := ed_realises PK AB SRT NEW LIN B S1E).
    assert (HC : ps_maxit (power_new tol maxit) <= length (ps_hist (power_new tol maxit))) by (cbn [ps_maxit ps_hist power_new]; rewrite repeat_length; lia).
    assert (LG : length (guess (repeat 0%R (d_size P)) (repeat 1%R (d_size P))) = d_size P) by (rewrite work_guess; apply repeat_length).
    assert (exists pr, power_solve (multiply F) (Some (lin (s_M s))) (power_new tol maxit) (repeat 0%R (d_size P)) (repeat 1%R (d_size P)) = Ok pr) as (pr & PS).
    { unfold e_solve in ES. cbn [e_F e_M e_pow e_phi e_work] in ES. destruct (power_solve _ _ _ _ _) as [pr| |]; [eauto|discriminate|discriminate]. }
    assert (SUC : pr_status pr = SUCCESS).
    { unfold e_solve in ES. cbn [e_F e_M e_pow e_phi e_work] in ES. rewrite PS in ES. cbn [bind] in ES. destruct (fill_state P (pr_x pr)); [|discriminate|discriminate].
      cbn in ES. inversion ES. subst r. auto. }
    destruct (proj1 (solve_sound RZ LG HC PS) SUC) as (x' & l' & LX' & SX' & L0 & RS & _ & LX & SX & LP & _ & IM & LC & _).
    destruct (e_solve_ok EN PS LX) as (r' & ES' & K & _ & _ & FL). assert (r' = r) by congruence. subst r'.
    exists (part n x'), l'. rewrite K.
    assert (TOT : forall v, size1 (d_size P) v = total P (fun g c => Rabs (part n v g c))).
    { intros v. unfold size1, total. rewrite rsum_rows. fold m n x G. reflexivity. }
    split; [rewrite <- TOT; auto|]. split.
    { rewrite <- SX, TOT. unfold total. apply rsum_ext. intros g Hg. apply rsum_ext. intros c Hc. rewrite FL by auto. auto. }
    split; [auto|].
    assert (IE : forall g c, g < G -> c < n -> (pr_lambda pr * flux (er_phi r) g c)%R = image (d_size P) (tmat P S1) x' (c + g * n)%nat).
    { intros g c Hg Hc. rewrite IM by (apply row_lt; auto). rewrite FL by auto. reflexivity. }
    split.
    { apply (solves_returned PK AB SRT). fold m n x G be D L. intros g c Hg Hc. rewrite fis_fissions by auto.
      apply (image_solves S1E (v := x') Hg Hc). auto. }
    split; [|auto]. eapply Rle_lt_trans; [|exact RS]. right. unfold distance, total, resid. rewrite rsum_rows. fold m n x G. apply rsum_ext. intros g Hg. apply rsum_ext. intros c Hc.
    rewrite IE by auto. reflexivity.
  Qed.

  Lemma e_converges : q_adj P = false -> fission_ok P -> chain P ->
    exists k phi K q, (0 <= q < 1)%R /\ critical P k phi /\
      (forall k' phi', critical P k' phi' -> k' = k /\ forall g c, g < G -> c < n -> phi' g c = phi g c) /\
      (forall g c, g < G -> c < n -> (0 < phi g c)%R <-> exists q c', fissile_in P q c' /\ reached P (born P c') g) /\
      (forall tol maxit E, e_new srt P tol maxit = Ok E -> exists r, e_solve lin P E = Ok r /\
         (1 <= er_it r -> (Rabs (er_k r - k) <= q ^ (er_it r - 1) * K)%R /\
            forall g c, g < G -> c < n -> (Rabs (er_k r * flux (er_phi r) g c - k * phi g c) <= q ^ (er_it r - 1) * K)%R)) /\
      (forall tol, (0 < tol)%R -> exists M, forall maxit E r, M <= maxit -> e_new srt P tol maxit = Ok E -> e_solve lin P E = Ok r -> er_status r = SUCCESS).
  Proof.
    intros A FO CH. destruct (e_new_ok 1 0) as (F & B & _). destruct sources as (S1 & S1E). assert (RZ := ed_realises PK AB SRT NEW LIN B S1E).
    destruct (ed_mixing PK AB SRT S1E FO CH) as (e & d & MX & EP).
    assert (LG : length (guess (repeat 0%R (d_size P)) (repeat 1%R (d_size P))) = d_size P) by (rewrite work_guess; apply repeat_length).
    assert (GN : forall i, i < d_size P -> (0 <= nth i (guess (repeat 0%R (d_size P)) (repeat 1%R (d_size P))) 0)%R).
    { intros i Hi. rewrite work_guess, nth_ones by auto. lra. }
    destruct (@solve_converges (d_size P) (multiply F) (Some (lin (s_M s))) (tmat P S1) e _ d (repeat 0%R (d_size P)) (repeat 1%R (d_size P)) RZ MX LG GN)
      as (l & w & K & q & L0 & Q & EG & UQ & RUN & SUC).
    { destruct CH as (_ & q0 & c1 & g0 & c0 & _ & _ & F0). destruct F0 as (Hg0 & Hc0 & NF). fold m n x G in Hg0, Hc0, NF.
      assert (HJ : c0 + g0 * n < d_size P) by (apply row_lt; auto). rewrite work_guess.
      assert (HT : forall j, j < d_size P -> (0 <= nsf (q_mat P) (j / ncells (q_mesh P))%nat (mt (q_mesh P) (j mod ncells (q_mesh P))%nat) * nth j (repeat 1%R (d_size P)) 0)%R).
      { intros j Hj. rewrite nth_ones by auto. destruct (split_row Hj) as (Hg & Hc & _). destruct (FO _ _ Hg Hc). lra. }
      assert (AA := @rsum_above (d_size P) _ (c0 + g0 * n) HJ HT). cbn beta in AA. eapply Rlt_le_trans; [|exact AA]. rewrite nth_ones by auto.
      destruct (@row_div P g0 c0 Hc0) as (E1 & E2). fold m n in E1, E2 |- *. rewrite E1, E2. fold x. lra. }
    exists l, (part n w), K, q. split; [auto|]. split; [apply (pair_critical PK AB SRT S1E A L0 EG)|]. split.
    { intros k' phi' CR. assert (EG' := critical_pair PK AB S1E A CR). assert (k' = l) by (apply (UQ _ _ EG'); destruct CR; lra). subst k'. split; [auto|].
      intros g c Hg Hc. assert (U := mixing_unique MX L0 EG' EG (row_lt Hg Hc)). unfold part. fold m n in U. rewrite <- U. symmetry. apply (@part_vec P phi' g c Hg Hc). }
    split.
    { intros g c Hg Hc. unfold part. assert (I1 := image_pos MX L0 EG (row_lt Hg Hc)). assert (I2 := EP _ (row_lt Hg Hc)). fold m n in I1, I2.
      destruct (@row_div P g c Hc) as (E1 & _). fold m n in E1. rewrite E1 in I2. rewrite <- I2. exact I1. }
    split.
    { intros tol maxit E EN. destruct (e_new_ok tol maxit) as (F' & B' & EN'). assert (F' = F) by congruence. subst F'.
      assert (HC : ps_maxit (power_new tol maxit) <= length (ps_hist (power_new tol maxit))) by (cbn [ps_maxit ps_hist power_new]; rewrite repeat_length; lia).
      destruct (RUN (power_new tol maxit) HC) as (pr & PS & BD).
      assert (LX : length (pr_x pr) = d_size P) by (eapply solve_length; eauto; apply repeat_length).
      assert (EF : e_F E = F) by (rewrite EN' in EN; inversion EN; auto).
      destruct (@e_solve_ok tol maxit E pr EN) as (r & ES & K1 & _ & IT & FL); [rewrite EF; auto|auto|]. exists r. split; [auto|]. rewrite IT, K1. intros I1.
      destruct (BD I1) as (B1 & B2). split; [auto|]. intros g c Hg Hc. rewrite FL by auto. apply (B2 _ (row_lt Hg Hc)). }
    intros tol T0. destruct (SUC tol T0) as (M & HM). exists M. intros maxit E r HMx EN ES.
    destruct (e_new_ok tol maxit) as (F' & B' & EN'). assert (F' = F) by congruence. subst F'. rewrite EN' in EN. inversion EN. subst E. clear EN.
    assert (HC : ps_maxit (power_new tol maxit) <= length (ps_hist (power_new tol maxit))) by (cbn [ps_maxit ps_hist power_new]; rewrite repeat_length; lia).
    destruct (RUN (power_new tol maxit) HC) as (pr & PS & _).
    unfold e_solve in ES. cbn [e_F e_M e_pow e_phi e_work] in ES. rewrite PS in ES. cbn [bind] in ES. destruct (fill_state P (pr_x pr)); [|discriminate|discriminate].
    cbn in ES. inversion ES. cbn. apply (HM (power_new tol maxit) pr); auto.
  Qed.
End E.
