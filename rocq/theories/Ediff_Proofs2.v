From Verif Require Import Base BaseR Util_Model Mesh_Model Mesh_Spec Mesh_Proofs Material_Model Material_Spec Matrix_Model Matrix_Spec Matrix_Proofs.
From Verif Require Import Vector_Model Vector_Proofs Diffusion_Model Diffusion_Spec Diffusion_Proofs Dsolve_Model Dsolve_Spec Dsolve_Proofs Dsolve_Proofs2 Dsolve_Proofs3.
From Verif Require Import Dpos_Spec Dpos_Proofs Dpos_Proofs2 Cpow_Model Cpow_Spec Cpow_Proofs Cpow_Proofs2 Ediff_Model Ediff_Spec Ediff_Proofs.
From Coq Require Import Lra Classical.
Set Implicit Arguments. Unset Strict Implicit.
Open Scope nat_scope.

Section E.
  Variable P : dprob.
  Hypothesis PK : prob_ok P.
  Hypothesis AB : absorbing P 1.
  Let m := q_mesh P.
  Let n := ncells m.
  Let x := q_mat P.
  Let G := ng x.
  Let be := albedo (dim m) (q_bc P) (q_zero P).
  Let D (g c : nat) := dc x g (mt m c).
  Let L := lhs m G D be (fun g c => st x g (mt m c)) (xfer P 1).
  Variable srt : list triplet -> list triplet.
  Hypothesis SRT : is_sort srt.
  Variable s : dstate.
  Hypothesis NEW : d_new srt P = Ok s.
  Variable lin : csr -> list R -> list R -> res (list R).
  Hypothesis LIN : solver_for lin (s_M s) (d_size P).
  Variable F : csr.
  Hypothesis FB : build srt (gain_caps (e_gain P)) (gain_ops (e_gain P)) = Ok F.

  (** Flux made by the fission neutrons of one cell. *)
  Variable S1 : nat -> nat -> nat -> R.
  Hypothesis S1E : forall c', c' < n -> forall g c, g < G -> c < n -> L (S1 c') g c = (if c =? c' then chi x g (mt m c') else 0)%R.
  Definition tmat (i j : nat) : R := (S1 (j mod n)%nat (i / n)%nat (i mod n)%nat * nsf x (j / n)%nat (mt m (j mod n)%nat))%R.
  Definition rate (y : nat -> nat -> R) (c : nat) : R := rsum G (fun q => nsf x q (mt m c) * y q c)%R.

  Lemma gain_mul v : length v = d_size P -> exists y, multiply F v = Ok y /\ length y = d_size P /\
    forall g c, g < G -> c < n -> part n y g c = (chi x g (mt m c) * rate (part n v) c)%R.
  Proof.
    intros LV. destruct (@gain_operator srt (e_gain P) SRT) as (C & B & H). assert (C = F) by congruence. subst C. cbn [e_gain f_mesh f_mat f_adj] in H.
    fold m n x G in H. destruct (H v) as (y & M & LY & Y); [rewrite LV; apply size_eq|]. exists y. split; [auto|].
    split; [rewrite LY; symmetry; apply size_eq|]. intros g c Hg Hc. rewrite Y by auto. unfold production, rate. rewrite <- rsum_scal. apply rsum_ext.
    intros q Hq. unfold birth. ring.
  Qed.
  Lemma image_sum v g c : g < G -> c < n -> image (d_size P) tmat v (c + g * n)%nat = rsum n (fun c' => rate (part n v) c' * S1 c' g c)%R.
  Proof.
    intros Hg Hc. unfold image. rewrite rsum_rows. fold m n x G. rewrite rsum_swap. apply rsum_ext. intros c' Hc'. unfold rate. rewrite <- rsum_scal_r.
    apply rsum_ext. intros q Hq. unfold tmat. fold n. destruct (@row_div P g c Hc) as (E1 & E2). destruct (@row_div P q c' Hc') as (E3 & E4). fold m n in E1, E2, E3, E4.
    rewrite E1, E2, E3, E4.
    unfold part. ring.
  Qed.
  (** The equations for the flux made by given fission rates. *)
  Lemma sum_solves (f : nat -> R) g c : g < G -> c < n -> L (fun g c => rsum n (fun c' => f c' * S1 c' g c)%R) g c = (chi x g (mt m c) * f c)%R.
  Proof.
    intros Hg Hc. unfold L. rewrite (@lhs_sum m G D be (fun g c => st x g (mt m c)) (xfer P 1) n f S1 g c); auto. fold L.
    rewrite (@rsum_ext n _ (fun c' => if c' =? c then chi x g (mt m c) * f c else 0)%R).
    - apply rsum_delta. auto.
    - intros c' Hc'. rewrite S1E by auto. rewrite Nat.eqb_sym. destruct (Nat.eqb_spec c' c); [subst; ring|ring].
  Qed.
  Lemma solves_sum (f : nat -> R) y : (forall g c, g < G -> c < n -> L y g c = (chi x g (mt m c) * f c)%R) ->
    forall g c, g < G -> c < n -> y g c = rsum n (fun c' => f c' * S1 c' g c)%R.
  Proof.
    intros H. apply (@lhs_inj m G D be (fun g c => st x g (mt m c)) (xfer P 1) (pos PK AB) y (fun g c => rsum n (fun c' => f c' * S1 c' g c)%R)).
    intros g c Hg Hc. fold L. rewrite H by auto. symmetry. apply sum_solves; auto.
  Qed.

  Lemma ed_realises : realises (d_size P) (multiply F) (Some (lin (s_M s))) tmat.
  Proof.
    intros v temp LV LT. unfold apply_op. destruct (gain_mul LV) as (b & M & LB & B). rewrite M. cbn [bind].
    destruct (LIN LB LT) as (w & EL & LW & MW). rewrite EL. cbn [bind].
    assert (VC : vcopy b w = Ok w). { unfold vcopy. rewrite vzip_ok by congruence. f_equal. apply (@list_ext_nth _ 0%R).
      - rewrite vec_length. congruence.
      - intros i Hi. rewrite vec_length in Hi. rewrite vec_nth by auto. auto. }
    rewrite VC. cbn [bind]. exists w, w. split; [auto|]. split; [auto|]. split; [auto|].
    intros i Hi. destruct (split_row Hi) as (Hg & Hc & E). fold m n x G in Hg, Hc, E.
    rewrite E at 2. rewrite image_sum by auto. rewrite (@nth_part P) by auto. fold m n.
    apply solves_sum with (f := rate (part n v)); auto. intros g c Hg' Hc'.
    destruct (loss_mul PK SRT NEW LW) as (z & MZ & _ & Z). assert (z = b) by congruence. subst z. fold m n x G D be L in Z. rewrite <- Z by auto. apply B; auto.
  Qed.

  (** ** Eigenpairs are multiplication factors *)
  Definition fis (y : nat -> nat -> R) (g c : nat) : R := (chi x g (mt m c) * rate y c)%R.
  Lemma fis_fissions y g c : q_adj P = false -> fissions P y g c = fis y g c.
  Proof.
    intros A. unfold fissions, production, fis, rate. rewrite A. fold m x G. rewrite <- rsum_scal. apply rsum_ext. intros; unfold birth; ring.
  Qed.
  Lemma image_solves v y g c : g < G -> c < n -> (forall g c, g < G -> c < n -> y g c = image (d_size P) tmat v (c + g * n)%nat) ->
    L y g c = fis (part n v) g c.
  Proof.
    intros Hg Hc H. unfold fis. rewrite <- sum_solves by auto. apply lhs_ext; auto. intros. rewrite H by auto. apply image_sum; auto.
  Qed.
  Lemma total_size v : (forall i, i < d_size P -> (0 <= nth i v 0)%R) -> size1 (d_size P) v = total P (part n v).
  Proof.
    intros H. unfold size1, total. rewrite rsum_rows. fold m n x G. apply rsum_ext. intros g Hg. apply rsum_ext. intros c Hc.
    rewrite Rabs_pos_eq; [reflexivity|]. apply H. apply row_lt; auto.
  Qed.
  Lemma returned_scaled y k v : k <> 0%R -> (forall g c, g < G -> c < n -> L y g c = (k * fis v g c)%R) ->
    forall g c, g < G -> c < n -> L (fun g c => / k * y g c)%R g c = fis v g c.
  Proof.
    intros K H g c Hg Hc. unfold L. rewrite (@lhs_lin m G D be (fun g c => st x g (mt m c)) (xfer P 1) (/ k) 0 y y) by (intros; ring). fold L.
    rewrite H by auto. field. auto.
  Qed.
  Lemma pair_critical k v : q_adj P = false -> (0 < k)%R -> eigenpair (d_size P) tmat k v -> critical P k (part n v).
  Proof.
    intros A K (LV & VN & VS & VE). split; [auto|]. split.
    - intros g c Hg Hc. apply VN. apply row_lt; auto.
    - split; [rewrite <- total_size by auto; auto|]. apply (solves_returned PK AB SRT). fold m n x G be D L.
      intros g c Hg Hc. rewrite fis_fissions by auto.
      assert (H := @image_solves v (fun g c => (k * part n v g c)%R) g c Hg Hc).
      assert (E : L (fun g c => (k * part n v g c)%R) g c = (k * L (part n v) g c)%R).
      { unfold L. rewrite (@lhs_lin m G D be (fun g c => st x g (mt m c)) (xfer P 1) k 0 (part n v) (part n v)); [ring|intros; ring]. }
      rewrite E in H. rewrite <- H; [field; lra|]. intros g' c' Hg' Hc'. rewrite VE by (apply row_lt; auto). auto.
  Qed.
  Lemma critical_pair k y : q_adj P = false -> critical P k y -> eigenpair (d_size P) tmat k (vec_of P y).
  Proof.
    intros A (K & YN & YT & YR). fold m n x G in YN. assert (YE := returned_source PK YR). fold m n x G be D L in YE.
    assert (PV : forall g c, g < G -> c < n -> part n (vec_of P y) g c = y g c) by (intros; apply part_vec; auto).
    assert (RV : forall c, c < n -> rate (part n (vec_of P y)) c = rate y c) by (intros; apply rsum_ext; intros; rewrite PV; auto).
    split; [apply vec_of_length|]. assert (VN : forall i, i < d_size P -> (0 <= nth i (vec_of P y) 0)%R).
    { intros i Hi. rewrite (@nth_part P) by auto. destruct (split_row Hi) as (Hg & Hc & _). fold m n x G in Hg, Hc |- *. rewrite PV by auto. auto. }
    split; [auto|]. split.
    - rewrite total_size by auto. rewrite <- YT. unfold total. apply rsum_ext. intros g Hg. apply rsum_ext. intros c Hc. apply PV; auto.
    - intros i Hi. destruct (split_row Hi) as (Hg & Hc & E). fold m n x G in Hg, Hc, E. rewrite E at 1. rewrite image_sum by auto.
      rewrite (@nth_part P) by auto. fold m n. rewrite PV by auto.
      rewrite (@solves_sum (fun c => / k * rate y c)%R y); auto.
      + rewrite <- rsum_scal. apply rsum_ext. intros c' Hc'. rewrite RV by auto. field. lra.
      + intros g c Hg' Hc'. rewrite YE by auto. rewrite fis_fissions by auto. unfold fis. ring.
  Qed.

  (** ** The matrix is mixing *)
  Hypothesis FO : fission_ok P.
  Lemma S1_returned c' : c' < n -> returned P (born P c') 1 (S1 c').
  Proof. intros Hc'. apply (solves_returned PK AB SRT). fold m n x G be D L. intros. apply S1E; auto. Qed.
  Lemma born_nonneg c' : c' < n -> nonnegative P (born P c').
  Proof.
    intros Hc' g Hg. split.
    - intros c Hc. unfold vsource, born, source_of. cbn. destruct (FO Hg Hc') as (C & _). fold m x in C |- *. destruct (c =? c'); lra.
    - intros t c Ht HO. unfold born, source_of. cbn [i_in]. rewrite face_zero by auto. lra.
  Qed.
  Lemma S1_sign c' g c : c' < n -> g < G -> c < n ->
    (reached P (born P c') g -> (0 < S1 c' g c)%R) /\ (~ reached P (born P c') g -> S1 c' g c = 0%R).
  Proof.
    intros Hc' Hg Hc. destruct (returned_reached PK AB (born_nonneg Hc') (S1_returned Hc') Hg) as (A & B). split; intros H; [apply A|apply B]; auto.
  Qed.
  Lemma S1_nonneg c' g c : c' < n -> g < G -> c < n -> (0 <= S1 c' g c)%R.
  Proof.
    intros Hc' Hg Hc. destruct (S1_sign Hc' Hg Hc) as (A & B). destruct (classic (reached P (born P c') g)) as [H|H].
    - specialize (A H). lra.
    - rewrite B by auto. lra.
  Qed.

  Hypothesis CH : chain P.
  Lemma ed_mixing : exists e d, mixing (d_size P) tmat e (fun j => nsf x (j / n)%nat (mt m (j mod n)%nat)) d /\
    (forall i, i < d_size P -> (0 < e i)%R <-> exists q c, fissile_in P q c /\ reached P (born P c) (i / n)%nat).
  Proof.
    destruct CH as (SAME & q0 & c0 & g0 & c0' & F0 & R0 & F0').
    assert (Hc0 : c0 < n) by apply F0.
    set (N := d_size P). set (w := fun i c' => S1 c' (i / n)%nat (i mod n)%nat).
    (* an upper bound for the ratio to the flux from c0 *)
    destruct (@choose_all _ (fun i M => (0 < M)%R /\ forall c', c' < n -> ((w i c' <= M * w i c0 /\ w i c0 <= M * w i c')%R \/ ~ (exists q, fissile_in P q c'))) 0%R N) as (M & MB).
    { intros i Hi. destruct (split_row Hi) as (Hg & Hc & _). fold m n x G in Hg, Hc.
      destruct (classic (reached P (born P c0) (i / n)%nat)) as [RC|NR].
      - destruct (bound_all n (fun c' => w i c' / w i c0)%R) as (M1 & P1 & B1). destruct (bound_all n (fun c' => w i c0 / w i c')%R) as (M2 & P2 & B2).
        exists (M1 + M2)%R. split; [lra|]. intros c' Hc'. destruct (classic (exists q, fissile_in P q c')) as [(q & FQ)|NF]; [left|auto].
        assert (W0 : (0 < w i c0)%R) by (apply S1_sign; auto). assert (W1 : (0 < w i c')%R) by (apply S1_sign; auto; apply (SAME q0 c0 q c'); auto).
        specialize (B1 c' Hc'). specialize (B2 c' Hc'). cbn beta in B1, B2. split.
        + replace (w i c') with (w i c' / w i c0 * w i c0)%R at 1 by (field; lra). apply Rmult_le_compat_r; lra.
        + replace (w i c0) with (w i c0 / w i c' * w i c')%R at 1 by (field; lra). apply Rmult_le_compat_r; lra.
      - exists 1%R. split; [lra|]. intros c' Hc'. destruct (classic (exists q, fissile_in P q c')) as [(q & FQ)|NF]; [left|auto].
        assert (W0 : w i c0 = 0%R) by (apply S1_sign; auto).
        assert (W1 : w i c' = 0%R) by (apply S1_sign; auto; intros RC; apply NR; apply (SAME q c' q0 c0); auto). rewrite W0, W1. lra. }
    destruct (bound_all N M) as (B & BP & BM).
    assert (BB : forall i c', i < N -> c' < n -> (exists q, fissile_in P q c') -> (w i c' <= (B + 1) * w i c0 /\ w i c0 <= (B + 1) * w i c')%R).
    { intros i c' Hi Hc' FX. destruct (MB i Hi) as (M0 & MM). specialize (BM i Hi). destruct (split_row Hi) as (Hg & Hc & _). fold m n x G in Hg, Hc.
      destruct (MM c' Hc') as [(A1 & A2)|NF]; [|contradiction]. assert (N0 : (0 <= w i c0)%R) by (apply S1_nonneg; auto). assert (N1 : (0 <= w i c')%R) by (apply S1_nonneg; auto).
      split; [eapply Rle_trans; [exact A1|]|eapply Rle_trans; [exact A2|]]; apply Rmult_le_compat_r; lra. }
    exists (fun i => (B + 1) * w i c0)%R, (/ ((B + 1) * (B + 1)))%R.
    assert (B2 : (1 <= (B + 1) * (B + 1))%R) by nra.
    split; [split; [|split; [|split; [|split]]]|].
    - split; [apply Rinv_0_lt_compat; lra|]. rewrite <- Rinv_1. apply Rinv_le_contravar; lra.
    - intros i Hi. destruct (split_row Hi) as (Hg & Hc & _). fold m n x G in Hg, Hc. apply Rmult_le_pos; [lra|]. apply S1_nonneg; auto.
    - intros j Hj. destruct (split_row Hj) as (Hg & Hc & _). fold m n x G in Hg, Hc. apply FO; auto.
    - intros i j Hi Hj. destruct (split_row Hj) as (Hg & Hc & _). fold m n x G in Hg, Hc. destruct (FO Hg Hc) as (_ & [NP|NZ]); [fold m x in NP|fold m x in NZ].
      + destruct (BB i (j mod n)%nat Hi Hc) as (A1 & A2). { exists (j / n)%nat. split; [auto|split; auto]. }
        unfold tmat. change (S1 (j mod n)%nat (i / n)%nat (i mod n)%nat) with (w i (j mod n)%nat).
        split; [|apply Rmult_le_compat_r; lra].
        rewrite <- Rmult_assoc. apply Rmult_le_compat_r; [lra|].
        apply (Rmult_le_reg_l (B + 1)); [lra|]. eapply Rle_trans; [|exact A2]. right. field. lra.
      + unfold tmat. rewrite <- NZ. lra.
    - assert (HT : forall j, j < N -> (0 <= nsf x (j / n)%nat (mt m (j mod n)%nat) * ((B + 1) * w j c0))%R).
      { intros j Hj. destruct (split_row Hj) as (Hg & Hc & _). fold m n x G in Hg, Hc. apply Rmult_le_pos; [apply FO; auto|]. apply Rmult_le_pos; [lra|]. apply S1_nonneg; auto. }
      destruct F0' as (Hg0 & Hc0' & NF). fold m n x G in Hg0, Hc0', NF.
      assert (HJ : c0' + g0 * n < N) by (apply row_lt; auto). assert (AA := @rsum_above N _ (c0' + g0 * n) HJ HT). cbn beta in AA.
      eapply Rlt_le_trans; [|exact AA]. destruct (@row_div P g0 c0' Hc0') as (E1 & E2). fold m n in E1, E2. unfold w. rewrite E1, E2. apply Rmult_lt_0_compat; [auto|]. apply Rmult_lt_0_compat; [lra|].
      apply S1_sign; auto.
    - intros i Hi. destruct (split_row Hi) as (Hg & Hc & _). fold m n x G in Hg, Hc. split.
      + intros H. exists q0, c0. split; [auto|]. apply NNPP. intros NR. assert (w i c0 = 0%R) by (apply S1_sign; auto). rewrite H0 in H. lra.
      + intros (q & c & FQ & RQ). apply Rmult_lt_0_compat; [lra|]. apply S1_sign; auto. apply (SAME q c q0 c0); auto.
  Qed.
End E.
