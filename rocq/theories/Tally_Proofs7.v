(** * Tally_Proofs7: three dimensions, one-cell meshes, and concrete cases. *)
From Coquelicot Require Import Coquelicot.
From Verif Require Import Base BaseR Loop Mesh_Model Mesh_Proofs Angle_Model Angle_Spec Boundary_Model Boundary_Spec Boundary_Proofs
  Cell_Model Cell_Spec Cell_Proofs Sweep_Model Sweep_Spec Sweep_Proofs SweepBalance_Proofs SweepAll_Proofs SweepInst_Proofs
  Region_Model Region_Spec Region_Proofs Tally_Model Tally_Spec Tally_Proofs Tally_Proofs2 Tally_Proofs3 Tally_Proofs4 Tally_Proofs5
  Tally_Proofs6.
Open Scope nat_scope.
Set Implicit Arguments. Unset Strict Implicit.
Local Notation idx := Mesh_Model.index.

(** ** One and two dimensions *)
Theorem currents_1d E G C ds keep upd src g ord b phi psi T level : q_dim (b_q b) = 1 ->
  sweep_problem G ds keep src g ord b phi psi -> sig_ok (strict1 E) G -> coarse_mesh 1 G level = Ok C -> 1 < g_nx G -> tally_for C T ->
  exists b' phi' psi' T', sweep_t (kernel1_t E G C ds keep src) upd g ord (b, phi, psi) T = Ok (b', phi', psi', T') /\
  sweep (kernel1 E G ds keep src) upd g ord (b, phi, psi) = Ok (b', phi', psi') /\ tally_for C T' /\
  exists X P,
  (forall o a, o < q_noct (b_q b) -> a < q_nao (b_q b) ->
    fluxes1 E G (nth a ds none) (positive o 0) (src o a) (ins_of b' o a g) (outs_of b' o a g) (X o a) (P o a)) /\
  (forall c, c < g_nx G -> at_ phi' c = over_angles (b_q b) (fun o a => Sweep_Spec.weight ds a * P o a c)%R) /\
  forall I s, I <= cm_n C 0 -> s < 2 -> partial_current C T' I 0 0 0 s =
    Ok (over_angles (b_q b) (fun o a => along 0 s o (Sweep_Spec.weight ds a * d_mu (nth a ds none) * X o a (edge C 0 I))%R)).
Proof.
  intros D PR HS HC Hn HT. pose proof (coarse_mesh_facts (dim := 1) ltac:(lia) HC) as F.
  pose proof PR as (H1 & H2 & H3 & _). rewrite D in H1, H2, H3. eapply currents1; eauto.
Qed.
Theorem balance_1d E G C ds keep upd src g ord b phi psi T level : q_dim (b_q b) = 1 ->
  sweep_problem G ds keep src g ord b phi psi -> sig_ok (strict1 E) G -> coarse_mesh 1 G level = Ok C -> 1 < g_nx G -> tally_for C T ->
  exists b' phi' psi' T', sweep_t (kernel1_t E G C ds keep src) upd g ord (b, phi, psi) T = Ok (b', phi', psi', T') /\
  balances C G (b_q b) ds src T' phi'.
Proof.
  intros D PR HS HC Hn HT.
  destruct (@currents_1d E G C ds keep upd src g ord b phi psi T level D PR HS HC Hn HT)
    as (b' & phi' & psi' & T' & E1 & _ & _ & X & P & HF & HP & HCu).
  exists b', phi', psi', T'. split; auto.
  pose proof (coarse_mesh_facts (dim := 1) ltac:(lia) HC) as F. pose proof PR as (H1 & H2 & H3 & Q & _). rewrite D in H1, H2, H3.
  destruct Q as (_ & NO & _). rewrite D in NO. cbn in NO.
  eapply (@balances1 E G C ds src (q_nao (b_q b))); eauto. intros o a Ho Ha. eexists _, _. apply HF; auto. rewrite NO. auto.
Qed.
Theorem currents_2d E G C ds keep upd src g ord b phi psi T level : q_dim (b_q b) = 2 ->
  sweep_problem G ds keep src g ord b phi psi -> sig_ok (strict2 E) G -> coarse_mesh 2 G level = Ok C -> 1 < g_nx G -> 1 < g_ny G ->
  tally_for C T ->
  exists b' phi' psi' T', sweep_t (kernel2_t E G C ds keep src) upd g ord (b, phi, psi) T = Ok (b', phi', psi', T') /\
  sweep (kernel2 E G ds keep src) upd g ord (b, phi, psi) = Ok (b', phi', psi') /\ tally_for C T' /\
  exists X Y P,
  (forall o a, o < q_noct (b_q b) -> a < q_nao (b_q b) ->
    fluxes2 E G (nth a ds none) (positive o 0) (positive o 1) (src o a) (ins_of b' o a g) (outs_of b' o a g) (X o a) (Y o a) (P o a)) /\
  (forall c, c < g_nx G * g_ny G -> at_ phi' c = over_angles (b_q b) (fun o a => Sweep_Spec.weight ds a * P o a c)%R) /\
  (forall I J s, I <= cm_n C 0 -> J < cm_n C 1 -> s < 2 -> partial_current C T' I J 0 0 s =
    Ok (over_angles (b_q b) (fun o a => along 0 s o (Sweep_Spec.weight ds a * d_mu (nth a ds none) *
      across C 1 J (fun j => at_ (g_dy G) j * X o a (edge C 0 I) j))%R))) /\
  (forall I J s, I < cm_n C 0 -> J <= cm_n C 1 -> s < 2 -> partial_current C T' I J 0 1 s =
    Ok (over_angles (b_q b) (fun o a => along 1 s o (Sweep_Spec.weight ds a * d_eta (nth a ds none) *
      across C 0 I (fun i => at_ (g_dx G) i * Y o a i (edge C 1 J)))%R))).
Proof.
  intros D PR HS HC Hn Hm HT. pose proof (coarse_mesh_facts (dim := 2) ltac:(lia) HC) as F.
  pose proof PR as (H1 & H2 & H3 & _). rewrite D in H1, H2, H3. eapply currents2; eauto.
Qed.
Theorem balance_2d E G C ds keep upd src g ord b phi psi T level : q_dim (b_q b) = 2 ->
  sweep_problem G ds keep src g ord b phi psi -> sig_ok (strict2 E) G -> coarse_mesh 2 G level = Ok C -> 1 < g_nx G -> 1 < g_ny G ->
  tally_for C T ->
  exists b' phi' psi' T', sweep_t (kernel2_t E G C ds keep src) upd g ord (b, phi, psi) T = Ok (b', phi', psi', T') /\
  balances C G (b_q b) ds src T' phi'.
Proof.
  intros D PR HS HC Hn Hm HT.
  destruct (@currents_2d E G C ds keep upd src g ord b phi psi T level D PR HS HC Hn Hm HT)
    as (b' & phi' & psi' & T' & E1 & _ & _ & X & Y & P & HF & HP & HCx & HCy).
  exists b', phi', psi', T'. split; auto.
  pose proof (coarse_mesh_facts (dim := 2) ltac:(lia) HC) as F. pose proof PR as (H1 & H2 & H3 & Q & _). rewrite D in H1, H2, H3.
  destruct Q as (_ & NO & _). rewrite D in NO. cbn in NO.
  eapply (@balances2 E G C ds src (q_nao (b_q b))); eauto. intros o a Ho Ha. eexists _, _. apply HF; auto. rewrite NO. auto.
Qed.
Lemma new_tally_for C : tally_for C (new_tally C).
Proof.
  split; [reflexivity|]. intros d Hd. unfold new_tally.
  replace (nth d (map (fun d => repeat (repeat 0%R (sizes C d)) 2) [0; 1; 2]) []) with (repeat (repeat 0%R (sizes C d)) 2).
  - split; [apply repeat_length|]. intros s Hs. destruct s as [|[|s]]; [| |lia]; cbn [repeat nth]; apply repeat_length.
  - destruct d as [|[|[|d]]]; auto; lia.
Qed.

(** ** Three dimensions: nothing is tallied *)
Lemma tally3_passive G ds keep src upd g ord st T st' : sweep (kernel3 G ds keep src) upd g ord st = Ok st' ->
  sweep_t (kernel3_t G ds keep src) upd g ord st T = Ok (st', reset T).
Proof.
  destruct st as [[b phi] psi]. unfold sweep, sweep_t. intros H.
  assert (X : exists y, foldM (fun st o => foldM (fun st a => sweep_angle_t (kernel3_t G ds keep src) upd g st o a) (seq 0 (q_nao (b_q b))) st)
    ord (b, map (fun _ : R => 0%R) phi, psi, reset T) = Ok y /\ y = (st', reset T)).
  2:{ destruct X as (y & -> & ->). auto. }
  eapply (@foldM_sim nat sstate (sstate * tally) _ _ (fun x y => y = (x, reset T))); [|reflexivity|exact H].
  intros o x y x' _ -> Ho. eapply (@foldM_sim nat sstate (sstate * tally) _ _ (fun x y => y = (x, reset T))); [|reflexivity|exact Ho].
  intros a [[b0 phi0] psi0] y x0 _ -> Ha. unfold sweep_angle in Ha. unfold sweep_angle_t, kernel3_t.
  destruct (if upd then bsn_update_angle b0 g o a else Ok b0) as [b1| |]; try discriminate. cbn [bind] in *.
  destruct (read_faces b1 g o a) as [ins| |]; try discriminate. cbn [bind] in *.
  destruct (kernel3 G ds keep src o a ins phi0 (psi0 o a)) as [[[outs p] q]| |]; try discriminate. cbn [bind] in *.
  destruct (write_faces b1 g o a outs) as [b2| |]; try discriminate. cbn [bind] in *. injection Ha as <-. eauto.
Qed.
Lemma map_zero_nth (l : list R) i : nth i (map (fun _ => 0%R) l) 0%R = 0%R.
Proof. revert i. induction l; intros [|i]; cbn; auto. Qed.
Lemma reset_zero C T I J K axis s x : partial_current C (reset T) I J K axis s = Ok x -> x = 0%R.
Proof.
  unfold partial_current, reset. unfold rd at 1. rewrite nth_error_map. destruct (nth_error T axis) as [v|]; cbn [option_map bind]; [|discriminate].
  unfold rd at 1. rewrite nth_error_map. destruct (nth_error v s) as [w|]; cbn [option_map bind]; [|discriminate].
  unfold rdz, rd. destruct (_ <? 0)%Z; try discriminate. rewrite nth_error_map.
  destruct (nth_error w _); cbn [option_map]; [|discriminate]. intros H. injection H. auto.
Qed.
Lemma reset_leakage C T I J K : net_leakage C (reset T) I J K = 0%R.
Proof.
  assert (Z : forall I J K axis, net_current C (reset T) I J K axis = 0%R).
  { intros I' J' K' axis. unfold net_current. destruct (partial_current C (reset T) I' J' K' axis 1) as [x| |] eqn:E1; auto.
    destruct (partial_current C (reset T) I' J' K' axis 0) as [y| |] eqn:E2; auto.
    apply reset_zero in E1, E2. subst. ring. }
  unfold net_leakage. apply rsum_zero. intros axis _. rewrite !Z. ring.
Qed.
Theorem nothing_3d G C ds keep upd src g ord b phi psi T : q_dim (b_q b) = 3 ->
  sweep_problem G ds keep src g ord b phi psi -> sig_ok false G ->
  exists b' phi' psi', sweep (kernel3 G ds keep src) upd g ord (b, phi, psi) = Ok (b', phi', psi') /\
  exists T', sweep_t (kernel3_t G ds keep src) upd g ord (b, phi, psi) T = Ok (b', phi', psi', T') /\
  (forall I J K axis s x, partial_current C T' I J K axis s = Ok x -> x = 0%R) /\
  forall I J K, net_leakage C T' I J K = 0%R.
Proof.
  intros D PR HS. destruct (@full_sweep3 G ds keep upd src g ord b phi psi D PR HS) as (b' & phi' & psi' & E & _).
  exists b', phi', psi'. split; auto. exists (reset T). split; [apply tally3_passive; auto|]. split.
  - intros. eapply reset_zero; eauto.
  - intros. apply reset_leakage.
Qed.

(** ** Concrete problems *)
Definition case_q (dim : nat) : quad :=
  match quad_new dim (2 ^ dim) with Ok q => q | _ => {| q_dim := 0; q_nang := 0; q_noct := 0; q_nao := 0; q_wt := []; q_mu := []; q_eta := [];
    q_xi := []; q_sign := []; q_inc := []; q_out := []; q_adj := false |} end.
Definition case_b (dim n : nat) : bsn := boundary_new (case_q dim) 1 n (if 1 <? dim then n else 1) (if 2 <? dim then n else 1) (fun _ => Vacuum).
Definition case_d : dir := {| d_mu := 1; d_eta := 1; d_xi := 1; d_w := 1 |}.
Definition case_G1 (n : nat) (s : R) : grid :=
  {| g_nx := n; g_ny := 1; g_nz := 1; g_dx := repeat 1%R n; g_dy := []; g_dz := []; g_sig := repeat s n |}.
Definition case_G2 : grid :=
  {| g_nx := 3; g_ny := 3; g_nz := 1; g_dx := [1; 2; 1]%R; g_dy := [1; 1; 3]%R; g_dz := []; g_sig := [1; 1; 2; 1; 1; 1; 1; 3; 1]%R |}.
Definition case_G3 : grid :=
  {| g_nx := 2; g_ny := 2; g_nz := 2; g_dx := [1; 1]%R; g_dy := [1; 1]%R; g_dz := [1; 1]%R; g_sig := repeat 0%R 8 |}.
Lemma perm_seq n l : length l = n -> NoDup l -> (forall x, In x l -> x < n) -> Permutation l (seq 0 n).
Proof.
  intros L N H. apply NoDup_Permutation_bis; auto; [rewrite seq_length; lia|]. intros x Hx. apply in_seq. specialize (H x Hx). lia.
Qed.
Lemma case_problem1 n : 0 < n < 10 -> sweep_problem (case_G1 n 1) [case_d] false (fun _ _ => repeat 1%R n) 0 [0; 1] (case_b 1 n) (repeat 1%R n) (fun _ _ => []).
Proof.
  intros Hn. unfold sweep_problem. cbv zeta. change (q_dim (b_q (case_b 1 n))) with 1. change (q_nao (b_q (case_b 1 n))) with 1.
  assert (FR : Forall (fun x : R => (0 < x)%R) (repeat 1%R n)) by (apply Forall_forall; intros x Hx; apply repeat_spec in Hx; subst; lra).
  split; [|split; [|split; [|split; [|split; [|split; [|split; [|split; [|split]]]]]]]].
  - unfold grid_ok, case_G1, cells_of. cbn. rewrite !repeat_length. repeat split; auto; try lia; intros; lia.
  - unfold dirs_ok, dir_ok. repeat constructor; cbn; intros; try lia; lra.
  - intros o a _ _. unfold cells_of. cbn. rewrite repeat_length. lia.
  - repeat split; cbn; lia.
  - cbn. lia.
  - apply (@new_shaped (case_q 1) 1 n 1 1).
  - intros s s' _ _ H. discriminate.
  - apply perm_seq; auto; [repeat constructor; cbn; lia|]. cbn. lia.
  - unfold cells_of. cbn. rewrite repeat_length. lia.
  - intros; discriminate.
Qed.
Lemma case_problem2 : sweep_problem case_G2 [case_d] false (fun _ _ => repeat 1%R 9) 0 [0; 1; 2; 3] (case_b 2 3) (repeat 1%R 9) (fun _ _ => []).
Proof.
  unfold sweep_problem. cbv zeta. change (q_dim (b_q (case_b 2 3))) with 2. change (q_nao (b_q (case_b 2 3))) with 1.
  split; [|split; [|split; [|split; [|split; [|split; [|split; [|split; [|split]]]]]]]].
  - unfold grid_ok, case_G2, cells_of. cbn. repeat split; auto; try lia; intros; try lia; repeat constructor; lra.
  - unfold dirs_ok, dir_ok. repeat constructor; cbn; intros; try lia; lra.
  - intros o a _ _. reflexivity.
  - repeat split; cbn; lia.
  - cbn. lia.
  - apply (@new_shaped (case_q 2) 1 3 3 1).
  - intros s s' _ _ H. discriminate.
  - apply perm_seq; auto; [repeat constructor; cbn; lia|]. cbn. lia.
  - reflexivity.
  - intros; discriminate.
Qed.
Lemma case_problem3 : sweep_problem case_G3 [case_d] false (fun _ _ => repeat 1%R 8) 0 (seq 0 8) (case_b 3 2) (repeat 1%R 8) (fun _ _ => []).
Proof.
  unfold sweep_problem. cbv zeta. change (q_dim (b_q (case_b 3 2))) with 3. change (q_nao (b_q (case_b 3 2))) with 1.
  split; [|split; [|split; [|split; [|split; [|split; [|split; [|split; [|split]]]]]]]].
  - unfold grid_ok, case_G3, cells_of. cbn. repeat split; auto; try lia; intros; try lia; repeat constructor; lra.
  - unfold dirs_ok, dir_ok. repeat constructor; cbn; intros; try lia; lra.
  - intros o a _ _. reflexivity.
  - repeat split; cbn; lia.
  - cbn. lia.
  - apply (@new_shaped (case_q 3) 1 2 2 2).
  - intros s s' _ _ H. discriminate.
  - apply Permutation_refl.
  - reflexivity.
  - intros; discriminate.
Qed.
Lemma case_sig s n : (0 <= s)%R -> sig_ok false (case_G1 n s).
Proof. intros H. unfold sig_ok, case_G1. cbn. apply Forall_forall. intros x Hx. apply repeat_spec in Hx. subst. auto. Qed.

(** In three dimensions the coarse cells need not balance. *)
Theorem balance_3d_refuted : exists G C ds src b T phi,
  sweep_problem G ds false src 0 (seq 0 8) b phi (fun _ _ => []) /\ q_dim (b_q b) = 3 /\ sig_ok false G /\
  coarse_mesh 3 G 1 = Ok C /\ tally_for C T /\
  exists b' phi' psi' T', sweep_t (kernel3_t G ds false src) true 0 (seq 0 8) (b, phi, fun _ _ => []) T = Ok (b', phi', psi', T') /\
  ~ balances C G (b_q b) ds src T' phi'.
Proof.
  destruct (coarse_mesh 3 case_G3 1) as [C| |] eqn:EC; try discriminate.
  pose proof (coarse_mesh_facts (dim := 3) ltac:(lia) EC) as F.
  assert (EC' : coarse_mesh 3 case_G3 1 = Ok C) by auto.
  exists case_G3, C, [case_d], (fun _ _ => repeat 1%R 8), (case_b 3 2), (new_tally C), (repeat 1%R 8).
  split; [exact case_problem3|]. split; [reflexivity|]. split; [repeat constructor; lra|]. split; [auto|]. split; [apply new_tally_for|].
  destruct (@nothing_3d case_G3 C [case_d] false true (fun _ _ => repeat 1%R 8) 0 (seq 0 8) (case_b 3 2) (repeat 1%R 8) (fun _ _ => []) (new_tally C))
    as (b' & phi' & psi' & _ & T' & E & _ & L); auto.
  { exact case_problem3. } { repeat constructor; lra. }
  exists b', phi', psi', T'. split; auto. intros B.
  injection EC as EC.
  assert (N : forall d, d < 3 -> cm_n C d = 2) by (intros d Hd; rewrite <- EC; destruct d as [|[|[|d]]]; try reflexivity; lia).
  specialize (B 0 0 0). rewrite !N in B by lia. specialize (B ltac:(lia) ltac:(lia) ltac:(lia)). rewrite L in B.
  unfold coarse_total, across, block_sum in B. rewrite <- EC in B.
  cbn -[at_ over_angles g_sig repeat Rmult Rplus] in B.
  assert (S0 : forall i, at_ (g_sig case_G3) i = 0%R).
  { intros i. unfold at_, case_G3. cbn [g_sig]. do 8 (destruct i as [|i]; [reflexivity|]). destruct i; reflexivity. }
  rewrite S0 in B. unfold over_angles in B. cbn in B. lra.
Qed.
(** A mesh with one cell along an axis: the tally reads outside its table. *)
Theorem one_cell_refuted : exists G C ds src b T phi,
  sweep_problem G ds false src 0 [0; 1] b phi (fun _ _ => []) /\ q_dim (b_q b) = 1 /\ sig_ok false G /\
  coarse_mesh 1 G 1 = Ok C /\ tally_for C T /\
  (exists r, sweep (kernel1 DD_1 G ds false src) true 0 [0; 1] (b, phi, fun _ _ => []) = Ok r) /\
  sweep_t (kernel1_t DD_1 G C ds false src) true 0 [0; 1] (b, phi, fun _ _ => []) T = UB.
Proof.
  destruct (coarse_mesh 1 (case_G1 1 1) 1) as [C| |] eqn:EC; try discriminate.
  assert (EC' : coarse_mesh 1 (case_G1 1 1) 1 = Ok C) by auto.
  exists (case_G1 1 1), C, [case_d], (fun _ _ => [1%R]), (case_b 1 1), (new_tally C), [1%R].
  split; [exact (@case_problem1 1 ltac:(lia))|]. split; [reflexivity|]. split; [apply case_sig; lra|]. split; [auto|].
  split; [apply new_tally_for|]. injection EC as <-. split.
  - eexists. vm_compute. reflexivity.
  - vm_compute. reflexivity.
Qed.
