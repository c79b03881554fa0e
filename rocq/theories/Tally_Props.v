(** * Tally_Props *)
From Coquelicot Require Import Coquelicot.
From Verif Require Import Base BaseR Loop Mesh_Model Mesh_Proofs Angle_Model Angle_Spec Boundary_Model Boundary_Spec Boundary_Proofs
  Cell_Model Cell_Spec Cell_Proofs Sweep_Model Sweep_Spec Sweep_Proofs SweepInst_Proofs
  Region_Model Region_Spec Region_Proofs Tally_Model Tally_Spec Tally_Proofs Tally_Proofs7.
Open Scope nat_scope.

(** C95.  Full statement: as C95_currents_1d_partial and C95_balance_1d_partial,
    in one, two and three dimensions, for every mesh.  It fails in three
    dimensions (nothing is tallied) and for a mesh with one cell along an axis
    (undefined behaviour). *)
Theorem C95_currents_1d_partial :
  forall E G C ds keep upd src g ord b phi psi T level,
  q_dim (b_q b) = 1 ->
  sweep_problem G ds keep src g ord b phi psi -> sig_ok (strict1 E) G -> coarse_mesh 1 G level = Ok C -> 1 < g_nx G -> tally_for C T ->
  exists b' phi' psi' T', sweep_t (kernel1_t E G C ds keep src) upd g ord (b, phi, psi) T = Ok (b', phi', psi', T') /\
  sweep (kernel1 E G ds keep src) upd g ord (b, phi, psi) = Ok (b', phi', psi') /\ tally_for C T' /\
  exists X P,
  (forall o a, o < q_noct (b_q b) -> a < q_nao (b_q b) ->
    fluxes1 E G (nth a ds none) (positive o 0) (src o a) (ins_of b' o a g) (outs_of b' o a g) (X o a) (P o a)) /\
  (forall c, c < g_nx G -> at_ phi' c = over_angles (b_q b) (fun o a => Sweep_Spec.weight ds a * P o a c)%R) /\
  forall I s, I <= cm_n C 0 -> s < 2 -> partial_current C T' I 0 0 0 s =
    Ok (over_angles (b_q b) (fun o a => along 0 s o (Sweep_Spec.weight ds a * d_mu (nth a ds none) * X o a (edge C 0 I))%R)).
Proof. exact @currents_1d. Qed.
Print Assumptions C95_currents_1d_partial.
Theorem C95_balance_1d_partial :
  forall E G C ds keep upd src g ord b phi psi T level,
  q_dim (b_q b) = 1 ->
  sweep_problem G ds keep src g ord b phi psi -> sig_ok (strict1 E) G -> coarse_mesh 1 G level = Ok C -> 1 < g_nx G -> tally_for C T ->
  exists b' phi' psi' T', sweep_t (kernel1_t E G C ds keep src) upd g ord (b, phi, psi) T = Ok (b', phi', psi', T') /\
  balances C G (b_q b) ds src T' phi'.
Proof. exact @balance_1d. Qed.
Print Assumptions C95_balance_1d_partial.
Theorem C95_currents_2d_partial :
  forall E G C ds keep upd src g ord b phi psi T level,
  q_dim (b_q b) = 2 ->
  sweep_problem G ds keep src g ord b phi psi -> sig_ok (strict2 E) G -> coarse_mesh 2 G level = Ok C -> 1 < g_nx G -> 1 < g_ny G ->
  tally_for C T ->
  exists b' phi' psi' T', sweep_t (kernel2_t E G C ds keep src) upd g ord (b, phi, psi) T = Ok (b', phi', psi', T') /\
  sweep (kernel2 E G ds keep src) upd g ord (b, phi, psi) = Ok (b', phi', psi') /\ tally_for C T' /\
  exists X Y P,
  (forall o a, o < q_noct (b_q b) -> a < q_nao (b_q b) ->
    fluxes2 E G (nth a ds none) (positive o 0) (positive o 1) (src o a) (ins_of b' o a g) (outs_of b' o a g) (X o a) (Y o a) (P o a)) /\
  (forall c, c < g_nx G * g_ny G -> at_ phi' c = over_angles (b_q b) (fun o a => Sweep_Spec.weight ds a * P o a c)%R) /\
  (forall I J s, I <= cm_n C 0 -> J < cm_n C 1 -> s < 2 -> partial_current C T' I J 0 0 s =
    Ok (over_angles (b_q b) (fun o a => along 0 s o (Sweep_Spec.weight ds a * d_mu (nth a ds none) *
      across C 1 J (fun j => at_ (g_dy G) j * X o a (edge C 0 I) j))%R))) /\
  (forall I J s, I < cm_n C 0 -> J <= cm_n C 1 -> s < 2 -> partial_current C T' I J 0 1 s =
    Ok (over_angles (b_q b) (fun o a => along 1 s o (Sweep_Spec.weight ds a * d_eta (nth a ds none) *
      across C 0 I (fun i => at_ (g_dx G) i * Y o a i (edge C 1 J)))%R))).
Proof. exact @currents_2d. Qed.
Print Assumptions C95_currents_2d_partial.
Theorem C95_balance_2d_partial :
  forall E G C ds keep upd src g ord b phi psi T level,
  q_dim (b_q b) = 2 ->
  sweep_problem G ds keep src g ord b phi psi -> sig_ok (strict2 E) G -> coarse_mesh 2 G level = Ok C -> 1 < g_nx G -> 1 < g_ny G ->
  tally_for C T ->
  exists b' phi' psi' T', sweep_t (kernel2_t E G C ds keep src) upd g ord (b, phi, psi) T = Ok (b', phi', psi', T') /\
  balances C G (b_q b) ds src T' phi'.
Proof. exact @balance_2d. Qed.
Print Assumptions C95_balance_2d_partial.
Theorem C95_nothing_3d_partial :
  forall G C ds keep upd src g ord b phi psi T,
  q_dim (b_q b) = 3 ->
  sweep_problem G ds keep src g ord b phi psi -> sig_ok false G ->
  exists b' phi' psi', sweep (kernel3 G ds keep src) upd g ord (b, phi, psi) = Ok (b', phi', psi') /\
  exists T', sweep_t (kernel3_t G ds keep src) upd g ord (b, phi, psi) T = Ok (b', phi', psi', T') /\
  (forall I J K axis s x, partial_current C T' I J K axis s = Ok x -> x = 0%R) /\
  forall I J K, net_leakage C T' I J K = 0%R.
Proof. exact @nothing_3d. Qed.
Print Assumptions C95_nothing_3d_partial.
Theorem C95_balance_3d_refuted :
  exists G C ds src b T phi,
  sweep_problem G ds false src 0 (seq 0 8) b phi (fun _ _ => []) /\ q_dim (b_q b) = 3 /\ sig_ok false G /\
  coarse_mesh 3 G 1 = Ok C /\ tally_for C T /\
  exists b' phi' psi' T', sweep_t (kernel3_t G ds false src) true 0 (seq 0 8) (b, phi, fun _ _ => []) T = Ok (b', phi', psi', T') /\
  ~ balances C G (b_q b) ds src T' phi'.
Proof. exact @balance_3d_refuted. Qed.
Print Assumptions C95_balance_3d_refuted.
Theorem C95_one_cell_refuted :
  exists G C ds src b T phi,
  sweep_problem G ds false src 0 [0; 1] b phi (fun _ _ => []) /\ q_dim (b_q b) = 1 /\ sig_ok false G /\
  coarse_mesh 1 G 1 = Ok C /\ tally_for C T /\
  (exists r, sweep (kernel1 DD_1 G ds false src) true 0 [0; 1] (b, phi, fun _ _ => []) = Ok r) /\
  sweep_t (kernel1_t DD_1 G C ds false src) true 0 [0; 1] (b, phi, fun _ _ => []) T = UB.
Proof. exact @one_cell_refuted. Qed.
Print Assumptions C95_one_cell_refuted.

(** Cases: two cells tallied on their own faces, and three by three cells of
    unequal widths on one coarse cell. *)
Example C95_case_1d : exists C, coarse_mesh 1 (case_G1 2 1) 1 = Ok C /\ cm_n C 0 = 2 /\
  exists b' phi' psi' T',
  sweep_t (kernel1_t DD_1 (case_G1 2 1) C [case_d] false (fun _ _ => repeat 1%R 2)) true 0 [0; 1]
    (case_b 1 2, repeat 1%R 2, fun _ _ => []) (new_tally C) = Ok (b', phi', psi', T') /\
  balances C (case_G1 2 1) (case_q 1) [case_d] (fun _ _ => repeat 1%R 2) T' phi'.
Proof.
  destruct (coarse_mesh 1 (case_G1 2 1) 1) as [C| |] eqn:EC; try discriminate. exists C. split; auto. split.
  - injection EC as <-. reflexivity.
  - apply (@balance_1d DD_1 (case_G1 2 1) C [case_d] false true (fun _ _ => repeat 1%R 2) 0 [0; 1] (case_b 1 2) (repeat 1%R 2) (fun _ _ => []) (new_tally C) 1); auto; try (cbn; lia).
    + apply (@case_problem1 2). lia.
    + apply case_sig. lra.
    + apply new_tally_for.
Qed.
Example C95_case_2d : exists C, coarse_mesh 2 case_G2 2 = Ok C /\ cm_n C 0 = 1 /\
  exists b' phi' psi' T',
  sweep_t (kernel2_t DD_2 case_G2 C [case_d] false (fun _ _ => repeat 1%R 9)) true 0 [0; 1; 2; 3]
    (case_b 2 3, repeat 1%R 9, fun _ _ => []) (new_tally C) = Ok (b', phi', psi', T') /\
  balances C case_G2 (case_q 2) [case_d] (fun _ _ => repeat 1%R 9) T' phi'.
Proof.
  destruct (coarse_mesh 2 case_G2 2) as [C| |] eqn:EC; try discriminate. exists C. split; auto. split.
  - injection EC as <-. reflexivity.
  - apply (@balance_2d DD_2 case_G2 C [case_d] false true (fun _ _ => repeat 1%R 9) 0 [0; 1; 2; 3] (case_b 2 3) (repeat 1%R 9) (fun _ _ => []) (new_tally C) 2); auto; try (cbn; lia).
    + exact case_problem2.
    + repeat constructor; lra.
    + apply new_tally_for.
Qed.
