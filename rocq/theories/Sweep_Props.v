(** * Sweep_Props *)
From Verif Require Import Base BaseR Loop Mesh_Model Mesh_Proofs Angle_Model Angle_Spec Angle_Proofs Boundary_Model
  Boundary_Spec Boundary_Proofs Cell_Model Cell_Spec Cell_Proofs Sweep_Model Sweep_Spec Sweep_Proofs SweepBalance_Proofs
  SweepAll_Proofs SweepInst_Proofs.
Open Scope nat_scope.
Local Notation idx := Mesh_Model.index.

Definition case_q : quad :=
  match quad_new 2 4 with Ok q => q | _ => {| q_dim := 0; q_nang := 0; q_noct := 0; q_nao := 0; q_wt := []; q_mu := []; q_eta := [];
    q_xi := []; q_sign := []; q_inc := []; q_out := []; q_adj := false |} end.
Definition case_refl (s : nat) : bool := s =? 0.
Definition case_G : grid := {| g_nx := 2; g_ny := 1; g_nz := 1; g_dx := [1; 2]%R; g_dy := [1%R]; g_dz := []; g_sig := [1; 3]%R |}.
Definition case_d : dir := {| d_mu := 1/2; d_eta := 1/3; d_xi := 0; d_w := 1 |}.
Definition case_b : bsn := boundary_new case_q 1 2 1 1 (fun s => if case_refl s then Reflect else Vacuum).
Example case_ord : octant_order case_q case_refl None = Ok [1; 2; 0; 3].
Proof. reflexivity. Qed.
Example case_problem : sweep_problem case_G [case_d] false (fun _ _ => [1; 1]%R) 0 [1; 2; 0; 3] case_b [5; 5]%R (fun _ _ => []).
Proof.
  unfold sweep_problem. cbv zeta. change (q_dim (b_q case_b)) with 2. change (q_nao (b_q case_b)) with 1.
  repeat split; cbn; try lia; try discriminate.
  - repeat constructor; lra.
  - repeat constructor; lra.
  - unfold dirs_ok, dir_ok. repeat constructor; cbn; intros; try lia; lra.
  - apply (@new_shaped case_q 1 2 1 1).
  - intros s s' _ _ H. unfold case_refl in H. destruct (s =? 0); discriminate.
  - apply NoDup_Permutation.
    + repeat constructor; cbn; lia.
    + repeat constructor; cbn; lia.
    + intros x. cbn. lia.
Qed.

(** C40: one angle.  The discretised equations have exactly one solution and the
    sweep adds it to the scalar flux, each cell once; the solution conserves
    particles over the mesh. *)
Theorem C40_sweep_1d :
  forall E G d keep o src pin,
  o < 2 -> grid_ok 1 G -> sig_ok (strict1 E) G -> dir_ok 1 d ->
  length src = cells_of 1 G ->
  exists pout pc, solves1 E G d (positive o 0) src pin pout pc /\
  forall phi psi, length phi = cells_of 1 G -> (keep = true -> length psi = cells_of 1 G) ->
  exists phi' psi', sweep1 E G d keep o src pin phi psi = Ok (pout, phi', psi') /\
    adds (cells_of 1 G) (d_w d) pc phi phi' /\ stores (cells_of 1 G) keep pc psi psi'.
Proof. exact @sweep1_solves. Qed.
Print Assumptions C40_sweep_1d.
Theorem C40_sweep_2d :
  forall E G d keep o src vin hin,
  o < 4 -> grid_ok 2 G -> sig_ok (strict2 E) G -> dir_ok 2 d ->
  length src = cells_of 2 G -> length vin = g_ny G -> length hin = g_nx G ->
  exists vout hout pc, length vout = g_ny G /\ length hout = g_nx G /\
  solves2 E G d (positive o 0) (positive o 1) src vin hin vout hout
    (fun i j => pc (idx (g_nx G) (g_ny G) i j 0)) /\
  forall phi psi, length phi = cells_of 2 G -> (keep = true -> length psi = cells_of 2 G) ->
  exists phi' psi', sweep2 E G d keep o src vin hin phi psi = Ok (vout, hout, phi', psi') /\
    adds (cells_of 2 G) (d_w d) pc phi phi' /\ stores (cells_of 2 G) keep pc psi psi'.
Proof. exact @sweep2_solves. Qed.
Print Assumptions C40_sweep_2d.
Theorem C40_sweep_3d :
  forall G d keep o src yz xz xy,
  o < 8 -> grid_ok 3 G -> sig_ok false G -> dir_ok 3 d ->
  length src = cells_of 3 G -> rect (g_nz G) (g_ny G) yz -> rect (g_nz G) (g_nx G) xz -> rect (g_ny G) (g_nx G) xy ->
  exists yz' xz' xy' pc, rect (g_nz G) (g_ny G) yz' /\ rect (g_nz G) (g_nx G) xz' /\ rect (g_ny G) (g_nx G) xy' /\
  solves3 G d (positive o 0) (positive o 1) (positive o 2) src yz xz xy yz' xz' xy'
    (fun i j k => pc (idx (g_nx G) (g_ny G) i j k)) /\
  forall phi psi, length phi = cells_of 3 G -> (keep = true -> length psi = cells_of 3 G) ->
  exists phi' psi', sweep3 G d keep o src yz xz xy phi psi = Ok (yz', xz', xy', phi', psi') /\
    adds (cells_of 3 G) (d_w d) pc phi phi' /\ stores (cells_of 3 G) keep pc psi psi'.
Proof. exact @sweep3_solves. Qed.
Print Assumptions C40_sweep_3d.
Open Scope R_scope.
Theorem C40_balance_1d :
  forall E G d px src pin pout pc,
  grid_ok 1 G -> sig_ok (strict1 E) G -> dir_ok 1 d ->
  solves1 E G d px src pin pout pc ->
  d_mu d * (pout - pin) + tot1 G (fun i => at_ (g_sig G) i * pc i) = tot1 G (at_ src).
Proof. exact @balance1. Qed.
Print Assumptions C40_balance_1d.
Theorem C40_balance_2d :
  forall E G d px py src vin hin vout hout pc,
  grid_ok 2 G -> 
  solves2 E G d px py src vin hin vout hout pc ->
  d_mu d * rsum (g_ny G) (fun j => at_ (g_dy G) j * (at_ vout j - at_ vin j)) +
  d_eta d * rsum (g_nx G) (fun i => at_ (g_dx G) i * (at_ hout i - at_ hin i)) +
  rsum (g_nx G) (fun i => rsum (g_ny G) (fun j => at_ (g_dx G) i * at_ (g_dy G) j *
    (at_ (g_sig G) (idx (g_nx G) (g_ny G) i j 0) * pc i j))) =
  rsum (g_nx G) (fun i => rsum (g_ny G) (fun j => at_ (g_dx G) i * at_ (g_dy G) j * at_ src (idx (g_nx G) (g_ny G) i j 0))).
Proof. exact @balance2. Qed.
Print Assumptions C40_balance_2d.
Theorem C40_balance_3d :
  forall G d px py pz src a1 a2 a3 b1 b2 b3 pc,
  grid_ok 3 G -> 
  solves3 G d px py pz src a1 a2 a3 b1 b2 b3 pc ->
  let nx := g_nx G in let ny := g_ny G in let nz := g_nz G in
  let hx := at_ (g_dx G) in let hy := at_ (g_dy G) in let hz := at_ (g_dz G) in
  d_mu d * rsum ny (fun j => rsum nz (fun k => hy j * hz k * (at2 b1 k j - at2 a1 k j))) +
  d_eta d * rsum nx (fun i => rsum nz (fun k => hx i * hz k * (at2 b2 k i - at2 a2 k i))) +
  d_xi d * rsum nx (fun i => rsum ny (fun j => hx i * hy j * (at2 b3 j i - at2 a3 j i))) +
  rsum nx (fun i => rsum ny (fun j => rsum nz (fun k => hx i * hy j * hz k *
    (at_ (g_sig G) (idx nx ny i j k) * pc i j k)))) =
  rsum nx (fun i => rsum ny (fun j => rsum nz (fun k => hx i * hy j * hz k * at_ src (idx nx ny i j k)))).
Proof. exact @balance3. Qed.
Print Assumptions C40_balance_3d.
Theorem C40_unique_1d :
  forall E G d px src pin pout pc pout' pc',
  grid_ok 1 G -> sig_ok (strict1 E) G -> dir_ok 1 d ->
  (0 < g_nx G)%nat ->
  solves1 E G d px src pin pout pc -> solves1 E G d px src pin pout' pc' ->
  pout = pout' /\ forall i, (i < g_nx G)%nat -> pc i = pc' i.
Proof. exact @solves1_unique. Qed.
Print Assumptions C40_unique_1d.
Close Scope R_scope.
Theorem C40_unique_2d : forall E G d px py src, grid_ok 2 G -> sig_ok (strict2 E) G -> dir_ok 2 d ->
  forall vin hin vout hout pc vout' hout' pc', 0 < g_nx G -> 0 < g_ny G ->
  solves2 E G d px py src vin hin vout hout pc -> solves2 E G d px py src vin hin vout' hout' pc' ->
  (forall j, j < g_ny G -> at_ vout j = at_ vout' j) /\ (forall i, i < g_nx G -> at_ hout i = at_ hout' i) /\
  forall i j, i < g_nx G -> j < g_ny G -> pc i j = pc' i j.
Proof. exact @solves2_unique. Qed.
Print Assumptions C40_unique_2d.
Open Scope R_scope.
Theorem C40_unique_3d :
  forall G d px py pz src a1 a2 a3 b1 b2 b3 pc b1' b2' b3' pc',
  grid_ok 3 G -> sig_ok false G -> dir_ok 3 d -> (0 < g_nx G)%nat -> (0 < g_ny G)%nat -> (0 < g_nz G)%nat ->
  solves3 G d px py pz src a1 a2 a3 b1 b2 b3 pc -> solves3 G d px py pz src a1 a2 a3 b1' b2' b3' pc' ->
  (forall j k, (j < g_ny G)%nat -> (k < g_nz G)%nat -> at2 b1 k j = at2 b1' k j) /\
  (forall i k, (i < g_nx G)%nat -> (k < g_nz G)%nat -> at2 b2 k i = at2 b2' k i) /\
  (forall i j, (i < g_nx G)%nat -> (j < g_ny G)%nat -> at2 b3 j i = at2 b3' j i) /\
  forall i j k, (i < g_nx G)%nat -> (j < g_ny G)%nat -> (k < g_nz G)%nat -> pc i j k = pc' i j k.
Proof. exact @solves3_unique. Qed.
Print Assumptions C40_unique_3d.
Theorem C40_nonneg_1d :
  forall E G d px src pin pout pc,
  E <> DD_1 -> grid_ok 1 G -> sig_ok (strict1 E) G -> dir_ok 1 d ->
  (0 < g_nx G)%nat -> length src = cells_of 1 G -> nonneg src -> 0 <= pin ->
  solves1 E G d px src pin pout pc -> 0 <= pout /\ forall i, (i < g_nx G)%nat -> 0 <= pc i.
Proof. exact @solves1_nonneg. Qed.
Print Assumptions C40_nonneg_1d.
Close Scope R_scope.
Theorem C40_nonneg_2d : forall E G d px py src, grid_ok 2 G -> sig_ok (strict2 E) G -> dir_ok 2 d ->
  forall vin hin vout hout pc, E <> DD_2 -> 0 < g_nx G -> 0 < g_ny G ->
  length src = cells_of 2 G -> nonneg src -> length vin = g_ny G -> length hin = g_nx G -> nonneg vin -> nonneg hin ->
  solves2 E G d px py src vin hin vout hout pc ->
  (forall j, j < g_ny G -> (0 <= at_ vout j)%R) /\ (forall i, i < g_nx G -> (0 <= at_ hout i)%R) /\
  forall i j, i < g_nx G -> j < g_ny G -> (0 <= pc i j)%R.
Proof. exact @solves2_nonneg. Qed.
Print Assumptions C40_nonneg_2d.
(** All octants and angles, with the boundary conditions applied between them. *)
Theorem C40_full_sweep_1d :
  forall E G ds keep upd src g ord b phi psi,
  q_dim (b_q b) = 1 ->
  sweep_problem G ds keep src g ord b phi psi -> sig_ok (strict1 E) G ->
  full_sweep G ds keep upd g ord b phi psi (kernel1 E G ds keep src) (solution1 E G ds src).
Proof. exact @full_sweep1. Qed.
Print Assumptions C40_full_sweep_1d.
Theorem C40_full_sweep_2d :
  forall E G ds keep upd src g ord b phi psi,
  q_dim (b_q b) = 2 ->
  sweep_problem G ds keep src g ord b phi psi -> sig_ok (strict2 E) G ->
  full_sweep G ds keep upd g ord b phi psi (kernel2 E G ds keep src) (solution2 E G ds src).
Proof. exact @full_sweep2. Qed.
Print Assumptions C40_full_sweep_2d.
Theorem C40_full_sweep_3d :
  forall G ds keep upd src g ord b phi psi,
  q_dim (b_q b) = 3 ->
  sweep_problem G ds keep src g ord b phi psi -> sig_ok false G ->
  full_sweep G ds keep upd g ord b phi psi (kernel3 G ds keep src) (solution3 G ds src).
Proof. exact @full_sweep3. Qed.
Print Assumptions C40_full_sweep_3d.
Theorem C40_face_tables :
  forall dim o,
  0 < dim < 4 -> o < 2 ^ dim ->
  in_faces dim o = map (in_side o) (seq 0 dim) /\ out_faces dim o = map (out_side o) (seq 0 dim).
Proof. exact @faces_ok. Qed.
Print Assumptions C40_face_tables.
Example C40_case : exists b' phi' psi',
  sweep (kernel2 DD_2 case_G [case_d] false (fun _ _ => [1; 1]%R)) true 0 [1; 2; 0; 3] (case_b, [5; 5]%R, fun _ _ => []) = Ok (b', phi', psi') /\
  length phi' = 2.
Proof.
  destruct (@full_sweep2 DD_2 case_G [case_d] false true (fun _ _ => [1; 1]%R) 0 [1; 2; 0; 3] case_b [5; 5]%R (fun _ _ => [])) as (b' & p & q & E & S).
  - reflexivity. - exact case_problem. - repeat constructor; lra.
  - exists b', p, q. split; auto. destruct S as [_ _ (P & _ & L & _) _ _ _]. exact L.
Qed.

(** C41: the 2-D sweeper; missing for the full claim: 1-D and 3-D, where the
    shared flux makes it false. *)
Theorem C41_threads_2d_partial :
  forall E G ds keep upd src g ord b phi psi T sched fin,
  q_dim (b_q b) = 2 ->
  sweep_problem G ds keep src g ord b phi psi -> sig_ok (strict2 E) G ->
  fair T (q_nao (b_q b)) sched -> Permutation fin (seq 0 T) ->
  exists b1 phi' psi1 b2 psi2,
  sweep (kernel2 E G ds keep src) upd g ord (b, phi, psi) = Ok (b1, phi', psi1) /\
  sweep_par (kernel2 E G ds keep src) upd g ord sched fin (b, phi, psi) = Ok (b2, phi', psi2) /\
  (forall o a, o < q_noct (b_q b) -> a < q_nao (b_q b) -> psi1 o a = psi2 o a) /\ same_setup b1 b2 /\
  (forall s o a g', valid b s o a g' -> flux b1 s o a g' = flux b2 s o a g').
Proof. exact @threads_serial2. Qed.
Print Assumptions C41_threads_2d_partial.
Theorem C41_shared_flux_refuted :
  exists l es, contributions DD_1 G1 d1 0 [2%R] 0 = Ok l /\
  interleave (thread 0 l) (thread 1 l) es /\
  exec es (fun _ => 0%R) (fun _ => 0%R) 0 <> exec (thread 0 l ++ thread 1 l) (fun _ => 0%R) (fun _ => 0%R) 0.
Proof. exact @shared_race. Qed.
Print Assumptions C41_shared_flux_refuted.
(** Without overlap each thread's additions all arrive. *)
Theorem C41_one_thread_partial :
  forall t l,
  forall phi reg c,
  exec (thread t l) phi reg c = (phi c + sumR (map (fun cx => if fst cx =? c then snd cx else 0%R) l))%R.
Proof. exact @exec_thread. Qed.
Print Assumptions C41_one_thread_partial.
Example C41_case : fair 2 1 (fun o => [(0, o mod 2)]) /\ Permutation [1; 0] (seq 0 2).
Proof.
  split; [|apply perm_swap]. intros o. split; [apply Permutation_refl|]. constructor; [|constructor]. cbn [snd]. apply Nat.mod_upper_bound. lia.
Qed.

(** C44 *)
Theorem C44_octant_order :
  forall q refl,
  sn_quad q -> exists ord, octant_order q refl None = Ok ord /\
  Permutation ord (seq 0 (q_noct q)) /\
  (forall o o', precedes ord o o' -> open_sides (q_dim q) refl o' <= open_sides (q_dim q) refl o).
Proof. exact @order_default. Qed.
Print Assumptions C44_octant_order.
Example C44_case : open_sides 2 case_refl 1 = 2 /\ open_sides 2 case_refl 0 = 1.
Proof. split; reflexivity. Qed.

(** C75 *)
Theorem C75_user_order_refuted : exists q refl oo, sn_quad q /\ octant_order q refl (Some oo) = Ok oo /\
  ~ Permutation oo (seq 0 (q_noct q)).
Proof.
  exists case_q, case_refl, [0; 0; 1; 2]. split; [repeat split; cbn; lia|]. split.
  - vm_compute. reflexivity.
  - intros P. apply Permutation_sym in P. apply (Permutation_in (l' := [0; 0; 1; 2]) 3) in P; [|cbn; auto].
    cbn in P. lia.
Qed.
Print Assumptions C75_user_order_refuted.
Theorem C75_user_order_taken_partial :
  forall q refl oo,
  sn_quad q -> length oo = q_noct q -> octant_order q refl (Some oo) = Ok oo.
Proof. exact @order_user. Qed.
Print Assumptions C75_user_order_taken_partial.
Theorem C75_user_order_length_partial :
  forall q refl oo,
  sn_quad q -> length oo <> q_noct q -> octant_order q refl (Some oo) = Err.
Proof. exact @order_user_bad. Qed.
Print Assumptions C75_user_order_length_partial.
