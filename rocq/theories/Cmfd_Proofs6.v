(** * Cmfd_Proofs6: where the acceleration moves a solution, and concrete cases. *)
From Coquelicot Require Import Coquelicot.
From Verif Require Import Base BaseR Loop Mesh_Model Mesh_Spec Mesh_Proofs Material_Model Material_Spec Material_Proofs Matrix_Model Matrix_Spec Angle_Model Angle_Spec
  Boundary_Model Boundary_Spec Boundary_Proofs Cell_Model Cell_Spec Sweep_Model Sweep_Spec SweepInst_Proofs Region_Model Region_Spec Region_Proofs Homog_Proofs Tally_Model Tally_Spec Tally_Proofs Tally_Proofs2 Tally_Proofs3 Tally_Proofs4 Tally_Proofs5 Tally_Proofs6 Tally_Proofs7
  Diffusion_Model Diffusion_Spec Diffusion_Proofs Cmfd_Model Cmfd_Spec Cmfd_Proofs Cmfd_Proofs2 Cmfd_Proofs3 Cmfd_Proofs4 Cmfd_Proofs5.
Open Scope nat_scope.
Set Implicit Arguments. Unset Strict Implicit.

(** Two cells in a row, as one coarse cell. *)
Definition line : mesh :=
  {| Mesh_Model.dim := 1; xfm := [2]; yfm := [1]; zfm := [1]; xcme := [0; 2]%R; ycme := [0; 1]%R; zcme := [0; 1]%R;
     mdx := [1; 1]%R; mdy := [1%R]; mdz := [1%R]; twx := 2%R; twy := 1%R; twz := 1%R; mat := [0%Z; 1%Z] |}.
Definition line_grid : grid :=
  {| g_nx := 2; g_ny := 1; g_nz := 1; g_dx := [1; 1]%R; g_dy := [1%R]; g_dz := [1%R]; g_sig := [1; 1]%R |}.
(** Materials 0 and 1: total 1; transfer from group 0 to group 1 in material 0 only. *)
Definition line_mat (G : nat) (t : R) : mtl :=
  {| ng := G; nm := 2; st := fun _ _ => 1%R; sa := fun _ _ => 1%R; nsf := fun _ _ => 1%R; sf := fun _ _ => 1%R; nu := fun _ _ => 1%R;
     chi := fun _ _ => 1%R; ss := fun g gp k => if (g =? 1) && (gp =? 0) && (k =? 0) then t else 0%R; dc := fun _ _ => 1%R;
     b0 := fun _ => 0; b1 := fun _ => 0; b2 := fun _ => 0; b3 := fun _ => 0; cut0 := 0; cut1 := 0; ds0 := false; ds1 := false; fin := true |}.
Definition line_problem (G : nat) (t : R) (adj mult : bool) : problem :=
  {| u_mesh := line; u_mat := line_mat G t; u_adj := adj; u_mult := mult; u_bc := fun _ => None; u_zero := false; u_correct := true;
     u_dc := PHI_D; u_omega := 1%R |}.
Lemma line_good : mesh_good line.
Proof.
  unfold mesh_good, ncx, ncy, ncz. cbn. repeat split; try lia; try (unfold left_edge; cbn; ring).
  intros w H. repeat (destruct H as [H|H]; try subst; try lra; try contradiction).
Qed.
Lemma line_ok G t adj mult : 0 < G -> (0 <= t)%R -> problem_ok (line_problem G t adj mult).
Proof.
  intros HG Ht. split; [exact line_good|]. split; [reflexivity|]. split; [reflexivity|]. split; [exact HG|]. split.
  - intros c Hc. change (ncells (u_mesh (line_problem G t adj mult))) with 2 in Hc. destruct c as [|[|c]]; cbn; lia.
  - intros g k _ _. cbn [line_problem u_mat line_mat st dc sf nsf nu ss]. repeat split; try lra. intros gp _. destruct (_ && _); lra.
Qed.
Lemma line_sweep G t adj mult g C level a b : coarse_mesh 1 line_grid level = Ok C ->
  exists T, swept_by (line_problem G t adj mult) C (case_q 1) [case_d] (fun _ _ => [a; b]) g [a + b / 4; b + a / 4]%R T.
Proof.
  intros HC.
  assert (PR : sweep_problem line_grid [case_d] false (fun _ _ => [a; b]) 0 [0; 1] (case_b 1 2) [0; 0]%R (fun _ _ => [])).
  { unfold sweep_problem. cbv zeta. change (q_dim (b_q (case_b 1 2))) with 1. change (q_nao (b_q (case_b 1 2))) with 1.
    split; [|split; [|split; [|split; [|split; [|split; [|split; [|split; [|split]]]]]]]].
    - unfold grid_ok, line_grid, cells_of. cbn. repeat split; auto; try lia; intros; try lia; repeat constructor; lra.
    - unfold dirs_ok, dir_ok. repeat constructor; cbn; intros; try lia; lra.
    - intros o k _ _. reflexivity.
    - repeat split; cbn; lia.
    - cbn. lia.
    - apply (@new_shaped (case_q 1) 1 2 1 1).
    - intros s s' _ _ H. discriminate.
    - apply perm_seq; auto; [repeat constructor; cbn; lia|]. cbn. lia.
    - reflexivity.
    - intros; discriminate. }
  assert (SG : sig_ok (strict1 SD_1) line_grid) by (repeat constructor; cbn; lra).
  destruct (@currents_1d SD_1 line_grid C [case_d] false true (fun _ _ => [a; b]) 0 [0; 1] (case_b 1 2) [0; 0]%R (fun _ _ => []) (new_tally C) level)
    as (b' & p & s' & T' & E & E' & _); auto; try apply new_tally_for.
  exists T'. assert (EP : p = [a + b / 4; b + a / 4]%R).
  { lazy -[IZR Rplus Rmult Rdiv Rinv Rminus Ropp] in E'. injection E' as _ <- _.
    f_equal; [field|f_equal; field]. }
  subst p. apply (@swept_1 (line_problem G t adj mult) C (case_q 1) [case_d] (fun _ _ => [a; b]) g _ T' SD_1 false true 0 [0; 1] (case_b 1 2) [0; 0]%R (fun _ _ => []) (new_tally C) b' s'); auto.
  apply new_tally_for.
Qed.
Lemma line_isotropic G t adj mult a b (s : nat -> R) : s 0 = (2 * a)%R -> s 1 = (2 * b)%R ->
  isotropic (case_q 1) [case_d] (ncells (u_mesh (line_problem G t adj mult))) (fun _ _ => [a; b]) s.
Proof.
  intros H0 H1. exists (/ 2)%R. split.
  - unfold over_angles. cbn. lra.
  - intros o k c _ _ Hc. change (ncells (u_mesh (line_problem G t adj mult))) with 2 in Hc. destruct c as [|[|c]]; [| |lia]; unfold at_; cbn [nth]; lra.
Qed.
Lemma line_coarse : exists C, coarse_mesh 1 line_grid 2 = Ok C /\ forall d, d < 3 -> cm_n C d = 1.
Proof.
  destruct (coarse_mesh 1 line_grid 2) as [C| |] eqn:EC; try discriminate. exists C. split; auto. injection EC as <-.
  intros d Hd. destruct d as [|[|[|d]]]; try reflexivity; lia.
Qed.
(** Sums over the only coarse cell. *)
Lemma line_sum G t adj mult C cmap cm f : let U := line_problem G t adj mult in 0 < G -> (0 <= t)%R -> coarse_mesh 1 line_grid 2 = Ok C ->
  (forall d, d < 3 -> cm_n C d = 1) -> coarse_map C = Ok cmap -> coarse_good U C cm -> RS U cmap 0 f = (f 0%nat + f 1%nat)%R.
Proof.
  intros U HG Ht HC HN EM GC. pose proof (line_ok adj mult HG Ht) as HP. fold U in HP.
  assert (N1 : ncells cm = 1).
  { destruct GC as (_ & _ & _ & N & _). unfold ncells. pose proof (N 0 ltac:(lia)) as N0. pose proof (N 1 ltac:(lia)) as N1. pose proof (N 2 ltac:(lia)) as N2.
    rewrite HN in N0, N1, N2 by lia. cbn in N0, N1, N2. rewrite N0, N1, N2. reflexivity. }
  pose proof (@map_lt U C 2 HP HC cmap cm 0 EM GC) as M0. pose proof (@map_lt U C 2 HP HC cmap cm 1 EM GC) as M1.
  change (ncells (u_mesh U)) with 2 in M0, M1. specialize (M0 ltac:(lia)). specialize (M1 ltac:(lia)).
  unfold RS, region_sum. change (ncells (u_mesh U)) with 2. cbn [rsum].
  replace (nth 0 cmap 0) with 0 by lia. replace (nth 1 cmap 0) with 0 by lia. cbn [Nat.eqb].
  unfold cvol. cbn. ring.
Qed.
(** Multiplying problem with keff 2. *)
Lemma keff_ignored : exists U C level keff q phi T,
  problem_ok U /\ coarse_mesh (Mesh_Model.dim (u_mesh U)) (grid_of U 0) level = Ok C /\ Mesh_Model.dim (u_mesh U) = 1 /\
  positive_flux U phi /\ shape U q /\ transport_solution U C keff q phi T /\
  u_adj U = false /\ one_spectrum U /\ (0 < keff)%R /\ moved U C keff q phi T.
Proof.
  destruct line_coarse as (C & HC & HN). set (U := line_problem 1 0 false true).
  destruct (@line_sweep 1 0 false true 0 C 2 1 1 HC) as (T & SW). fold U in SW.
  set (phi := [[1 + 1 / 4; 1 + 1 / 4]%R]) in *. set (q := [[2 - (1 + 1 / 4) / 2; 2 - (1 + 1 / 4) / 2]%R]).
  exists U, C, 2, 2%R, q, phi, (fun _ => T).
  pose proof (@line_ok 1 0 false true ltac:(lia) ltac:(lra)) as HP. fold U in HP.
  assert (SP : forall a b, shape U [[a; b]]).
  { intros a b. split; [reflexivity|]. intros g Hg. change (g < 1) in Hg. replace g with 0 by lia. reflexivity. }
  assert (HF : positive_flux U phi).
  { split; [apply SP|]. intros g c Hg Hc. change (g < 1) in Hg. change (c < 2) in Hc. replace g with 0 by lia. unfold val2, phi. cbn [nth]. destruct c as [|[|c]]; cbn [nth]; lra || lia. }
  assert (HQ : shape U q) by apply SP.
  assert (OS : one_spectrum U) by (exists (fun _ => 1%R); intros g k _ _; cbn; repeat split; lra).
  assert (TS : transport_solution U C 2 q phi (fun _ => T)).
  { intros g Hg. change (g < 1) in Hg. replace g with 0 by lia. exists (case_q 1), [case_d], (fun _ _ => [1; 1]%R). split; [exact SW|].
    apply line_isotropic; unfold source_of, scattering, fission, val2, q, phi; cbn; lra. }
  split; auto. split; [exact HC|]. split; [reflexivity|]. split; auto. split; auto. split; auto. split; [reflexivity|]. split; auto. split; [lra|].
  intros srt cur alpha HS HCU. pose proof (@swept_readable U C 2 HC _ phi _ TS) as HR.
  destruct (@residual U C 2 HP HC (fun _ => T) q phi cur 1%R alpha HF HQ HCU HR srt HS _ TS ltac:(cbn; lia)) as (cm & cmap & A & b & x0 & y & E & _ & _ & _ & _ & Ey & V).
  { split; [left; reflexivity|right; auto]. }
  destruct (@system U C 2 HP HC (fun _ => T) q phi cur 1%R alpha HF HQ HCU HR srt HS) as (cm1 & cmap1 & _ & _ & A1 & b1 & x1 & y1 & GC & EM & _ & E1 & _).
  rewrite E in E1. injection E1 as <- <- _ _ _.
  assert (E2 : coarse_problem srt U C (fun _ => T) q cur 2 alpha phi = Ok (cm, cmap, (A, b, x0))) by exact E.
  assert (NE : y <> b).
  { intros ->. destruct (V 0 0 0 0) as (_ & V0); try (rewrite HN by lia; lia); [cbn; lia|].
    rewrite (@coarse_rs U C 2 HP HC cmap 0 0 0 0 _ EM) in V0 by (rewrite HN; lia). rewrite !HN in V0 by lia. change (Mesh_Model.index 1 1 0 0 0) with 0 in V0.
    unfold U in V0 at 2. rewrite (@line_sum 1 0 false true C cmap cm _ ltac:(lia) ltac:(lra) HC HN EM GC) in V0.
    unfold source_of, scattering, fission, val2, q, phi in V0. cbn in V0. lra. }
  split.
  - exists cm, cmap, A, b, x0. split; auto. congruence.
  - intros solve phi' ES EU. eapply (@moves U C 2 HP HC (fun _ => T) q phi cur 2%R alpha); eauto. cbn. lra.
Qed.

(** Adjoint problem with two groups. *)
Lemma adjoint_moves : exists U C level keff q phi T,
  problem_ok U /\ coarse_mesh (Mesh_Model.dim (u_mesh U)) (grid_of U 0) level = Ok C /\ Mesh_Model.dim (u_mesh U) = 1 /\
  positive_flux U phi /\ shape U q /\ transport_solution U C keff q phi T /\
  u_adj U = true /\ u_mult U = false /\ moved U C keff q phi T.
Proof.
  destruct line_coarse as (C & HC & HN). set (U := line_problem 2 (/ 4) true false).
  destruct (@line_sweep 2 (/ 4) true false 0 C 2 1 1 HC) as (T0 & SW0). destruct (@line_sweep 2 (/ 4) true false 1 C 2 1 2 HC) as (T1 & SW1). fold U in SW0, SW1.
  set (phi := [[1 + 1 / 4; 1 + 1 / 4]; [1 + 2 / 4; 2 + 1 / 4]]%R). set (q := [[2 - / 4 * (1 + 2 / 4); 2]; [2; 4]]%R).
  set (T := fun g => if g =? 0 then T0 else T1).
  exists U, C, 2, 1%R, q, phi, T.
  pose proof (@line_ok 2 (/ 4) true false ltac:(lia) ltac:(lra)) as HP. fold U in HP.
  assert (SP : forall a b c d, shape U [[a; b]; [c; d]]).
  { intros a b c d. split; [reflexivity|]. intros g Hg. change (g < 2) in Hg. destruct g as [|[|g]]; [reflexivity|reflexivity|lia]. }
  assert (HF : positive_flux U phi).
  { split; [apply SP|]. intros g c Hg Hc. change (g < 2) in Hg. change (c < 2) in Hc. unfold val2, phi.
    destruct g as [|[|g]]; [| |lia]; (destruct c as [|[|c]]; [| |lia]); cbn [nth]; lra. }
  assert (HQ : shape U q) by apply SP.
  assert (TS : transport_solution U C 1 q phi T).
  { intros g Hg. change (g < 2) in Hg. destruct g as [|[|g]]; [| |lia].
    - exists (case_q 1), [case_d], (fun _ _ => [1; 1]%R). split; [exact SW0|].
      apply line_isotropic; unfold source_of, scattering, fission, val2, q, phi; cbn; change (Pos.to_nat 1) with 1; cbn; lra.
    - exists (case_q 1), [case_d], (fun _ _ => [1; 2]%R). split; [exact SW1|].
      apply line_isotropic; unfold source_of, scattering, fission, val2, q, phi; cbn; change (Pos.to_nat 1) with 1; cbn; lra. }
  split; auto. split; [exact HC|]. split; [reflexivity|]. split; auto. split; auto. split; auto. split; [reflexivity|]. split; [reflexivity|].
  intros srt cur alpha HS HCU. pose proof (@swept_readable U C 2 HC _ phi _ TS) as HR.
  destruct (@system U C 2 HP HC T q phi cur 1%R alpha HF HQ HCU HR srt HS) as (cm & cmap & cmat & fl & A & b & x0 & y & GC & EM & GM & E & _ & _ & _ & Ey & _ & V).
  assert (SUM : forall f, RS U cmap 0 f = (f 0%nat + f 1%nat)%R) by (intros f; apply (@line_sum 2 (/ 4) true false C cmap cm f ltac:(lia) ltac:(lra) HC HN EM GC)).
  assert (N1 : 0 < ncells cm).
  { destruct GC as (_ & (_ & _ & _ & _ & _ & _ & _ & P1 & P2 & P3 & _) & _). unfold ncells. nia. }
  assert (NE : y <> b).
  { intros ->. destruct (V 0 0 0 0) as (Vb & Vy); try (rewrite HN by lia; lia); [cbn; lia|].
    pose proof (@sweep_balance U C 2 HP HC T phi _ TS ltac:(cbn; lia) cmap 0 0 0 0 EM ltac:(cbn; lia)) as SB.
    specialize (SB ltac:(rewrite HN by lia; lia) ltac:(rewrite HN by lia; lia) ltac:(rewrite HN by lia; lia)). rewrite !HN in SB, Vb, Vy by lia. change (Mesh_Model.index 1 1 0 0 0) with 0 in SB, Vb, Vy.
    rewrite Vy, SB in Vb. clear Vy SB.
    destruct GM as (_ & _ & _ & _ & _ & GV). destruct (GV 0 0 ltac:(cbn; lia) N1) as (_ & _ & _ & _ & S0). destruct (GV 1 0 ltac:(cbn; lia) N1) as (_ & _ & _ & _ & S1).
    destruct (S0 0 ltac:(cbn; lia)) as (S00 & _). destruct (S0 1 ltac:(cbn; lia)) as (S01 & _). unfold F in S00, S01. rewrite SUM in Vb, S00, S01. rewrite !SUM in S00, S01. rewrite !SUM in Vb.
    change (ng (u_mat U)) with 2 in Vb. cbn [rsum] in Vb. rewrite !SUM in Vb. cbn [into u_adj U line_problem] in Vb.
    unfold source_of, scattering, fission, val2, q, phi in *. cbn in Vb, S00, S01. change (Pos.to_nat 1) with 1 in *. cbn in Vb, S00, S01. lra. }
  split.
  - exists cm, cmap, A, b, x0. split; auto. congruence.
  - intros solve phi' ES EU. eapply (@moves U C 2 HP HC T q phi cur 1%R alpha); eauto. cbn. lra.
Qed.

(** Three dimensions: one cell. *)
Definition cube : mesh :=
  {| Mesh_Model.dim := 3; xfm := [1]; yfm := [1]; zfm := [1]; xcme := [0; 1]%R; ycme := [0; 1]%R; zcme := [0; 1]%R;
     mdx := [1%R]; mdy := [1%R]; mdz := [1%R]; twx := 1%R; twy := 1%R; twz := 1%R; mat := [0%Z] |}.
Definition cube_problem : problem :=
  {| u_mesh := cube; u_mat := line_mat 1 0; u_adj := false; u_mult := false; u_bc := fun _ => None; u_zero := false; u_correct := true;
     u_dc := PHI_D; u_omega := 1%R |}.
Lemma cube_ok : problem_ok cube_problem.
Proof.
  split; [|split; [|split; [|split; [|split]]]]; try (cbn; lia); try (cbn; reflexivity).
  - unfold mesh_good, ncx, ncy, ncz. cbn. repeat split; try lia; try (unfold left_edge; cbn; ring).
    intros w H. repeat (destruct H as [H|H]; try subst; try lra; try contradiction).
  - intros c Hc. change (c < 1) in Hc. replace c with 0 by lia. cbn. lia.
  - intros g k _ _. cbn [cube_problem u_mat line_mat st dc sf nsf nu ss]. repeat split; try lra. intros gp _. destruct (_ && _); lra.
Qed.
Lemma no_leakage_3d : exists U C level keff q phi T,
  problem_ok U /\ coarse_mesh (Mesh_Model.dim (u_mesh U)) (grid_of U 0) level = Ok C /\ Mesh_Model.dim (u_mesh U) = 3 /\
  positive_flux U phi /\ shape U q /\ transport_solution U C keff q phi T /\
  conserving U keff /\ moved U C keff q phi T.
Proof.
  set (U := cube_problem). pose (G0 := grid_of U 0).
  destruct (coarse_mesh 3 G0 1) as [C| |] eqn:HC; try discriminate.
  assert (HN : forall d, d < 3 -> cm_n C d = 1).
  { injection HC as <-. intros d Hd. destruct d as [|[|[|d]]]; try reflexivity; lia. }
  assert (PR : sweep_problem G0 [case_d] false (fun _ _ => [7%R]) 0 (seq 0 8) (case_b 3 1) [0%R] (fun _ _ => [])).
  { unfold sweep_problem. cbv zeta. change (q_dim (b_q (case_b 3 1))) with 3. change (q_nao (b_q (case_b 3 1))) with 1.
    split; [|split; [|split; [|split; [|split; [|split; [|split; [|split; [|split]]]]]]]].
    - unfold grid_ok, cells_of. cbn. repeat split; auto; try lia; intros; try lia; repeat constructor; lra.
    - unfold dirs_ok, dir_ok. repeat constructor; cbn; intros; try lia; lra.
    - intros o k _ _. reflexivity.
    - repeat split; cbn; lia.
    - cbn. lia.
    - apply (@new_shaped (case_q 3) 1 1 1 1).
    - intros s s' _ _ H. discriminate.
    - apply Permutation_refl.
    - reflexivity.
    - intros; discriminate. }
  assert (SG : sig_ok false G0) by (repeat constructor; cbn; lra).
  destruct (@nothing_3d G0 C [case_d] false true (fun _ _ => [7%R]) 0 (seq 0 8) (case_b 3 1) [0%R] (fun _ _ => []) (new_tally C) eq_refl PR SG)
    as (b' & p & s' & E' & T & E & _).
  assert (EP : p = [8%R]).
  { lazy -[IZR Rplus Rmult Rdiv Rinv Rminus Ropp] in E'. injection E' as _ <- _. f_equal. field. }
  subst p. assert (SW : swept_by U C (case_q 3) [case_d] (fun _ _ => [7%R]) 0 [8%R] T).
  { apply (@swept_3 U C (case_q 3) [case_d] (fun _ _ => [7%R]) 0 _ T false true 0 (seq 0 8) (case_b 3 1) [0%R] (fun _ _ => []) (new_tally C) b' s'); auto.
    apply new_tally_for. }
  set (phi := [[8%R]]). set (q := [[56%R]]).
  exists U, C, 1, 1%R, q, phi, (fun _ => T).
  pose proof cube_ok as HP. fold U in HP.
  assert (SP : forall a, shape U [[a]]).
  { intros a. split; [reflexivity|]. intros g Hg. change (g < 1) in Hg. replace g with 0 by lia. reflexivity. }
  assert (HF : positive_flux U phi).
  { split; [apply SP|]. intros g c Hg Hc. change (g < 1) in Hg. change (c < 1) in Hc. replace g with 0 by lia. replace c with 0 by lia. unfold val2, phi. cbn [nth]. lra. }
  assert (HQ : shape U q) by apply SP.
  assert (TS : transport_solution U C 1 q phi (fun _ => T)).
  { intros g Hg. change (g < 1) in Hg. replace g with 0 by lia. exists (case_q 3), [case_d], (fun _ _ => [7%R]). split; [exact SW|].
    exists (/ 8)%R. split; [unfold over_angles; cbn; lra|]. intros o k c _ _ Hc. change (c < 1) in Hc. replace c with 0 by lia.
    unfold at_, source_of, scattering, fission, val2, q, phi. cbn. lra. }
  split; auto. split; [exact HC|]. split; [reflexivity|]. split; auto. split; auto. split; auto. split; [split; left; reflexivity|].
  intros srt cur alpha HS HCU. pose proof (@swept_readable U C 1 HC _ phi _ TS) as HR.
  destruct (@system U C 1 HP HC (fun _ => T) q phi cur 1%R alpha HF HQ HCU HR srt HS) as (cm & cmap & cmat & fl & A & b & x0 & y & GC & EM & GM & EE & _ & _ & _ & Ey & _ & V).
  assert (N1 : ncells cm = 1).
  { destruct GC as (_ & _ & _ & N & _). unfold ncells. pose proof (N 0 ltac:(lia)) as N0. pose proof (N 1 ltac:(lia)) as N1. pose proof (N 2 ltac:(lia)) as N2.
    rewrite HN in N0, N1, N2 by lia. cbn in N0, N1, N2. rewrite N0, N1, N2. reflexivity. }
  assert (SUM : forall f, RS U cmap 0 f = (f 0%nat)%R).
  { intros f. pose proof (@map_lt U C 1 HP HC cmap cm 0 EM GC ltac:(cbn; lia)) as M0.
    unfold RS, region_sum. change (ncells (u_mesh U)) with 1. cbn [rsum]. replace (nth 0 cmap 0) with 0 by lia. cbn [Nat.eqb]. unfold cvol. cbn. ring. }
  assert (NE : y <> b).
  { intros ->. destruct (V 0 0 0 0) as (Vb & Vy); try (rewrite HN by lia; lia); [cbn; lia|].
    destruct (@swept_tally U C 1 _ _ _ _ _ _ HC SW) as (_ & _ & L0). rewrite L0 in Vy by reflexivity.
    rewrite !HN in Vb, Vy by lia. change (Mesh_Model.index 1 1 0 0 0) with 0 in Vb, Vy.
    rewrite Vy in Vb. clear Vy.
    rewrite (transfer GC EM GM (g := 0) (c := 0) (or_introl eq_refl) ltac:(cbn; lia) ltac:(lia)) in Vb.
    rewrite !SUM in Vb. unfold source_of, scattering, fission, val2, q, phi in *. cbn in Vb. lra. }
  split.
  - exists cm, cmap, A, b, x0. split; auto. congruence.
  - intros solve phi' ES EU. eapply (@moves U C 1 HP HC (fun _ => T) q phi cur 1%R alpha); eauto. cbn. lra.
Qed.

(** A case of the fixed point theorem: two groups, transfer in one material. *)
Lemma case_fixed : exists U C level keff q phi T,
  problem_ok U /\ coarse_mesh (Mesh_Model.dim (u_mesh U)) (grid_of U 0) level = Ok C /\ Mesh_Model.dim (u_mesh U) = 1 /\
  positive_flux U phi /\ shape U q /\ transport_solution U C keff q phi T /\ conserving U keff /\
  ng (u_mat U) = 2 /\ scattering U phi 1 0 = (5 / 16)%R.
Proof.
  destruct line_coarse as (C & HC & HN). set (U := line_problem 2 (/ 4) false false).
  destruct (@line_sweep 2 (/ 4) false false 0 C 2 1 1 HC) as (T0 & SW0). destruct (@line_sweep 2 (/ 4) false false 1 C 2 1 2 HC) as (T1 & SW1). fold U in SW0, SW1.
  set (phi := [[1 + 1 / 4; 1 + 1 / 4]; [1 + 2 / 4; 2 + 1 / 4]]%R). set (q := [[2; 2]; [2 - / 4 * (1 + 1 / 4); 4]]%R).
  set (T := fun g => if g =? 0 then T0 else T1).
  exists U, C, 2, 1%R, q, phi, T.
  pose proof (@line_ok 2 (/ 4) false false ltac:(lia) ltac:(lra)) as HP. fold U in HP.
  assert (SP : forall a b c d, shape U [[a; b]; [c; d]]).
  { intros a b c d. split; [reflexivity|]. intros g Hg. change (g < 2) in Hg. destruct g as [|[|g]]; [reflexivity|reflexivity|lia]. }
  split; auto. split; [exact HC|]. split; [reflexivity|]. split; [|split; [apply SP|split; [|split; [|split; [reflexivity|]]]]].
  - split; [apply SP|]. intros g c Hg Hc. change (g < 2) in Hg. change (c < 2) in Hc. unfold val2, phi.
    destruct g as [|[|g]]; [| |lia]; (destruct c as [|[|c]]; [| |lia]); cbn [nth]; lra.
  - intros g Hg. change (g < 2) in Hg. destruct g as [|[|g]]; [| |lia].
    + exists (case_q 1), [case_d], (fun _ _ => [1; 1]%R). split; [exact SW0|].
      apply line_isotropic; unfold source_of, scattering, fission, val2, q, phi; cbn; change (Pos.to_nat 1) with 1; cbn; lra.
    + exists (case_q 1), [case_d], (fun _ _ => [1; 2]%R). split; [exact SW1|].
      apply line_isotropic; unfold source_of, scattering, fission, val2, q, phi; cbn; change (Pos.to_nat 1) with 1; cbn; lra.
  - split; left; reflexivity.
  - unfold scattering, val2, phi. cbn. lra.
Qed.

Theorem residual_of_sweep srt U C level T q cur keff alpha phi s : is_sort srt -> problem_ok U ->
  coarse_mesh (Mesh_Model.dim (u_mesh U)) (grid_of U 0) level = Ok C -> Mesh_Model.dim (u_mesh U) < 3 ->
  positive_flux U phi -> shape U q -> current_ok U cur -> conserving U keff -> swept_all U C s phi T ->
  exists cm cmap A b x0 y,
  coarse_problem srt U C T q cur keff alpha phi = Ok (cm, cmap, (A, b, x0)) /\
  ncells cm = cm_n C 0 * cm_n C 1 * cm_n C 2 /\
  length b = ng (u_mat U) * ncells cm /\ length x0 = ng (u_mat U) * ncells cm /\ length y = ng (u_mat U) * ncells cm /\ multiply A x0 = Ok y /\
  forall g I J L, g < ng (u_mat U) -> I < cm_n C 0 -> J < cm_n C 1 -> L < cm_n C 2 ->
  let c := Mesh_Model.index (cm_n C 0) (cm_n C 1) I J L in
  (0 < vol cm c)%R /\
  (vol cm c * (nth (c + g * ncells cm) b 0 - nth (c + g * ncells cm) y 0) =
   coarse_total C (grid_of U g) I J L (fun i => source_of U keff q phi g i - s g i))%R.
Proof. intros HS HP HC HD HF HQ HCU HK SW. exact (residual HP HC alpha HF HQ HCU (swept_readable HC SW) HS SW HD HK). Qed.
Theorem solution_fixed srt solve U C level T q cur keff alpha phi : is_sort srt -> problem_ok U ->
  coarse_mesh (Mesh_Model.dim (u_mesh U)) (grid_of U 0) level = Ok C -> Mesh_Model.dim (u_mesh U) < 3 ->
  positive_flux U phi -> shape U q -> current_ok U cur -> conserving U keff -> transport_solution U C keff q phi T ->
  keeps_solutions solve -> update srt solve U C T q cur keff alpha phi = Ok phi.
Proof. intros HS HP HC HD HF HQ HCU HK TS KS. exact (fixed_point HP HC alpha HF HQ HCU HS HD HK TS KS). Qed.
