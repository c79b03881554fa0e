(** * Ecmfd_Proofs3: theorems for any problem, where modes are not kept, and a case. *)
From Coquelicot Require Import Coquelicot.
From Verif Require Import Base BaseR Loop Mesh_Model Mesh_Spec Mesh_Proofs Material_Model Material_Spec Material_Proofs Matrix_Model Matrix_Spec Angle_Model Angle_Spec
  Boundary_Model Boundary_Spec Boundary_Proofs Cell_Model Cell_Spec Sweep_Model Sweep_Spec SweepInst_Proofs Region_Model Region_Spec Region_Proofs Homog_Proofs Tally_Model Tally_Spec Tally_Proofs Tally_Proofs2 Tally_Proofs3 Tally_Proofs4 Tally_Proofs5 Tally_Proofs6 Tally_Proofs7
  Diffusion_Model Diffusion_Spec Diffusion_Proofs Cmfd_Model Cmfd_Spec Cmfd_Proofs Cmfd_Proofs2 Cmfd_Proofs3 Cmfd_Proofs4 Cmfd_Proofs5 Cmfd_Proofs6
  Ecmfd_Model Ecmfd_Spec Ecmfd_Proofs Ecmfd_Proofs2.
Open Scope nat_scope.
Set Implicit Arguments. Unset Strict Implicit.

(** The fields the update does not read. *)
Definition as_eig (U : problem) : problem :=
  {| u_mesh := u_mesh U; u_mat := u_mat U; u_adj := u_adj U; u_mult := false; u_bc := u_bc U; u_zero := u_zero U; u_correct := u_correct U;
     u_dc := PHI_D; u_omega := u_omega U |}.
Lemma swept_eig U C s phi T : swept_all U C s phi T -> swept_all (as_eig U) C s phi T.
Proof.
  intros H g Hg. destruct (H g Hg) as (qd & ds & src & SW & IS). exists qd, ds, src. split; [|exact IS].
  destruct SW as [E keep upd gi ord b phi0 psi0 T0 b' psi' Q1 Dm Eb PR SG Nx T0F ES|E keep upd gi ord b phi0 psi0 T0 b' psi' Q1 Dm Eb PR SG Nx Ny T0F ES|keep upd gi ord b phi0 psi0 T0 b' psi' Q1 Dm Eb PR SG T0F ES].
  - eapply (@swept_1 (as_eig U)); eauto.
  - eapply (@swept_2 (as_eig U)); eauto.
  - eapply (@swept_3 (as_eig U)); eauto.
Qed.
Lemma updates_eig srt eig U C rs cur alpha q h phi : eupdates srt eig U C rs cur alpha q h phi = eupdates srt eig (as_eig U) C rs cur alpha q h phi.
Proof.
  revert h phi. induction q as [|q IH]; intros h phi; cbn [eupdates]; auto.
  change (eupdate srt eig (as_eig U)) with (eupdate srt eig U). destruct (eupdate _ _ _ _ _ _ _ _ _) as [((k & p) & h')| |]; cbn [bind]; auto. rewrite IH. reflexivity.
Qed.

Theorem mode_kept srt eig U C level T cur alpha phi k resweep q : is_sort srt -> keeps_modes eig -> problem_ok U ->
  coarse_mesh (Mesh_Model.dim (u_mesh U)) (grid_of U 0) level = Ok C -> Mesh_Model.dim (u_mesh U) < 3 ->
  positive_flux U phi -> current_ok U cur -> u_adj U = false \/ ng (u_mat U) = 1 -> fissile U ->
  (0 < k)%R -> mode U C k phi T -> resweep phi = (phi, T) -> alpha <> None \/ q <= 1 ->
  eupdates srt eig U C resweep cur alpha q None phi = Ok (repeat k q, phi).
Proof.
  intros HS HE HP HC HD HF HCU HA HX Hk HM RS HAL. rewrite updates_eig.
  apply (@updates_steady (as_eig U) C level HP HC eq_refl eq_refl phi cur T HF HCU srt HS k HD HA Hk (swept_eig HM) HX eig HE); auto.
Qed.
Theorem default_unset srt eig U C level T cur phi k resweep q : is_sort srt -> keeps_modes eig -> problem_ok U ->
  coarse_mesh (Mesh_Model.dim (u_mesh U)) (grid_of U 0) level = Ok C -> Mesh_Model.dim (u_mesh U) < 3 ->
  positive_flux U phi -> current_ok U cur -> u_adj U = false \/ ng (u_mat U) = 1 -> fissile U ->
  (0 < k)%R -> mode U C k phi T -> resweep phi = (phi, T) ->
  eupdates srt eig U C resweep cur None (S (S q)) None phi = UB.
Proof.
  intros HS HE HP HC HD HF HCU HA HX Hk HM RS. rewrite updates_eig.
  apply (@updates_default (as_eig U) C level HP HC eq_refl eq_refl phi cur T HF HCU srt HS k HD HA Hk (swept_eig HM) HX eig HE); auto.
Qed.

Lemma eupdate_inv srt eig U C T cur alpha h phi cm cmap x0 h' k phi' h2 : ecoarse srt U C T cur alpha h phi = Ok (cm, cmap, x0, h') ->
  eupdate srt eig U C T cur alpha h phi = Ok (k, phi', h2) -> exists w, eig (e_gain h') (e_loss h') x0 = Ok (w, k).
Proof.
  intros EE EU. unfold eupdate in EU. rewrite EE in EU. cbn [bind] in EU.
  destruct (eig (e_gain h') (e_loss h') x0) as [(w & l)| |]; cbn [bind fst snd] in EU; try discriminate.
  destruct (rescale _ _ _ _ _ _ _ _) as [p| |]; cbn [bind] in EU; try discriminate. injection EU as -> _ _. exists w. reflexivity.
Qed.
(** A solver that keeps modes: the quotient of the two images. *)
Definition ldot (v w : list R) : R := rsum (length v) (fun i => nth i v 0 * nth i w 0)%R.
Definition quotient_solver (M L : csr) (v : list R) : res (list R * R) :=
  do y <- multiply L v; do z <- multiply M v; Ok (v, (ldot y z / ldot y y)%R).
Lemma quotient_keeps : keeps_modes quotient_solver.
Proof.
  intros M L v k (y & Ey & Ez & NY). exists 1%R. split; [lra|]. unfold quotient_solver. rewrite Ey. cbn [bind]. rewrite Ez. cbn [bind].
  pose proof (l2norm_pos NY) as LP. unfold l2norm in LP. assert (P : (0 < ldot y y)%R).
  { unfold ldot. destruct (Rlt_dec 0 (rsum (length y) (fun i => nth i y 0 * nth i y 0)%R)) as [H|H]; auto. rewrite sqrt_neg_0 in LP by lra. lra. }
  assert (E : ldot y (map (Rmult k) y) = (k * ldot y y)%R).
  { unfold ldot. rewrite <- rsum_scal. apply rsum_ext. intros i _. rewrite nth_scaled. ring. }
  rewrite E. do 2 f_equal.
  - rewrite <- (map_id v) at 1. apply map_ext. intros. ring.
  - field. lra.
Qed.

Lemma lookup k (P : nat -> Prop) : (forall i, {P i} + {~ P i}) -> (exists i, i < k /\ P i) \/ forall i, i < k -> ~ P i.
Proof.
  intros H. induction k as [|k [(i & Hi & Pi)|N]].
  - right. intros; lia.
  - left. exists i. split; auto.
  - destruct (H k) as [Pk|Nk]; [left; exists k; auto|]. right. intros i Hi. destruct (Nat.eq_dec i k) as [->|]; auto. apply N. lia.
Qed.
Lemma ldot_pos y : nonzero y -> (0 < ldot y y)%R.
Proof.
  intros NY. pose proof (l2norm_pos NY) as LP. unfold l2norm in LP. fold (ldot y y) in LP.
  destruct (Rlt_dec 0 (ldot y y)) as [H|H]; auto. rewrite sqrt_neg_0 in LP by lra. lra.
Qed.
(** The same, checked: only eigenpairs are returned. *)
Definition checked_solver (M L : csr) (v : list R) : res (list R * R) :=
  do y <- multiply L v; do z <- multiply M v;
  let k := (ldot y z / ldot y y)%R in
  if list_eq_dec Req_EM_T z (map (Rmult k) y) then (if Rlt_dec 0 (ldot y y) then Ok (v, k) else Err) else Err.
Lemma checked_finds : finds_modes checked_solver.
Proof.
  intros M L v w k. unfold checked_solver. destruct (multiply L v) as [y| |] eqn:Ey; cbn [bind]; try discriminate.
  destruct (multiply M v) as [z| |] eqn:Ez; cbn [bind]; try discriminate.
  destruct (list_eq_dec Req_EM_T z (map (Rmult (ldot y z / ldot y y)) y)) as [E|]; [|discriminate]. destruct (Rlt_dec 0 (ldot y y)) as [P|]; [|discriminate].
  intros H. injection H as <- <-. split; auto. exists y. split; auto. split; [rewrite Ez; f_equal; exact E|].
  destruct (@lookup (length y) (fun i => nth i y 0%R <> 0%R)) as [(i & Hi & Ni)|N].
  - intros i. destruct (Req_EM_T (nth i y 0%R) 0%R); [right; tauto|left; auto].
  - exists i. auto.
  - exfalso. assert (ldot y y = 0)%R; [|lra]. apply rsum_zero. intros i Hi. specialize (N i Hi). destruct (Req_EM_T (nth i y 0%R) 0%R) as [->|]; [ring|tauto].
Qed.
Lemma checked_update srt U C level T cur alpha h phi cm cmap v h' y z l : problem_ok U -> coarse_mesh (Mesh_Model.dim (u_mesh U)) (grid_of U 0) level = Ok C ->
  coarse_good U C cm -> coarse_map C = Ok cmap -> shape U phi -> length v = ng (u_mat U) * ncells cm ->
  ecoarse srt U C T cur alpha h phi = Ok (cm, cmap, unit_of v, h') -> multiply (e_loss h') v = Ok y -> multiply (e_gain h') v = Ok z ->
  z = map (Rmult l) y -> nonzero y -> exists phi', eupdate srt checked_solver U C T cur alpha h phi = Ok (l, phi', h').
Proof.
  intros HP HC GC EM SP Lv EE Ey Ez Ezy NY.
  assert (NV : nonzero v).
  { destruct (@lookup (length v) (fun i => nth i v 0%R <> 0%R)) as [(i & Hi & Ni)|N].
    - intros i. destruct (Req_EM_T (nth i v 0%R) 0%R); [right; tauto|left; auto].
    - exists i. auto.
    - exfalso. pose proof (multiply_scaled 2 Ey) as E2. assert (E : map (Rmult 2) v = v).
      { apply (@list_ext_nth _ 0%R); [apply map_length|]. intros i Hi. rewrite map_length in Hi. rewrite nth_scaled. specialize (N i Hi).
        destruct (Req_EM_T (nth i v 0%R) 0%R) as [->|]; [ring|tauto]. }
      rewrite E, Ey in E2. injection E2 as E2. destruct NY as (i & _ & Ni). apply Ni. apply (f_equal (fun w => nth i w 0%R)) in E2. rewrite nth_scaled in E2. lra. }
  pose proof (l2norm_pos NV) as LP. assert (PA : (0 < 1 / l2norm v)%R) by (apply Rdiv_lt_0_compat; lra). set (a := (1 / l2norm v)%R) in *.
  assert (NY' : nonzero (map (Rmult a) y)).
  { destruct NY as (i & Hi & Ni). exists i. rewrite map_length, nth_scaled. split; auto. intros Z. apply Rmult_integral in Z. lra. }
  pose proof (ldot_pos NY') as DP.
  unfold eupdate. rewrite EE. cbn [bind]. unfold checked_solver, unit_of. fold a. rewrite (multiply_scaled a Ey), (multiply_scaled a Ez). cbn [bind]. subst z.
  assert (EZ : map (Rmult a) (map (Rmult l) y) = map (Rmult l) (map (Rmult a) y)) by (rewrite !map_map; apply map_ext; intros; ring).
  rewrite EZ. set (y' := map (Rmult a) y) in *.
  assert (EL : (ldot y' (map (Rmult l) y') / ldot y' y' = l)%R).
  { replace (ldot y' (map (Rmult l) y')) with (l * ldot y' y')%R; [field; lra|]. unfold ldot. rewrite <- rsum_scal. apply rsum_ext. intros i _. rewrite nth_scaled. ring. }
  rewrite EL. destruct (list_eq_dec Req_EM_T (map (Rmult l) y') (map (Rmult l) y')) as [_|N]; [|congruence]. destruct (Rlt_dec 0 (ldot y' y')) as [_|]; [|tauto].
  cbn [bind fst snd]. set (w1 := map _ _). set (w0 := map (Rmult a) v) in *.
  destruct (@rescale_ok U (ncells cm) cmap (u_omega U) w1 w0) with (phi := phi) as (p' & EP & _); auto.
  { apply (cmap_len HP HC EM). } { intros i Hi. apply (map_lt HP HC EM GC). auto. } { unfold w1, w0. rewrite !map_length. auto. } { unfold w0. rewrite map_length. auto. }
  rewrite EP. cbn [bind]. exists p'. reflexivity.
Qed.
Lemma len1 (v : list R) : length v = 1 -> exists a, v = [a].
Proof. destruct v as [|a [|]]; cbn; intros; try discriminate. exists a. reflexivity. Qed.

(** ** Three dimensions *)
Lemma no_leakage_mode : exists U C level k phi T,
  problem_ok U /\ coarse_mesh (Mesh_Model.dim (u_mesh U)) (grid_of U 0) level = Ok C /\ Mesh_Model.dim (u_mesh U) = 3 /\
  positive_flux U phi /\ u_adj U = false /\ fissile U /\ (0 < k)%R /\ mode U C k phi T /\
  forall srt cur alpha, is_sort srt -> current_ok U cur ->
  (forall eig k' phi' h, finds_modes eig -> eupdate srt eig U C T cur alpha None phi = Ok (k', phi', h) -> k' <> k) /\
  exists eig k' phi' h, finds_modes eig /\ eupdate srt eig U C T cur alpha None phi = Ok (k', phi', h).
Proof.
  set (U := cube_problem). pose (G0 := grid_of U 0).
  destruct (coarse_mesh 3 G0 1) as [C| |] eqn:HC; try discriminate.
  assert (HN : forall d, d < 3 -> cm_n C d = 1).
  { injection HC as <-. intros d Hd. destruct d as [|[|[|d]]]; try reflexivity; lia. }
  assert (PR : sweep_problem G0 [case_d] false (fun _ _ => [7%R]) 0 (seq 0 8) (case_b 3 1) [0%R] (fun _ _ => [])).
  { unfold sweep_problem. cbv zeta. change (q_dim (b_q (case_b 3 1))) with 3. change (q_nao (b_q (case_b 3 1))) with 1.
    split; [|split; [|split; [|split; [|split; [|split; [|split; [|split; [|split]]]]]]]].
    - unfold grid_ok, cells_of. cbn. repeat split; auto; try lia; intros; try lia; repeat constructor; lra.
    - unfold dirs_ok, dir_ok. repeat constructor; cbn; intros; try lia; lra.
    - intros o k _ _. reflexivity.
    - repeat split; cbn; lia.
    - cbn. lia.
    - apply (@new_shaped (case_q 3) 1 1 1 1).
    - intros s s' _ _ H. discriminate.
    - apply Permutation_refl.
    - reflexivity.
    - intros; discriminate. }
  assert (SG : sig_ok false G0) by (repeat constructor; cbn; lra).
  destruct (@nothing_3d G0 C [case_d] false true (fun _ _ => [7%R]) 0 (seq 0 8) (case_b 3 1) [0%R] (fun _ _ => []) (new_tally C) eq_refl PR SG)
    as (b' & p & s' & E' & T & E & _).
  assert (EP : p = [8%R]).
  { lazy -[IZR Rplus Rmult Rdiv Rinv Rminus Ropp] in E'. injection E' as _ <- _. f_equal. field. }
  subst p. assert (SW : swept_by U C (case_q 3) [case_d] (fun _ _ => [7%R]) 0 [8%R] T).
  { apply (@swept_3 U C (case_q 3) [case_d] (fun _ _ => [7%R]) 0 _ T false true 0 (seq 0 8) (case_b 3 1) [0%R] (fun _ _ => []) (new_tally C) b' s'); auto.
    apply new_tally_for. }
  set (phi := [[8%R]]).
  exists U, C, 1, (/ 7)%R, phi, (fun _ => T).
  pose proof cube_ok as HP. fold U in HP.
  assert (HF : positive_flux U phi).
  { split; [split; [reflexivity|]|].
    - intros g Hg. change (g < 1) in Hg. replace g with 0 by lia. reflexivity.
    - intros g c Hg Hc. change (g < 1) in Hg. change (c < 1) in Hc. replace g with 0 by lia. replace c with 0 by lia. unfold val2, phi. cbn [nth]. lra. }
  assert (HX : fissile U).
  { exists (fun _ => 1%R). assert (FI : forall k, fissile_in (u_mat U) (fun _ => 1%R) k) by (intros k g _; cbn; repeat split; lra).
    split; [left; apply FI|]. split; [exists 0; split; [cbn; lia|apply FI]|]. split; [exists 0; split; [cbn; lia|lra]|intros; lra]. }
  assert (TS : mode U C (/ 7) phi (fun _ => T)).
  { intros g Hg. change (g < 1) in Hg. replace g with 0 by lia. exists (case_q 3), [case_d], (fun _ _ => [7%R]). split; [exact SW|].
    exists (/ 8)%R. split; [unfold over_angles; cbn; lra|]. intros o k c _ _ Hc. change (c < 1) in Hc. replace c with 0 by lia.
    unfold at_, scattering, born, birth, val2, phi. cbn. lra. }
  split; auto. split; [exact HC|]. split; [reflexivity|]. split; auto. split; [reflexivity|]. split; auto. split; [lra|]. split; auto.
  intros srt cur alpha HS HCU. pose proof (@swept_readable U C 1 HC _ phi _ TS) as HR.
  destruct (coarse_exists HP HC) as (cm & GC). destruct (map_exists HP HC) as (cmap & EM & _).
  destruct (homogenised HP HC GC EM HF HCU) as (cmat & fl & GM).
  destruct (@step U C 1 HP HC eq_refl eq_refl phi cur (fun _ => T) HF HR cm cmap cmat fl GC EM GM srt HS alpha None I (or_intror eq_refl))
    as (v & h' & y & z & EE & _ & Lv & _ & Ey & Ly & Ez & Lz & _ & V).
  assert (N1 : ncells cm = 1).
  { destruct GC as (_ & _ & _ & N & _). unfold ncells. pose proof (N 0 ltac:(lia)) as N0. pose proof (N 1 ltac:(lia)) as N1. pose proof (N 2 ltac:(lia)) as N2.
    rewrite HN in N0, N1, N2 by lia. cbn in N0, N1, N2. rewrite N0, N1, N2. reflexivity. }
  assert (SUM : forall f, RS U cmap 0 f = (f 0%nat)%R).
  { intros f. pose proof (@map_lt U C 1 HP HC cmap cm 0 EM GC ltac:(cbn; lia)) as M0.
    unfold RS, region_sum. change (ncells (u_mesh U)) with 1. cbn [rsum]. replace (nth 0 cmap 0) with 0 by lia. cbn [Nat.eqb]. unfold cvol. cbn. ring. }
  destruct (V 0 0 0 0) as (Vz & Vy); try (rewrite HN by lia; lia); [cbn; lia|].
  destruct (@swept_tally U C 1 _ _ _ _ _ _ HC SW) as (_ & _ & L0). rewrite L0 in Vy by reflexivity.
  rewrite !HN in Vz, Vy by lia. change (Mesh_Model.index 1 1 0 0 0) with 0 in Vz, Vy.
  rewrite (transfer GC EM GM (g := 0) (c := 0) (or_introl eq_refl) ltac:(cbn; lia) ltac:(lia)) in Vy.
  destruct HX as (X & X1 & _).
  rewrite (produced_f HP HC HF HCU GC EM GM X1 (g := 0) (c := 0) (or_introl eq_refl) ltac:(cbn; lia) ltac:(lia)) in Vz.
  pose proof (coarse_vol_pos HP HC GC EM (r := 0) ltac:(lia)) as VP.
  rewrite SUM in Vz. rewrite SUM in Vy. rewrite (SUM (scattering U phi 0)) in Vy. rewrite N1 in Vz, Vy, Lv, Ly, Lz. change (ng (u_mat U)) with 1 in Lv, Ly, Lz. cbn [Nat.mul Nat.add] in Lv, Ly, Lz, Vz, Vy.
  assert (B8 : born U phi 0 0 = 8%R) by (unfold born, birth, val2, phi; cbn; lra). rewrite B8 in Vz.
  assert (S0 : scattering U phi 0 0 = 0%R) by (unfold scattering, into, val2, phi; cbn; lra). rewrite S0 in Vy.
  assert (S8 : (st (u_mat U) 0 (mt (u_mesh U) 0) * val2 phi 0 0 = 8)%R) by (unfold val2, phi; cbn; lra). rewrite S8 in Vy.
  split.
  2:{ destruct (@checked_update srt U C 1 (fun _ => T) cur alpha None phi cm cmap v h' y z 1) as (phi' & EU); auto; [apply HF|rewrite N1; exact Lv| | |].
      - destruct (len1 Ly) as (y0 & ->). destruct (len1 Lz) as (z0 & ->). cbn [nth map] in *. f_equal. nra.
      - destruct (len1 Ly) as (y0 & ->). exists 0. split; [cbn; lia|]. cbn [nth] in *. intros ->. lra.
      - exists checked_solver, 1%R, phi', h'. split; [exact checked_finds|exact EU]. }
  intros eig k' phi' h FM EU. destruct (eupdate_inv EE EU) as (w & EI).
  destruct (FM _ _ _ _ _ EI) as (Lw & yw & Eyw & Ezw & NY).
  unfold unit_of in Lw. rewrite map_length, Lv in Lw. destruct (len1 Lv) as (v0 & ->). destruct (len1 Ly) as (y0 & ->). destruct (len1 Lz) as (z0 & ->). cbn [nth] in Vy, Vz.
  destruct (len1 Lw) as (w0 & ->).
  assert (V0 : v0 <> 0%R).
  { intros ->. pose proof (multiply_scaled 2 Ey) as E2. replace (map (Rmult 2) [0%R]) with [0%R] in E2 by (cbn; f_equal; ring).
    rewrite Ey in E2. cbn in E2. injection E2 as E2. nra. }
  pose proof (multiply_scaled (w0 / v0) Ey) as Ey'. pose proof (multiply_scaled (w0 / v0) Ez) as Ez'. cbn [map] in Ey', Ez'.
  replace (w0 / v0 * v0)%R with w0 in Ey', Ez' by (field; auto). rewrite Eyw in Ey'. rewrite Ezw in Ez'. injection Ey' as ->. cbn [map] in Ez'. injection Ez' as EQ.
  intros E7. assert (y0 = z0) by nra. subst z0.
  destruct NY as (i & Hi & Ni). cbn [length] in Hi. replace i with 0 in Ni by lia. cbn [nth] in Ni. rewrite E7 in EQ. lra.
Qed.

(** ** Fission in the last group only *)
Lemma line_sweep_g U g C level a b : u_mesh U = line -> grid_of U g = line_grid -> coarse_mesh 1 line_grid level = Ok C ->
  exists T, swept_by U C (case_q 1) [case_d] (fun _ _ => [a; b]) g [a + b / 4; b + a / 4]%R T.
Proof.
  intros EU EG HC.
  assert (PR : sweep_problem line_grid [case_d] false (fun _ _ => [a; b]) 0 [0; 1] (case_b 1 2) [0; 0]%R (fun _ _ => [])).
  { unfold sweep_problem. cbv zeta. change (q_dim (b_q (case_b 1 2))) with 1. change (q_nao (b_q (case_b 1 2))) with 1.
    split; [|split; [|split; [|split; [|split; [|split; [|split; [|split; [|split]]]]]]]].
    - unfold grid_ok, line_grid, cells_of. cbn. repeat split; auto; try lia; intros; try lia; repeat constructor; lra.
    - unfold dirs_ok, dir_ok. repeat constructor; cbn; intros; try lia; lra.
    - intros o k _ _. reflexivity.
    - repeat split; cbn; lia.
    - cbn. lia.
    - apply (@new_shaped (case_q 1) 1 2 1 1).
    - intros s s' _ _ H. discriminate.
    - apply perm_seq; auto; [repeat constructor; cbn; lia|]. cbn. lia.
    - reflexivity.
    - intros; discriminate. }
  assert (SG : sig_ok (strict1 SD_1) line_grid) by (repeat constructor; cbn; lra).
  destruct (@currents_1d SD_1 line_grid C [case_d] false true (fun _ _ => [a; b]) 0 [0; 1] (case_b 1 2) [0; 0]%R (fun _ _ => []) (new_tally C) level)
    as (b' & p & s' & T' & E & E' & _); auto; try apply new_tally_for.
  exists T'. assert (EP : p = [a + b / 4; b + a / 4]%R).
  { lazy -[IZR Rplus Rmult Rdiv Rinv Rminus Ropp] in E'. injection E' as _ <- _.
    f_equal; [field|f_equal; field]. }
  subst p. apply (@swept_1 U C (case_q 1) [case_d] (fun _ _ => [a; b]) g _ T' SD_1 false true 0 [0; 1] (case_b 1 2) [0; 0]%R (fun _ _ => []) (new_tally C) b' s'); auto;
  rewrite ?EU, ?EG; auto. apply new_tally_for.
Qed.
Lemma line_isotropic_g U a (s : nat -> R) : u_mesh U = line -> (forall c, c < 2 -> s c = (2 * a)%R) ->
  isotropic (case_q 1) [case_d] (ncells (u_mesh U)) (fun _ _ => [a; a]) s.
Proof.
  intros EU H. exists (/ 2)%R. split.
  - unfold over_angles. cbn. lra.
  - intros o k c _ _ Hc. rewrite EU in Hc. change (ncells line) with 2 in Hc. rewrite H by auto. destruct c as [|[|c]]; [| |lia]; unfold at_; cbn [nth]; lra.
Qed.
(** Two groups; group 1 gets t from group 0; fission in the groups of [f], spectrum X. *)
Definition duo_mat (t : R) (f : nat -> R) (X : nat -> R) : mtl :=
  {| ng := 2; nm := 2; st := fun _ _ => 1%R; sa := fun _ _ => 1%R; nsf := fun g _ => f g; sf := fun g _ => f g; nu := fun _ _ => 1%R;
     chi := fun g _ => X g; ss := fun g gp _ => if (g =? 1) && (gp =? 0) then t else 0%R; dc := fun _ _ => 1%R;
     b0 := fun _ => 0; b1 := fun _ => 0; b2 := fun _ => 0; b3 := fun _ => 0; cut0 := 0; cut1 := 0; ds0 := false; ds1 := false; fin := true |}.
Definition duo (t : R) (f X : nat -> R) : problem :=
  {| u_mesh := line; u_mat := duo_mat t f X; u_adj := false; u_mult := false; u_bc := fun _ => None; u_zero := false; u_correct := true;
     u_dc := PHI_D; u_omega := 1%R |}.
Lemma duo_ok t f X : (0 <= t)%R -> (forall g, (0 <= f g)%R) -> problem_ok (duo t f X).
Proof.
  intros Ht Hf. split; [exact line_good|]. split; [reflexivity|]. split; [reflexivity|]. split; [cbn; lia|]. split.
  - intros c Hc. change (ncells (u_mesh (duo t f X))) with 2 in Hc. destruct c as [|[|c]]; cbn; lia.
  - intros g k _ _. cbn [duo u_mat duo_mat st dc sf nsf nu ss]. repeat split; try lra; auto. intros gp _. destruct (_ && _); lra.
Qed.
Lemma duo_mode t f X C k p0 p1 : coarse_mesh 1 line_grid 2 = Ok C -> (0 < k)%R -> (0 < p0)%R -> (0 < p1)%R ->
  let b := (f 0%nat * p0 + f 1%nat * p1)%R in
  (p0 = 5 / 8 * (/ k * (X 0%nat * b)))%R -> (p1 = 5 / 8 * (t * p0 + / k * (X 1%nat * b)))%R ->
  positive_flux (duo t f X) [[p0; p0]; [p1; p1]] /\ exists T, mode (duo t f X) C k [[p0; p0]; [p1; p1]] T.
Proof.
  intros HC Hk H0 H1 b E0 E1. split.
  - split; [split; [reflexivity|]|].
    + intros g Hg. change (g < 2) in Hg. destruct g as [|[|g]]; [reflexivity|reflexivity|lia].
    + intros g c Hg Hc. change (g < 2) in Hg. change (c < 2) in Hc. unfold val2.
      destruct g as [|[|g]]; [| |lia]; (destruct c as [|[|c]]; [| |lia]); cbn [nth]; lra.
  - destruct (@line_sweep_g (duo t f X) 0 C 2 (4 / 5 * p0)%R (4 / 5 * p0)%R eq_refl eq_refl HC) as (T0 & SW0).
    destruct (@line_sweep_g (duo t f X) 1 C 2 (4 / 5 * p1)%R (4 / 5 * p1)%R eq_refl eq_refl HC) as (T1 & SW1).
    replace (4 / 5 * p0 + 4 / 5 * p0 / 4)%R with p0 in SW0 by field. replace (4 / 5 * p1 + 4 / 5 * p1 / 4)%R with p1 in SW1 by field.
    exists (fun g => if g =? 0 then T0 else T1). intros g Hg. change (g < 2) in Hg. destruct g as [|[|g]]; [| |lia].
    + exists (case_q 1), [case_d], (fun _ _ => [4 / 5 * p0; 4 / 5 * p0]%R). split; [exact SW0|]. apply line_isotropic_g; [reflexivity|].
      intros c Hc. replace (2 * (4 / 5 * p0))%R with (/ k * (X 0%nat * b))%R by (rewrite E0 at 1; field; lra). unfold b.
      unfold scattering, born, into, birth, val2. destruct c as [|[|c]]; [| |lia]; cbn; change (Pos.to_nat 1) with 1; cbn; ring.
    + exists (case_q 1), [case_d], (fun _ _ => [4 / 5 * p1; 4 / 5 * p1]%R). split; [exact SW1|]. apply line_isotropic_g; [reflexivity|].
      intros c Hc. replace (2 * (4 / 5 * p1))%R with (t * p0 + / k * (X 1%nat * b))%R by (rewrite E1 at 1; field; lra). unfold b.
      unfold scattering, born, into, birth, val2. destruct c as [|[|c]]; [| |lia]; cbn; change (Pos.to_nat 1) with 1; cbn; ring.
Qed.
Definition thermal (g : nat) : R := if g =? 1 then 1%R else 0%R.
Definition fast (g : nat) : R := if g =? 0 then 1%R else 0%R.
Lemma spectrum_dropped : exists U C level k phi T,
  problem_ok U /\ coarse_mesh (Mesh_Model.dim (u_mesh U)) (grid_of U 0) level = Ok C /\ Mesh_Model.dim (u_mesh U) = 1 /\
  positive_flux U phi /\ u_adj U = false /\ (0 < k)%R /\ mode U C k phi T /\
  (exists X, forall g i, chi (u_mat U) g i = X g) /\
  forall srt cur alpha, is_sort srt -> current_ok U cur ->
  (forall eig k' phi' h, finds_modes eig -> eupdate srt eig U C T cur alpha None phi = Ok (k', phi', h) -> k' = 0%R) /\
  exists eig k' phi' h, finds_modes eig /\ eupdate srt eig U C T cur alpha None phi = Ok (k', phi', h).
Proof.
  destruct line_coarse as (C & HC & HN). set (U := duo 1 thermal fast).
  destruct (@duo_mode 1 thermal fast C (25 / 64) 8 5 HC) as (HF & T & TS); try lra; try (unfold thermal, fast; cbn; lra). fold U in HF, TS.
  set (phi := [[8; 8]; [5; 5]]%R) in *. exists U, C, 2, (25 / 64)%R, phi, T.
  assert (HP : problem_ok U). { apply duo_ok; [lra|]. intros g. unfold thermal. destruct (g =? 1); lra. }
  split; auto. split; [exact HC|]. split; [reflexivity|]. split; auto. split; [reflexivity|]. split; [lra|]. split; auto. split; [exists fast; reflexivity|].
  intros srt cur alpha HS HCU. pose proof (@swept_readable U C 2 HC _ phi _ TS) as HR.
  destruct (coarse_exists HP HC) as (cm & GC). destruct (map_exists HP HC) as (cmap & EM & _).
  destruct (homogenised HP HC GC EM HF HCU) as (cmat & fl & GM).
  destruct (@step U C 2 HP HC eq_refl eq_refl phi cur T HF HR cm cmap cmat fl GC EM GM srt HS alpha None I (or_intror eq_refl))
    as (v & h' & y & z & EE & _ & Lv & _ & Ey & Ly & Ez & Lz & HG & V).
  assert (CH : forall g c, g < 2 -> c < ncells cm -> chi cmat g c = 0%R).
  { intros g c Hg Hc. pose proof GM as (EH & _).
    destruct (homog_run (hom_is_ready HP HC EM HF HCU) (collapse_ones HP cmap phi cur)) as (c0 & fl' & E' & _ & _ & VV).
    assert (EC : cmat = finalize c0) by congruence. rewrite EC. cbn [finalize chi].
    destruct (VV g c Hg) as (_ & V1). { cbn [h_reg hom_of]. rewrite (map_regions HP HC EM GC). auto. }
    cbv zeta in V1. destruct V1 as (_ & _ & V3 & V4 & _).
    { cbn [h_mat hom_of]. rewrite rate_region by auto. apply (RS_pos HP HC GC EM); auto. intros i Hi. apply Rmult_lt_0_compat; [cbn; lra|apply HF; auto]. }
    destruct g as [|[|g]]; [| |lia].
    - apply V4. cbn [h_mat hom_of]. rewrite rate_region by (cbn; lia). rewrite (@RS_eq U cmap c _ (fun i => 0 * val2 phi 0 i)%R) by (intros; reflexivity).
      rewrite RS_scal. lra.
    - destruct V3 as (_ & _ & ->).
      + cbn [h_mat hom_of]. rewrite rate_region by (cbn; lia). apply (RS_pos HP HC GC EM); auto. intros i Hi. apply Rmult_lt_0_compat; [cbn; lra|apply HF; auto].
      + unfold last_chi. match goal with |- (block_sum _ _ ?f / _ = _)%R => rewrite (@block_ones (ng (u_mat U)) 1 f) by (cbn; lia) end.
        replace (region_sum _ _ _ _) with 0%R at 1; [unfold Rdiv; ring|]. symmetry. apply rsum_zero. intros i Hi.
        change (chi (h_mat (hom_of U cmap phi cur)) (1 + 0) (mat_at (hom_of U cmap phi cur) i)) with 0%R. destruct (_ =? _); ring. }
  assert (ZERO : forall w t, length w = ng (u_mat U) * ncells cm -> multiply (e_gain h') w = Ok t -> forall i, nth i t 0%R = 0%R).
  { intros w t Lw Et0 i. destruct (HG w Lw) as (t' & Et & Lt & Vt). assert (t' = t) by congruence. subst t'.
    change (ng (u_mat U)) with 2 in Lt, Vt. destruct (Nat.lt_ge_cases i (2 * ncells cm)) as [Hi'|]; [|apply nth_overflow; lia].
    assert (NZ : ncells cm <> 0) by lia.
    pose proof (Nat.div_mod_eq i (ncells cm)) as DM. replace i with (i mod ncells cm + i / ncells cm * ncells cm) by lia.
    rewrite Vt. 2:{ apply Nat.div_lt_upper_bound; lia. } 2:{ apply Nat.mod_upper_bound; auto. }
    apply rsum_zero. intros gp Hgp. unfold birth. cbn [U duo u_adj]. rewrite CH; [ring| |apply Nat.mod_upper_bound; auto]. apply Nat.div_lt_upper_bound; lia. }
  split.
  2:{ destruct (@checked_update srt U C 2 T cur alpha None phi cm cmap v h' y z 0) as (phi' & EU); auto; [apply HF| | |].
      - apply (@list_ext_nth _ 0%R); [rewrite map_length; congruence|]. intros i _. rewrite nth_scaled, (ZERO v z Lv Ez i). ring.
      - destruct (V 0 0 0 0) as (_ & Vy); try (rewrite HN by lia; lia); [cbn; lia|].
        pose proof (@sweep_balance U C 2 HP HC T phi _ TS ltac:(cbn; lia) cmap 0 0 0 0 EM ltac:(cbn; lia)) as SB.
        specialize (SB ltac:(rewrite HN by lia; lia) ltac:(rewrite HN by lia; lia) ltac:(rewrite HN by lia; lia)). rewrite !HN in SB, Vy by lia. change (Mesh_Model.index 1 1 0 0 0) with 0 in SB, Vy.
        assert (NC : 0 < ncells cm). { pose proof (map_lt HP HC EM GC (c := 0) ltac:(cbn; lia)). lia. }
        rewrite SB, (transfer GC EM GM (g := 0) (c := 0) (or_introl eq_refl) ltac:(cbn; lia) NC), RS_plus in Vy.
        exists (0 + 0 * ncells cm). split; [rewrite Ly; change (ng (u_mat U)) with 2; lia|]. intros Z. rewrite Z, Rmult_0_r in Vy.
        assert (0 < RS U cmap 0 (fun c => / (25 / 64) * born U phi 0 c))%R; [|lra].
        apply (RS_pos HP HC GC EM); auto. intros i Hi. change (i < 2) in Hi. unfold born, birth, val2, phi. destruct i as [|[|i]]; [| |lia]; cbn; lra.
      - exists checked_solver, 0%R, phi', h'. split; [exact checked_finds|exact EU]. }
  intros eig k' phi' h FM EU. destruct (eupdate_inv EE EU) as (w & EI).
  destruct (FM _ _ _ _ _ EI) as (Lw & yw & Eyw & Ezw & NY).
  assert (Lw' : length w = ng (u_mat U) * ncells cm) by (rewrite Lw; unfold unit_of; rewrite map_length; auto).
  pose proof (ZERO w _ Lw' Ezw) as T0. destruct NY as (i & Hi & Ni). specialize (T0 i). rewrite nth_scaled in T0. apply Rmult_integral in T0. tauto.
Qed.

(** ** A case: two groups with transfer; fission in both. *)
Lemma case_mode : exists U C level k phi T,
  problem_ok U /\ coarse_mesh (Mesh_Model.dim (u_mesh U)) (grid_of U 0) level = Ok C /\ Mesh_Model.dim (u_mesh U) = 1 /\
  positive_flux U phi /\ u_adj U = false /\ fissile U /\ k = (3 / 2)%R /\ mode U C k phi T /\ ng (u_mat U) = 2 /\
  (born U phi 0 0 <> scattering U phi 1 0)%R.
Proof.
  destruct line_coarse as (C & HC & HN). set (U := duo (16 / 25) (fun _ => 1%R) (fun _ => 1%R)).
  destruct (@duo_mode (16 / 25) (fun _ => 1%R) (fun _ => 1%R) C (3 / 2) 5 7 HC) as (HF & T & TS); try lra. fold U in HF, TS.
  exists U, C, 2, (3 / 2)%R, [[5; 5]; [7; 7]]%R, T.
  split; [apply duo_ok; intros; lra|]. split; [exact HC|]. split; [reflexivity|]. split; auto. split; [reflexivity|]. split.
  - exists (fun _ => 1%R). assert (FI : forall k, fissile_in (u_mat U) (fun _ => 1%R) k) by (intros k g _; cbn; repeat split; lra).
    split; [left; apply FI|]. split; [exists 0; split; [cbn; lia|apply FI]|]. split; [exists 0; split; [cbn; lia|lra]|intros; lra].
  - split; auto. split; auto. split; auto. unfold born, scattering, birth, into, val2. cbn. lra.
Qed.
