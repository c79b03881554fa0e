(** * Ecl_Proofs2: the first density, a second pass without relaxation, and a case. *)
From Coquelicot Require Import Coquelicot.
From Coq Require Import Lra Lia.
From Verif Require Import Base BaseR Loop Util_Model Mesh_Model Mesh_Spec Material_Model Matrix_Model Matrix_Spec Angle_Model Sweep_Model Tally_Model Tally_Spec Region_Model Diffusion_Model Diffusion_Spec Cmfd_Model Cmfd_Spec
  Cmfd_Proofs6 Ecmfd_Model Ecmfd_Spec Ecmfd_Proofs Ecmfd_Proofs3 Ecl_Model Ecl_Spec Ecl_Proofs.
Open Scope nat_scope.
Set Implicit Arguments. Unset Strict Implicit.

Lemma first_at U fd : efirst U = Ok fd -> length fd = ncells (u_mesh U) /\ exists s, (0 < s)%R /\
  rsum (ncells (u_mesh U)) (fun c => Rabs (rsum (ng (u_mat U)) (fun g => nsf (u_mat U) g (mt (u_mesh U) c)))) = s /\
  forall c, c < ncells (u_mesh U) -> (s * nth c fd 0)%R = rsum (ng (u_mat U)) (fun g => nsf (u_mat U) g (mt (u_mesh U) c)).
Proof.
  intros E. split; [exact (first_len E)|]. unfold efirst, enormal in E. cbn [norm bind] in E. rewrite l1_from, Rplus_0_l, map_length, seq_length in E.
  set (f := fun c => rsum (ng (u_mat U)) (fun g => nsf (u_mat U) g (mt (u_mesh U) c))) in *.
  assert (V : forall c, c < ncells (u_mesh U) -> nth c (map f (seq 0 (ncells (u_mesh U)))) 0%R = f c).
  { intros c Hc. rewrite (nth_indep _ 0%R (f 0)) by (rewrite map_length, seq_length; auto). rewrite map_nth, seq_nth by auto. reflexivity. }
  assert (SV : rsum (ncells (u_mesh U)) (fun i => Rabs (nth i (map f (seq 0 (ncells (u_mesh U)))) 0%R)) = rsum (ncells (u_mesh U)) (fun c => Rabs (f c))).
  { apply rsum_ext. intros c Hc. rewrite V by auto. reflexivity. }
  rewrite SV in E. set (s := rsum _ (fun c => Rabs (f c))) in *.
  assert (P : (0 <= s)%R) by (apply rsum_nonneg; intros; apply Rabs_pos).
  destruct (Req_EM_T s 0) as [Z|Z]; [discriminate|]. injection E as <-. exists s. split; [lra|]. split; [reflexivity|].
  intros c Hc. rewrite nth_scaled, V by auto. change (s * (1 / s * f c) = f c)%R. generalize (f c). intros y. clearbody s. field. auto.
Qed.
Theorem solve_run sweep srt eig U C cur alpha tol max phi k' fd' phi' q :
  esolve sweep srt eig U C cur alpha tol max phi = Ok (k', fd', phi', q) ->
  exists (s : nat -> stage) (a : R), g_k (s 0) = 1%R /\ g_h (s 0) = None /\ g_phi (s 0) = phi /\ (0 < a)%R /\
    rsum (ncells (u_mesh U)) (fun c => Rabs (nth c (g_fd (s 0)) 0%R)) = 1%R /\
    (forall c, c < ncells (u_mesh U) -> (a * nth c (g_fd (s 0%nat)) 0)%R = rsum (ng (u_mat U)) (fun g => nsf (u_mat U) g (mt (u_mesh U) c))) /\
    (forall i, i < q -> pass sweep srt eig U C cur alpha (s i) (s (S i))) /\
    g_k (s q) = k' /\ g_fd (s q) = fd' /\ g_phi (s q) = phi' /\ q <= max /\
    (forall i, S i < q -> ~ close U tol (s i) (s (S i))) /\ (q < max -> exists i, q = S i /\ close U tol (s i) (s (S i))).
Proof.
  unfold esolve. destruct (efirst U) as [fd0| |] eqn:E0; cbn [bind]; try discriminate. intros E.
  destruct (first_at E0) as (L0 & a & Pa & Sa & Va). destruct (passes_run L0 E) as (s & S0 & SS).
  exists s, a. rewrite S0. cbn [g_k g_h g_phi g_fd]. do 3 (split; [reflexivity|]). split; [exact Pa|]. split.
  - apply (Rmult_eq_reg_l a); [|lra]. rewrite <- rsum_scal, Rmult_1_r. transitivity (rsum (ncells (u_mesh U)) (fun c => Rabs (rsum (ng (u_mat U)) (fun g => nsf (u_mat U) g (mt (u_mesh U) c))))); [|exact Sa]. apply rsum_ext. intros c Hc. rewrite <- Va by auto.
    rewrite Rabs_mult, (Rabs_pos_eq a) by lra. reflexivity.
  - split; [exact Va|]. exact SS.
Qed.

Theorem second_pass_unset sweep srt eig U C level T cur tol n k0 phi fd : is_sort srt -> keeps_modes eig -> problem_ok U ->
  coarse_mesh (Mesh_Model.dim (u_mesh U)) (grid_of U 0) level = Ok C -> Mesh_Model.dim (u_mesh U) < 3 ->
  positive_flux U phi -> current_ok U cur -> u_adj U = false \/ ng (u_mat U) = 1 -> fissile U -> (tol <= 0)%R ->
  shares U phi fd -> sweep fd phi = Ok (phi, T) ->
  swept_all U C (fun g c => scattering U phi g c + emitted U g c * nth c fd 0)%R phi T ->
  epasses sweep srt eig U C cur None tol (S (S n)) k0 fd None phi = UB.
Proof.
  intros HS HE HP HC HD HF HCU HA HX Ht SH ES SW. apply (still_mode C T SH) in SW.
  pose proof (@mode_kept srt eig U C level T cur None phi (total_made U phi) (fun _ => (phi, T)) 1 HS HE HP HC HD HF HCU HA HX
    (proj1 (proj2 SH)) SW eq_refl (or_intror (le_n 1))) as K.
  pose proof (@default_unset srt eig U C level T cur phi (total_made U phi) (fun _ => (phi, T)) 0 HS HE HP HC HD HF HCU HA HX
    (proj1 (proj2 SH)) SW eq_refl) as K2.
  cbn [eupdates fst snd repeat] in K, K2. cbn [epasses]. rewrite ES. cbn [bind fst snd].
  destruct (eupdate _ _ _ _ _ _ _ _ phi) as [((k1 & phi1) & h1)| |]; cbn [bind fst snd] in K, K2 |- *; try discriminate. injection K as -> ->.
  rewrite (proj2 (normal_shares U phi fd) SH). cbn [bind].
  assert (NZ : 0 < ncells (u_mesh U)). { destruct HX as (X & _ & (c & Hc & _) & _). lia. }
  destruct (norm_residual fd fd Linf) as [e| |] eqn:EE; cbn [bind].
  - destruct (Rlt_dec e tol) as [LT|_].
    + exfalso. pose proof (proj1 (residual_close tol (proj1 SH) (proj1 SH) EE) LT 0 NZ) as Q. revert Q. match goal with |- (Rabs ?x < _)%R -> _ => pose proof (Rabs_pos x) end. lra.
    + rewrite ES. cbn [bind fst snd]. pose proof (@unset_fails srt eig U C T cur h1 phi) as NF.
      destruct (eupdate _ _ _ _ _ _ _ _ phi) as [r| |]; cbn [bind] in K2 |- *; [exfalso; exact (NF _ eq_refl)|discriminate K2 || reflexivity|reflexivity].
  - unfold norm_residual in EE. destruct (combine fd fd); discriminate.
  - reflexivity.
Qed.

(** ** A case: the two groups of C114, with the flux scaled to total production k. *)
Lemma case_solve : exists U C level phi T fd, let sweep := fun _ _ => Ok (phi, T) in
  problem_ok U /\ coarse_mesh (Mesh_Model.dim (u_mesh U)) (grid_of U 0) level = Ok C /\ Mesh_Model.dim (u_mesh U) = 1 /\
  positive_flux U phi /\ u_adj U = false /\ fissile U /\ shares U phi fd /\ total_made U phi = (3 / 2)%R /\ ng (u_mat U) = 2 /\
  swept_all U C (fun g c => scattering U phi g c + emitted U g c * nth c fd 0)%R phi T /\
  (forall srt eig cur alpha tol max, is_sort srt -> keeps_modes eig -> current_ok U cur -> (0 < tol)%R ->
    esolve sweep srt eig U C cur alpha tol (S max) phi = Ok ((3 / 2)%R, fd, phi, 1)) /\
  (forall srt eig cur max, is_sort srt -> keeps_modes eig -> current_ok U cur ->
    esolve sweep srt eig U C cur None 0 (S (S max)) phi = UB).
Proof.
  destruct line_coarse as (C & HC & HN). set (U := duo (16 / 25) (fun _ => 1%R) (fun _ => 1%R)).
  destruct (@duo_mode (16 / 25) (fun _ => 1%R) (fun _ => 1%R) C (3 / 2) (5 / 16) (7 / 16) HC) as (HF & T & TS); try lra. fold U in HF, TS.
  set (phi := [[5 / 16; 5 / 16]; [7 / 16; 7 / 16]]%R) in *.
  assert (HP : problem_ok U) by (apply duo_ok; intros; lra).
  assert (HX : fissile U).
  { exists (fun _ => 1%R). assert (FI : forall k, fissile_in (u_mat U) (fun _ => 1%R) k) by (intros k g _; cbn; repeat split; lra).
    split; [left; apply FI|]. split; [exists 0; split; [cbn; lia|apply FI]|]. split; [exists 0; split; [cbn; lia|lra]|intros; lra]. }
  assert (MD : forall c, c < 2 -> made U phi c = (3 / 4)%R).
  { intros [|[|c]] Hc; [| |lia]; unfold made, val2; cbn; lra. }
  assert (TM : total_made U phi = (3 / 2)%R).
  { unfold total_made. change (ncells (u_mesh U)) with 2. cbn [rsum]. rewrite !MD by lia. rewrite Rabs_pos_eq by lra. lra. }
  set (fd := [1 / 2; 1 / 2]%R).
  assert (SH : shares U phi fd).
  { split; [reflexivity|]. rewrite TM. split; [lra|]. intros c Hc. change (c < 2) in Hc. rewrite MD by auto.
    destruct c as [|[|c]]; [| |lia]; cbn [fd nth]; lra. }
  assert (SW : swept_all U C (fun g c => scattering U phi g c + emitted U g c * nth c fd 0)%R phi T).
  { apply (still_mode C T SH). rewrite TM. exact TS. }
  assert (E0 : efirst U = Ok fd).
  { unfold efirst, enormal. cbn. destruct (Req_EM_T _ _) as [Z|Z].
    - exfalso. revert Z. rewrite Rabs_pos_eq by lra. lra.
    - rewrite Rabs_pos_eq by lra. match goal with |- Ok [?x; ?y] = _ => replace x with (1 / 2)%R by field; reflexivity end. }
  exists U, C, 2, phi, T, fd. cbv zeta. split; [exact HP|]. split; [exact HC|]. split; [reflexivity|]. split; [exact HF|]. split; [reflexivity|].
  split; [exact HX|]. split; [exact SH|]. split; [exact TM|]. split; [reflexivity|]. split; [exact SW|]. split.
  - intros srt eig cur alpha tol max HS HE HCU Ht. unfold esolve. rewrite E0. cbn [bind]. rewrite <- TM.
    eapply still_returned; eauto; cbn; lia.
  - intros srt eig cur max HS HE HCU. unfold esolve. rewrite E0. cbn [bind]. eapply second_pass_unset; eauto; cbn; first [lia|lra].
Qed.
