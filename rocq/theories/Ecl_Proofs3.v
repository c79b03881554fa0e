(** * Ecl_Proofs3: any number of passes from where they stand still. *)
From Coquelicot Require Import Coquelicot.
From Coq Require Import Lra Lia.
From Verif Require Import Base BaseR Loop Util_Model Mesh_Model Mesh_Spec Material_Model Matrix_Model Matrix_Spec Angle_Model Sweep_Model Tally_Model Tally_Spec Region_Model Homog_Proofs Diffusion_Model Diffusion_Spec Cmfd_Model Cmfd_Spec
  Cmfd_Proofs Cmfd_Proofs2 Cmfd_Proofs3 Cmfd_Proofs4 Cmfd_Proofs5 Ecmfd_Model Ecmfd_Spec Ecmfd_Proofs Ecmfd_Proofs2 Ecmfd_Proofs3 Ecl_Model Ecl_Spec Ecl_Proofs.
Open Scope nat_scope.
Set Implicit Arguments. Unset Strict Implicit.

Theorem still_kept sweep srt eig U C level T cur a tol n k0 phi fd : is_sort srt -> keeps_modes eig -> problem_ok U ->
  coarse_mesh (Mesh_Model.dim (u_mesh U)) (grid_of U 0) level = Ok C -> Mesh_Model.dim (u_mesh U) < 3 ->
  positive_flux U phi -> current_ok U cur -> u_adj U = false \/ ng (u_mat U) = 1 -> fissile U ->
  shares U phi fd -> sweep fd phi = Ok (phi, T) ->
  swept_all U C (fun g c => scattering U phi g c + emitted U g c * nth c fd 0)%R phi T ->
  epasses sweep srt eig U C cur (Some a) tol (S n) k0 fd None phi = Ok (total_made U phi, fd, phi, if Rlt_dec 0 tol then 1 else S n).
Proof.
  intros HS HE HP HC HD HF HCU HA HX SH ES SW. apply (still_mode C T SH) in SW.
  set (U' := as_eig U). change (problem_ok U') in HP.
  change (coarse_mesh (Mesh_Model.dim (u_mesh U')) (grid_of U' 0) level = Ok C) in HC.
  destruct (coarse_exists HP HC) as (cm & GC). destruct (map_exists HP HC) as (cmap & EM & _).
  destruct (@homogenised U' C level HP HC cm cmap GC EM phi cur HF HCU) as (cmat & fl & GM).
  assert (NZ : 0 < ncells (u_mesh U)). { destruct HX as (X & _ & (c & Hc & _) & _). lia. }
  assert (ER : exists e, norm_residual fd fd Linf = Ok e /\ ((e < tol)%R <-> (0 < tol)%R)).
  { destruct (norm_residual fd fd Linf) as [e| |] eqn:EE.
    - exists e. split; auto. pose proof (residual_close tol (proj1 SH) (proj1 SH) EE) as RC. rewrite RC. split.
      + intros H. specialize (H 0 NZ). revert H. rewrite Rminus_diag_eq by reflexivity. rewrite Rabs_R0. auto.
      + intros H c Hc. rewrite Rminus_diag_eq by reflexivity. rewrite Rabs_R0. auto.
    - unfold norm_residual in EE. destruct (combine fd fd); discriminate.
    - unfold norm_residual in EE. destruct SH as (L & _). destruct fd; [cbn in L; lia|discriminate]. }
  destruct ER as (e & EE & RC).
  assert (K : forall n h k0, steady U' C T cm cmat fl srt h ->
    epasses sweep srt eig U C cur (Some a) tol (S n) k0 fd h phi = Ok (total_made U phi, fd, phi, if Rlt_dec 0 tol then 1 else S n)).
  { clear k0 n. induction n as [|n IH]; intros h k0 ST;
      (destruct (@one_update U' C level HP HC eq_refl eq_refl phi cur T HF HCU srt HS (total_made U phi) HD HA (proj1 (proj2 SH)) (swept_eig SW) HX eig HE
        cm cmap cmat fl (Some a) h GC EM GM ST) as (h' & EU & ST'); [left; discriminate|]);
      change (eupdate srt eig U C T cur (Some a) h phi = Ok (total_made U phi, phi, h')) in EU.
    - cbn [epasses]. rewrite ES. cbn [bind fst snd]. rewrite EU. cbn [bind]. rewrite (proj2 (normal_shares U phi fd) SH). cbn [bind]. rewrite EE. cbn [bind].
      destruct (Rlt_dec e tol), (Rlt_dec 0 tol); try reflexivity; exfalso; tauto.
    - remember (S n) as n1. cbn [epasses]. rewrite ES. cbn [bind fst snd]. rewrite EU. cbn [bind]. rewrite (proj2 (normal_shares U phi fd) SH). cbn [bind]. rewrite EE. cbn [bind].
      destruct (Rlt_dec e tol) as [A|A], (Rlt_dec 0 tol) as [B|B]; try (exfalso; tauto); [reflexivity|]. rewrite IH by exact ST'.
      destruct (Rlt_dec 0 tol); [tauto|]. reflexivity. }
  apply K. exact I.
Qed.
