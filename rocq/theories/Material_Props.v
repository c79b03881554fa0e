(** * Theorems on materials (C20-C23, C71) *)
From Verif Require Import Base BaseR Material_Model Material_Spec Material_Proofs.
Open Scope nat_scope.

(** C20: from any state, hence after any history. *)
Theorem C20_bounds_complete_and_attained :
  forall x,
  bounds_complete (finalize x) /\ bounds_attained (finalize x).
Proof. exact @finalize_bounds. Qed.
Print Assumptions C20_bounds_complete_and_attained.

(** C21 *)
Theorem C21_cutoff_refuted :
  same_sections (run_ops (material_new 1 2) hist_up) (run_ops (material_new 1 2) hist_up_fresh) /\
  upscatter_cutoff (run_ops (material_new 1 2) hist_up) false = 0 /\
  upscatter_cutoff (run_ops (material_new 1 2) hist_up_fresh) false = 2.
Proof. exact @refinalize_cutoff. Qed.
Print Assumptions C21_cutoff_refuted.
Theorem C21_downscatter_refuted :
  same_sections (run_ops (material_new 1 2) hist_down) (run_ops (material_new 1 2) hist_down_fresh) /\
  upscatters_into (run_ops (material_new 1 2) hist_down) 0 /\
  downscatter (run_ops (material_new 1 2) hist_down) false = true /\
  downscatter (run_ops (material_new 1 2) hist_down_fresh) false = false.
Proof. exact @refinalize_flag. Qed.
Print Assumptions C21_downscatter_refuted.
Theorem C21_refinalize_partial :
  forall x y,
  same_sections x y ->
  (forall g tran, lower (finalize x) g tran = lower (finalize y) g tran /\
                  upper (finalize x) g tran = upper (finalize y) g tran) /\
  (forall g k, nsf (finalize x) g k = nsf (finalize y) g k) /\
  ((exists g, g < ng x /\ upscatters_into (finalize x) g) ->
     upscatter_cutoff (finalize x) false = upscatter_cutoff (finalize y) false).
Proof. exact @refinalize_bounds. Qed.
Print Assumptions C21_refinalize_partial.

(** C22 *)
Theorem C22_sigma_a_balance :
  forall x g k,
  (sa (compute_sigma_a x) g k + rsum (ng x) (fun gp => ss (compute_sigma_a x) gp g k) = st (compute_sigma_a x) g k)%R.
Proof. exact @sigma_a_balance. Qed.
Print Assumptions C22_sigma_a_balance.
Theorem C22_diff_coef :
  forall x g k,
  st x g k <> 0%R ->
  (3 * dc (compute_diff_coef x) g k * st (compute_diff_coef x) g k = 1)%R.
Proof. exact @diff_coef_inverse. Qed.
Print Assumptions C22_diff_coef.

(** C23: any sequence of setters on a new material, then finalize *)
Theorem C23_cutoff :
  forall nmat ngrp l,
  forallb plain l = true ->
  let x := finalize (run_ops (material_new nmat ngrp) l) in
  cutoff_ok x (upscatter_cutoff x false) /\ adjoint_cutoff_ok x (upscatter_cutoff x true) /\
  (downscatter x false = true <-> forall g, g < ngrp -> ~ upscatters_into x g).
Proof. exact @fresh_finalized. Qed.
Print Assumptions C23_cutoff.
Example C23_case : forallb plain [SetS 0 1 2 1%R; SetS 0 2 0 1%R; Set_ FT 0 0 2%R; ComputeA] = true /\
  upscatters_into (finalize (run_ops (material_new 1 3) [SetS 0 1 2 1%R; SetS 0 2 0 1%R])) 1.
Proof.
  split; [reflexivity|]. exists 2. split; [simpl; lia|]. exists 0. split; [simpl; lia|].
  simpl. unfold set3. simpl. lra.
Qed.

(** C71 *)
Theorem C71_set_downscatter_refuted :
  exists x, downscatter x false = false /\ 
  downscatter (set_downscatter x true true) false = true.
Proof. exact @set_downscatter_both. Qed.
Print Assumptions C71_set_downscatter_refuted.
Theorem C71_set_downscatter_partial :
  forall x v tran,
  fin x = false ->
  downscatter (set_downscatter x v tran) tran = v /\
  (tran = false -> downscatter (set_downscatter x v tran) true = downscatter x true).
Proof. exact @set_downscatter_self. Qed.
Print Assumptions C71_set_downscatter_partial.
