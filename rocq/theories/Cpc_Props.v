(** * Cpc_Props: C107, transfer between the fine and the coarse mesh in the multigroup
    coarse mesh preconditioners. *)
From Verif Require Import Base BaseR Loop Mesh_Model Mesh_Spec Material_Model Matrix_Model Matrix_Spec Region_Model Region_Spec Diffusion_Model Diffusion_Spec
  Cpc_Model Cpc_Spec Cpc_Proofs4.
Open Scope nat_scope.

(** Restriction keeps the integral over every coarse cell and coarse group, in one
    dimension, when the level divides the number of cells, and in general when no coarse
    cell has more than the average number of fine cells plus one.  Missing: the other
    meshes, see C107_refuted. *)
Theorem C107_restrict_partial : forall (srt : list triplet -> list triplet) m ngroups cut level fpc,
  is_sort srt -> fine_mesh m -> level_fits m level -> grouping fpc (ngroups - cut) ->
  exists Z, cpc_new srt m ngroups false cut level fpc = Ok Z /\
  (dim m = 1 \/ divides_axes m level -> even_cells (ncells m) (ncells (z_cm Z)) (z_cmap Z)) /\
  (even_cells (ncells m) (ncells (z_cm Z)) (z_cmap Z) -> forall x, length x = (ngroups - cut) * ncells m ->
    exists y, multiply (z_R Z) x = Ok y /\ length y = length fpc * ncells (z_cm Z) /\ averaged m (z_cmap Z) (ncells (z_cm Z)) fpc x y).
Proof. exact final_restrict. Qed.
Print Assumptions C107_restrict_partial.

(** Prolongation distributes a coarse vector with the spectrum, and restriction undoes it.
    Missing: the same meshes, and adjoint problems (C107_adjoint_refuted). *)
Theorem C107_prolong_partial : forall (srt : list triplet -> list triplet) m ngroups cut level fpc,
  is_sort srt -> fine_mesh m -> level_fits m level -> cut < ngroups -> grouping fpc (ngroups - cut) ->
  forall spec nreg reg Z, spectrum_table spec ngroups nreg -> region_map m reg nreg ->
  cpc_new srt m ngroups false cut level fpc = Ok Z -> no_empty_group m fpc (at_cell spec reg cut) ->
  exists P, cpc_build srt m ngroups false cut fpc spec nreg reg Z = Ok P /\
  forall y, length y = length fpc * ncells (z_cm Z) -> exists x, multiply P y = Ok x /\ length x = (ngroups - cut) * ncells m /\
    distributed m (z_cmap Z) (ncells (z_cm Z)) fpc (at_cell spec reg cut) y x /\
    (even_cells (ncells m) (ncells (z_cm Z)) (z_cmap Z) -> multiply (z_R Z) x = Ok y).
Proof. exact final_prolong. Qed.
Print Assumptions C107_prolong_partial.

(** The preconditioner changes the coarse averages of a vector by the solution of the
    coarse diffusion problem, exactly. *)
Theorem C107_apply_partial : forall (srt : list triplet -> list triplet) m ngroups cut level fpc,
  is_sort srt -> fine_mesh m -> level_fits m level -> cut < ngroups -> grouping fpc (ngroups - cut) ->
  forall spec nreg reg Z, spectrum_table spec ngroups nreg -> region_map m reg nreg ->
  cpc_new srt m ngroups false cut level fpc = Ok Z -> no_empty_group m fpc (at_cell spec reg cut) ->
  forall P (sf lin : list R -> res (list R)) V sv, cpc_build srt m ngroups false cut fpc spec nreg reg Z = Ok P ->
  even_cells (ncells m) (ncells (z_cm Z)) (z_cmap Z) ->
  length V = (ngroups - cut) * ncells m -> sf V = Ok sv -> length sv = (ngroups - cut) * ncells m ->
  (forall b, length b = length fpc * ncells (z_cm Z) -> exists e, lin b = Ok e /\ length e = length b) ->
  exists out r e v o, cmdsa_apply sf lin (z_R Z) P (length V) V = Ok out /\ length out = length V /\
    multiply (z_R Z) sv = Ok r /\ lin r = Ok e /\ multiply (z_R Z) V = Ok v /\ multiply (z_R Z) out = Ok o /\
    length o = length e /\ forall k, k < length o -> nth k o 0%R = (nth k v 0 + nth k e 0)%R.
Proof. exact final_apply. Qed.
Print Assumptions C107_apply_partial.

(** With the default level of two, on every plane mesh with the same odd number of cells,
    five or more, in both directions, the restriction of every positive flux loses part of
    it: a coarse cell has nine fine cells, and its row of the matrix at most seven places.
    The insertions that fail are noticed by an assertion only. *)
Theorem C107_refuted : forall (srt : list triplet -> list triplet) m k ngroups cut fpc x,
  is_sort srt -> fine_mesh m -> dim m = 2 -> ncx m = 2 * k + 1 -> ncy m = 2 * k + 1 -> 2 <= k ->
  cut < ngroups -> grouping fpc (ngroups - cut) -> length x = (ngroups - cut) * ncells m -> (forall j, j < length x -> (0 < nth j x 0)%R) ->
  exists Z y, cpc_new srt m ngroups false cut 2 fpc = Ok Z /\ multiply (z_R Z) x = Ok y /\ ~ averaged m (z_cmap Z) (ncells (z_cm Z)) fpc x y.
Proof. exact odd_square_loses. Qed.
Print Assumptions C107_refuted.

(** An adjoint problem of two groups or more: the active groups are counted from the cutoff
    down, but their spectrum is read from the cutoff up, beyond the last group. *)
Theorem C107_adjoint_refuted : forall spec cut nreg n, spectrum_table spec (S cut) nreg -> 0 < nreg -> 0 < cut -> n = active_groups (S cut) true cut ->
  coarse_spectrum spec (repeat 1 n) cut nreg = UB.
Proof. exact adjoint_reads_beyond. Qed.
Print Assumptions C107_adjoint_refuted.

(** With a cutoff the coarse material has the active groups only; its diffusion operator
    leaves out as many groups again, and has fewer rows than the restricted vector. *)
Theorem C107_cutoff_refuted : forall cm cmat fis cut keff bc zero, 0 < cut <= ng cmat -> 0 < ncells cm ->
  loss_size (cmdsa_operator cm cmat fis false cut keff bc zero) < ng cmat * ncells cm.
Proof. exact cutoff_too_small. Qed.
Print Assumptions C107_cutoff_refuted.

(** Cases. *)
Definition line5 : mesh :=
  {| dim := 1; xfm := [5]; yfm := [1]; zfm := [1]; xcme := [0; 15]%R; ycme := [0; 1]%R; zcme := [0; 1]%R;
     mdx := [1; 2; 3; 4; 5]%R; mdy := [1%R]; mdz := [1%R]; twx := 15%R; twy := 1%R; twz := 1%R; mat := [0; 0; 1; 1; 0]%Z |}.
Definition square5 : mesh :=
  {| dim := 2; xfm := [5]; yfm := [5]; zfm := [1]; xcme := [0; 5]%R; ycme := [0; 5]%R; zcme := [0; 1]%R;
     mdx := [1; 1; 1; 1; 1]%R; mdy := [1; 1; 1; 1; 1]%R; mdz := [1%R]; twx := 5%R; twy := 5%R; twz := 1%R; mat := repeat 0%Z 25 |}.
Lemma line5_ok : fine_mesh line5.
Proof.
  unfold fine_mesh, mesh_good. cbn. repeat split; auto; try lia; try (unfold left_edge; cbn; lra).
  intros w H. repeat (destruct H as [H|H]; try subst w; try lra; try contradiction).
Qed.
Lemma square5_ok : fine_mesh square5.
Proof.
  unfold fine_mesh, mesh_good. cbn. repeat split; auto; try lia; try (unfold left_edge; cbn; lra).
  intros w H. repeat (destruct H as [H|H]; try subst w; try lra; try contradiction).
Qed.
(** Three groups in two on a line of five cells, level two. *)
Example C107_case : forall srt, is_sort srt -> exists Z, cpc_new srt line5 3 false 0 2 [2; 1] = Ok Z /\ even_cells 5 (ncells (z_cm Z)) (z_cmap Z) /\
  forall x, length x = 15 -> exists y, multiply (z_R Z) x = Ok y /\ averaged line5 (z_cmap Z) (ncells (z_cm Z)) [2; 1] x y.
Proof.
  intros srt Hs. destruct (@C107_restrict_partial srt line5 3 0 2 [2; 1] Hs line5_ok) as (Z & EZ & H1 & H2).
  - intros a Ha. cbn in Ha. replace a with 0 by lia. cbn. split; [lia|]. right. cbn. lia.
  - split; [reflexivity|]. split; [|discriminate]. intros k [<-|[<-|[]]]; lia.
  - exists Z. split; auto. specialize (H1 (or_introl eq_refl)). split; auto. intros x Hx. destruct (H2 H1 x Hx) as (y & E1 & _ & E2). eauto.
Qed.
(** One group on a square of twenty-five cells. *)
Example C107_case_lost : forall srt, is_sort srt -> exists Z y, cpc_new srt square5 1 false 0 2 [1] = Ok Z /\ multiply (z_R Z) (repeat 1%R 25) = Ok y /\
  ~ averaged square5 (z_cmap Z) (ncells (z_cm Z)) [1] (repeat 1%R 25) y.
Proof.
  intros srt Hs. apply (@C107_refuted srt square5 2 1 0 [1] (repeat 1%R 25)); auto; try lia.
  - exact square5_ok.
  - split; [reflexivity|]. split; [|discriminate]. intros k [<-|[]]; lia.
  - intros j Hj. rewrite repeat_length in Hj. rewrite nth_repeat_lt by auto. lra.
Qed.
(** Prolongation with the flat spectrum on the line, and an adjoint problem. *)
Example C107_case_prolong : forall srt Z, is_sort srt -> cpc_new srt line5 3 false 0 2 [2; 1] = Ok Z ->
  exists P, cpc_build srt line5 3 false 0 [2; 1] (flat_spectrum 3 2) 2 [0; 0; 1; 1; 0] Z = Ok P /\
  forall y, length y = 2 * ncells (z_cm Z) -> exists x, multiply P y = Ok x /\ multiply (z_R Z) x = Ok y.
Proof.
  intros srt Z Hs EZ. destruct (C107_case srt Hs) as (Z' & EZ' & EV & _). rewrite EZ in EZ'. injection EZ' as <-.
  destruct (@C107_prolong_partial srt line5 3 0 2 [2; 1] Hs line5_ok) with (spec := flat_spectrum 3 2) (nreg := 2) (reg := [0; 0; 1; 1; 0]) (Z := Z) as (P & EP & H); auto.
  - intros a Ha. cbn in Ha. replace a with 0 by lia. cbn. split; [lia|]. right. cbn. lia.
  - split; [reflexivity|]. split; [|discriminate]. intros k [<-|[<-|[]]]; lia.
  - split; [reflexivity|]. intros g Hg. destruct g as [|[|[|g]]]; try reflexivity; lia.
  - split; [cbn; lia|]. intros i Hi. cbn in Hi. destruct i as [|[|[|[|[|i]]]]]; cbn; lia.
  - intros G i HG Hi. cbn in HG, Hi. unfold block_sum, at_cell, flat_spectrum. destruct G as [|[|G]]; [| |lia]; (destruct i as [|[|[|[|[|i]]]]]; [..|lia]); cbn; lra.
  - exists P. split; auto. intros y Hy. destruct (H y Hy) as (x & E1 & _ & _ & E2). exists x. split; auto.
Qed.
Example C107_case_adjoint : coarse_spectrum (flat_spectrum 2 1) (repeat 1 (active_groups 2 true 1)) 1 1 = UB.
Proof.
  apply (C107_adjoint_refuted (flat_spectrum 2 1) 1 1); auto. split; [reflexivity|]. intros g Hg. destruct g as [|[|g]]; try reflexivity; lia.
Qed.
