(** * Spc_Props: C127, the spectra of the coarse mesh preconditioners; C107, building one
    again. *)
From Coq Require Import Lra Lia.
From Verif Require Import Base BaseR Loop Mesh_Model Mesh_Spec Matrix_Model Matrix_Spec Region_Spec Cpc_Model Cpc_Spec Cpc_Props Spc_Model Spc_Spec Spc_Proofs Spc_Proofs2.
Open Scope nat_scope.

(** ** C127 *)
(** The Gauss-Seidel spectrum of the first material.  Missing: the other materials, fission
    with more than one neutron, and eigenvalues other than one (see below). *)
Theorem C127_gs_partial : forall c fis eig k,
  fis = false \/ (k = 1%R /\ forall h, h < d_ng c -> d_f c 0 h = d_nuf c 0 h) ->
  let e := emit (d_s c 0) (d_chi c 0) (d_nuf c 0) fis k in
  finds_mode (d_ng c) (d_t c 0) e eig -> gs_mode (d_ng c) (d_t c 0) e (fun g => build_gs eig c fis k g 0).
Proof. exact gs_partial. Qed.
Print Assumptions C127_gs_partial.

(** The fixed source spectrum of every material.  Missing: fission with more than one
    neutron. *)
Theorem C127_fs_partial : forall c fis lin b k,
  fis = false \/ (forall m h, m < d_nm c -> h < d_ng c -> d_f c m h = d_nuf c m h) ->
  (exists g, g < d_ng c /\ b g <> 0%R) ->
  let e m := emit (d_s c m) (d_chi c m) (d_nuf c m) fis k in
  (forall m, m < d_nm c -> finds_flux (d_ng c) (d_t c m) (e m) b lin) ->
  exists xi, fs_spectrum lin c fis (Some b) k = Ok xi /\ forall m, m < d_nm c ->
  unit_vec (d_ng c) (fun g => xi g m) /\ exists s, (0 < s)%R /\ balance (d_ng c) (d_t c m) (e m) (fun g => s * b g)%R (fun g => xi g m).
Proof. exact fs_partial. Qed.
Print Assumptions C127_fs_partial.
(** The preconditioner gets it without fission, or with the eigenvalue one. *)
Theorem C127_fs_build_partial : forall c fis lin b k, fis = false \/ k = 1%R ->
  build_fs lin c fis (Some b) k = fs_spectrum lin c fis (Some b) k.
Proof. exact fs_build. Qed.
Print Assumptions C127_fs_build_partial.

(** All but the first material have the Gauss-Seidel spectrum zero, and cells with them
    no flux in any coarse group, the divisor of their shape. *)
Theorem C127_gs_materials_refuted : forall eig c fis k ms reg cut fpc i, i < ncells ms -> 0 < nth i reg 0 -> fpc <> [] ->
  ~ no_empty_group ms fpc (at_cell (table_of c (build_gs eig c fis k)) reg cut).
Proof. exact gs_empty. Qed.
Print Assumptions C127_gs_materials_refuted.

(** Fission is counted without the neutrons it sets free. *)
Theorem C127_gs_fission_refuted : forall eig,
  finds_mode 2 (d_t duo 0) (emit (d_s duo 0) (d_chi duo 0) (d_f duo 0) true 1) eig ->
  ~ gs_mode 2 (d_t duo 0) (emit (d_s duo 0) (d_chi duo 0) (d_nuf duo 0) true 1) (fun g => build_gs eig duo true 1 g 0).
Proof. exact gs_nu. Qed.
Print Assumptions C127_gs_fission_refuted.

(** The fixed source spectrum is not that of the medium unless nu equals k. *)
Theorem C127_fs_fission_refuted : forall lin nu k, (nu / k <> 1)%R ->
  finds_flux 2 (d_t (pair_ nu) 0) (emit (d_s (pair_ nu) 0) (d_chi (pair_ nu) 0) (d_f (pair_ nu) 0) true 1) (fun _ => 1%R) lin ->
  exists xi, build_fs lin (pair_ nu) true (Some (fun _ => 1%R)) k = Ok xi /\
  ~ exists s, (0 < s)%R /\ balance 2 (d_t (pair_ nu) 0) (emit (d_s (pair_ nu) 0) (d_chi (pair_ nu) 0) (d_nuf (pair_ nu) 0) true k) (fun _ => s * 1)%R (fun g => xi g 0).
Proof. exact fs_wrong. Qed.
Print Assumptions C127_fs_fission_refuted.

(** More kinds of pin cells than materials: the table of the coarse groups has a column for
    each material, but one is written for each kind of pin cell. *)
Theorem C127_pins_refuted : forall spec fpc cut ngroups nm np, spectrum_table spec ngroups np -> nm < np -> cut < ngroups -> grouping fpc (ngroups - cut) ->
  coarse_spectrum spec fpc cut nm = UB.
Proof. exact pins_overflow. Qed.
Print Assumptions C127_pins_refuted.

(** ** C107 *)
(** A preconditioner is built in every solve; the flux of the coarse groups is added to that
    of the last build.  After n builds what is put on the fine mesh is the n-th part. *)
Theorem C107_rebuild_refuted : forall (srt : list triplet -> list triplet) m ngroups cut level fpc,
  is_sort srt -> fine_mesh m -> level_fits m level -> cut < ngroups -> grouping fpc (ngroups - cut) ->
  forall spec nreg reg Z, spectrum_table spec ngroups nreg -> region_map m reg nreg ->
  cpc_new srt m ngroups false cut level fpc = Ok Z -> no_empty_group m fpc (at_cell spec reg cut) ->
  forall n, 0 < n -> even_cells (ncells m) (ncells (z_cm Z)) (z_cmap Z) ->
  exists P, cpc_rebuild n srt m ngroups false cut fpc spec nreg reg Z = Ok P /\
  forall y, length y = length fpc * ncells (z_cm Z) -> exists x, multiply P y = Ok x /\ multiply (z_R Z) x = Ok (map (fun v => v / INR n)%R y).
Proof. exact rebuild_shrinks. Qed.
Print Assumptions C107_rebuild_refuted.
(** The first build is the one of C107_prolong_partial. *)
Example C107_case_first : forall srt m ngroups adj cut fpc spec nreg reg Z,
  cpc_rebuild 1 srt m ngroups adj cut fpc spec nreg reg Z = cpc_build srt m ngroups adj cut fpc spec nreg reg Z.
Proof. reflexivity. Qed.

(** Cases. *)
Example C127_case_gs : finds_mode 2 (d_t duo 0) (emit (d_s duo 0) (d_chi duo 0) (d_f duo 0) true 1) (fun _ _ _ => 1 / sqrt 2)%R.
Proof. exact duo_finds. Qed.
Definition two_thirds (A : dense) (b x0 : nat -> R) (g : nat) : R := if g =? 0 then (2 / 3)%R else 1%R.
Lemma two_thirds_finds nu : finds_flux 2 (d_t (pair_ nu) 0) (emit (d_s (pair_ nu) 0) (d_chi (pair_ nu) 0) (d_f (pair_ nu) 0) true 1) (fun _ => 1%R) two_thirds.
Proof. intros A x0 HA g Hg. rewrite HA by auto. unfold loss, emit, two_thirds. destruct g as [|[|g]]; [cbn; lra|cbn; lra|lia]. Qed.
(** One neutron per fission; two; and an eigenvalue of two. *)
Example C127_case_fs : exists xi, build_fs two_thirds (pair_ 1) true (Some (fun _ => 1%R)) 1 = Ok xi /\ unit_vec 2 (fun g => xi g 0) /\
  exists s, (0 < s)%R /\ (3 * xi 0%nat 0%nat - xi 1%nat 0%nat = s)%R /\ xi 1 0 = s.
Proof.
  rewrite (C127_fs_build_partial (pair_ 1) true two_thirds) by auto.
  destruct (C127_fs_partial (pair_ 1) true two_thirds (fun _ => 1%R) 1) as (xi & E & P).
  - right. intros m h _ _. cbn. reflexivity.
  - exists 0. cbn. split; [lia|lra].
  - intros m Hm. cbn in Hm. replace m with 0 by lia. exact (two_thirds_finds 1).
  - exists xi. split; auto. destruct (P 0) as (U & s & Ps & B); [cbn; lia|]. split; auto. exists s. split; auto.
    pose proof (B 0 ltac:(cbn; lia)) as b0. pose proof (B 1 ltac:(cbn; lia)) as b1. unfold emit in b0, b1. cbn in b0, b1. lra.
Qed.
Example C127_case_nu : (2 / 1 <> 1)%R /\ (1 / 2 <> 1)%R.
Proof. split; lra. Qed.
Example C127_case_pins : coarse_spectrum [[1; 1]; [1; 1]]%R [1; 1] 0 1 = UB.
Proof.
  apply (C127_pins_refuted _ _ 0 2 1 2); try lia.
  - split; [reflexivity|]. intros g Hg. destruct g as [|[|g]]; try reflexivity; lia.
  - split; [reflexivity|]. split; [|discriminate]. intros k [<-|[<-|[]]]; lia.
Qed.
(** The line of C107, built twice: half of everything is lost. *)
Example C107_case_rebuild : forall srt Z, is_sort srt -> cpc_new srt line5 3 false 0 2 [2; 1] = Ok Z ->
  exists P, cpc_rebuild 2 srt line5 3 false 0 [2; 1] (flat_spectrum 3 2) 2 [0; 0; 1; 1; 0] Z = Ok P /\
  forall y, length y = 2 * ncells (z_cm Z) -> exists x, multiply P y = Ok x /\ multiply (z_R Z) x = Ok (map (fun v => v / INR 2)%R y).
Proof.
  intros srt Z Hs EZ. destruct (C107_case srt Hs) as (Z' & EZ' & EV & _). rewrite EZ in EZ'. injection EZ' as <-.
  apply (C107_rebuild_refuted srt line5 3 0 2 [2; 1] Hs line5_ok); auto; try lia.
  - intros a Ha. cbn in Ha. replace a with 0 by lia. cbn. split; [lia|]. right. cbn. lia.
  - split; [reflexivity|]. split; [|discriminate]. intros k [<-|[<-|[]]]; lia.
  - split; [reflexivity|]. intros g Hg. destruct g as [|[|[|g]]]; try reflexivity; lia.
  - split; [cbn; lia|]. intros i Hi. cbn in Hi. destruct i as [|[|[|[|[|i]]]]]; cbn; lia.
  - intros G i HG Hi. cbn in HG, Hi. unfold block_sum, at_cell, flat_spectrum. destruct G as [|[|G]]; [| |lia]; (destruct i as [|[|[|[|[|i]]]]]; [..|lia]); cbn; lra.
Qed.
