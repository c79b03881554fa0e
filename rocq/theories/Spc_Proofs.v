(** * Spc_Proofs: building a coarse mesh preconditioner again (no model content) *)
From Coq Require Import FunctionalExtensionality.
From Verif Require Import Base BaseR Loop Mesh_Model Mesh_Spec Mesh_Proofs Material_Model Matrix_Model Matrix_Spec Matrix_Proofs Sweep_Model Region_Model Region_Spec Region_Proofs
  Tally_Model Tally_Spec Tally_Proofs Diffusion_Model Diffusion_Spec Diffusion_Proofs Cmfd_Model Cmfd_Spec Cmfd_Proofs Cpc_Model Cpc_Spec Cpc_Proofs Cpc_Proofs2 Cpc_Proofs3 Cpc_Proofs4 Spc_Model.
Set Implicit Arguments.
Unset Strict Implicit.
Open Scope nat_scope.

(** ** The coarse spectrum *)
Lemma coarse_from_ok cs0 spec fpc cut ngroups nreg : spectrum_table spec ngroups nreg -> 0 < ngroups -> cut + list_sum fpc <= ngroups ->
  length cs0 = length fpc -> (forall G, G < length fpc -> length (nth G cs0 []) = nreg) ->
  exists cs, coarse_from cs0 spec fpc cut = Ok cs /\ length cs = length fpc /\ (forall G, G < length fpc -> length (nth G cs []) = nreg) /\
  forall G r, G < length fpc -> r < nreg -> nth r (nth G cs []) 0%R = (nth r (nth G cs0 []) 0 + Region_Spec.block_sum fpc G (fun h => nth r (nth (cut + h) spec []) 0%R))%R.
Proof.
  intros (LS & RS) Hng Hcut L0 R0. unfold coarse_from. rewrite (@rd_ok _ spec 0 []) by lia. cbn [bind]. rewrite RS by auto.
  set (tab := fun (cs : list (list R)) => length cs = length fpc /\ forall G, G < length fpc -> length (nth G cs []) = nreg).
  set (fin := fun G r => (nth r (nth G cs0 []) 0 + Region_Spec.block_sum fpc G (fun h => nth r (nth (cut + h) spec []) 0%R))%R).
  match goal with |- context [for_ 0 nreg ?s0 ?b0] =>
    destruct (@for_inv _ (fun r cs => tab cs /\ (forall G q, G < length fpc -> q < r -> nth q (nth G cs []) 0%R = fin G q) /\
      (forall G q, G < length fpc -> r <= q < nreg -> nth q (nth G cs []) 0%R = nth q (nth G cs0 []) 0%R)) 0 nreg s0 b0) as (cs & E & (T1 & T2) & V & _) end.
  - lia.
  - split; [|split].
    + split; auto.
    + intros; lia.
    + auto.
  - intros r cs Hr (TB & V & Z).
    match goal with |- context [for_ 0 (length fpc) ?s0 ?b0] =>
      destruct (@for_inv _ (fun gc s => snd s = cut + psum fpc gc /\ tab (fst s) /\
        (forall G q, G < length fpc -> q <> r -> nth q (nth G (fst s) []) 0%R = nth q (nth G cs []) 0%R) /\
        (forall G, G < gc -> nth r (nth G (fst s) []) 0%R = fin G r) /\
        (forall G, gc <= G < length fpc -> nth r (nth G (fst s) []) 0%R = nth r (nth G cs0 []) 0%R)) 0 (length fpc) s0 b0) as (s & E & _ & TB' & O' & D' & _) end.
    + lia.
    + cbn [fst snd]. rewrite psum_0. split; [lia|]. split; [auto|]. split; [auto|]. split; [intros; lia|]. intros G HG. apply Z; lia.
    + intros gc s Hgc (E1 & TB1 & O1 & D1 & Z1). rewrite (@rd_ok _ fpc gc 0) by lia. cbn [bind]. set (k := nth gc fpc 0).
      assert (PB : cut + (psum fpc gc + k) <= ngroups).
      { unfold k. rewrite <- psum_S. assert (psum fpc (S gc) <= list_sum fpc) by (rewrite <- psum_all; apply psum_mono; lia). lia. }
      match goal with |- exists s', for_ 0 k ?s0 ?b0 = _ /\ _ =>
        destruct (@for_inv _ (fun i s => snd s = cut + (psum fpc gc + i) /\ tab (fst s) /\
          (forall G q, G < length fpc -> q <> r -> nth q (nth G (fst s) []) 0%R = nth q (nth G cs []) 0%R) /\
          (forall G, G < gc -> nth r (nth G (fst s) []) 0%R = fin G r) /\
          (forall G, gc < G < length fpc -> nth r (nth G (fst s) []) 0%R = nth r (nth G cs0 []) 0%R) /\
          nth r (nth gc (fst s) []) 0%R = (nth r (nth gc cs0 []) 0 + rsum i (fun i => nth r (nth (cut + (psum fpc gc + i)) spec []) 0%R))%R) 0 k s0 b0) as (s' & E' & Q1 & Q2 & Q3 & Q4 & Q5 & Q6) end.
      * lia.
      * split; [lia|]. split; [auto|]. split; [auto|]. split; [auto|]. split; [intros; apply Z1; lia|]. cbn [rsum]. rewrite Rplus_0_r. apply Z1. lia.
      * intros i s1 Hi (R1 & (R2 & R2') & R3 & R4 & R5 & R6). unfold rd2. rewrite R1. rewrite (@rd_ok _ spec _ []) by lia. cbn [bind].
        rewrite (@rd_ok _ _ r 0%R) by (rewrite RS by lia; lia). cbn [bind].
        rewrite (@rd_ok _ (fst s1) gc []) by lia. cbn [bind]. unfold Cmfd_Model.add_at.
        rewrite (@rd_ok _ _ r 0%R) by (rewrite R2' by lia; lia). cbn [bind]. unfold wr. rewrite R2' by lia.
        rewrite (proj2 (Nat.ltb_lt r nreg)) by lia. cbn [bind]. rewrite R2, (proj2 (Nat.ltb_lt gc _)) by lia. cbn [bind].
        eexists. split; [reflexivity|]. cbn [fst snd]. split; [lia|]. split.
        { split; [rewrite upd_length; auto|]. intros G HG. destruct (Nat.eq_dec G gc) as [->|N].
          - rewrite nth_upd_eq by lia. rewrite upd_length. auto.
          - rewrite nth_upd_neq by auto. auto. }
        split.
        { intros G q HG Hq. destruct (Nat.eq_dec G gc) as [->|N].
          - rewrite nth_upd_eq by lia. rewrite nth_upd_neq by auto. auto.
          - rewrite nth_upd_neq by auto. auto. }
        split; [intros G HG; rewrite nth_upd_neq by lia; auto|]. split; [intros G HG; rewrite nth_upd_neq by lia; auto|].
        rewrite nth_upd_eq by lia. rewrite nth_upd_eq by (rewrite R2' by lia; lia). rewrite R6. cbn [rsum]. ring.
      * exists s'. split; auto. rewrite psum_S. fold k. split; auto. split; auto. split; auto. split.
        -- intros G HG. destruct (Nat.eq_dec G gc) as [->|N]; [|apply Q4; lia]. rewrite Q6. reflexivity.
        -- intros G HG. apply Q5. lia.
    + rewrite E. cbn [bind]. exists (fst s). split; auto. split; auto. split.
      * intros G q HG Hq. destruct (Nat.eq_dec q r) as [->|N]; [apply D'; auto|]. rewrite O' by auto. apply V; auto. lia.
      * intros G q HG Hq. rewrite O' by (auto; lia). apply Z; auto. lia.
  - exists cs. split; auto.
Qed.

Lemma coarse_after_ok n spec fpc cut ngroups nreg : spectrum_table spec ngroups nreg -> 0 < ngroups -> cut + list_sum fpc <= ngroups ->
  exists cs, coarse_after n spec fpc cut nreg = Ok cs /\ length cs = length fpc /\ (forall G, G < length fpc -> length (nth G cs []) = nreg) /\
  forall G r, G < length fpc -> r < nreg -> nth r (nth G cs []) 0%R = (INR n * Region_Spec.block_sum fpc G (fun h => nth r (nth (cut + h) spec []) 0%R))%R.
Proof.
  intros T N C. induction n as [|n (cs & E & L & W & V)].
  - eexists. split; [reflexivity|]. split; [apply repeat_length|]. split.
    + intros G HG. rewrite nth_repeat_lt by auto. apply repeat_length.
    + intros G r HG Hr. rewrite nth_repeat_lt by auto. rewrite nth_repeat. cbn [INR]. ring.
  - cbn [coarse_after]. rewrite E. cbn [bind]. destruct (coarse_from_ok T N C L W) as (cs' & E' & L' & W' & V').
    exists cs'. split; auto. split; auto. split; auto. intros G r HG Hr. rewrite V', V, S_INR by auto. ring.
Qed.
Lemma coarse_after_once spec fpc cut nreg : coarse_after 1 spec fpc cut nreg = coarse_spectrum spec fpc cut nreg.
Proof. reflexivity. Qed.

Section Rebuild.
Variables (srt : list triplet -> list triplet) (m : mesh) (ngroups cut level : nat) (fpc : list nat).
Hypothesis Hsrt : is_sort srt.
Hypothesis FM : fine_mesh m.
Hypothesis LF : level_fits m level.
Hypothesis Hcut : cut < ngroups.
Hypothesis GR : grouping fpc (ngroups - cut).
Let nf := ncells m.
Let act := ngroups - cut.
Variables (spec : list (list R)) (nreg : nat) (reg : list nat) (Z : cpc).
Hypothesis TS : spectrum_table spec ngroups nreg.
Hypothesis RG : region_map m reg nreg.
Hypothesis EZ : cpc_new srt m ngroups false cut level fpc = Ok Z.
Hypothesis NZ : no_empty_group m fpc (at_cell spec reg cut).
Let nc := ncells (z_cm Z).
Let s g i := nth (nth i reg 0) (nth (g + cut) spec []) 0%R.
Let tot G i := Region_Spec.block_sum fpc G (fun g => s g i).

Lemma rebuild_ok n : 0 < n -> exists P, cpc_rebuild n srt m ngroups false cut fpc spec nreg reg Z = Ok P /\
  forall y, length y = length fpc * nc -> exists x, multiply P y = Ok x /\ length x = act * nf /\
  forall g i, g < act -> i < nf -> entry x nf g i = (s g i / (INR n * tot (nth g (z_gmap Z) 0%nat) i) * entry y nc (nth g (z_gmap Z) 0%nat) (nth i (z_cmap Z) 0%nat))%R.
Proof.
  intros Hn. destruct (level_fits_ok FM LF) as (C & EC). destruct (new_ok Hsrt FM EC GR) as (Z' & EZ' & CD & GM & _). rewrite EZ in EZ'. injection EZ' as <-.
  unfold cpc_rebuild. destruct (@coarse_after_ok n spec fpc cut ngroups nreg TS) as (cs & ES & L1 & L2 & V); [lia|rewrite (proj1 GR); lia|].
  rewrite ES. cbn [bind]. unfold active_groups.
  apply (@prolong_ok srt m (z_cm Z) C (z_cmap Z) (z_gmap Z) fpc act Hsrt CD GM GR (fun i gf gc => shape_at spec cs reg false cut i gf gc)
    (fun g i => (s g i / (INR n * tot (nth g (z_gmap Z) 0%nat) i))%R)).
  intros g i Hg Hi. fold nf in Hi. destruct RG as (RL & RB). pose proof (gm_lt GM (proj1 GR) Hg) as HG.
  unfold shape_at. rewrite (@rd_ok _ reg i 0) by (fold nf in RL; lia). cbn [bind]. unfold rd2. destruct TS as (TL & TR).
  rewrite (@rd_ok _ spec (g + cut) []) by (unfold act in Hg; lia). cbn [bind]. pose proof (RB i Hi) as HR.
  rewrite (@rd_ok _ _ (nth i reg 0) 0%R) by (rewrite TR by (unfold act in Hg; lia); auto). cbn [bind].
  rewrite (@rd_ok _ cs _ []) by lia. cbn [bind]. rewrite (@rd_ok _ _ (nth i reg 0) 0%R) by (rewrite L2 by auto; auto). cbn [bind].
  rewrite V by auto. unfold s, tot. do 3 f_equal. unfold Region_Spec.block_sum. apply rsum_ext. intros h Hh. unfold s. do 2 f_equal. lia.
Qed.

(** What is restricted after the n-th build is the n-th part of what was put in. *)
Lemma rebuild_shrinks n : 0 < n -> even_cells nf nc (z_cmap Z) ->
  exists P, cpc_rebuild n srt m ngroups false cut fpc spec nreg reg Z = Ok P /\
  forall y, length y = length fpc * nc -> exists x, multiply P y = Ok x /\ multiply (z_R Z) x = Ok (map (fun v => v / INR n)%R y).
Proof.
  intros Hn EV. destruct (rebuild_ok Hn) as (P & EP & H). exists P. split; auto. intros y Hy.
  destruct (H y Hy) as (x & E1 & E2 & E3). exists x. split; auto.
  destruct (final_prolong Hsrt FM LF Hcut GR TS RG EZ NZ) as (P1 & EP1 & H1).
  set (y' := map (fun v => v / INR n)%R y). assert (Ly : length y' = length fpc * nc) by (unfold y'; rewrite map_length; auto).
  destruct (H1 y' Ly) as (x' & F1 & F2 & F3 & F4). specialize (F4 EV).
  enough (x = x') as -> by auto.
  destruct (level_fits_ok FM LF) as (C & EC). destruct (new_ok Hsrt FM EC GR) as (Z' & EZ' & CD & GM & _). rewrite EZ in EZ'. injection EZ' as <-.
  destruct (build_ok Hsrt FM EC Hcut GR TS RG EZ) as (P1' & EP1' & H2). rewrite EP1 in EP1'. injection EP1' as <-.
  destruct (H2 y' Ly) as (x2 & G1 & G2 & G3). rewrite F1 in G1. injection G1 as <-.
  apply list_ext_nth with (d := 0%R); [transitivity (act * nf); auto|]. intros k Hk. rewrite E2 in Hk.
  assert (Hnf : nf <> 0) by lia. assert (K1 : k / nf < act) by (apply Nat.div_lt_upper_bound; lia). assert (K2 : k mod nf < nf) by (apply Nat.mod_upper_bound; lia).
  pose proof (E3 _ _ K1 K2) as A1. pose proof (G3 _ _ K1 K2) as A2. unfold entry in A1 at 1. unfold entry in A2 at 1. fold nf in A2.
  replace (k mod nf + k / nf * nf) with k in * by (pose proof (Nat.div_mod k nf Hnf); lia).
  rewrite A1, A2. fold nc.
  pose proof (gm_lt GM (proj1 GR) K1) as HG. pose proof (NZ HG K2) as NN. 
  assert (Q : entry y' nc (nth (k / nf) (z_gmap Z) 0) (nth (k mod nf) (z_cmap Z) 0) = (entry y nc (nth (k / nf) (z_gmap Z) 0%nat) (nth (k mod nf) (z_cmap Z) 0%nat) / INR n)%R).
  { unfold entry, y'. rewrite (nth_indep _ 0%R (0 / INR n)%R) by (rewrite map_length, Hy; pose proof (cd_lt CD K2); fold nc in H0; nia). apply (map_nth (fun v => v / INR n)%R). }
  rewrite Q. unfold tot, s. unfold at_cell in NN. fold nf.
  assert (NI : INR n <> 0%R) by (apply not_0_INR; lia).
  match type of NN with ?t <> _ => set (T := t) in * end.
  match goal with |- ?l = ?r => change (nth (nth (k mod nf) reg 0%nat) (nth (k / nf + cut) spec []) 0 / (INR n * T) * entry y nc (nth (k / nf) (z_gmap Z) 0%nat) (nth (k mod nf) (z_cmap Z) 0%nat) =
    nth (nth (k mod nf) reg 0%nat) (nth (k / nf + cut) spec []) 0 / T * (entry y nc (nth (k / nf) (z_gmap Z) 0%nat) (nth (k mod nf) (z_cmap Z) 0%nat) / INR n))%R end.
  field. auto.
Qed.
End Rebuild.

(** A table with more columns than the material has materials. *)
Lemma nth_error_first {A} (l : list A) : forall n r, r < n -> nth_error (firstn n l) r = nth_error l r.
Proof. induction l as [|a l IH]; intros [|n] [|r] H; cbn; auto; try lia. apply IH. lia. Qed.
Lemma rd2_first (t : list (list R)) n h r : r < n -> rd2 (map (firstn n) t) h r = rd2 t h r.
Proof.
  intros H. unfold rd2, rd. rewrite nth_error_map. destruct (nth_error t h) as [l|]; cbn [option_map bind]; auto. rewrite nth_error_first by auto. reflexivity.
Qed.
Lemma pins_overflow spec fpc cut ngroups nm np : spectrum_table spec ngroups np -> nm < np -> cut < ngroups -> grouping fpc (ngroups - cut) ->
  coarse_spectrum spec fpc cut nm = UB.
Proof.
  intros (LS & RS) Hp Hcut (GS & GP & GN).
  set (spec' := map (firstn nm) spec).
  assert (TB' : spectrum_table spec' ngroups nm).
  { split; [unfold spec'; rewrite map_length; auto|]. intros g Hg. unfold spec'. rewrite (nth_indep _ [] (firstn nm [])) by (rewrite map_length; lia).
    rewrite map_nth, firstn_length, RS by auto. lia. }
  destruct (@coarse_spectrum_ok spec' fpc cut ngroups nm TB') as (cs & E & L & W & _); [lia|lia|].
  unfold coarse_spectrum in *. rewrite (@rd_ok _ spec 0 []) by lia. cbn [bind]. rewrite RS by lia.
  rewrite (@rd_ok _ spec' 0 []) in E by (rewrite (proj1 TB'); lia). cbn [bind] in E. rewrite (proj2 TB') in E by lia.
  replace np with (nm + S (np - nm - 1)) by lia. rewrite for_app.
  match goal with |- bind ?e _ = UB => assert (E' : e = Ok cs) end.
  { rewrite <- E. apply for_ext. intros r S0 (_ & Hr). f_equal. apply for_ext. intros gc s1 _. f_equal. apply functional_extensionality. intros k.
    apply for_ext. intros i s2 _. unfold spec'. rewrite rd2_first by auto. reflexivity. }
  rewrite E'. cbn [bind]. unfold for_ at 1. cbn [seq Nat.sub foldM].
  match goal with |- bind ?e _ = _ => enough (e = UB) as -> by reflexivity end.
  destruct fpc as [|k fpc]; [contradiction|]. assert (Hk : 0 < k) by (apply GP; left; auto). destruct k as [|k]; [lia|].
  cbn [length]. unfold for_ at 1. cbn [seq Nat.sub foldM]. unfold rd at 1. cbn [nth_error bind]. unfold for_ at 1. cbn [seq Nat.sub foldM fst snd].
  unfold rd2 at 1. rewrite (@rd_ok _ spec cut []) by lia. cbn [bind]. rewrite (@rd_ok _ _ (nm + 0) 0%R) by (rewrite RS by lia; lia). cbn [bind].
  cbn [length] in L, W. rewrite (@rd_ok _ cs 0 []) by lia. cbn [bind]. unfold Cmfd_Model.add_at at 1. unfold rd at 1.
  rewrite (proj2 (nth_error_None (nth 0 cs []) (nm + 0))) by (rewrite W by lia; lia). reflexivity.
Qed.
