(** * Cpc_Proofs3: the prolongation, the preconditioner, the places per row. *)
From Verif Require Import Base BaseR Loop Mesh_Model Mesh_Spec Mesh_Proofs Material_Model Matrix_Model Matrix_Spec Matrix_Proofs Sweep_Model Region_Model Region_Spec Region_Proofs
  Tally_Model Tally_Spec Tally_Proofs Diffusion_Model Diffusion_Spec Diffusion_Proofs Cmfd_Model Cmfd_Spec Cmfd_Proofs Cpc_Model Cpc_Spec Cpc_Proofs Cpc_Proofs2.
Set Implicit Arguments.
Unset Strict Implicit.
Open Scope nat_scope.

(** ** The coarse spectrum *)
Lemma coarse_spectrum_ok spec fpc cut ngroups nreg : spectrum_table spec ngroups nreg -> 0 < ngroups -> cut + list_sum fpc <= ngroups ->
  exists cs, coarse_spectrum spec fpc cut nreg = Ok cs /\ length cs = length fpc /\ (forall G, G < length fpc -> length (nth G cs []) = nreg) /\
  forall G r, G < length fpc -> r < nreg -> nth r (nth G cs []) 0%R = Region_Spec.block_sum fpc G (fun h => nth r (nth (cut + h) spec []) 0%R).
Proof.
  intros (LS & RS) Hng Hcut. unfold coarse_spectrum. rewrite (@rd_ok _ spec 0 []) by lia. cbn [bind]. rewrite RS by auto.
  set (tab := fun (cs : list (list R)) => length cs = length fpc /\ forall G, G < length fpc -> length (nth G cs []) = nreg).
  set (fin := fun G r => Region_Spec.block_sum fpc G (fun h => nth r (nth (cut + h) spec []) 0%R)).
  match goal with |- context [for_ 0 nreg ?s0 ?b0] =>
    destruct (@for_inv _ (fun r cs => tab cs /\ (forall G q, G < length fpc -> q < r -> nth q (nth G cs []) 0%R = fin G q) /\
      (forall G q, G < length fpc -> r <= q < nreg -> nth q (nth G cs []) 0%R = 0%R)) 0 nreg s0 b0) as (cs & E & (T1 & T2) & V & _) end.
  - lia.
  - split; [|split].
    + split; [apply repeat_length|]. intros G HG. rewrite nth_repeat_lt by auto. apply repeat_length.
    + intros; lia.
    + intros G q HG Hq. rewrite nth_repeat_lt by auto. apply nth_repeat.
  - intros r cs Hr (TB & V & Z).
    match goal with |- context [for_ 0 (length fpc) ?s0 ?b0] =>
      destruct (@for_inv _ (fun gc s => snd s = cut + psum fpc gc /\ tab (fst s) /\
        (forall G q, G < length fpc -> q <> r -> nth q (nth G (fst s) []) 0%R = nth q (nth G cs []) 0%R) /\
        (forall G, G < gc -> nth r (nth G (fst s) []) 0%R = fin G r) /\
        (forall G, gc <= G < length fpc -> nth r (nth G (fst s) []) 0%R = 0%R)) 0 (length fpc) s0 b0) as (s & E & _ & TB' & O' & D' & _) end.
    + lia.
    + cbn [fst snd]. rewrite psum_0. split; [lia|]. split; [auto|]. split; [auto|]. split; [intros; lia|]. intros G HG. apply Z; lia.
    + intros gc s Hgc (E1 & TB1 & O1 & D1 & Z1). rewrite (@rd_ok _ fpc gc 0) by lia. cbn [bind]. set (k := nth gc fpc 0).
      assert (PB : cut + (psum fpc gc + k) <= ngroups).
      { unfold k. rewrite <- psum_S. assert (psum fpc (S gc) <= list_sum fpc) by (rewrite <- psum_all; apply psum_mono; lia). lia. }
      match goal with |- exists s', for_ 0 k ?s0 ?b0 = _ /\ _ =>
        destruct (@for_inv _ (fun i s => snd s = cut + (psum fpc gc + i) /\ tab (fst s) /\
          (forall G q, G < length fpc -> q <> r -> nth q (nth G (fst s) []) 0%R = nth q (nth G cs []) 0%R) /\
          (forall G, G < gc -> nth r (nth G (fst s) []) 0%R = fin G r) /\
          (forall G, gc < G < length fpc -> nth r (nth G (fst s) []) 0%R = 0%R) /\
          nth r (nth gc (fst s) []) 0%R = rsum i (fun i => nth r (nth (cut + (psum fpc gc + i)) spec []) 0%R)) 0 k s0 b0) as (s' & E' & Q1 & Q2 & Q3 & Q4 & Q5 & Q6) end.
      * lia.
      * split; [lia|]. split; [auto|]. split; [auto|]. split; [auto|]. split; [intros; apply Z1; lia|]. cbn. apply Z1. lia.
      * intros i s1 Hi (R1 & (R2 & R2') & R3 & R4 & R5 & R6). unfold rd2. rewrite R1. rewrite (@rd_ok _ spec _ []) by lia. cbn [bind].
        rewrite (@rd_ok _ _ r 0%R) by (rewrite RS by lia; lia). cbn [bind].
        rewrite (@rd_ok _ (fst s1) gc []) by lia. cbn [bind]. unfold add_at.
        rewrite (@rd_ok _ _ r 0%R) by (rewrite R2' by lia; lia). cbn [bind]. unfold wr. rewrite R2' by lia.
        rewrite (proj2 (Nat.ltb_lt r nreg)) by lia. cbn [bind]. rewrite R2, (proj2 (Nat.ltb_lt gc _)) by lia. cbn [bind].
        eexists. split; [reflexivity|]. cbn [fst snd]. split; [lia|]. split.
        { split; [rewrite upd_length; auto|]. intros G HG. destruct (Nat.eq_dec G gc) as [->|N].
          - rewrite nth_upd_eq by lia. rewrite upd_length. auto.
          - rewrite nth_upd_neq by auto. auto. }
        split.
        { intros G q HG Hq. destruct (Nat.eq_dec G gc) as [->|N].
          - rewrite nth_upd_eq by lia. rewrite nth_upd_neq by auto. auto.
          - rewrite nth_upd_neq by auto. auto. }
        split; [intros G HG; rewrite nth_upd_neq by lia; auto|]. split; [intros G HG; rewrite nth_upd_neq by lia; auto|].
        rewrite nth_upd_eq by lia. rewrite nth_upd_eq by (rewrite R2' by lia; lia). rewrite R6. reflexivity.
      * exists s'. split; auto. rewrite psum_S. fold k. split; auto. split; auto. split; auto. split.
        -- intros G HG. destruct (Nat.eq_dec G gc) as [->|N]; [|apply Q4; lia]. rewrite Q6. reflexivity.
        -- intros G HG. apply Q5. lia.
    + rewrite E. cbn [bind]. exists (fst s). split; auto. split; auto. split.
      * intros G q HG Hq. destruct (Nat.eq_dec q r) as [->|N]; [apply D'; auto|]. rewrite O' by auto. apply V; auto. lia.
      * intros G q HG Hq. rewrite O' by (auto; lia). apply Z; auto. lia.
  - exists cs. split; auto.
Qed.

(** ** The prolongation *)
Section Prolong.
Variables (srt : list triplet -> list triplet) (m cm : mesh) (C : cmesh) (cmap gm fpc : list nat) (act : nat).
Hypothesis Hsrt : is_sort srt.
Hypothesis CD : coarse_data m cm C cmap.
Hypothesis GM : groups_mapped fpc gm act.
Hypothesis GR : grouping fpc act.
Let nf := ncells m.
Let nc := ncells cm.
Variables (shape : nat -> nat -> nat -> res R) (sh : nat -> nat -> R).
Hypothesis Hsh : forall g i, g < act -> i < nf -> shape i g (nth g gm 0) = Ok (sh g i).

Lemma prolong_ok : exists P, build_prolong srt m cm cmap gm fpc act shape = Ok P /\
  forall y, length y = length fpc * nc -> exists x, multiply P y = Ok x /\ length x = act * nf /\
  forall g i, g < act -> i < nf -> entry x nf g i = (sh g i * entry y nc (nth g gm 0%nat) (nth i cmap 0%nat))%R.
Proof.
  set (col := fun k => nth (k mod nf) cmap 0 + nth (k / nf) gm 0 * nc).
  set (val := fun k => sh (k / nf) (k mod nf)).
  assert (EL : build_prolong srt m cm cmap gm fpc act shape =
    bind (fill_loop (act * nf) (fun k => k) col val (preallocate (repeat 1 (act * nf)))) (assemble srt (length fpc * nc))).
  { unfold build_prolong. cbv zeta. fold nf nc. unfold fill_loop. rewrite (Nat.mul_comm act nf). rewrite for_prod. f_equal.
    apply for_ext. intros g A (_ & Hg). rewrite (@rd_ok _ gm g 0) by (rewrite (proj1 GM); auto). cbn [bind]. apply for_ext. intros i B (_ & Hi).
    rewrite (@rd_ok _ cmap i 0) by (rewrite (cd_len CD); auto). cbn [bind]. rewrite Hsh by auto. cbn [bind].
    unfold col, val. rewrite Nat.div_add, Nat.mod_add by lia. rewrite Nat.div_small, Nat.mod_small by auto. reflexivity. }
  rewrite EL.
  assert (SK : forall k, k < act * nf -> k / nf < act /\ k mod nf < nf).
  { intros k H. assert (nf <> 0) by lia. split; [apply Nat.div_lt_upper_bound; lia|apply Nat.mod_upper_bound; lia]. }
  destruct (@fill_multiply srt (act * nf) (length fpc * nc) (act * nf) 1 (fun k => k) col val Hsrt) as (A & P & E1 & E2 & E3).
  - auto.
  - intros k Hk. destruct (SK k Hk) as (B1 & B2). pose proof (gm_lt GM (proj1 GR) B1). pose proof (cd_lt CD B2). fold nc in H0. unfold col. nia.
  - lia.
  - intros r Hr. eauto.
  - exists P. rewrite E1. cbn [bind]. split; auto. intros y Hy. eexists. split; [apply E3; auto|]. rewrite map_length, seq_length. split; auto.
    intros g i Hg Hi. unfold entry at 1. rewrite nth_map_seq by nia.
    assert (HB : forall r k, length (hits (fun k => k) r k) <= 1).
    { intros r k. enough (length (hits (fun k => k) r k) = if r <? k then 1 else 0) by (rewrite H; destruct (r <? k); lia).
      induction k as [|k IH]; [reflexivity|]. rewrite hits_S, app_length, IH. destruct (Nat.eqb_spec k r) as [->|N].
      - rewrite Nat.ltb_irrefl, (proj2 (Nat.ltb_lt r (S r))) by lia. reflexivity.
      - destruct (Nat.ltb_spec r k), (Nat.ltb_spec r (S k)); cbn; lia. }
    rewrite row_value_all by auto.
    transitivity (rsum (act * nf) (fun k => if k =? i + g * nf then (val (i + g * nf)%nat * nth (col (i + g * nf)%nat) y 0)%R else 0%R)).
    + apply rsum_ext. intros k Hk. destruct (Nat.eqb_spec k (i + g * nf)) as [->|N]; auto.
    + rewrite rsum_delta by nia. unfold val, col, entry. rewrite Nat.div_add, Nat.mod_add by lia. rewrite Nat.div_small, Nat.mod_small by auto. reflexivity.
Qed.
End Prolong.
