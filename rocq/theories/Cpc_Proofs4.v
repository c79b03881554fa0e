(** * Cpc_Proofs4: restriction after prolongation, and the preconditioner. *)
From Verif Require Import Base BaseR Loop Mesh_Model Mesh_Spec Mesh_Proofs Material_Model Matrix_Model Matrix_Spec Matrix_Proofs Sweep_Model Region_Model Region_Spec Region_Proofs
  Tally_Model Tally_Spec Tally_Proofs Diffusion_Model Diffusion_Spec Diffusion_Proofs Cmfd_Model Cmfd_Spec Cmfd_Proofs Cpc_Model Cpc_Spec Cpc_Proofs Cpc_Proofs2 Cpc_Proofs3.
Set Implicit Arguments.
Unset Strict Implicit.
Open Scope nat_scope.

Lemma add_loop p V : length p = length V -> exists o, for_ 0 (length V) V (fun i o => do x <- rd p i; Cmfd_Model.add_at o i x) = Ok o /\ length o = length V /\
  forall i, i < length V -> nth i o 0%R = (nth i V 0 + nth i p 0)%R.
Proof.
  intros L. match goal with |- context [for_ 0 ?n ?s0 ?b0] =>
    destruct (@for_inv _ (fun k o => length o = length V /\ (forall i, i < k -> nth i o 0%R = (nth i V 0 + nth i p 0)%R) /\
      forall i, k <= i -> nth i o 0%R = nth i V 0%R) 0 n s0 b0) as (o & E & L1 & V1 & _) end.
  - lia.
  - split; [auto|]. split; [intros; lia|auto].
  - intros k o Hk (L1 & V1 & V2). rewrite (@rd_ok _ p k 0%R) by lia. cbn [bind]. unfold Cmfd_Model.add_at. rewrite (@rd_ok _ o k 0%R) by lia. cbn [bind].
    unfold wr. rewrite L1, (proj2 (Nat.ltb_lt _ _)) by lia. eexists. split; [reflexivity|]. rewrite upd_length. split; auto. split.
    + intros i Hi. destruct (Nat.eq_dec i k) as [->|N]; [rewrite nth_upd_eq by lia; rewrite V2 by lia; reflexivity|]. rewrite nth_upd_neq by auto. apply V1. lia.
    + intros i Hi. rewrite nth_upd_neq by lia. apply V2. lia.
  - exists o. auto.
Qed.

Section Transfer.
Variables (srt : list triplet -> list triplet) (m : mesh) (ngroups cut level nreg : nat) (fpc : list nat) (spec : list (list R)) (reg : list nat) (C : cmesh).
Hypothesis Hsrt : is_sort srt.
Hypothesis FM : fine_mesh m.
Hypothesis EC : coarse_mesh (dim m) (mesh_grid m) level = Ok C.
Hypothesis Hcut : cut < ngroups.
Hypothesis GR : grouping fpc (ngroups - cut).
Hypothesis TS : spectrum_table spec ngroups nreg.
Hypothesis RG : ncells m <= length reg /\ forall i, i < ncells m -> nth i reg 0 < nreg.
Let nf := ncells m.
Let act := ngroups - cut.
Let s g i := nth (nth i reg 0) (nth (g + cut) spec []) 0%R.
Let tot G i := Region_Spec.block_sum fpc G (fun g => s g i).

Lemma new_ok : exists Z, cpc_new srt m ngroups false cut level fpc = Ok Z /\ coarse_data m (z_cm Z) C (z_cmap Z) /\ groups_mapped fpc (z_gmap Z) act /\
  build_restrict srt m (z_cm Z) (z_cmap Z) (z_gmap Z) fpc act = Ok (z_R Z).
Proof.
  destruct (coarse_data_ok FM EC) as (cm & cmap & CD). destruct (group_map_ok (proj1 GR)) as (gm & EG & GM).
  destruct (restrict_ok Hsrt CD GM GR) as (R & ER & _).
  exists {| z_cm := cm; z_cmap := cmap; z_gmap := gm; z_R := R |}. split; [|auto]. unfold cpc_new, active_groups.
  rewrite EC. cbn [bind]. rewrite (cd_of CD). cbn [bind]. rewrite (cd_map CD). cbn [bind]. rewrite EG. cbn [bind]. rewrite ER. reflexivity.
Qed.
Lemma build_ok Z : cpc_new srt m ngroups false cut level fpc = Ok Z -> exists P, cpc_build srt m ngroups false cut fpc spec nreg reg Z = Ok P /\
  forall y, length y = length fpc * ncells (z_cm Z) -> exists x, multiply P y = Ok x /\ length x = act * nf /\
  forall g i, g < act -> i < nf -> entry x nf g i = (s g i / tot (nth g (z_gmap Z) 0%nat) i * entry y (ncells (z_cm Z)) (nth g (z_gmap Z) 0%nat) (nth i (z_cmap Z) 0%nat))%R.
Proof.
  intros EZ. destruct new_ok as (Z' & EZ' & CD & GM & _). rewrite EZ in EZ'. injection EZ' as <-.
  unfold cpc_build. destruct (@coarse_spectrum_ok spec fpc cut ngroups nreg TS) as (cs & ES & L1 & L2 & V); [lia|rewrite (proj1 GR); lia|].
  rewrite ES. cbn [bind]. unfold active_groups.
  apply (@prolong_ok srt m (z_cm Z) C (z_cmap Z) (z_gmap Z) fpc act Hsrt CD GM GR (fun i gf gc => shape_at spec cs reg false cut i gf gc)
    (fun g i => (s g i / tot (nth g (z_gmap Z) 0%nat) i)%R)).
  intros g i Hg Hi. fold nf in Hi. destruct RG as (RL & RB). pose proof (gm_lt GM (proj1 GR) Hg) as HG.
  unfold shape_at. rewrite (@rd_ok _ reg i 0) by (fold nf in RL; lia). cbn [bind]. unfold rd2. destruct TS as (TL & TR).
  rewrite (@rd_ok _ spec (g + cut) []) by (unfold act in Hg; lia). cbn [bind]. pose proof (RB i Hi) as HR.
  rewrite (@rd_ok _ _ (nth i reg 0) 0%R) by (rewrite TR by (unfold act in Hg; lia); auto). cbn [bind].
  rewrite (@rd_ok _ cs _ []) by lia. cbn [bind]. rewrite (@rd_ok _ _ (nth i reg 0) 0%R) by (rewrite L2 by auto; auto). cbn [bind].
  rewrite V by auto. unfold s, tot. do 2 f_equal. unfold Region_Spec.block_sum. apply rsum_ext. intros h Hh. unfold s. do 2 f_equal. lia.
Qed.
Lemma prolong_distributes Z P y : cpc_new srt m ngroups false cut level fpc = Ok Z -> cpc_build srt m ngroups false cut fpc spec nreg reg Z = Ok P ->
  (forall G i, G < length fpc -> i < nf -> tot G i <> 0%R) -> length y = length fpc * ncells (z_cm Z) ->
  exists x, multiply P y = Ok x /\ length x = act * nf /\ distributed m (z_cmap Z) (ncells (z_cm Z)) fpc s y x.
Proof.
  intros EZ EP NZ Hy. destruct new_ok as (Z' & EZ' & CD & GM & _). rewrite EZ in EZ'. injection EZ' as <-.
  destruct (build_ok EZ) as (P' & EP' & H). rewrite EP in EP'. injection EP' as <-. destruct (H y Hy) as (x & E1 & E2 & E3). exists x. split; auto. split; auto.
  intros G g i HG Hg Hi.
  assert (Ha : g < act).
  { assert (Q : psum fpc (S G) <= list_sum fpc) by (rewrite <- psum_all; apply psum_mono; lia). rewrite (proj1 GR) in Q. unfold act. lia. }
  fold nf. rewrite E3 by auto. rewrite (proj2 GM G g HG Hg). pose proof (NZ G i HG Hi) as N. unfold tot in *. field. auto.
Qed.
(** A region sum of a block of groups. *)
Lemma swap_sums G cmap c (f : nat -> nat -> R) :
  Region_Spec.block_sum fpc G (fun g => region_sum nf cmap c (f g)) = region_sum nf cmap c (fun i => Region_Spec.block_sum fpc G (fun g => f g i)).
Proof.
  unfold Region_Spec.block_sum, region_sum. rewrite rsum_swap. apply rsum_ext. intros i Hi. destruct (nth i cmap 0 =? c); auto. apply rsum_zero. auto.
Qed.
Definition enough (Z : cpc) : Prop := forall c, c < ncells (z_cm Z) -> cells_in (z_cmap Z) c <= nf / ncells (z_cm Z) + 1.
Lemma restrict_averages Z x : cpc_new srt m ngroups false cut level fpc = Ok Z -> enough Z -> length x = act * nf ->
  exists y, multiply (z_R Z) x = Ok y /\ length y = length fpc * ncells (z_cm Z) /\ averaged m (z_cmap Z) (ncells (z_cm Z)) fpc x y.
Proof.
  intros EZ RM Hx. destruct new_ok as (Z' & EZ' & CD & GM & ER). rewrite EZ in EZ'. injection EZ' as <-.
  destruct (restrict_ok Hsrt CD GM GR) as (R & ER' & H). fold act in ER'. rewrite ER in ER'. injection ER' as <-.
  destruct (H x Hx) as (y & E1 & E2 & E3 & _). exists y. split; auto. split; auto. intros G c HG Hc. apply E3; auto.
  unfold restrict_room. fold nf. rewrite Nat.mul_comm. apply Nat.mul_le_mono; [apply RM; auto|apply fpc_max].
Qed.
Lemma averaged_unique Z x y y' : cpc_new srt m ngroups false cut level fpc = Ok Z -> length y = length fpc * ncells (z_cm Z) -> length y' = length y ->
  averaged m (z_cmap Z) (ncells (z_cm Z)) fpc x y -> averaged m (z_cmap Z) (ncells (z_cm Z)) fpc x y' -> y' = y.
Proof.
  intros EZ L1 L2 A1 A2. destruct new_ok as (Z' & EZ' & CD & GM & _). rewrite EZ in EZ'. injection EZ' as <-. pose proof (cd_pos CD) as PC.
  apply nth_ext with (d := 0%R) (d' := 0%R); [auto|]. intros r Hr. set (nc := ncells (z_cm Z)) in *.
  assert (HG : r / nc < length fpc) by (apply Nat.div_lt_upper_bound; lia). assert (Hc : r mod nc < nc) by (apply Nat.mod_upper_bound; lia).
  pose proof (A1 _ _ HG Hc) as Q1. pose proof (A2 _ _ HG Hc) as Q2. unfold entry at 1 in Q1; unfold entry at 1 in Q2.
  replace (r mod nc + r / nc * nc) with r in Q1, Q2 by (rewrite (Nat.div_mod_eq r nc) at 1; lia).
  pose proof (rv_pos fpc CD Hc) as PV. apply (Rmult_eq_reg_r (region_sum (ncells m) (z_cmap Z) (r mod nc) (vol m))); [congruence|lra].
Qed.
Lemma restrict_prolong Z P y : cpc_new srt m ngroups false cut level fpc = Ok Z -> cpc_build srt m ngroups false cut fpc spec nreg reg Z = Ok P -> enough Z ->
  (forall G i, G < length fpc -> i < nf -> tot G i <> 0%R) -> length y = length fpc * ncells (z_cm Z) ->
  exists x, multiply P y = Ok x /\ multiply (z_R Z) x = Ok y.
Proof.
  intros EZ EP RM NZ Hy. destruct (prolong_distributes EZ EP NZ Hy) as (x & E1 & E2 & E3). exists x. split; auto.
  destruct (restrict_averages EZ RM E2) as (z & F1 & F2 & F3). rewrite F1. f_equal. apply (averaged_unique (Z := Z) (x := x)); auto; [congruence|].
  intros G c HG Hc. fold nf. set (nc := ncells (z_cm Z)) in *. rewrite swap_sums. unfold region_sum. rewrite <- rsum_scal. apply rsum_ext. intros i Hi.
  destruct (Nat.eqb_spec (nth i (z_cmap Z) 0) c) as [Ec|N]; [|ring].
  transitivity (vol m i * Region_Spec.block_sum fpc G (fun g => entry x nf g i))%R; [|unfold Region_Spec.block_sum; rewrite <- rsum_scal; reflexivity].
  rewrite Rmult_comm. f_equal. pose proof (NZ G i HG Hi) as N. apply (Rmult_eq_reg_r (tot G i)); auto.
  unfold Region_Spec.block_sum. rewrite <- rsum_scal_r. rewrite (Rmult_comm _ (tot G i)). unfold tot at 1, Region_Spec.block_sum. rewrite <- rsum_scal_r. apply rsum_ext. intros h Hh.
  symmetry. rewrite <- Ec. apply (E3 G (psum fpc G + h) i HG); auto. rewrite psum_S. lia.
Qed.
Lemma apply_restricts Z P sf lin V sv : cpc_new srt m ngroups false cut level fpc = Ok Z -> cpc_build srt m ngroups false cut fpc spec nreg reg Z = Ok P -> enough Z ->
  (forall G i, G < length fpc -> i < nf -> tot G i <> 0%R) -> length V = act * nf -> sf V = Ok sv -> length sv = act * nf ->
  (forall b, length b = length fpc * ncells (z_cm Z) -> exists e, lin b = Ok e /\ length e = length b) ->
  exists out r e v o, cmdsa_apply sf lin (z_R Z) P (length V) V = Ok out /\ length out = length V /\
    multiply (z_R Z) sv = Ok r /\ lin r = Ok e /\ multiply (z_R Z) V = Ok v /\ multiply (z_R Z) out = Ok o /\
    length o = length e /\ forall k, k < length o -> nth k o 0%R = (nth k v 0 + nth k e 0)%R.
Proof.
  intros EZ EP RM NZ HV ESF LSV HL. unfold cmdsa_apply. rewrite ESF. cbn [bind].
  destruct (restrict_averages EZ RM LSV) as (r & R1 & R2 & _). rewrite R1. cbn [bind]. destruct (HL r R2) as (e & E1 & E2). rewrite E1. cbn [bind].
  destruct (restrict_prolong EZ EP RM NZ (eq_trans E2 R2)) as (p & P1 & P2). rewrite P1. cbn [bind].
  assert (LP : length p = act * nf) by (destruct (prolong_distributes EZ EP NZ (eq_trans E2 R2)) as (p' & Q1 & Q2 & _); congruence).
  destruct (@add_loop p V) as (o & O1 & O2 & O3); [congruence|]. exists o, r, e.
  destruct (restrict_averages EZ RM HV) as (v & V1 & V2 & V3). destruct (restrict_averages EZ RM (eq_trans O2 HV)) as (w & W1 & W2 & W3).
  destruct (restrict_averages EZ RM LP) as (e' & X1 & X2 & X3). assert (e' = e) by congruence. subst e'.
  exists v, w. repeat (split; [first [assumption|congruence]|]). intros k Hk. rewrite W2 in Hk.
  destruct new_ok as (Z' & EZ' & CD & GM & _). rewrite EZ in EZ'. injection EZ' as <-. pose proof (cd_pos CD) as PC. set (nc := ncells (z_cm Z)) in *.
  assert (HG : k / nc < length fpc) by (apply Nat.div_lt_upper_bound; lia). assert (Hc : k mod nc < nc) by (apply Nat.mod_upper_bound; lia).
  pose proof (W3 _ _ HG Hc) as Q1. pose proof (V3 _ _ HG Hc) as Q2. pose proof (X3 _ _ HG Hc) as Q3. unfold entry at 1 in Q1; unfold entry at 1 in Q2; unfold entry at 1 in Q3.
  replace (k mod nc + k / nc * nc) with k in Q1, Q2, Q3 by (rewrite (Nat.div_mod_eq k nc) at 1; lia).
  pose proof (rv_pos fpc CD Hc) as PV. apply (Rmult_eq_reg_r (region_sum (ncells m) (z_cmap Z) (k mod nc) (vol m))); [|lra].
  rewrite Rmult_plus_distr_r, Q1, Q2, Q3. unfold Region_Spec.block_sum. rewrite <- rsum_plus. apply rsum_ext. intros h Hh.
  unfold region_sum. rewrite <- rsum_plus. apply rsum_ext. intros i Hi. destruct (nth i (z_cmap Z) 0 =? k mod nc); [|ring].
  assert (psum fpc (k / nc) + h < act).
  { assert (Q : psum fpc (S (k / nc)) <= list_sum fpc) by (rewrite <- psum_all; apply psum_mono; lia). rewrite (proj1 GR), psum_S in Q. unfold act. lia. }
  unfold entry. rewrite O3 by (rewrite HV; fold nf; fold nf in Hi; nia). ring.
Qed.
(** Too many fine cells in a coarse cell: part of a positive vector is lost. *)
Lemma restrict_loses Z x G c : cpc_new srt m ngroups false cut level fpc = Ok Z -> length x = act * nf -> (forall k, k < act * nf -> (0 < nth k x 0)%R) ->
  G < length fpc -> c < ncells (z_cm Z) -> restrict_room nf (ncells (z_cm Z)) fpc < nth G fpc 0 * cells_in (z_cmap Z) c ->
  exists y, multiply (z_R Z) x = Ok y /\ ~ averaged m (z_cmap Z) (ncells (z_cm Z)) fpc x y /\
  (entry y (ncells (z_cm Z)) G c * region_sum nf (z_cmap Z) c (vol m) < Region_Spec.block_sum fpc G (fun g => region_sum nf (z_cmap Z) c (fun i => vol m i * entry x nf g i)))%R.
Proof.
  intros EZ Hx Hp HG Hc HR. destruct new_ok as (Z' & EZ' & CD & GM & ER). rewrite EZ in EZ'. injection EZ' as <-.
  destruct (restrict_ok Hsrt CD GM GR) as (R & ER' & H). fold act in ER'. rewrite ER in ER'. injection ER' as <-.
  destruct (H x Hx) as (y & E1 & E2 & _ & E4). exists y. split; auto. pose proof (E4 G c HG Hc HR Hp) as L. split; auto.
  intros A. specialize (A G c HG Hc). fold nf in A, L. lra.
Qed.
End Transfer.

(** ** The number of fine cells *)
Lemma counts_spec n level cnt : coarse_counts n level = Ok cnt -> 0 < n -> forall k, In k cnt ->
  k <= n / length cnt + 1 /\ (n mod level = 0 -> k = level /\ n = level * length cnt).
Proof.
  intros E Hn. destruct (le_lt_dec 1 level) as [L|L]; [|unfold coarse_counts in E; replace level with 0 in E by lia; discriminate].
  assert (LO : level_ok n level).
  { split; [lia|]. destruct (Nat.eq_dec (n / level) 1); auto. right. destruct (le_lt_dec (n mod level) (n / level)) as [H|H]; auto. exfalso.
    rewrite coarse_counts_ub in E; [discriminate|]. intros (_ & [Q | Q]); lia. }
  pose proof (coarse_counts_ok LO) as (cnt' & E' & LC & (SC & PC) & MC). rewrite E in E'. injection E' as <-.
  intros k Hk. assert (EN : n = level * (n / level) + n mod level) by apply Nat.div_mod_eq.
  assert (SG : forall l, (forall k, In k l -> level <= k) -> level * length l <= list_sum l /\ forall k, In k l -> k + level * (length l - 1) <= list_sum l).
  { clear. induction l as [|a l IH]; intros H; [cbn; split; [lia|tauto]|]. destruct (IH (fun k Hk => H k (or_intror Hk))) as (I1 & I2).
    pose proof (H a (or_introl eq_refl)). change (list_sum (a :: l)) with (a + list_sum l). cbn [length]. split; [nia|]. intros k [->|Hk]; [replace (S (length l) - 1) with (length l) by lia; lia|].
    specialize (I2 k Hk). assert (0 < length l) by (destruct l; [destruct Hk|cbn; lia]). replace (S (length l) - 1) with (S (length l - 1)) by lia. nia. }
  destruct (SG cnt MC) as (_ & S2). specialize (S2 k Hk). rewrite SC in S2. assert (0 < length cnt) by (destruct cnt; [destruct Hk|cbn; lia]).
  split.
  - unfold coarse_counts in E. replace (level =? 0) with false in E by (symmetry; apply Nat.eqb_neq; lia). rewrite div_sub_mod in E by lia. cbv zeta in E.
    destruct (Nat.eqb_spec (n / level) 1) as [E1|N1].
    + rewrite LC, E1 in *. rewrite Nat.div_1_r. lia.
    + set (nc := n / level) in *. set (r := n mod level) in *. destruct LO as (_ & [Q|Q]); [contradiction|].
      match type of E with for_ 0 r ?s0 ?b0 = _ =>
        destruct (@for_inv _ (fun i v => length v = nc /\ (forall j, j < nc -> nth j v 0 <= S level)  /\ (forall j, i <= j < nc -> nth j v 0 = level)) 0 r s0 b0) as (v & Ev & Lv & Vv & _) end.
      * lia.
      * rewrite repeat_length. split; auto. split; intros j Hj; rewrite nth_repeat_lt by lia; lia.
      * intros i v Hi (Lv & V1 & V2). rewrite (@rd_ok _ v i 0) by (rewrite Lv; unfold nc; lia). cbn [bind]. unfold wr.
        rewrite Lv, (proj2 (Nat.ltb_lt i nc)) by lia. eexists. split; [reflexivity|]. rewrite upd_length. split; auto. split.
        -- intros j Hj. destruct (Nat.eq_dec i j) as [<-|Ne]; [rewrite nth_upd_eq by lia; rewrite V2 by lia; lia|]. rewrite nth_upd_neq by auto. auto.
        -- intros j Hj. rewrite nth_upd_neq by lia. apply V2. lia.
      * rewrite E in Ev. injection Ev as <-. apply (In_nth cnt k 0) in Hk. destruct Hk as (j & Hj & <-). rewrite LC in *.
        specialize (Vv j Hj). assert (level <= n / nc) by (apply Nat.div_le_lower_bound; lia). lia.
  - intros E0. rewrite E0, Nat.add_0_r in EN. rewrite LC in *. split; [|auto]. specialize (MC k Hk).
    assert (k + level * (n / level - 1) <= level * (n / level)) by lia. nia.
Qed.
Lemma coarsen_counts w level x : coarsen w level = Ok x -> coarse_counts (length w) level = Ok (c_count x).
Proof.
  unfold coarsen. cbv zeta. destruct (coarse_counts (length w) level) as [cnt| |]; cbn [bind]; try discriminate.
  destruct (wr (repeat (-1)%Z (length w + 1)) 0 0%Z) as [fl| |]; cbn [bind]; try discriminate.
  match goal with |- context [for_ 0 (length cnt) ?s0 ?b0] => destruct (for_ 0 (length cnt) s0 b0) as [s| |]; cbn [bind]; try discriminate end.
  destruct s as [[[e f2c] fl'] k]. intros E. injection E as <-. reflexivity.
Qed.
Lemma mesh_counts m level C a : fine_mesh m -> coarse_mesh (dim m) (mesh_grid m) level = Ok C -> a < 3 ->
  (a < dim m /\ coarse_counts (nth a [ncx m; ncy m; ncz m] 0) level = Ok (c_count (cm_of C a)) /\ 0 < nth a [ncx m; ncy m; ncz m] 0) \/
  (dim m <= a /\ c_count (cm_of C a) = [1] /\ nth a [ncx m; ncy m; ncz m] 0 = 1).
Proof.
  intros ((L1 & L2 & L3 & _ & _ & _ & _ & P1 & P2 & P3 & PD & U2 & U3) & _) E Ha. unfold coarse_mesh in E.
  set (f := fun d => if d <? dim m then coarsen (fine_widths (dim m) (mesh_grid m) d) level else Ok unused) in E. cbn [mapM] in E.
  destruct (f 0) as [c0| |] eqn:E0; try discriminate. destruct (f 1) as [c1| |] eqn:E1; try discriminate.
  destruct (f 2) as [c2| |] eqn:E2; try discriminate. cbn [bind] in E. injection E as <-. cbn [cm_of].
  assert (Q : f a = Ok (nth a [c0; c1; c2] unused)) by (destruct a as [|[|[|a]]]; auto; lia). unfold f in Q.
  destruct (Nat.ltb_spec a (dim m)) as [H|H].
  - left. split; auto. apply coarsen_counts in Q. unfold fine_widths in Q. rewrite (proj2 (Nat.ltb_lt _ _) H) in Q. cbn [g_dx g_dy g_dz mesh_grid] in Q.
    destruct a as [|[|[|a]]]; try lia; cbn [nth] in *; rewrite ?L1, ?L2, ?L3 in Q; auto.
  - right. split; auto. injection Q as Q. rewrite <- Q. split; [reflexivity|]. destruct a as [|[|[|a]]]; cbn [nth]; lia.
Qed.
Lemma enough_places m level C cm cmap : fine_mesh m -> coarse_mesh (dim m) (mesh_grid m) level = Ok C -> coarse_data m cm C cmap ->
  dim m = 1 \/ divides_axes m level -> forall c, c < ncells cm -> cells_in cmap c <= ncells m / ncells cm + 1.
Proof.
  intros FM EC CD Hd c Hc. rewrite (cd_n CD) in *. destruct (@index_total _ _ _ _ Hc) as (B1 & B2 & B3 & B4).
  set (I := cell_to_i (cm_n C 0) c) in *. set (J := cell_to_j (cm_n C 0) (cm_n C 1) c) in *. set (K := cell_to_k (cm_n C 0) (cm_n C 1) c) in *.
  assert (EN : cells_in cmap c = nth I (c_count (cm_of C 0)) 0 * nth J (c_count (cm_of C 1)) 0 * nth K (c_count (cm_of C 2)) 0).
  { apply INR_eq. rewrite (count_sum CD). rewrite <- B4 at 1. apply (cd_count CD); auto. }
  rewrite EN. unfold cm_n in B1, B2, B3. unfold ncells. unfold cm_n.
  destruct Hd as [D1|DV].
  - destruct (@mesh_counts m level C 0 FM EC) as [(_ & C0 & N0)|(Q & _)]; [lia| |lia].
    destruct (@mesh_counts m level C 1 FM EC) as [(Q & _)|(_ & C1 & N1)]; [lia|lia|].
    destruct (@mesh_counts m level C 2 FM EC) as [(Q & _)|(_ & C2 & N2)]; [lia|lia|].
    cbn [nth] in C0, N0, N1, N2. rewrite C1, C2 in *. cbn [length] in *. replace J with 0 by lia. replace K with 0 by lia. cbn [nth]. rewrite N1, N2, !Nat.mul_1_r.
    apply (counts_spec C0 N0). apply nth_In. auto.
  - assert (A : forall a j, a < 3 -> j < length (c_count (cm_of C a)) ->
      exists p, 0 < p /\ nth j (c_count (cm_of C a)) 0 = p /\ nth a [ncx m; ncy m; ncz m] 0 = p * length (c_count (cm_of C a))).
    { intros a j Ha Hj. destruct (@mesh_counts m level C a FM EC Ha) as [(Q & CA & NA)|(Q & CA & NA)].
      - destruct (counts_spec CA NA (nth_In _ 0 Hj)) as (_ & H). destruct (H (DV a Q)) as (H1 & H2). exists level. repeat split; auto.
        destruct level; [rewrite H2 in NA; lia|lia].
      - exists 1. rewrite CA, NA in *. cbn [length] in *. replace j with 0 by lia. cbn. lia. }
    destruct (A 0 I ltac:(lia) B1) as (p0 & Q0 & -> & M0). destruct (A 1 J ltac:(lia) B2) as (p1 & Q1 & -> & M1). destruct (A 2 K ltac:(lia) B3) as (p2 & Q2 & -> & M2).
    cbn [nth] in M0, M1, M2. rewrite M0, M1, M2.
    set (n0 := length (c_count (cm_of C 0))) in *. set (n1 := length (c_count (cm_of C 1))) in *. set (n2 := length (c_count (cm_of C 2))) in *.
    replace (p0 * n0 * (p1 * n1) * (p2 * n2)) with (p0 * p1 * p2 * (n0 * n1 * n2)) by ring. assert (N0 : n0 <> 0) by lia. assert (N1 : n1 <> 0) by lia. assert (N2 : n2 <> 0) by lia.
    rewrite Nat.div_mul by (apply Nat.neq_mul_0; split; auto; apply Nat.neq_mul_0; auto). lia.
Qed.

(** ** Adjoint problems and cutoffs *)
Lemma adjoint_reads_beyond spec cut nreg n : spectrum_table spec (S cut) nreg -> 0 < nreg -> 0 < cut -> n = S cut -> coarse_spectrum spec (repeat 1 n) cut nreg = UB.
Proof.
  intros (LS & RS) Hr Hc ->. unfold coarse_spectrum. rewrite (@rd_ok _ spec 0 []) by lia. cbn [bind]. rewrite RS by lia. rewrite repeat_length.
  destruct nreg as [|nreg]; [lia|]. unfold for_ at 1. cbn [seq Nat.sub foldM].
  match goal with |- bind ?e _ = _ => enough (e = UB) as -> by reflexivity end.
  destruct cut as [|cut]; [lia|]. unfold for_ at 1. cbn [seq Nat.sub foldM repeat].
  unfold rd at 1. cbn [nth_error bind]. unfold for_ at 1. cbn [seq Nat.sub foldM fst snd].
  unfold rd2 at 1. rewrite (@rd_ok _ spec (S cut) []) by lia. cbn [bind]. rewrite (@rd_ok _ _ 0 0%R) by (rewrite RS by lia; lia). cbn [bind].
  unfold rd at 1. cbn [nth_error bind]. unfold Cmfd_Model.add_at at 1. unfold rd at 1. cbn [nth_error bind]. unfold wr at 1. cbn [length Nat.ltb Nat.leb bind].
  unfold wr at 1. cbn [length Nat.ltb Nat.leb bind upd]. unfold rd at 1. cbn [nth_error bind]. unfold for_ at 1. cbn [seq Nat.sub foldM fst snd].
  unfold rd2 at 1. unfold rd at 1. rewrite (proj2 (nth_error_None spec (S (S cut)))) by lia. reflexivity.
Qed.
Lemma cutoff_too_small cm cmat fis cut keff bc zero : 0 < cut <= ng cmat -> 0 < ncells cm ->
  loss_size (cmdsa_operator cm cmat fis false cut keff bc zero) < ng cmat * ncells cm.
Proof.
  intros Hc Hn. unfold loss_size, l_groups. cbn [cmdsa_operator l_cut l_adj l_mat l_mesh]. rewrite nrange_length.
  enough (forall k, k < ng cmat -> k * ncells cm < ng cmat * ncells cm) as Q; [apply Q|]; [lia|]. intros k Hk. nia.
Qed.

(** ** Odd numbers of cells in both directions of the plane, level two *)
Lemma counts_odd k : 2 <= k -> exists l, coarse_counts (2 * k + 1) 2 = Ok (3 :: l) /\ length l = k - 1.
Proof.
  intros Hk. unfold coarse_counts. change (2 =? 0) with false. cbv iota zeta.
  replace ((2 * k + 1) mod 2) with 1 by (rewrite Nat.add_comm, Nat.mul_comm, Nat.mod_add by lia; reflexivity).
  replace ((2 * k + 1 - 1) / 2) with k by (rewrite Nat.add_sub, Nat.mul_comm, Nat.div_mul by lia; reflexivity).
  destruct (Nat.eqb_spec k 1) as [->|_]; [lia|]. destruct k as [|k]; [lia|]. cbn. exists (repeat 2 k). split; auto. rewrite repeat_length. lia.
Qed.
Lemma odd_square m k : fine_mesh m -> dim m = 2 -> ncx m = 2 * k + 1 -> ncy m = 2 * k + 1 -> 2 <= k ->
  exists C, coarse_mesh (dim m) (mesh_grid m) 2 = Ok C /\ forall cm cmap, coarse_data m cm C cmap -> 0 < ncells cm /\ ncells m / ncells cm + 1 <= 7 /\ cells_in cmap 0 = 9.
Proof.
  intros FM HD NX NY Hk.
  assert (LO : level_ok (2 * k + 1) 2).
  { split; [lia|]. right. replace ((2 * k + 1) mod 2) with 1 by (rewrite Nat.add_comm, Nat.mul_comm, Nat.mod_add by lia; reflexivity).
    apply Nat.div_le_lower_bound; lia. }
  assert (EX : exists C, coarse_mesh (dim m) (mesh_grid m) 2 = Ok C).
  { destruct FM as ((L1 & L2 & _) & _). unfold coarse_mesh. rewrite HD. cbn [mapM Nat.ltb Nat.leb]. unfold fine_widths. cbn [Nat.ltb Nat.leb nth g_dx g_dy mesh_grid].
    destruct (coarsen_ok (w := mdx m) (level := 2)) as (c0 & -> & _); [rewrite L1, NX; auto|]. destruct (coarsen_ok (w := mdy m) (level := 2)) as (c1 & -> & _); [rewrite L2, NY; auto|].
    cbn [bind]. eauto. }
  destruct EX as (C & EC). exists C. split; auto. intros cm cmap CD. destruct (counts_odd Hk) as (l & El & Ll).
  destruct (@mesh_counts m 2 C 0 FM EC) as [(_ & C0 & _)|(Q & _)]; [lia| |lia].
  destruct (@mesh_counts m 2 C 1 FM EC) as [(_ & C1 & _)|(Q & _)]; [lia| |lia].
  destruct (@mesh_counts m 2 C 2 FM EC) as [(Q & _)|(_ & C2 & N2)]; [lia|lia|].
  cbn [nth] in C0, C1, N2. rewrite NX, El in C0. rewrite NY, El in C1. injection C0 as C0. injection C1 as C1.
  assert (N : forall a, a < 2 -> cm_n C a = k). { intros a Ha. unfold cm_n. destruct a as [|[|a]]; [rewrite <- C0|rewrite <- C1|]; cbn [length]; lia. }
  assert (NZ : cm_n C 2 = 1) by (unfold cm_n; rewrite C2; reflexivity).
  rewrite (cd_n CD). rewrite (N 0), (N 1), NZ by lia. split; [nia|]. split.
  - unfold ncells. rewrite NX, NY, N2, !Nat.mul_1_r. enough ((2 * k + 1) * (2 * k + 1) / (k * k) < 7) by lia. apply Nat.div_lt_upper_bound; nia.
  - apply INR_eq. rewrite (count_sum CD). pose proof (cd_count CD (I := 0) (J := 0) (K := 0)) as E. rewrite (N 0), (N 1), NZ in E by lia.
    specialize (E ltac:(lia) ltac:(lia) ltac:(lia)). rewrite <- C0, <- C1, C2 in E. cbn [nth] in E. unfold Mesh_Model.index in E. cbn [Nat.mul plus] in E. exact E.
Qed.
Lemma list_max_in l : l <> [] -> exists G, G < length l /\ nth G l 0 = list_max l.
Proof.
  induction l as [|a l IH]; [congruence|]. intros _. destruct l as [|b l].
  - exists 0. cbn. lia.
  - destruct IH as (G & HG & EG); [discriminate|]. change (list_max (a :: b :: l)) with (Nat.max a (list_max (b :: l))).
    destruct (Nat.max_spec a (list_max (b :: l))) as [(H & ->)|(H & ->)]; [exists (S G); cbn [length nth] in *; split; [lia|auto]|exists 0; cbn [length nth]; split; [lia|auto]].
Qed.
Lemma odd_square_loses srt m k ngroups cut fpc x : is_sort srt -> fine_mesh m -> dim m = 2 -> ncx m = 2 * k + 1 -> ncy m = 2 * k + 1 -> 2 <= k ->
  cut < ngroups -> grouping fpc (ngroups - cut) -> length x = (ngroups - cut) * ncells m -> (forall j, j < length x -> (0 < nth j x 0)%R) ->
  exists Z y, cpc_new srt m ngroups false cut 2 fpc = Ok Z /\ multiply (z_R Z) x = Ok y /\ ~ averaged m (z_cmap Z) (ncells (z_cm Z)) fpc x y.
Proof.
  intros Hs FM HD NX NY Hk Hc GR Hx Hp. destruct (odd_square FM HD NX NY Hk) as (C & EC & H).
  destruct (new_ok Hs FM EC GR) as (Z & EZ & CD & GM & ER). exists Z. destruct (H _ _ CD) as (H1 & H2 & H3).
  destruct (list_max_in (proj2 (proj2 GR))) as (G & HG & EG).
  destruct (@restrict_loses srt m ngroups cut 2 fpc C Hs FM EC GR Z x G 0 EZ Hx) as (y & Y1 & Y2 & _); auto.
  - intros j Hj. apply Hp. lia.
  - rewrite H3, EG. unfold restrict_room. assert (0 < list_max fpc). { rewrite <- EG. apply (proj1 (proj2 GR)), nth_In. auto. } nia.
  - exists y. auto.
Qed.

Lemma level_fits_ok m level : fine_mesh m -> level_fits m level -> exists C, coarse_mesh (dim m) (mesh_grid m) level = Ok C.
Proof.
  intros FM LF. destruct FM as ((L1 & L2 & L3 & _) & _). unfold coarse_mesh.
  assert (Q : forall a, a < 3 -> exists c, (if a <? dim m then coarsen (fine_widths (dim m) (mesh_grid m) a) level else Ok unused) = Ok c).
  { intros a Ha. destruct (Nat.ltb_spec a (dim m)) as [H|H]; [|eauto]. specialize (LF a H).
    destruct (@coarsen_ok (fine_widths (dim m) (mesh_grid m) a) level) as (c & E & _); [|eauto]. unfold fine_widths. rewrite (proj2 (Nat.ltb_lt _ _) H). cbn [g_dx g_dy g_dz mesh_grid].
    destruct a as [|[|[|a]]]; try lia; cbn [nth] in *; congruence. }
  destruct (Q 0 ltac:(lia)) as (c0 & E0). destruct (Q 1 ltac:(lia)) as (c1 & E1). destruct (Q 2 ltac:(lia)) as (c2 & E2).
  cbn [mapM]. rewrite E0. cbn [bind]. rewrite E1. cbn [bind]. rewrite E2. cbn [bind]. eauto.
Qed.

(** ** The properties *)
Section Final.
Variables (srt : list triplet -> list triplet) (m : mesh) (ngroups cut level : nat) (fpc : list nat).
Hypothesis Hsrt : is_sort srt.
Hypothesis FM : fine_mesh m.
Hypothesis LF : level_fits m level.
Hypothesis Hcut : cut < ngroups.
Hypothesis GR : grouping fpc (ngroups - cut).
Let nf := ncells m.
Let act := ngroups - cut.

Lemma final_restrict : exists Z, cpc_new srt m ngroups false cut level fpc = Ok Z /\
  (dim m = 1 \/ divides_axes m level -> even_cells nf (ncells (z_cm Z)) (z_cmap Z)) /\
  (even_cells nf (ncells (z_cm Z)) (z_cmap Z) -> forall x, length x = act * nf ->
    exists y, multiply (z_R Z) x = Ok y /\ length y = length fpc * ncells (z_cm Z) /\ averaged m (z_cmap Z) (ncells (z_cm Z)) fpc x y).
Proof.
  destruct (level_fits_ok FM LF) as (C & EC). destruct (new_ok Hsrt FM EC GR) as (Z & EZ & CD & _). exists Z. split; auto. split.
  - intros Hd c Hc. apply (enough_places FM EC CD Hd Hc).
  - intros EV x Hx. apply (restrict_averages Hsrt FM EC GR EZ EV Hx).
Qed.
Variables (spec : list (list R)) (nreg : nat) (reg : list nat) (Z : cpc).
Hypothesis TS : spectrum_table spec ngroups nreg.
Hypothesis RG : region_map m reg nreg.
Hypothesis EZ : cpc_new srt m ngroups false cut level fpc = Ok Z.
Hypothesis NZ : no_empty_group m fpc (at_cell spec reg cut).
Let nc := ncells (z_cm Z).
Lemma final_prolong : exists P, cpc_build srt m ngroups false cut fpc spec nreg reg Z = Ok P /\
  forall y, length y = length fpc * nc -> exists x, multiply P y = Ok x /\ length x = act * nf /\
    distributed m (z_cmap Z) nc fpc (at_cell spec reg cut) y x /\
    (even_cells nf nc (z_cmap Z) -> multiply (z_R Z) x = Ok y).
Proof.
  destruct (level_fits_ok FM LF) as (C & EC). destruct (build_ok Hsrt FM EC Hcut GR TS RG EZ) as (P & EP & _). exists P. split; auto. intros y Hy.
  destruct (prolong_distributes Hsrt FM EC Hcut GR TS RG EZ EP NZ Hy) as (x & E1 & E2 & E3). exists x. split; auto. split; auto. split; auto.
  intros EV. destruct (restrict_prolong Hsrt FM EC Hcut GR TS RG EZ EP EV NZ Hy) as (x' & F1 & F2). congruence.
Qed.
Lemma final_apply P sf lin V sv : cpc_build srt m ngroups false cut fpc spec nreg reg Z = Ok P -> even_cells nf nc (z_cmap Z) ->
  length V = act * nf -> sf V = Ok sv -> length sv = act * nf -> (forall b, length b = length fpc * nc -> exists e, lin b = Ok e /\ length e = length b) ->
  exists out r e v o, cmdsa_apply sf lin (z_R Z) P (length V) V = Ok out /\ length out = length V /\
    multiply (z_R Z) sv = Ok r /\ lin r = Ok e /\ multiply (z_R Z) V = Ok v /\ multiply (z_R Z) out = Ok o /\
    length o = length e /\ forall k, k < length o -> nth k o 0%R = (nth k v 0 + nth k e 0)%R.
Proof.
  intros EP EV HV E1 E2 HL. destruct (level_fits_ok FM LF) as (C & EC).
  apply (apply_restricts Hsrt FM EC Hcut GR TS RG EZ EP EV NZ HV E1 E2 HL).
Qed.
End Final.
