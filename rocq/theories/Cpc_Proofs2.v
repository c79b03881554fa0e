(** * Cpc_Proofs2: the maps of cells and groups, and the restriction. *)
From Verif Require Import Base BaseR Loop Mesh_Model Mesh_Spec Mesh_Proofs Material_Model Matrix_Model Matrix_Spec Matrix_Proofs Sweep_Model Region_Model Region_Spec Region_Proofs
  Tally_Model Tally_Spec Tally_Proofs Diffusion_Model Diffusion_Spec Cmfd_Model Cmfd_Spec Cmfd_Proofs Cpc_Model Cpc_Spec Cpc_Proofs.
Set Implicit Arguments.
Unset Strict Implicit.
Open Scope nat_scope.

(** ** Volumes *)
Lemma volume_vol m c : mesh_good m -> c < ncells m -> volume m c = Ok (vol m c).
Proof.
  intros (L1 & L2 & L3 & _ & _ & _ & _ & P1 & P2 & P3 & _) Hc. destruct (@index_total _ _ _ _ Hc) as (B1 & B2 & B3 & _).
  unfold volume. rewrite (@rd_ok _ (mdx m) _ 0%R), (@rd_ok _ (mdy m) _ 0%R), (@rd_ok _ (mdz m) _ 0%R) by lia. cbn [bind].
  unfold vol, wid, coord, cell_to_i, cell_to_j, cell_to_k. do 2 f_equal; [f_equal|]; f_equal.
  - rewrite Nat.mod_mul_r by lia. rewrite (Nat.mul_comm (ncx m)), Nat.div_add by lia.
    rewrite (Nat.div_small (c mod ncx m)) by (apply Nat.mod_upper_bound; lia). lia.
  - rewrite Nat.div_div by lia. reflexivity.
Qed.

(** ** The coarse mesh *)
Definition stuff (m : mesh) : mtl :=
  {| ng := 1; nm := S (list_max (map (mt m) (seq 0 (ncells m)))); st := fun _ _ => 1%R; sa := fun _ _ => 1%R; nsf := fun _ _ => 0%R; sf := fun _ _ => 0%R;
     nu := fun _ _ => 1%R; chi := fun _ _ => 0%R; ss := fun _ _ _ => 0%R; dc := fun _ _ => 1%R; b0 := fun _ => 0; b1 := fun _ => 0; b2 := fun _ => 0; b3 := fun _ => 0;
     cut0 := 1; cut1 := 0; ds0 := false; ds1 := false; fin := true |}.
Definition carrier (m : mesh) : problem :=
  {| u_mesh := m; u_mat := stuff m; u_adj := false; u_mult := false; u_bc := fun _ => None; u_zero := false; u_correct := false; u_dc := PHI_D; u_omega := 1%R |}.
Lemma carrier_ok m : fine_mesh m -> problem_ok (carrier m).
Proof.
  intros (G & H1 & H2). unfold problem_ok. cbn [u_mesh u_mat carrier]. split; [auto|]. split; [auto|]. split; [auto|]. cbn [ng nm stuff st dc sf nsf nu ss].
  split; [lia|]. split.
  - intros c Hc. apply Nat.lt_succ_r. assert (F := proj1 (list_max_le (map (mt m) (seq 0 (ncells m))) _) (le_n _)).
    rewrite Forall_forall in F. apply F. apply in_map_iff. exists c. split; auto. apply in_seq. lia.
  - intros g k _ _. repeat split; try lra. intros; lra.
Qed.
Record coarse_data (m cm : mesh) (C : cmesh) (cmap : list nat) : Prop := {
  cd_of : coarse_of C = Ok cm;
  cd_map : coarse_map C = Ok cmap;
  cd_len : length cmap = ncells m;
  cd_pos : 0 < ncells cm;
  cd_lt : forall i, i < ncells m -> nth i cmap 0 < ncells cm;
  cd_onto : forall c, c < ncells cm -> exists i, i < ncells m /\ nth i cmap 0 = c;
  cd_vol : forall i, i < ncells m -> volume m i = Ok (vol m i) /\ (0 < vol m i)%R;
  cd_cvol : forall c, c < ncells cm -> volume cm c = Ok (region_sum (ncells m) cmap c (vol m));
  cd_n : ncells cm = cm_n C 0 * cm_n C 1 * cm_n C 2;
  cd_count : forall I J K, I < cm_n C 0 -> J < cm_n C 1 -> K < cm_n C 2 ->
    region_sum (ncells m) cmap (Mesh_Model.index (cm_n C 0) (cm_n C 1) I J K) (fun _ => 1%R) =
    INR (nth I (c_count (cm_of C 0)) 0 * nth J (c_count (cm_of C 1)) 0 * nth K (c_count (cm_of C 2)) 0)
}.
Lemma across_const C a I : across C a I (fun _ => 1%R) = INR (nth I (c_count (cm_of C a)) 0).
Proof. unfold across, Region_Spec.block_sum. induction (nth I (c_count (cm_of C a)) 0) as [|k IH]; [reflexivity|]. rewrite S_INR. cbn [rsum]. rewrite IH. reflexivity. Qed.
Lemma across_cst C a I c : across C a I (fun _ => c) = (c * INR (nth I (c_count (cm_of C a)) 0%nat))%R.
Proof. rewrite <- across_const. unfold across, Region_Spec.block_sum. rewrite <- rsum_scal. apply rsum_ext. intros. ring. Qed.
Lemma coarse_data_ok m level C : fine_mesh m -> coarse_mesh (dim m) (mesh_grid m) level = Ok C -> exists cm cmap, coarse_data m cm C cmap.
Proof.
  intros FM EC. pose proof (carrier_ok FM) as HP. set (U := carrier m) in *.
  assert (HC : coarse_mesh (dim (u_mesh U)) (grid_of U 0) level = Ok C) by exact EC.
  destruct (coarse_exists HP HC) as (cm & G). destruct (map_exists HP HC) as (cmap & EM & LM & VM). cbn [U u_mesh carrier] in LM, VM.
  assert (CV : forall i, i < ncells m -> vol m i = cvol U i).
  { intros i Hi. pose proof (volume_ok HP (c := i) Hi) as E1. pose proof (volume_vol (proj1 FM) Hi) as E2.
    cbn [u_mesh U carrier] in E1. congruence. }
  exists cm, cmap. pose proof G as (G1 & G2 & G3 & G4 & G5 & G6).
  assert (NC : ncells cm = cm_n C 0 * cm_n C 1 * cm_n C 2).
  { unfold ncells. rewrite <- (G4 0), <- (G4 1), <- (G4 2) by lia. reflexivity. }
  constructor; auto.
  - destruct G2 as (_ & _ & _ & _ & _ & _ & _ & P1 & P2 & P3 & _). unfold ncells. nia.
  - intros i Hi. apply (map_lt HP HC EM G). exact Hi.
  - intros c Hc. apply (map_onto HP HC EM G). exact Hc.
  - intros i Hi. split; [apply volume_vol; auto; apply FM|]. rewrite CV by auto. apply (cvol_pos HP (c := i)). exact Hi.
  - intros c Hc. rewrite (volume_vol G2) by auto. f_equal. destruct (coarse_ijk G Hc) as (I & J & K & HI & HJ & HK & ->).
    rewrite (coarse_volume HP HC EM G) by auto. apply rsum_ext. intros i Hi. rewrite CV by auto. reflexivity.
  - intros I J K HI HJ HK. pose proof (coarse_region HP HC (fun _ => 1%R) EM HI HJ HK) as E. cbn [U u_mesh carrier] in E. rewrite E.
    rewrite !mult_INR. rewrite across_const. rewrite !across_cst. ring.
Qed.

(** ** The map of the groups *)
Definition groups_mapped (fpc gm : list nat) (act : nat) : Prop :=
  length gm = act /\ forall G g, G < length fpc -> psum fpc G <= g < psum fpc (S G) -> nth g gm 0 = G.
Lemma group_map_ok act fpc : list_sum fpc = act -> exists gm, f2c_group_map act fpc = Ok gm /\ groups_mapped fpc gm act.
Proof.
  intros ES. unfold f2c_group_map.
  match goal with |- context [for_ 0 (length fpc) ?s0 ?b0] =>
    destruct (@for_inv _ (fun cg s => snd s = psum fpc cg /\ length (fst s) = act /\
      forall G g, G < cg -> psum fpc G <= g < psum fpc (S G) -> nth g (fst s) 0 = G) 0 (length fpc) s0 b0) as (s & E & _ & L & V) end.
  - lia.
  - cbn. rewrite repeat_length. repeat split; auto. intros; lia.
  - intros cg s Hcg (E1 & L1 & V1). rewrite (@rd_ok _ fpc cg 0) by lia. cbn [bind]. set (k := nth cg fpc 0).
    assert (PB : psum fpc cg + k <= act).
    { unfold k. rewrite <- psum_S, <- ES, <- psum_all. apply psum_mono. lia. }
    match goal with |- exists s', for_ 0 k ?s0 ?b0 = _ /\ _ =>
      destruct (@for_inv _ (fun i s => snd s = psum fpc cg + i /\ length (fst s) = act /\
        (forall G g, G < cg -> psum fpc G <= g < psum fpc (S G) -> nth g (fst s) 0 = G) /\
        forall g, psum fpc cg <= g < psum fpc cg + i -> nth g (fst s) 0 = cg) 0 k s0 b0) as (s' & E' & Q1 & Q2 & Q3 & Q4) end.
    + lia.
    + split; [lia|]. split; [auto|]. split; [exact V1|]. intros g Hg. lia.
    + intros i s1 Hi (R1 & R2 & R3 & R4). unfold wr. rewrite R1, R2, (proj2 (Nat.ltb_lt _ _)) by lia. cbn [bind fst snd].
      eexists. split; [reflexivity|]. cbn [fst snd]. rewrite upd_length. split; [lia|]. split; auto. split.
      * intros G g HG Hg. assert (psum fpc (S G) <= psum fpc cg) by (apply psum_mono; lia). rewrite nth_upd_neq by lia. apply R3; auto.
      * intros g Hg. destruct (Nat.eq_dec g (psum fpc cg + i)) as [->|N]; [apply nth_upd_eq; lia|]. rewrite nth_upd_neq by lia. apply R4. lia.
    + exists s'. split; auto. rewrite psum_S. split; auto. split; auto. intros G g HG Hg.
      destruct (Nat.eq_dec G cg) as [->|N]; [apply Q4; rewrite psum_S in Hg; auto|apply Q3; auto; lia].
  - rewrite E. cbn [bind]. exists (fst s). split; auto. split; auto.
Qed.
Lemma gm_iff fpc gm act G g : groups_mapped fpc gm act -> list_sum fpc = act -> G < length fpc -> g < act ->
  nth g gm 0 = G <-> psum fpc G <= g < psum fpc (S G).
Proof.
  intros (L & V) ES HG Hg. split; [|apply V; auto]. intros E.
  destruct (@psum_block_exists fpc g) as (I & HI & B); [lia|]. rewrite (V I g HI B) in E. subst I. auto.
Qed.
Lemma gm_lt fpc gm act g : groups_mapped fpc gm act -> list_sum fpc = act -> g < act -> nth g gm 0 < length fpc.
Proof. intros (L & V) ES Hg. destruct (@psum_block_exists fpc g) as (I & HI & B); [lia|]. rewrite (V I g HI B). auto. Qed.
Lemma gm_onto fpc gm act G : groups_mapped fpc gm act -> grouping fpc act -> G < length fpc -> exists g, g < act /\ nth g gm 0 = G.
Proof.
  intros (L & V) (ES & P & _) HG. assert (0 < nth G fpc 0) by (apply P, nth_In; auto). exists (psum fpc G).
  assert (psum fpc (S G) <= act) by (rewrite <- ES, <- psum_all; apply psum_mono; lia). rewrite psum_S in H0.
  split; [lia|]. apply V; auto. rewrite psum_S. lia.
Qed.
Lemma gm_sum fpc gm act G f : groups_mapped fpc gm act -> list_sum fpc = act -> G < length fpc ->
  rsum act (fun g => if nth g gm 0 =? G then f g else 0%R) = Region_Spec.block_sum fpc G f.
Proof.
  intros GM ES HG. unfold Region_Spec.block_sum. assert (PB : psum fpc (S G) <= act) by (rewrite <- ES, <- psum_all; apply psum_mono; lia).
  rewrite psum_S in PB. set (k := nth G fpc 0) in *. replace act with (psum fpc G + (k + (act - psum fpc G - k))) at 1 by lia.
  rewrite !rsum_split. rewrite (rsum_zero (n := psum fpc G)), (rsum_zero (n := act - psum fpc G - k)).
  - rewrite Rplus_0_l, Rplus_0_r. apply rsum_ext. intros i Hi. rewrite (proj2 (Nat.eqb_eq _ _)); auto.
    apply (gm_iff GM ES HG); [lia|]. rewrite psum_S. fold k. lia.
  - intros i Hi. destruct (Nat.eqb_spec (nth (psum fpc G + (k + i)) gm 0) G) as [E|E]; auto.
    apply (gm_iff GM ES HG) in E; [|lia]. rewrite psum_S in E. fold k in E. lia.
  - intros i Hi. destruct (Nat.eqb_spec (nth i gm 0) G) as [E|E]; auto.
    apply (gm_iff GM ES HG) in E; [|lia]. lia.
Qed.

Lemma count_region l c : INR (cells_in l c) = rsum (length l) (fun i => if nth i l 0 =? c then 1%R else 0%R).
Proof.
  unfold cells_in. induction l as [|a l IH] using rev_ind; [reflexivity|].
  rewrite count_occ_app, plus_INR, IH, app_length. cbn [length]. rewrite Nat.add_1_r. cbn [rsum]. f_equal.
  - apply rsum_ext. intros i Hi. rewrite app_nth1 by auto. reflexivity.
  - rewrite nth_middle. cbn. destruct (Nat.eq_dec a c) as [->|N]; [rewrite Nat.eqb_refl; reflexivity|].
    rewrite (proj2 (Nat.eqb_neq _ _) N). reflexivity.
Qed.

Lemma fpc_max fpc G : nth G fpc 0 <= list_max fpc.
Proof.
  destruct (le_lt_dec (length fpc) G) as [L|L]; [rewrite nth_overflow by auto; lia|].
  assert (F := proj1 (list_max_le fpc _) (le_n _)). rewrite Forall_forall in F. apply F, nth_In. auto.
Qed.

(** ** The restriction *)
Section Restrict.
Variables (srt : list triplet -> list triplet) (m cm : mesh) (C : cmesh) (cmap gm fpc : list nat) (act : nat).
Hypothesis Hsrt : is_sort srt.
Hypothesis CD : coarse_data m cm C cmap.
Hypothesis GM : groups_mapped fpc gm act.
Hypothesis GR : grouping fpc act.
Let nf := ncells m.
Let nc := ncells cm.
Let cap := restrict_room nf nc fpc.
Let row k := nth (k / nf) gm 0 * nc + nth (k mod nf) cmap 0.
Let rv c := region_sum nf cmap c (vol m).
Let val k := (vol m (k mod nf) / rv (nth (k mod nf) cmap 0%nat))%R.

Lemma nf_pos : 0 < nf.
Proof. destruct (cd_onto CD (cd_pos CD)) as (i & Hi & _). unfold nf. lia. Qed.
Lemma rv_pos c : c < nc -> (0 < rv c)%R.
Proof.
  intros Hc. destruct (cd_onto CD Hc) as (i & Hi & Ei). unfold rv, region_sum. fold nf in Hi.
  assert (forall n, n <= nf -> (0 <= rsum n (fun c0 => if nth c0 cmap 0%nat =? c then vol m c0 else 0))%R).
  { intros n Hn. apply rsum_nonneg. intros j Hj. destruct (nth j cmap 0 =? c); [|lra]. apply Rlt_le. apply (cd_vol CD). fold nf. lia. }
  replace nf with (i + S (nf - i - 1)) by lia. rewrite rsum_split. specialize (H i ltac:(lia)).
  replace (S (nf - i - 1)) with (1 + (nf - i - 1)) by lia. rewrite rsum_split.
  assert (0 < rsum 1 (fun i0 => if nth (i + i0)%nat cmap 0%nat =? c then vol m (i + i0)%nat else 0))%R.
  { cbn. rewrite Nat.add_0_r, Ei, Nat.eqb_refl. pose proof (proj2 (cd_vol CD Hi)). lra. }
  assert (0 <= rsum (nf - i - 1) (fun i0 => if nth (i + (1 + i0))%nat cmap 0%nat =? c then vol m (i + (1 + i0))%nat else 0))%R.
  { apply rsum_nonneg. intros j Hj. destruct (nth (i + (1 + j)) cmap 0 =? c); [|lra]. apply Rlt_le. apply (cd_vol CD). fold nf. lia. }
  lra.
Qed.
Lemma split_k k : k < act * nf -> k / nf < act /\ k mod nf < nf.
Proof. intros H. pose proof nf_pos. split; [apply Nat.div_lt_upper_bound; lia|apply Nat.mod_upper_bound; lia]. Qed.
Lemma row_lt k : k < act * nf -> row k < length fpc * nc.
Proof.
  intros H. destruct (split_k H) as (H1 & H2). pose proof (gm_lt GM (proj1 GR) H1). pose proof (cd_lt CD H2). fold nc in H3. unfold row. nia.
Qed.
Lemma row_iff g i G c : g < act -> i < nf -> G < length fpc -> c < nc ->
  row (i + g * nf) = G * nc + c <-> nth g gm 0 = G /\ nth i cmap 0 = c.
Proof.
  intros Hg Hi HG Hc. unfold row. rewrite Nat.div_add, Nat.mod_add by (pose proof nf_pos; lia).
  rewrite Nat.div_small, Nat.mod_small by auto. cbn [plus]. pose proof (cd_lt CD Hi). fold nc in H. split.
  - intros E. assert (nth g gm 0 = G) by nia. split; auto. nia.
  - intros (-> & ->). reflexivity.
Qed.
Lemma row_onto r : r < length fpc * nc -> exists k, k < act * nf /\ row k = r.
Proof.
  intros H. pose proof (cd_pos CD) as PC. fold nc in PC.
  assert (HG : r / nc < length fpc) by (apply Nat.div_lt_upper_bound; lia).
  assert (Hc : r mod nc < nc) by (apply Nat.mod_upper_bound; lia).
  destruct (gm_onto GM GR HG) as (g & Hg & Eg). destruct (cd_onto CD Hc) as (i & Hi & Ei). fold nf in Hi.
  exists (i + g * nf). split; [nia|]. transitivity (r / nc * nc + r mod nc); [apply row_iff; auto|].
  rewrite (Nat.div_mod_eq r nc) at 3. lia.
Qed.
(** Sums over the entries of a row. *)
Lemma row_sum (f : nat -> nat -> R) G c : G < length fpc -> c < nc ->
  rsum (act * nf) (fun k => if row k =? G * nc + c then f (k / nf) (k mod nf) else 0%R) =
  Region_Spec.block_sum fpc G (fun g => region_sum nf cmap c (f g)).
Proof.
  intros HG Hc. rewrite <- (gm_sum _ GM (proj1 GR) HG). rewrite Nat.mul_comm, rsum_prod2. apply rsum_ext. intros g Hg. unfold region_sum.
  destruct (Nat.eqb_spec (nth g gm 0) G) as [EG|NG].
  - apply rsum_ext. intros i Hi. rewrite Nat.div_add, Nat.mod_add by lia. rewrite Nat.div_small, Nat.mod_small by auto. cbn [plus].
    destruct (Nat.eqb_spec (nth i cmap 0) c) as [E|N].
    + rewrite (proj2 (Nat.eqb_eq _ _)); auto. apply row_iff; auto.
    + rewrite (proj2 (Nat.eqb_neq _ _)); auto. intros E. apply row_iff in E; auto. tauto.
  - apply rsum_zero. intros i Hi. rewrite (proj2 (Nat.eqb_neq _ _)); auto. intros E. apply row_iff in E; auto. tauto.
Qed.
Lemma count_sum c : INR (cells_in cmap c) = region_sum nf cmap c (fun _ => 1%R).
Proof. unfold region_sum. rewrite <- (cd_len CD : length cmap = nf). apply count_region. Qed.
Lemma length_hits r k : INR (length (hits row r k)) = rsum k (fun j => if row j =? r then 1%R else 0%R).
Proof.
  induction k as [|k IH]; [reflexivity|]. rewrite hits_S, app_length, plus_INR, IH. cbn [rsum]. f_equal. destruct (row k =? r); reflexivity.
Qed.
Lemma hits_count G c : G < length fpc -> c < nc -> length (hits row (G * nc + c) (act * nf)) = nth G fpc 0 * cells_in cmap c.
Proof.
  intros HG Hc. apply INR_eq. rewrite length_hits, (row_sum (fun _ _ => 1%R) HG Hc), mult_INR, count_sum.
  unfold Region_Spec.block_sum. generalize (region_sum nf cmap c (fun _ => 1%R)). intros z.
  induction (nth G fpc 0) as [|k IH]; [cbn; ring|]. cbn [rsum]. rewrite IH, S_INR. ring.
Qed.
Lemma cap_pos : 0 < cap.
Proof.
  unfold cap, restrict_room. destruct GR as (_ & P & N). destruct fpc as [|a l]; [congruence|].
  assert (0 < a) by (apply P; left; auto). pose proof (Nat.le_max_l a (list_max l)). cbn [list_max]. cbn in *. nia.
Qed.
Lemma restrict_loop : build_restrict srt m cm cmap gm fpc act =
  bind (fill_loop (act * nf) row (fun k => k) val (preallocate (repeat cap (length fpc * nc)))) (assemble srt (act * nf)).
Proof.
  unfold build_restrict. cbv zeta. fold nf nc cap. unfold fill_loop. rewrite (Nat.mul_comm act nf). rewrite for_prod. f_equal.
  apply for_ext. intros g A (_ & Hg). apply for_ext. intros i B (_ & Hi).
  rewrite (@rd_ok _ cmap i 0) by (rewrite (cd_len CD); auto). cbn [bind]. rewrite (@rd_ok _ gm g 0) by (rewrite (proj1 GM); auto). cbn [bind].
  rewrite (proj1 (cd_vol CD Hi)). cbn [bind]. rewrite (cd_cvol CD (cd_lt CD Hi)). cbn [bind].
  unfold row, val, rv. rewrite Nat.div_add, Nat.mod_add by lia. rewrite Nat.div_small, Nat.mod_small by auto. cbn [plus].
  rewrite (Nat.add_comm i). reflexivity.
Qed.
Lemma restrict_ok : exists R, build_restrict srt m cm cmap gm fpc act = Ok R /\
  forall x, length x = act * nf -> exists y, multiply R x = Ok y /\ length y = length fpc * nc /\
  (forall G c, G < length fpc -> c < nc -> nth G fpc 0 * cells_in cmap c <= cap ->
    (entry y nc G c * rv c = Region_Spec.block_sum fpc G (fun g => region_sum nf cmap c (fun i => vol m i * entry x nf g i)))%R) /\
  (forall G c, G < length fpc -> c < nc -> cap < nth G fpc 0 * cells_in cmap c -> (forall k, k < act * nf -> (0 < nth k x 0)%R) ->
    (entry y nc G c * rv c < Region_Spec.block_sum fpc G (fun g => region_sum nf cmap c (fun i => vol m i * entry x nf g i)))%R).
Proof.
  rewrite restrict_loop.
  destruct (@fill_multiply srt (length fpc * nc) (act * nf) (act * nf) cap row (fun k => k) val Hsrt) as (A & R & E1 & E2 & E3).
  - intros k Hk. apply row_lt. auto.
  - auto.
  - apply cap_pos.
  - apply row_onto.
  - exists R. rewrite E1. cbn [bind]. split; auto. intros x Hx. eexists. split; [apply E3; auto|].
    rewrite map_length, seq_length. split; auto.
    assert (Y : forall G c, G < length fpc -> c < nc ->
      entry (map (row_value (act * nf) cap row (fun k => k) val x) (seq 0 (length fpc * nc))) nc G c = row_value (act * nf) cap row (fun k => k) val x (G * nc + c)).
    { intros G c HG Hc. unfold entry. rewrite nth_map_seq by nia. f_equal. lia. }
    assert (W : forall G c, G < length fpc -> c < nc ->
      (rsum (act * nf) (fun k => if row k =? (G * nc + c)%nat then val k * nth k x 0 else 0) * rv c =
       Region_Spec.block_sum fpc G (fun g => region_sum nf cmap c (fun i => vol m i * entry x nf g i)))%R).
    { intros G c HG Hc. pose proof (rv_pos Hc) as PV. rewrite <- row_sum by auto. rewrite <- rsum_scal_r. apply rsum_ext. intros k Hk.
      destruct (Nat.eqb_spec (row k) (G * nc + c)) as [E|N]; [|ring].
      assert (Ec : nth (k mod nf) cmap 0 = c).
      { destruct (split_k Hk) as (B1 & B2). apply (@row_iff (k / nf) (k mod nf) G c); auto. rewrite <- E. f_equal.
        rewrite (Nat.div_mod_eq k nf) at 3. lia. }
      unfold val, entry. rewrite Ec. replace (k mod nf + k / nf * nf) with k by (rewrite (Nat.div_mod_eq k nf) at 1; lia). field. lra. }
    split.
    + intros G c HG Hc Hcap. rewrite Y by auto. rewrite row_value_all by (rewrite hits_count; auto). apply W; auto.
    + intros G c HG Hc Hcap Hp. rewrite Y by auto. rewrite <- W by auto. pose proof (rv_pos Hc) as PV. apply Rmult_lt_compat_r; auto.
      apply row_value_less; [rewrite hits_count; auto|]. intros k Hk Ek. apply Rmult_lt_0_compat; [|apply Hp; auto].
      destruct (split_k Hk) as (B1 & B2). unfold val. apply Rdiv_lt_0_compat; [apply (cd_vol CD B2)|]. apply rv_pos. apply (cd_lt CD B2).
Qed.
End Restrict.
