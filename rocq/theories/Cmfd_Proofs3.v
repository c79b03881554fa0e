(** * Cmfd_Proofs3: the averages, the action of the coarse matrix, and the residual. *)
From Coquelicot Require Import Coquelicot.
From Verif Require Import Base BaseR Loop Mesh_Model Mesh_Spec Mesh_Proofs Material_Model Material_Spec Material_Proofs Matrix_Model Matrix_Spec Angle_Model Angle_Spec
  Boundary_Model Boundary_Spec Cell_Spec Sweep_Model Sweep_Spec Region_Model Region_Spec Region_Proofs Homog_Proofs Tally_Model Tally_Spec Tally_Proofs Tally_Proofs2 Tally_Proofs3 Tally_Proofs4 Tally_Proofs5 Tally_Proofs6 Tally_Proofs7
  Diffusion_Model Diffusion_Spec Diffusion_Proofs Cmfd_Model Cmfd_Spec Cmfd_Proofs Cmfd_Proofs2.
Open Scope nat_scope.
Set Implicit Arguments. Unset Strict Implicit.

Lemma add_at_ok v i x : i < length v -> exists v', add_at v i x = Ok v' /\ length v' = length v /\
  forall j, j < length v -> nth j v' 0%R = (nth j v 0 + if (j =? i)%nat then x else 0)%R.
Proof.
  intros H. unfold add_at. rewrite (@rd_ok _ v i 0%R) by auto. cbn [bind]. unfold wr. rewrite (proj2 (Nat.ltb_lt _ _) H).
  eexists. split; [reflexivity|]. split; [apply upd_length|]. intros j Hj. destruct (Nat.eqb_spec j i) as [->|N].
  - rewrite nth_upd_eq by auto. auto.
  - rewrite nth_upd_neq by auto. ring.
Qed.
Lemma pair_inj a b g h n : a < n -> b < n -> a + g * n = b + h * n -> a = b /\ g = h.
Proof. intros Ha Hb E. assert (g = h) by nia. subst. lia. Qed.

Section System.
Variables (U : problem) (C : cmesh) (level : nat).
Let m := u_mesh U.
Let D := Mesh_Model.dim m.
Let n := ncells m.
Let x := u_mat U.
Let G := ng x.
Hypothesis HP : problem_ok U.
Hypothesis HC : coarse_mesh D (grid_of U 0) level = Ok C.
Variables (cm : mesh) (cmap : list nat).
Hypothesis GC : coarse_good U C cm.
Hypothesis EM : coarse_map C = Ok cmap.
Let nc := ncells cm.

Lemma wid_cvol c : c < nc -> volume cm c = Ok (vol cm c).
Proof.
  intros Hc. destruct (cell_ex Hc) as (i & j & k & I & ->). unfold vol. rewrite !(wid_cell _ I). cbn [crd axis_widths_of].
  destruct GC as (_ & (L1 & L2 & L3 & _) & _). destruct I as (I1 & I2 & I3).
  unfold volume. pose proof (@cell_pos cm i j k (conj I1 (conj I2 I3))) as P.
  pose proof (P 0) as P0. pose proof (P 1) as P1. pose proof (P 2) as P2. unfold pos in P0, P1, P2. cbn [crd] in P0, P1, P2. rewrite P0, P1, P2.
  rewrite (@rd_ok _ (mdx cm) i 0%R), (@rd_ok _ (mdy cm) j 0%R), (@rd_ok _ (mdz cm) k 0%R) by lia. reflexivity.
Qed.

(** Averages. *)
Definition pavg (v : list (list R)) (k g c : nat) : R :=
  rsum k (fun i => if nth i cmap 0%nat =? c then (val2 v g i * (cvol U i / vol cm c))%R else 0%R).
Lemma pavg_all v g c : c < nc -> pavg v n g c = (RS U cmap c (val2 v g) / vol cm c)%R.
Proof.
  intros Hc. unfold pavg, RS, region_sum, Rdiv. rewrite Rmult_comm, <- rsum_scal. apply rsum_ext. intros i _. destruct (_ =? c); [ring|ring].
Qed.
Definition done (g i g' : nat) : nat := if g' <? g then n else if g' =? g then i else 0.
Definition avg_inv (q phi : list (list R)) (g i : nat) (s : list R * list R) : Prop :=
  length (fst s) = G * nc /\ length (snd s) = G * nc /\
  forall g' c, g' < G -> c < nc -> nth (c + g' * nc) (fst s) 0%R = pavg q (done g i g') g' c /\
    nth (c + g' * nc) (snd s) 0%R = pavg phi (done g i g') g' c.
Lemma rd2_ok v g i : shape U v -> g < G -> i < n -> rd2 v g i = Ok (val2 v g i).
Proof.
  intros (L & LL) Hg Hi. unfold rd2. rewrite (@rd_ok _ v g []) by (rewrite L; auto). cbn [bind]. rewrite (@rd_ok _ _ i 0%R) by (rewrite LL; auto). reflexivity.
Qed.
Lemma averages_ok q phi : shape U q -> shape U phi -> exists b x0, averages m cm cmap G q phi = Ok (b, x0) /\
  length b = G * nc /\ length x0 = G * nc /\
  forall g c, g < G -> c < nc -> nth (c + g * nc) b 0%R = (RS U cmap c (val2 q g) / vol cm c)%R /\
    nth (c + g * nc) x0 0%R = (RS U cmap c (val2 phi g) / vol cm c)%R.
Proof.
  intros SQ SP. unfold averages. fold nc n.
  destruct (@for_inv _ (fun g s => avg_inv q phi g 0 s) 0 G (repeat 0%R (G * nc), repeat 0%R (G * nc))
    (fun g s => for_ 0 n s (fun i s =>
      do cc <- rd cmap i;
      let ci := cc + g * nc in
      do v <- volume m i; do vc <- volume cm cc;
      let v_ratio := (v / vc)%R in
      do qi <- rd2 q g i; do pi <- rd2 phi g i;
      do b <- add_at (fst s) ci (qi * v_ratio)%R;
      do x <- add_at (snd s) ci (pi * v_ratio)%R;
      Ok (b, x)))) as ((b & x0) & E & L1 & L2 & V).
  - lia.
  - split; [apply repeat_length|]. split; [apply repeat_length|]. intros g' c Hg Hc. cbn [fst snd].
    rewrite nth_repeat_lt by (change (c + g' * nc < G * nc); nia). unfold done. cbn [Nat.ltb Nat.leb]. destruct (g' =? 0); auto.
  - intros g s Hg (L1 & L2 & V).
    destruct (@for_inv _ (fun i s => avg_inv q phi g i s) 0 n s
    (fun i s =>
      do cc <- rd cmap i;
      let ci := cc + g * nc in
      do v <- volume m i; do vc <- volume cm cc;
      let v_ratio := (v / vc)%R in
      do qi <- rd2 q g i; do pi <- rd2 phi g i;
      do b <- add_at (fst s) ci (qi * v_ratio)%R;
      do x <- add_at (snd s) ci (pi * v_ratio)%R;
      Ok (b, x))) as (s' & E & L1' & L2' & V').
    + lia.
    + split; auto.
    + clear s L1 L2 V. intros i s Hi (L1 & L2 & V). pose proof (cmap_len HP HC EM) as CL. fold m n in CL.
      rewrite (@rd_ok _ cmap i 0) by lia. cbn [bind]. set (cc := nth i cmap 0).
      assert (Hcc : cc < nc) by (apply (map_lt HP HC EM GC); exact (proj2 Hi)).
      pose proof (volume_ok HP (proj2 Hi)) as VI. fold m in VI. rewrite VI, (wid_cvol Hcc). cbn [bind]. rewrite (rd2_ok SQ), (rd2_ok SP) by (auto; lia). cbn [bind].
      assert (IN : cc + g * nc < G * nc) by nia.
      destruct (@add_at_ok (fst s) (cc + g * nc) (val2 q g i * (cvol U i / vol cm cc))) as (b' & Eb & Lb & Vb); [lia|].
      destruct (@add_at_ok (snd s) (cc + g * nc) (val2 phi g i * (cvol U i / vol cm cc))) as (x' & Ex & Lx & Vx); [lia|].
      rewrite Eb. cbn [bind]. rewrite Ex. cbn [bind]. eexists. split; [reflexivity|]. split; [cbn; lia|]. split; [cbn; lia|].
      intros g' c Hg' Hc. cbn [fst snd]. destruct (V g' c Hg' Hc) as (V1 & V2).
      assert (IN' : c + g' * nc < G * nc) by nia.
      rewrite Vb, Vx, V1, V2 by lia.
      assert (KEY : forall v, (pavg v (done g i g') g' c + (if (c + g' * nc =? cc + g * nc)%nat then val2 v g i * (cvol U i / vol cm cc) else 0) = pavg v (done g (S i) g') g' c)%R).
      { intros v. unfold done. destruct (Nat.eqb_spec (c + g' * nc) (cc + g * nc)) as [E|N].
        - destruct (@pair_inj c cc g' g nc) as (-> & ->); auto. rewrite Nat.ltb_irrefl, Nat.eqb_refl. unfold pavg. cbn [rsum]. fold cc. rewrite Nat.eqb_refl. auto.
        - destruct (g' <? g); [ring|]. destruct (Nat.eqb_spec g' g) as [->|]; [|ring]. unfold pavg. cbn [rsum]. fold cc.
          destruct (Nat.eqb_spec cc c) as [->|]; [contradiction|]. ring. }
      split; apply KEY.
    + exists s'. split; auto. split; auto. split; auto. intros g' c Hg' Hc. destruct (V' g' c Hg' Hc) as (V1 & V2).
      assert (ED : done g n g' = done (S g) 0 g').
      { unfold done. destruct (Nat.ltb_spec g' g), (Nat.ltb_spec g' (S g)), (Nat.eqb_spec g' g), (Nat.eqb_spec g' (S g)); auto; lia. }
      rewrite <- ED. auto.
  - exists b, x0. split; [exact E|]. split; [exact L1|]. split; [exact L2|]. intros g c Hg Hc. destruct (V g c Hg Hc) as (V1 & V2). cbn [fst snd] in V1, V2.
    rewrite V1, V2. unfold done. rewrite (proj2 (Nat.ltb_lt _ _) Hg), !pavg_all by auto. auto.
Qed.

(** Currents. *)
Definition readable (T : tally) : Prop := tally_for C T \/ forall I J K axis s x, partial_current C T I J K axis s = Ok x -> x = 0%R.
Lemma partial_ok T I J K axis s : tally_for C T -> axis < D -> s < 2 ->
  I < cm_n C 0 + (if axis =? 0 then 1 else 0) -> J < cm_n C 1 + (if axis =? 1 then 1 else 0) -> K < cm_n C 2 + (if axis =? 2 then 1 else 0) ->
  exists v, partial_current C T I J K axis s = Ok v.
Proof.
  intros HT Ha Hs HI HJ HK. pose proof (dim_range HP) as HD. fold m D in HD.
  eexists. apply partial_current_val with (dim := D); auto; try lia.
  unfold sizes. pose proof (facts HP HC) as F. fold m D in F. rewrite (cf_dim F), (proj2 (Nat.ltb_lt _ _) Ha).
  destruct axis as [|[|[|axis]]]; cbn [Nat.eqb nth] in *; try lia.
  - apply (@index_lt (cm_n C 0 + 1) (cm_n C 1) (cm_n C 2)); lia.
  - apply (@index_lt (cm_n C 0) (cm_n C 1 + 1) (cm_n C 2)); lia.
  - apply (@index_lt (cm_n C 0) (cm_n C 1) (cm_n C 2 + 1)); lia.
Qed.
Definition cur_of (T : tally) (i j k axis : nat) (sense : bool) : R :=
  match partial_current C T i j k axis (if sense then 1 else 0) with Ok x => x | _ => 0%R end.
Lemma net_ok T I J K axis : readable T -> axis < D ->
  I < cm_n C 0 + (if axis =? 0 then 1 else 0) -> J < cm_n C 1 + (if axis =? 1 then 1 else 0) -> K < cm_n C 2 + (if axis =? 2 then 1 else 0) ->
  (cur_of T I J K axis true - cur_of T I J K axis false)%R = net_current C T I J K axis.
Proof.
  intros HR Ha HI HJ HK. unfold cur_of, net_current. destruct HR as [HT|H0].
  - destruct (@partial_ok T I J K axis 1) as (v & ->); auto. destruct (@partial_ok T I J K axis 0) as (w & ->); auto.
  - destruct (partial_current C T I J K axis 1) eqn:E1; destruct (partial_current C T I J K axis 0) eqn:E0; auto;
    repeat match goal with H : partial_current _ _ _ _ _ _ _ = Ok _ |- _ => apply H0 in H; subst end; ring.
Qed.

Variables (phi : list (list R)) (cur : option (list (list R))).
Hypothesis HF : positive_flux U phi.
Hypothesis HCU : current_ok U cur.
Variables (cmat : mtl) (fl : list (list R)).
Hypothesis GM : good_mat U cm cmap phi cur cmat fl.
Variables (T : nat -> tally) (keff alpha : R).
Hypothesis HT : forall g, g < G -> readable (T g).
Let K := operator U C cm cmat T keff alpha.

Lemma coarse_loss_ok : loss_ok (k_loss K).
Proof.
  destruct GM as (_ & N1 & N2 & B1 & B2 & V). destruct GC as (_ & MG & _ & _ & _ & M). destruct HP as (_ & _ & _ & HG & _). fold x G in HG, N1.
  split; [exact MG|]. split; [cbn; destruct (u_adj U); lia|]. cbn [k_loss l_mesh l_mat K operator k_mesh k_mat]. split; [intros c Hc; rewrite M, N2 by auto; auto|].
  rewrite N1, N2. split; [|split; [|split; auto]].
  - intros g k Hg Hk. destruct (V g k Hg Hk) as (_ & _ & _ & X & _). auto.
  - intros g gp k Hg Hgp Hk. destruct (V gp k Hgp Hk) as (_ & _ & _ & _ & X). apply X. auto.
Qed.
Lemma coarse_index I J L : Mesh_Model.index (cm_n C 0) (cm_n C 1) I J L = cell cm I J L.
Proof.
  destruct GC as (_ & _ & _ & N & _). pose proof (N 0 ltac:(lia)) as N0. pose proof (N 1 ltac:(lia)) as N1. cbn in N0, N1.
  rewrite <- N0, <- N1. apply cell_index.
Qed.
Lemma coarse_inside I J L : I < cm_n C 0 -> J < cm_n C 1 -> L < cm_n C 2 -> inside cm I J L.
Proof.
  destruct GC as (_ & _ & _ & N & _). pose proof (N 0 ltac:(lia)) as N0. pose proof (N 1 ltac:(lia)) as N1. pose proof (N 2 ltac:(lia)) as N2. cbn in N0, N1, N2.
  unfold inside. lia.
Qed.
Lemma tallied_leakage g I J L : g < G -> I < cm_n C 0 -> J < cm_n C 1 -> L < cm_n C 2 ->
  rsum (Mesh_Model.dim cm) (fun a => tallied K g (cell cm I J L) a true - tallied K g (cell cm I J L) a false)%R = Tally_Spec.net_leakage C (T g) I J L.
Proof.
  intros Hg HI HJ HL. pose proof (dim_range HP) as HD. fold m D in HD. pose proof (facts HP HC) as F. fold m D in F.
  unfold Tally_Spec.net_leakage. rewrite (cf_dim F). destruct GC as (_ & _ & ED & _). fold m D in ED. rewrite ED. apply rsum_ext. intros a Ha.
  unfold tallied. cbn [K operator k_mesh k_cur]. fold (cur_of (T g)).
  assert (CC : forall b, Diffusion_Spec.coord cm b (cell cm I J L) = crd b I J L) by (intros b; apply coord_cell; apply coarse_inside; auto).
  rewrite !CC. cbn [crd]. 
  rewrite <- !net_ok; auto; try (destruct a as [|[|[|a]]]; cbn; lia). unfold cur_of.
  destruct a as [|[|[|a]]]; cbn [Nat.eqb andb]; rewrite ?andb_true_r, ?andb_false_r, ?Nat.add_0_r, ?Nat.add_1_r; try reflexivity; lia.
Qed.

Lemma rsum_mul k c f : (c * rsum k f)%R = rsum k (fun i => c * f i)%R. Proof. symmetry. apply rsum_scal. Qed.
Lemma flux_average v : length v = G * nc -> (forall g c, g < G -> c < nc -> nth (c + g * nc) v 0%R = (RS U cmap c (val2 phi g) / vol cm c)%R) ->
  forall g c, g < G -> c < nc -> nth (c + g * nc) v 0%R = val2 fl g c.
Proof. intros L H g c Hg Hc. rewrite H by auto. destruct GM as (_ & _ & _ & _ & _ & V). destruct (V g c Hg Hc) as (-> & _). reflexivity. Qed.
Let Fl := fun g c => RS U cmap c (val2 phi g).
Lemma action_on srt prev : is_sort srt -> cmfd_reach srt K prev -> exists A, cmfd_construct srt K prev (fun g c => nth c (nth g fl []) 0%R) = Ok A /\
  forall v, length v = G * nc -> (forall g c, g < G -> c < nc -> nth (c + g * nc) v 0%R = (Fl g c / vol cm c)%R) ->
  exists y, multiply A v = Ok y /\ length y = G * nc /\
  forall g I J L, g < G -> I < cm_n C 0 -> J < cm_n C 1 -> L < cm_n C 2 ->
  let c := Mesh_Model.index (cm_n C 0) (cm_n C 1) I J L in
  (vol cm c * nth (c + g * nc) y 0 = Tally_Spec.net_leakage C (T g) I J L + RS U cmap c (fun i => st x g (mt m i) * val2 phi g i) -
     rsum G (fun gp => into (u_adj U) cmat g gp c * Fl gp c) -
     (if u_mult U then rsum G (fun gp => birth (u_adj U) cmat g gp c * Fl gp c) else 0))%R.
Proof.
  intros HS RE. pose proof coarse_loss_ok as LO.
  destruct (@cmfd_tally srt K K prev (fun g c => nth c (nth g fl []) 0%R) HS LO RE) as (A & EA & RT); [repeat split; auto|].
  exists A. split; auto. intros v Lv Vv.
  destruct GM as (_ & N1 & N2 & _ & _ & V). fold x G in N1, V. 
  assert (VP : forall c, c < nc -> (0 < vol cm c)%R) by (intros; apply (coarse_vol_pos HP HC GC EM); auto).
  assert (FP : forall g c, g < G -> c < nc -> (0 < Fl g c)%R).
  { intros. apply (RS_pos HP HC GC EM); auto. intros i Hi. apply HF; auto. }
  destruct (RT v) as (y & Ey & Ly & Vy); cbn [K operator k_mesh k_mat k_init]; fold nc; rewrite ?N1; auto.
  - intros g c Hg Hc. rewrite Vv by auto. destruct (V g c Hg Hc) as (E & _). unfold val2 in E. rewrite E. reflexivity.
  - intros g c Hg Hc. destruct (V g c Hg Hc) as (E & _). unfold val2 in E. rewrite E. apply Rdiv_lt_0_compat; [apply FP; auto|apply VP; auto].
  - exists y. split; auto. cbn [K operator k_mesh k_mat] in Ly, Vy. fold nc in Ly, Vy. rewrite N1 in Ly, Vy. split; auto.
    intros g I J L Hg HI HJ HL. set (c := Mesh_Model.index (cm_n C 0) (cm_n C 1) I J L). assert (Hc : c < nc) by (unfold c; rewrite coarse_index; apply cell_lt, coarse_inside; auto).
    specialize (Vy g c Hg Hc). unfold part in Vy. rewrite Vy.
    pose proof (@tallied_leakage g I J L Hg HI HJ HL) as TL. rewrite <- coarse_index in TL. fold c in TL. rewrite TL.
    destruct (V g c Hg Hc) as (_ & S1 & _). 
    assert (MT : mt cm c = c) by (destruct GC as (_ & _ & _ & _ & _ & M); auto).
    unfold reactions. cbn [k_loss l_mesh l_mat l_sf l_fis l_adj l_keff K operator k_mesh k_mat k_fis k_adj k_keff Nat.eqb]. fold K. rewrite MT.
    assert (FG : first_group (k_loss K) = 0) by (unfold first_group; cbn; destruct (u_adj U); auto).
    destruct HP as (_ & _ & _ & HG & _). fold x G in HG.
    assert (AC : active (k_loss K) = G) by (unfold active; cbn; rewrite N1; destruct (u_adj U); lia).
    rewrite FG, AC. cbn [Nat.add]. rewrite Rinv_1, Rmult_1_l.
    assert (FV : forall gp, gp < G -> (vol cm c * nth c (nth gp fl []) 0)%R = Fl gp c).
    { intros gp Hgp. destruct (V gp c Hgp Hc) as (E & _). unfold val2 in E. rewrite E. unfold F. fold (Fl gp c). field. pose proof (VP c Hc). lra. }
    assert (SUM : forall f, (vol cm c * rsum G (fun q => f q * nth c (nth q fl []) 0) = rsum G (fun q => f q * Fl q c))%R).
    { intros f. rewrite rsum_mul. apply rsum_ext. intros q Hq. rewrite <- FV by auto. ring. }
    rewrite Rmult_minus_distr_l, Rmult_plus_distr_l, SUM.
    replace (vol cm c * (st cmat g c * nth c (nth g fl []) 0))%R with (st cmat g c * Fl g c)%R by (rewrite <- FV by auto; ring).
    fold m x in S1. unfold F in S1. fold (Fl g c) in S1. rewrite S1.
    destruct (u_mult U); [rewrite SUM|rewrite Rmult_0_r]; ring.
Qed.
Definition action srt (HS : is_sort srt) := action_on HS (@cmfd_new srt K).
End System.
