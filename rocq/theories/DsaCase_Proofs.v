(** * DsaCase_Proofs: one cell within reflecting sides. *)
From Verif Require Import Base BaseR Loop Util_Model Mesh_Model Mesh_Spec Material_Model Material_Spec Matrix_Model Matrix_Spec Diffusion_Model Diffusion_Spec Diffusion_Proofs
  Vector_Model Solver_Model Gmres_Model Cpc_Model Source_Model Source_Spec Dsa_Model Dsa_Spec Dsa_Proofs2 Dsa_Proofs3.
From Coq Require Import Lra.
Set Implicit Arguments. Unset Strict Implicit.
Open Scope nat_scope.

Definition cell1 : mesh :=
  {| dim := 1; xfm := [1]; yfm := [1]; zfm := [1]; xcme := [0%R; 1%R]; ycme := [0%R; 1%R]; zcme := [0%R; 1%R];
     mdx := [1%R]; mdy := [1%R]; mdz := [1%R]; twx := 1%R; twy := 1%R; twz := 1%R; Mesh_Model.mat := [0%Z] |}.
Lemma cell1_good : mesh_good cell1.
Proof.
  unfold mesh_good, ncx, ncy, ncz. cbn. repeat split; try lia; try (unfold left_edge; cbn; ring).
  intros w [[<-|[]]|[[<-|[]]|[<-|[]]]]; lra.
Qed.
Lemma cell1_wid a : a < 3 -> wid cell1 a 0 = 1%R.
Proof. intros H. destruct a as [|[|[|a]]]; [reflexivity..|lia]. Qed.

(** One group, with scattering and fission; two groups with downscatter. *)
Definition mtl1 (s f : R) : mtl :=
  {| ng := 1; nm := 1; st := fun _ _ => 1%R; sa := fun _ _ => 0%R; nsf := fun _ _ => f; sf := fun _ _ => f; nu := fun _ _ => 1%R; chi := fun _ _ => 1%R;
     ss := fun _ _ _ => s; dc := fun _ _ => 1%R; b0 := fun _ => 0; b1 := fun _ => 0; b2 := fun _ => 0; b3 := fun _ => 0;
     cut0 := 1; cut1 := 0; ds0 := true; ds1 := true; fin := true |}.
Definition mtl2 : mtl :=
  {| ng := 2; nm := 1; st := fun _ _ => 1%R; sa := fun _ _ => 0%R; nsf := fun _ _ => 0%R; sf := fun _ _ => 0%R; nu := fun _ _ => 1%R; chi := fun _ _ => 0%R;
     ss := fun g gp _ => if (g =? 1) && (gp =? 0) then (/ 2)%R else 0%R; dc := fun _ _ => 1%R;
     b0 := fun _ => 0; b1 := fun g => g; b2 := fun _ => 1; b3 := fun g => g;
     cut0 := 2; cut1 := 0; ds0 := true; ds1 := true; fin := true |}.
Definition loss1 (x : mtl) (cut : nat) (fi ad : bool) : loss :=
  {| l_mesh := cell1; l_mat := x; l_cut := cut; l_fis := fi; l_adj := ad; l_keff := 1%R; l_sf := 0; l_bc := fun _ => Some true; l_zero := false |}.
Definition src1 (x : mtl) (ad : bool) : src :=
  {| cells := 1; mat := x; mmap := [0]; adj := ad; flux := repeat [0%R] (ng x) |}.

Lemma mtl1_bounds s f : bounds_complete (mtl1 s f) /\ bounds_attained (mtl1 s f).
Proof.
  split.
  - intros g gp Hg Hp _. cbn in *. assert (g = 0) as -> by lia. assert (gp = 0) as -> by lia. cbn. lia.
  - intros g Hg. cbn in Hg. assert (g = 0) as -> by lia. cbn. repeat split; auto; lia.
Qed.
Lemma mtl2_bounds : bounds_complete mtl2 /\ bounds_attained mtl2.
Proof.
  split.
  - intros g gp Hg Hp (k & Hk & H). cbn in Hg, Hp, Hk, H. destruct g as [|[|g]]; [| |lia]; destruct gp as [|[|gp]]; [| |lia| | |lia]; cbn in H |- *; try lra; try lia.
  - intros g Hg. cbn in Hg. assert (TR : transfer mtl2 1 0) by (exists 0; cbn; split; [lia|lra]).
    destruct g as [|[|g]]; [| |lia]; cbn; repeat split; auto; lia.
Qed.
Lemma loss1_ok x cut fi ad : cut < ng x -> 1 <= nm x -> (forall g k, (0 < dc x g k)%R) -> (forall g gp k, (0 <= ss x g gp k)%R) -> bounds_complete x -> bounds_attained x ->
  loss_ok (loss1 x cut fi ad).
Proof.
  intros HC HN HD HS B1 B2. split; [apply cell1_good|]. split; auto. split; [|split; [|split; [|split]]]; auto.
  intros c Hc. change (ncells (l_mesh (loss1 x cut fi ad))) with 1 in Hc. assert (c = 0) as -> by lia. exact HN.
Qed.
Lemma describes1 x cut fi ad : 1 <= nm x -> describes (src1 x ad) (loss1 x cut fi ad).
Proof.
  intros HN. split; [|split; [|split; [|split]]]; auto.
  - split; [cbn; lia|]. split.
    + intros c Hc. cbn in Hc. assert (c = 0) as -> by lia. exact HN.
    + split; [cbn; rewrite repeat_length; auto|]. intros g Hg. cbn in *. rewrite (nth_indep _ _ [0%R]) by (rewrite repeat_length; auto). rewrite nth_repeat. auto.
  - intros c Hc. change (ncells (l_mesh (loss1 x cut fi ad))) with 1 in Hc. assert (c = 0) as -> by lia. reflexivity.
Qed.
Lemma infinite1 x cut fi ad : infinite (loss1 x cut fi ad) 0.
Proof.
  split; [intros s _; reflexivity|]. intros c Hc. change (ncells (l_mesh (loss1 x cut fi ad))) with 1 in Hc. assert (c = 0) as -> by lia. reflexivity.
Qed.

Section One.
  Variables (x : mtl) (cut : nat) (fi ad : bool) (srt : list triplet -> list triplet).
  Let L := loss1 x cut fi ad.
  Hypothesis SRT : is_sort srt.
  Hypothesis LK : loss_ok L.
  Lemma one_builds : exists C, build srt (loss_caps L) (loss_ops L) = Ok C /\
    forall v, length v = active L -> exists y, multiply C v = Ok y /\ length y = active L /\ forall p, p < active L -> nth p y 0%R = reactions L (part 1 v) p 0.
  Proof.
    destruct (loss_builds LK SRT) as (C & HB & HC). exists C. split; auto. change (ncells (l_mesh L)) with 1 in HC. rewrite Nat.mul_1_r in HC.
    intros v Hv. destruct (HC v Hv) as (y & E & Ly & Hy). exists y. split; auto. split; auto. intros p Hp.
    specialize (Hy p 0 Hp ltac:(lia)). unfold part in Hy at 1. rewrite Nat.mul_1_r in Hy. cbn [Nat.add] in Hy. rewrite Hy.
    unfold l_J. rewrite (@constant_leakage (l_mesh L) (l_D L (first_group L + p)) (l_be L) (part 1 v p) 0 (part 1 v p 0)).
    - ring.
    - change (ncells (l_mesh L)) with 1. lia.
    - apply (infinite_be (infinite1 x cut fi ad)).
    - intros c Hc. change (ncells (l_mesh L)) with 1 in Hc. assert (c = 0) as -> by lia. auto.
  Qed.
  Lemma one_unscattered act first be V y : is_albedo 1 (fun _ => Some true) false be -> unscattered cell1 x first act be V y ->
    forall p, p < act -> nth p y 0%R = (st x (first + p) 0 * nth p V 0)%R.
  Proof.
    intros BE (J & HJ & HY) p Hp. specialize (HY p 0 Hp ltac:(cbn; lia)). unfold part in HY. change (ncells cell1) with 1 in HY. rewrite Nat.mul_1_r in HY. cbn [Nat.add] in HY.
    rewrite HY. change (mt cell1 0) with 0. cut (leakage cell1 (J p) 0 = 0%R); [intros ->; ring|].
    destruct (HJ p Hp) as (_ & F2 & F3). assert (B1 : forall s, be s = 1%R).
    { intros s. destruct (BE s) as (A1 & A2 & _). destruct (Nat.lt_ge_cases s (2 * 1)); auto. }
    unfold leakage. apply (rsum_zero (n := 3)). intros a Ha. rewrite cell1_wid by auto.
    assert (LE : low_edge cell1 a 0 /\ high_edge cell1 a 0).
    { split; exists 0, 0, 0; destruct a as [|[|[|a]]]; try lia; cbn; repeat split; auto. }
    destruct LE as [L1 L2]. destruct (F2 a 0 Ha L1) as (pf & _ & A1). destruct (F3 a 0 Ha L2) as (pf' & _ & A2).
    unfold albedo_law in A1, A2. rewrite B1 in A1, A2. replace (J p 0 (2 * a)) with 0%R by lra. replace (J p 0 (2 * a + 1)) with 0%R by lra. lra.
  Qed.
End One.

Definition fis1 (x : src) (w : R) : fis := {| fsrc := x; dens := [0%R]; fsource := repeat [0%R] (ng (mat x)); fscale := w |}.
Definition lin1 (r : R) : vop := fun q => Ok [(nth 0 q 0 / r)%R].
Definition lin2 : vop := fun q => Ok [(nth 0 q 0 + nth 1 q 0 / 2)%R; nth 1 q 0%R].
Definition lin3 : vop := fun q => Ok [nth 0 q 0%R; (nth 1 q 0 + nth 0 q 0 / 2)%R].

Lemma mtl1_ok s f fi : (0 <= s)%R -> loss_ok (loss1 (mtl1 s f) 0 fi false).
Proof. intros H. apply loss1_ok; try apply mtl1_bounds; try (cbn; lia); intros; cbn; lra. Qed.
Lemma mtl2_ok ad cut : cut < 2 -> loss_ok (loss1 mtl2 cut false ad).
Proof. intros H. apply loss1_ok; try apply mtl2_bounds; try (cbn; lia); intros; cbn; try lra. destruct ((g =? 1) && (gp =? 0)); lra. Qed.

(** The diffusion solvers of these problems. *)
Lemma solves1 s f fi srt C : (0 <= s)%R -> is_sort srt -> let L := loss1 (mtl1 s f) 0 fi false in let r := (1 - s - (if fi then f else 0))%R in
  (r <> 0)%R -> build srt (loss_caps L) (loss_ops L) = Ok C -> solves C 1 (lin1 r).
Proof.
  intros Hs SRT L r Hr HB b Hb. eexists. split; [reflexivity|]. split; auto.
  destruct (@one_builds (mtl1 s f) 0 fi false srt SRT (@mtl1_ok s f fi Hs)) as (C' & HB' & HC). fold L in HB'. assert (C' = C) as -> by congruence.
  destruct (HC [(nth 0 b 0 / r)%R] eq_refl) as (y & E & Ly & Hy). rewrite E. f_equal. change (active (loss1 (mtl1 s f) 0 fi false)) with 1 in *.
  apply (nth_ext _ _ 0%R 0%R); [congruence|]. intros i Hi. assert (i = 0) as -> by lia. rewrite Hy by lia. unfold reactions, part, r in *. cbn. destruct fi; cbn; field; lra.
Qed.
Lemma solves2 srt C : is_sort srt -> let L := loss1 mtl2 1 false true in build srt (loss_caps L) (loss_ops L) = Ok C -> solves C 2 lin2.
Proof.
  intros SRT L HB b Hb. eexists. split; [reflexivity|]. split; auto.
  destruct (@one_builds mtl2 1 false true srt SRT (@mtl2_ok true 1 ltac:(lia))) as (C' & HB' & HC). fold L in HB'. assert (C' = C) as -> by congruence.
  destruct (HC [(nth 0 b 0 + nth 1 b 0 / 2)%R; nth 1 b 0%R] eq_refl) as (y & E & Ly & Hy). rewrite E. f_equal. change (active (loss1 mtl2 1 false true)) with 2 in *.
  apply (nth_ext _ _ 0%R 0%R); [congruence|]. intros i Hi. rewrite Hy by lia. destruct i as [|[|i]]; [| |lia]; unfold reactions, part; cbn; lra.
Qed.
Lemma solves3 srt C : is_sort srt -> let L := loss1 mtl2 0 false false in build srt (loss_caps L) (loss_ops L) = Ok C -> solves C 2 lin3.
Proof.
  intros SRT L HB b Hb. eexists. split; [reflexivity|]. split; auto.
  destruct (@one_builds mtl2 0 false false srt SRT (@mtl2_ok false 0 ltac:(lia))) as (C' & HB' & HC). fold L in HB'. assert (C' = C) as -> by congruence.
  destruct (HC [nth 0 b 0%R; (nth 1 b 0 + nth 0 b 0 / 2)%R] eq_refl) as (y & E & Ly & Hy). rewrite E. f_equal. change (active (loss1 mtl2 0 false false)) with 2 in *.
  apply (nth_ext _ _ 0%R 0%R); [congruence|]. intros i Hi. rewrite Hy by lia. destruct i as [|[|i]]; [| |lia]; unfold reactions, part; cbn; lra.
Qed.

(** keff = 2, one group with fission *)
Lemma keff_wrong : forall srt, is_sort srt -> exists L x f C lin Vm u,
  loss_ok L /\ l_adj L = false /\ l_sf L = 0 /\ l_keff L = 1%R /\ describes x L /\ lossy L /\ infinite L 0 /\ l_fis L = true /\ fsrc f = x /\ fscale f = (/ 2)%R /\
  build srt (loss_caps L) (loss_ops L) = Ok C /\ solves C (active L * ncells (l_mesh L)) lin /\ length Vm = active L * ncells (l_mesh L) /\
  mgdsa_apply x f true (l_cut L) lin (length Vm) Vm = Ok u /\
  (forall be, is_albedo (dim (l_mesh L)) (l_bc L) (l_zero L) be -> ~ exists y, multiply C u = Ok y /\ unscattered (l_mesh L) (l_mat L) (l_cut L) (active L) be Vm y) /\
  exists phi, nth 0 Vm 0%R = (phi 0%nat - born L (fscale f) 0 phi 0 / st (l_mat L) 0 0)%R /\ nth 0 u 0%R <> phi 0.
Proof.
  intros srt SRT. set (x := mtl1 (/ 4) (/ 2)). set (L := loss1 x 0 true false).
  assert (LK : loss_ok L) by (apply mtl1_ok; lra).
  destruct (@one_builds x 0 true false srt SRT LK) as (C & HB & HC). fold L in HB, HC. change (active L) with 1 in HC.
  exists L, (src1 x false), (fis1 (src1 x false) (/ 2)), C, (lin1 (1 - / 4 - / 2)), [1%R], [3%R].
  split; [auto|]. do 3 (split; [reflexivity|]). split; [apply describes1; cbn; lia|]. split.
  { split; [intros _ g k; cbn; lra|]. intros q k Hq Hk. cbn in *. lra. }
  split; [apply infinite1|]. do 3 (split; [reflexivity|]). split; [auto|]. split; [apply (@solves1 (/ 4) (/ 2) true srt C); auto; lra|].
  split; [reflexivity|]. split; [cbn; repeat f_equal; lra|]. split.
  - intros be BE (y & My & HU). destruct (HC [3%R] eq_refl) as (y' & My' & _ & Hy). rewrite My in My'. injection My' as <-.
    assert (U := @one_unscattered x 1 0 be [1%R] y BE HU 0 ltac:(lia)). rewrite Hy in U by lia. unfold reactions, part in U. cbn in U. lra.
  - exists (fun _ => 2%R). unfold born. cbn. split; lra.
Qed.

(** the adjoint with two groups *)
Lemma adjoint_wrong : forall srt, is_sort srt -> exists L x f C lin Vm u,
  loss_ok L /\ l_adj L = true /\ l_sf L = 0 /\ l_fis L = false /\ describes x L /\ infinite L 0 /\
  build srt (loss_caps L) (loss_ops L) = Ok C /\ solves C (active L * ncells (l_mesh L)) lin /\ length Vm = active L * ncells (l_mesh L) /\
  mgdsa_apply x f false (l_cut L) lin (length Vm) Vm = Ok u /\
  (forall be, is_albedo (dim (l_mesh L)) (l_bc L) (l_zero L) be -> ~ exists y, multiply C u = Ok y /\ unscattered (l_mesh L) (l_mat L) 0 (active L) be Vm y).
Proof.
  intros srt SRT. set (L := loss1 mtl2 1 false true). assert (LK : loss_ok L) by (apply mtl2_ok; lia).
  destruct (@one_builds mtl2 1 false true srt SRT LK) as (C & HB & HC). fold L in HB, HC. change (active L) with 2 in HC.
  exists L, (src1 mtl2 true), (fis1 (src1 mtl2 true) 1), C, lin2, [0%R; 1%R], [0%R; 1%R].
  split; [auto|]. do 3 (split; [reflexivity|]). split; [apply describes1; cbn; lia|].
  split; [apply infinite1|]. split; [auto|]. split; [apply (@solves2 srt C); auto|]. split; [reflexivity|]. split; [cbn; change (Pos.to_nat 1) with 1; cbn; repeat f_equal; lra|].
  intros be BE (y & My & HU). destruct (HC [0%R; 1%R] eq_refl) as (y' & My' & _ & Hy). rewrite My in My'. injection My' as <-.
  assert (U := @one_unscattered mtl2 2 0 be [0%R; 1%R] y BE HU 0 ltac:(lia)). rewrite Hy in U by lia. unfold reactions, part in U. cbn in U. lra.
Qed.

(** a reflecting side: flux and incident flux of an absorbing cell *)
Definition refl_mul : vop := fun v => Ok [(nth 0 v 0 - nth 1 v 0)%R; (nth 1 v 0 - nth 0 v 0 / 2)%R].
Lemma reflection_wrong : forall p mode restart st prev, (0 < p_atol p)%R -> 0 < p_maxit p -> 
  let x := src1 (mtl1 0 0) false in
  refl_mul [2%R; 1%R] = Ok [1%R; 0%R] /\ (forall v, length v = 2 -> refl_mul v = Ok [1%R; 0%R] -> v = [2%R; 1%R]) /\
  exists mo, gmres p refl_mul (Some (fun v => mgdsa_apply x (fis1 x 1) false 0 (lin1 1) (length v) v)) None mode restart [1%R; 0%R] [1%R; 0%R] st prev = Ok ([1%R; 0%R], mo) /\
    m_status mo = SUCCESS.
Proof.
  intros p mode restart st prev HA HM x. split; [|split].
  - unfold refl_mul. cbn. repeat f_equal; lra.
  - intros v Hv E. destruct v as [|a [|b [|c v]]]; try discriminate. unfold refl_mul in E. cbn in E. injection E as E1 E2. repeat f_equal; lra.
  - unfold gmres, solve, gmres_impl. destruct (p_maxit p) as [|k] eqn:EK; [lia|]. cbn [outer_loop]. rewrite EK. cbn [Nat.leb].
    unfold refl_mul at 1. cbn [bind].
    match goal with |- context [vsub ?a ?b] => assert (ES : vsub a b = Ok [0%R; (- / 2)%R]) by (cbn; repeat f_equal; lra); rewrite ES; clear ES end. cbn [bind].
    match goal with |- context [pre ?P ?v] => assert (EP : pre P v = Ok [0%R; 0%R]) by (cbn; repeat f_equal; lra); rewrite EP; clear EP end. cbn [bind].
    assert (EN : norm L2 [0%R; 0%R] = 0%R).
    { unfold norm. cbn. replace (0 + 0 * 0 + 0 * 0)%R with 0%R by ring. apply sqrt_0. }
    rewrite EN. cbn [Nat.eqb]. unfold monitor_init. cbn [m_res].
    rewrite wr_ok by (unfold resize; rewrite app_length, firstn_length, repeat_length; lia). cbn [bind]. unfold ltb. destruct (Rlt_dec 0 (p_atol p)); [|lra]. cbn [bind].
    eexists. split; [reflexivity|]. reflexivity.
Qed.
