(** * Dsa_Proofs3: the preconditioners as approximate inverses, and where they fail. *)
From Verif Require Import Base BaseR Loop Util_Model Mesh_Model Mesh_Spec Material_Model Material_Spec Matrix_Model Matrix_Spec Diffusion_Model Diffusion_Spec Diffusion_Proofs
  Dpos_Proofs Vector_Model Solver_Model Gmres_Model Cpc_Model Source_Model Source_Spec Source_Proofs Dsa_Model Dsa_Spec Dsa_Proofs Dsa_Proofs2.
From Coq Require Import Lra.
Set Implicit Arguments. Unset Strict Implicit.
Open Scope nat_scope.

Section Op.
  Variables (L : loss) (x : src) (f : fis) (srt : list triplet -> list triplet).
  Let m := l_mesh L.
  Let n := ncells m.
  Let N := active L * n.

  (** The preconditioner applied with an exact diffusion solver. *)
  Lemma mgdsa_operator : is_sort srt -> loss_ok L -> l_adj L = false -> l_sf L = 0 -> l_keff L = 1%R -> describes x L ->
    (l_fis L = true -> fsrc f = x /\ fscale f = 1%R) ->
    exists C be, build srt (loss_caps L) (loss_ops L) = Ok C /\ is_albedo (dim m) (l_bc L) (l_zero L) be /\
      forall lin, solves C N lin -> forall Vm Vb, length Vm = N ->
      exists u y, mgdsa_apply x f (l_fis L) (l_cut L) lin (length (Vm ++ Vb)) (Vm ++ Vb) = Ok (u ++ repeat 0%R (length Vb)) /\ length u = N /\
        multiply C u = Ok y /\ length y = N /\ unscattered m (l_mat L) (l_cut L) (active L) be Vm y.
  Proof.
    intros SRT LK AF SF K1 DE FS. destruct (@dsa_general L x f srt) as (C & HB & HC); auto; [intros E; apply FS; auto|].
    exists C, (l_be L). split; auto. split; [apply albedo_is|]. intros lin LN Vm Vb HV.
    destruct (HC lin LN Vm Vb HV) as (u & y & E1 & E2 & E3 & E4 & E5). exists u, y. do 4 (split; auto).
    assert (FG : first_group L = l_cut L) by (unfold first_group; rewrite AF; auto).
    exists (l_J L (part n Vm)). split.
    - intros p Hp. rewrite <- FG. apply cur_fick.
      + destruct LK; auto.
      + intros c Hc. apply (l_D_pos LK Hp Hc).
      + intros s. apply albedo_range.
    - intros p c Hp Hc. rewrite E5 by auto. fold m n. destruct (l_fis L) eqn:E; [|ring]. destruct (FS eq_refl) as [_ ->]. ring.
  Qed.

  (** The infinite medium. *)
  Lemma infinite_be k : infinite L k -> forall s, l_be L s = 1%R.
  Proof.
    intros [H _] s. destruct (@albedo_is (dim (l_mesh L)) (l_bc L) (l_zero L) s) as (A1 & A2 & _). unfold l_be.
    destruct (Nat.lt_ge_cases s (2 * dim (l_mesh L))) as [Ls|Ls]; auto.
  Qed.
  Lemma part_tab (F : nat -> nat -> R) : exists v, length v = N /\ forall p c, p < active L -> c < n -> part n v p c = F p c.
  Proof.
    exists (map (fun i => F (i / n) (i mod n)) (seq 0 N)). split; [rewrite map_length, seq_length; auto|]. intros p c Hp Hc.
    unfold part. apply nth_error_nth. rewrite nth_error_map, (nth_error_nth' _ 0) by (rewrite seq_length; unfold N; nia).
    rewrite seq_nth by (unfold N; nia). cbn [option_map Nat.add]. f_equal. rewrite Nat.div_add, Nat.mod_add by lia. rewrite Nat.div_small, Nat.mod_small by auto. auto.
  Qed.

  Lemma mgdsa_infinite k : is_sort srt -> loss_ok L -> l_adj L = false -> l_sf L = 0 -> l_keff L = 1%R -> describes x L ->
    (l_fis L = true -> fsrc f = x /\ fscale f = 1%R) -> lossy L -> infinite L k ->
    exists C, build srt (loss_caps L) (loss_ops L) = Ok C /\
      forall lin, solves C N lin -> forall phi Vm Vb, length Vm = N ->
        (forall p c, p < active L -> c < n -> part n Vm p c = (phi p - born L 1 k phi p / st (l_mat L) (l_cut L + p) k)%R) ->
      exists u, mgdsa_apply x f (l_fis L) (l_cut L) lin (length (Vm ++ Vb)) (Vm ++ Vb) = Ok (u ++ repeat 0%R (length Vb)) /\ length u = N /\
        forall p c, p < active L -> c < n -> part n u p c = phi p.
  Proof.
    intros SRT LK AF SF K1 DE FS LO IN. assert (BE := infinite_be IN). destruct IN as [RB MK]. fold m n in MK.
    destruct (@dsa_general L x f srt) as (C & HB & HC); auto; [intros E; apply FS; auto|].
    exists C. split; auto. intros lin LN phi Vm Vb HV HP.
    destruct (HC lin LN Vm Vb HV) as (u & y & E1 & E2 & E3 & E4 & E5). fold m n in E4, E5. exists u. do 2 (split; auto).
    destruct (loss_builds LK SRT) as (C' & HB' & HC'). assert (C' = C) as -> by congruence. clear HB'. fold m n in HC'.
    destruct (HC' u E2) as (y' & E3' & _ & E6). assert (y' = y) as -> by congruence. clear E3'.
    assert (FG : first_group L = l_cut L) by (unfold first_group; rewrite AF; auto).
    assert (LK' := LK). destruct LK' as (MG & Hcut & MT & DP & SS & BC & BA). fold m n in MT. destruct LO as [LF LO].
    assert (CS : forall p, p < active L -> l_cut L + p < ng (l_mat L)) by (intros p Hp; rewrite <- FG; apply active_ng; auto).
    set (w := if l_fis L then 1%R else 0%R).
    set (T := fun p q (c : nat) => (into false (l_mat L) (l_cut L + p) (l_cut L + q) (mt m c) + (if l_fis L then birth false (l_mat L) (l_cut L + p) (l_cut L + q) (mt m c) else 0))%R).
    set (D := fun p => l_D L (l_cut L + p)). set (sg := fun p c => st (l_mat L) (l_cut L + p) (mt m c)).
    assert (RL : forall z p c, p < active L -> c < n -> (leakage m (l_J L z p) c + reactions L z p c)%R = lhs m (active L) D (l_be L) sg T z p c).
    { intros z p c Hp Hc. unfold lhs, reactions, l_J, D, sg, T. rewrite SF, K1, AF, FG. cbn [Nat.eqb]. fold m. f_equal. unfold Rminus. f_equal. f_equal.
      rewrite (@rsum_ext (active L) (fun gp => (_ + _) * z gp c)%R (fun gp => into false (l_mat L) (l_cut L + p) (l_cut L + gp) (mt m c) * z gp c +
        (if l_fis L then birth false (l_mat L) (l_cut L + p) (l_cut L + gp) (mt m c) else 0) * z gp c)%R) by (intros; ring).
      rewrite rsum_plus. f_equal. destruct (l_fis L); [rewrite Rinv_1, Rmult_1_l; auto|]. symmetry. apply rsum_zero. intros; ring. }
    assert (TP : forall p q c, p < active L -> q < active L -> c < n -> (0 <= T p q c)%R).
    { intros p q c Hp Hq Hc. unfold T, into. apply Rplus_le_le_0_compat; [apply SS; auto|]. destruct (l_fis L); [|lra]. unfold birth.
      destruct (LF eq_refl (l_cut L + p) (mt m c)), (LF eq_refl (l_cut L + q) (mt m c)). apply Rmult_le_pos; auto. }
    assert (DOM : forall p c, p < active L -> c < n -> (rsum (active L) (fun q => T q p c) < sg p c)%R).
    { intros p c Hp Hc. specialize (LO p (mt m c) Hp (MT c Hc)). rewrite AF, FG in LO. exact LO. }
    assert (DPp : forall p c, p < active L -> c < ncells m -> (0 < D p c)%R).
    { intros p c Hp Hc. unfold D. rewrite <- FG. apply l_D_pos; auto. }
    assert (BEp : forall s, (-1 <= l_be L s <= 1)%R) by (intros s; rewrite BE; lra).
    intros p c Hp Hc. change (part n u p c = (fun p (_ : nat) => phi p) p c).
    apply (@lhs_inj m (active L) D (l_be L) sg T); auto.
    { intros z HZ. apply (@positive_columns m (active L) D (l_be L) sg T MG DPp BEp TP); auto. }
    clear p c Hp Hc. intros p c Hp Hc. rewrite <- !RL by auto. rewrite <- E6 by auto. rewrite E5 by auto.
    assert (S0 : (0 < sg p c)%R).
    { refine (Rle_lt_trans _ _ _ _ (DOM p c Hp Hc)). apply rsum_nonneg. intros; apply TP; auto. }
    unfold sg in S0. rewrite MK in * by auto.
    unfold l_J at 1. fold m. rewrite (@constant_leakage m (l_D L (first_group L + p)) (l_be L) (part n Vm p) c (phi p - born L 1 k phi p / st (l_mat L) (l_cut L + p) k)%R); auto.
    rewrite RL by auto. unfold lhs. rewrite (@constant_leakage m (D p) (l_be L) (fun _ => phi p) c (phi p)); auto.
    rewrite HP by auto. unfold sg. rewrite MK by auto.
    assert (EB : born L 1 k phi p = rsum (active L) (fun gp => T p gp c * phi gp)%R).
    { unfold born. rewrite AF, FG. apply rsum_ext. intros q Hq. unfold T. rewrite MK by auto. destruct (l_fis L); ring. }
    rewrite EB. destruct (l_fis L); [destruct (FS eq_refl) as [_ ->]|]; field; lra.
  Qed.
End Op.

(** ** PC_DSA *)
Lemma copy_loop n V : n <= length V -> for_ 0 n (repeat 0%R n) (fun i v => do a <- rd V i; wr v i a) = Ok (firstn n V).
Proof.
  intros H. destruct (@for_inv _ (fun j o => length o = n /\ forall i, i < j -> nth i o 0%R = nth i V 0%R) 0 n (repeat 0%R n) (fun i v => do a <- rd V i; wr v i a)) as (o & E & Lo & Ho); [lia|..].
  - split; [apply repeat_length|intros; lia].
  - intros i o Hi [Lo Ho]. rewrite (@rd_ok _ V i 0%R) by lia. cbn [bind]. rewrite wr_ok by lia. eexists. split; [reflexivity|]. split; [rewrite upd_length; auto|].
    intros j Hj. rewrite nth_upd by lia. destruct (Nat.eqb_spec j i) as [->|]; auto. apply Ho. lia.
  - rewrite E. f_equal. apply (nth_ext _ _ 0%R 0%R); [rewrite firstn_length; lia|]. intros i Hi. rewrite Ho by lia.
    rewrite <- (firstn_skipn n V) at 1. apply app_nth1. rewrite firstn_length. lia.
Qed.
Lemma add_loop n o e : n <= length o -> n <= length e -> exists o', for_ 0 n o (fun i o => do a <- rd o i; do b <- rd e i; wr o i (a + b)%R) = Ok o' /\ length o' = length o /\
  forall i, nth i o' 0%R = if i <? n then (nth i o 0 + nth i e 0)%R else nth i o 0%R.
Proof.
  intros H1 H2. destruct (@for_inv _ (fun j o' => length o' = length o /\ forall i, nth i o' 0%R = if i <? j then (nth i o 0 + nth i e 0)%R else nth i o 0%R)
    0 n o (fun i o => do a <- rd o i; do b <- rd e i; wr o i (a + b)%R)) as (o' & E & Lo & Ho); [lia|..].
  - split; auto.
  - intros i o' Hi [Lo Ho]. rewrite (@rd_ok _ o' i 0%R), (@rd_ok _ e i 0%R) by lia. cbn [bind]. rewrite wr_ok by lia. eexists. split; [reflexivity|]. split; [rewrite upd_length; auto|].
    intros j. rewrite nth_upd by lia. destruct (Nat.eqb_spec j i) as [->|].
    + rewrite Ho, Nat.ltb_irrefl, (proj2 (Nat.ltb_lt i (S i))) by lia. auto.
    + rewrite Ho. destruct (Nat.ltb_spec j i), (Nat.ltb_spec j (S i)); auto; lia.
  - exists o'. auto.
Qed.

Lemma within_source x g phi s : problem x -> g < ng (mat x) -> cells x <= length s -> cells x <= length phi ->
  exists s', scat_within x g phi s = Ok s' /\ added (cells x) (fun c => nth c phi 0 * ss (mat x) g g (mat_of x c))%R s s'.
Proof.
  intros P Hg Hs Hp. unfold scat_within. destruct (@add_cells_ok (cells x) (fun c => do p <- rd phi c; do v <- sig_s x c g g; Ok (p * v)%R)
    (fun c => nth c phi 0 * ss (mat x) g g (mat_of x c))%R s Hs) as (s' & E & A).
  - intros c Hc. rewrite (@rd_ok _ _ c 0%R) by lia. cbn [bind]. rewrite sig_s_ok; auto.
  - exists s'. auto.
Qed.

Lemma pcdsa_operator srt W x : let m := w_mesh W in let n := ncells m in
  is_sort srt -> wg_ok W -> problem x -> mat x = Diffusion_Model.w_mat W -> cells x = n -> (forall c, c < n -> mat_of x c = mt m c) ->
  exists C be, build srt (wg_caps W) (wg_ops W) = Ok C /\ is_albedo (dim m) (w_bc W) false be /\
    forall lin, solves C n lin -> forall Vm Vb, length Vm = n ->
    exists u y, pcdsa_apply x (w_group W) lin (Vm ++ Vb) = Ok (u ++ Vb) /\ length u = n /\ multiply C u = Ok y /\ length y = n /\
      unscattered m (Diffusion_Model.w_mat W) (w_group W) 1 be Vm y.
Proof.
  intros m n SRT WK PX EM EC EK. destruct (wg_builds WK SRT) as (C & HB & HC). fold m n in HC. exists C, (w_be W). split; auto. split; [apply w_be_is|].
  intros lin LN Vm Vb HV. assert (WK' := WK). destruct WK' as (MG & Hg & MT & DP).
  unfold pcdsa_apply. rewrite EC. rewrite copy_loop by (rewrite app_length; lia). cbn [bind].
  assert (FV : firstn n (Vm ++ Vb) = Vm) by (rewrite <- HV, firstn_app, Nat.sub_diag, firstn_all; cbn [firstn]; rewrite app_nil_r; auto). rewrite FV.
  destruct (@within_source x (w_group W) Vm (repeat 0%R n)) as (q & -> & Lq & Q); auto; [rewrite EM; auto|rewrite repeat_length; lia|lia|].
  cbn [bind]. rewrite repeat_length in Lq, Q. rewrite EC in Q.
  destruct (LN q Lq) as (e & -> & Le & Me). cbn [bind].
  destruct (@add_loop n (Vm ++ Vb) e) as (o & -> & Lo & Ho); [rewrite app_length; lia|lia|].
  set (u := firstn n o). rewrite app_length in Lo.
  assert (Lu : length u = n) by (unfold u; rewrite firstn_length; lia).
  assert (Hu : forall i, nth i u 0%R = (nth i Vm 0 + nth i e 0)%R).
  { intros i. destruct (Nat.lt_ge_cases i n) as [Hi|Hi].
    - transitivity (nth i o 0%R).
      + unfold u. rewrite <- (firstn_skipn n o) at 2. symmetry. apply app_nth1. fold u. lia.
      + rewrite Ho, (proj2 (Nat.ltb_lt i n)) by auto. rewrite app_nth1 by lia. auto.
    - rewrite !nth_overflow by lia. ring. }
  assert (Eo : o = u ++ Vb).
  { apply (nth_ext _ _ 0%R 0%R); [rewrite app_length; lia|]. intros i Hi. rewrite Ho. destruct (Nat.ltb_spec i n) as [Li|Li].
    - rewrite app_nth1, (app_nth1 u) by lia. rewrite Hu. auto.
    - rewrite app_nth2, (app_nth2 u) by lia. f_equal. lia. }
  destruct (HC e Le) as (q' & Me' & _ & He). assert (q' = q) as -> by congruence. clear Me'.
  destruct (HC u Lu) as (y & My & Ly & Hy). exists u, y. rewrite Eo. do 4 (split; auto).
  exists (fun _ => w_J W Vm). split.
  - intros p Hp. replace p with 0 by lia. rewrite Nat.add_0_r.
    assert (EE : forall c, part (ncells m) Vm 0 c = nth c Vm 0%R) by (intros c; unfold part; f_equal; lia).
    assert (F : fick m (w_D W) (w_be W) (fun c => nth c Vm 0%R) (cur m (w_D W) (w_be W) (fun c => nth c Vm 0%R))).
    { apply cur_fick; auto.
      - intros c Hc. apply DP. apply MT. auto.
      - intros s. rewrite w_be_eq. apply albedo_range. }
    unfold w_J. fold m. unfold fick in *. destruct F as (F1 & F2 & F3).
    + split; [|split].
      * intros a c c' Ha AD. rewrite !EE. apply F1; auto.
      * intros a c Ha AD. rewrite !EE. apply F2; auto.
      * intros a c Ha AD. rewrite !EE. apply F3; auto.
  - intros p c Hp Hc. replace p with 0 by lia. unfold part. rewrite Nat.mul_0_l, !Nat.add_0_r. rewrite Hy by auto.
    assert (Hw : forall s, w_J W u c s = (w_J W Vm c s + w_J W e c s)%R).
    { intros s. unfold w_J. fold m. rewrite (@cur_lin m (w_be W) 1 1 (w_D W) (fun c => nth c Vm 0%R) (fun c => nth c e 0%R) (fun c => nth c u 0%R)); [ring|].
      intros c'. rewrite Hu. ring. }
    assert (LE : leakage m (w_J W u) c = (leakage m (w_J W Vm) c + leakage m (w_J W e) c)%R).
    { unfold leakage. rewrite <- rsum_plus. apply rsum_ext. intros a _. rewrite !Hw. unfold Rdiv. ring. }
    specialize (He c Hc). rewrite Q in He by auto. rewrite (proj2 (Nat.ltb_lt c n)) in He by auto. rewrite nth_repeat in He. rewrite EM, EK in He by auto.
    rewrite LE, Hu. unfold wg_removal in *. fold m in He |- *. lra.
Qed.

(** ** The boundary unknowns *)
Lemma mgdsa_length x f inc cut lin size V w : mgdsa_apply x f inc cut lin size V = Ok w -> length w = size /\
  forall i, cells x * active_groups (ng (mat x)) (adj x) cut <= i -> nth i w 0%R = 0%R.
Proof.
  intros E. unfold mgdsa_apply in E. destruct (dsa_fluxes x cut V) as [phi| |]; cbn [bind] in E; try discriminate.
  destruct (dsa_source x f inc cut phi) as [q| |]; cbn [bind] in E; try discriminate. destruct (lin q) as [e| |]; cbn [bind] in E; try discriminate.
  set (N := cells x * active_groups (ng (mat x)) (adj x) cut) in *.
  refine (@for_keep _ (fun s => length s = size /\ forall i, N <= i -> nth i s 0%R = 0%R) _ _ _ _ _ E _ _).
  - split; [apply repeat_length|]. intros. apply nth_repeat.
  - intros i s s1 Hi [L1 H1] HE. destruct (rd V i) as [a| |]; cbn [bind] in HE; try discriminate. destruct (rd e i) as [b| |]; cbn [bind] in HE; try discriminate.
    unfold wr in HE. destruct (Nat.ltb_spec i (length s)); [|discriminate]. injection HE as <-. rewrite upd_length. split; auto.
    intros j Hj. rewrite nth_upd by auto. destruct (Nat.eqb_spec j i); auto. lia.
Qed.

Lemma mgdsa_stuck x f inc cut lin p mul pl pr mode restart b x0 st prev x' mo :
  let P := fun v => mgdsa_apply x f inc cut lin (length v) v in
  (pl = Some P /\ pr = None \/ pr = Some P) ->
  gmres p mul pl pr mode restart b x0 st prev = Ok (x', mo) ->
  length x' = length x0 /\ forall i, cells x * active_groups (ng (mat x)) (adj x) cut <= i -> nth i x' 0%R = nth i x0 0%R.
Proof.
  intros P HP E. assert (B : blanking (fun i => cells x * active_groups (ng (mat x)) (adj x) cut <= i) (Some P)).
  { intros v w Hw. apply mgdsa_length in Hw. destruct Hw as [L1 H1]. split; auto. }
  apply (@gmres_keep (fun i => cells x * active_groups (ng (mat x)) (adj x) cut <= i) mul pl pr p mode restart b x0 st prev x' mo); auto.
  destruct HP as [[-> ->]| ->]; auto.
Qed.
