(** * Proofs about sources and states *)
From Verif Require Import Base BaseR Loop Util_Model Util_Proofs Material_Model Material_Spec Material_Proofs
  Source_Model Source_Spec.
Set Implicit Arguments. Unset Strict Implicit.
Open Scope nat_scope.

(** ** Adding cell by cell *)
Lemma added_nil n v s : n = 0 -> added n v s s.
Proof. intros ->. split; auto. Qed.
Lemma added_zero n v s : (forall c, c < n -> v c = 0%R) -> added n v s s.
Proof.
  intros H. split; auto. intros c Hc. destruct (Nat.ltb_spec c n); auto. rewrite H by auto. ring.
Qed.
Lemma added_ext n v w s s' : (forall c, c < n -> v c = w c) -> added n v s s' -> added n w s s'.
Proof.
  intros H [L A]. split; auto. intros c Hc. rewrite A by auto.
  destruct (Nat.ltb_spec c n); auto. rewrite H; auto.
Qed.
Lemma added_trans n v w s1 s2 s3 :
  added n v s1 s2 -> added n w s2 s3 -> added n (fun c => v c + w c)%R s1 s3.
Proof.
  intros [L A] [L' A']. split; [congruence|]. intros c Hc.
  rewrite A' by congruence. rewrite A by auto. destruct (c <? n); auto. ring.
Qed.
Lemma added_unique n v s s1 s2 : added n v s s1 -> added n v s s2 -> s1 = s2.
Proof.
  intros [L A] [L' A']. apply list_ext_nth with (d := 0%R); [congruence|].
  intros i Hi. rewrite A, A'; auto; lia.
Qed.

Lemma add_cells_ok n (v : nat -> res R) f s :
  n <= length s -> (forall c, c < n -> v c = Ok (f c)) ->
  exists s', add_cells n v s = Ok s' /\ added n f s s'.
Proof.
  intros Hn Hv. unfold add_cells.
  destruct (@for_inv _ (fun i t => length t = length s /\
     forall c, c < length s -> nth c t 0%R = (if c <? i then nth c s 0 + f c else nth c s 0)%R)
     0 n s (fun cell s => do x <- v cell; do y <- rd s cell; wr s cell (y + x)%R)) as (s' & E & L & H).
  - lia.
  - split; auto.
  - intros i t Hi [L H]. rewrite Hv by lia. cbn [bind]. rewrite (@rd_ok _ t i 0%R) by lia. cbn [bind].
    unfold wr. rewrite (proj2 (Nat.ltb_lt i (length t))) by lia. eexists. split; [reflexivity|].
    split; [rewrite upd_length; auto|]. intros c Hc.
    destruct (Nat.eq_dec i c) as [<-|Ne].
    + rewrite nth_upd_eq by lia. rewrite H by auto. rewrite Nat.ltb_irrefl.
      rewrite (proj2 (Nat.ltb_lt i (S i))) by lia. reflexivity.
    + rewrite nth_upd_neq by auto. rewrite H by auto.
      destruct (Nat.ltb_spec c i), (Nat.ltb_spec c (S i)); auto; lia.
  - exists s'. split; auto. split; auto.
Qed.

Lemma add_list_ok A n (v : A -> nat -> res R) f (l : list A) : forall s,
  n <= length s -> (forall a c, In a l -> c < n -> v a c = Ok (f a c)) ->
  exists s', foldM (fun s a => add_cells n (v a) s) l s = Ok s' /\
             added n (fun c => sumR (map (fun a => f a c) l)) s s'.
Proof.
  induction l as [|a l IH]; intros s Hn Hv.
  - exists s. split; auto. apply added_zero. auto.
  - destruct (@add_cells_ok n (v a) (f a) s Hn) as (s1 & E1 & A1); [intros; apply Hv; cbn; auto|].
    destruct (IH s1) as (s2 & E2 & A2).
    + rewrite (proj1 A1). auto.
    + intros; apply Hv; cbn; auto.
    + exists s2. cbn [foldM]. rewrite E1. cbn [bind]. split; auto.
      eapply added_ext; [|eapply added_trans; eauto]. intros c Hc. cbn [map]. rewrite sumR_cons. reflexivity.
Qed.

(** A duplicate-free list of groups, summed over all groups. *)
Lemma sum_list_groups n (f : nat -> R) gs : NoDup gs -> (forall i, In i gs -> i < n) ->
  sumR (map f gs) = rsum n (fun i => if existsb (Nat.eqb i) gs then f i else 0%R).
Proof.
  induction gs as [|g gs IH]; intros ND Hn.
  - cbn. symmetry. apply rsum_zero. auto.
  - inversion ND; subst. cbn [map]. rewrite sumR_cons, IH; auto; [|intros; apply Hn; cbn; auto].
    rewrite <- (@rsum_delta n g (f g)) at 1 by (apply Hn; cbn; auto). rewrite <- rsum_plus.
    apply rsum_ext. intros i Hi. cbn [existsb].
    destruct (Nat.eqb_spec i g) as [->|Ne]; cbn [orb]; [|ring].
    destruct (existsb (Nat.eqb g) gs) eqn:E; [|ring].
    apply existsb_exists in E. destruct E as (y & Hy & Ey). apply Nat.eqb_eq in Ey. subst y. contradiction.
Qed.

Lemma existsb_in i gs : existsb (Nat.eqb i) gs = true <-> In i gs.
Proof.
  rewrite existsb_exists. split.
  - intros (y & Hy & Ey). apply Nat.eqb_eq in Ey. subst. auto.
  - intros H. exists i. split; auto. apply Nat.eqb_refl.
Qed.

Lemma in_groups a b inc i :
  In i (groups a b inc) <-> (Nat.min a b <= i <= Nat.max a b /\ (i = b -> inc = true)).
Proof.
  unfold groups. destruct (range_spec (Z.of_nat a) (Z.of_nat b) inc) as [H _]. rewrite in_map_iff. split.
  - intros (z & Ez & Hz). apply H in Hz. destruct Hz as [Hz Hb]. subst i. split; [lia|].
    intros E. apply Hb. lia.
  - intros [Hi Hb]. exists (Z.of_nat i). split; [lia|]. apply H. split; [lia|]. intros E. apply Hb. lia.
Qed.
Lemma nodup_groups a b inc : NoDup (groups a b inc).
Proof.
  unfold groups. destruct (range_spec (Z.of_nat a) (Z.of_nat b) inc) as (H & ND & _).
  assert (P : forall z, In z (range (Z.of_nat a) (Z.of_nat b) inc) -> (0 <= z)%Z)
    by (intros z Hz; apply H in Hz; lia).
  revert ND P. generalize (range (Z.of_nat a) (Z.of_nat b) inc). clear.
  induction l as [|z l IH]; intros ND P; cbn; constructor; inversion ND; subst.
  - rewrite in_map_iff. intros (y & Ey & Hy). apply H1.
    assert (0 <= y)%Z by (apply P; cbn; auto). assert (0 <= z)%Z by (apply P; cbn; auto).
    replace z with y by lia. auto.
  - apply IH; auto. intros; apply P; cbn; auto.
Qed.

(** ** Scattering *)
Lemma sig_s_ok x c gt gf : problem x -> c < cells x -> gt < ng (mat x) -> gf < ng (mat x) ->
  sig_s x c gt gf = Ok (ss (mat x) gt gf (mat_of x c)).
Proof.
  intros (H1 & H2 & _) Hc Ht Hf. unfold sig_s. rewrite (@rd_ok _ _ c 0) by lia. cbn [bind].
  rewrite (proj2 (Nat.ltb_lt _ _) Ht), (proj2 (Nat.ltb_lt _ _) Hf).
  rewrite (proj2 (Nat.ltb_lt _ _) (H2 c Hc)). reflexivity.
Qed.

Lemma scat_term_ok x g gp phi c : problem x -> flux_ok (cells x) (ng (mat x)) phi ->
  c < cells x -> g < ng (mat x) -> gp < ng (mat x) ->
  (do f <- rd phi gp; do p <- rd f c; do v <- sig_s x c (g_to x g gp) (g_from x g gp); Ok (p * v)%R) =
  Ok (phi_of phi gp c * transfer_xs x c g gp)%R.
Proof.
  intros P (L & F) Hc Hg Hgp. rewrite (@rd_ok _ phi gp []) by lia. cbn [bind].
  specialize (F gp Hgp). rewrite (@rd_ok _ _ c 0%R) by lia. cbn [bind].
  rewrite sig_s_ok; auto.
  - cbn [bind]. unfold phi_of, transfer_xs, g_to, g_from. destruct (adj x); reflexivity.
  - unfold g_to; destruct (adj x); auto.
  - unfold g_from; destruct (adj x); auto.
Qed.

Lemma scat_groups_ok x g gs phi s :
  problem x -> flux_ok (cells x) (ng (mat x)) phi -> g < ng (mat x) -> cells x <= length s ->
  NoDup gs -> (forall i, In i gs -> i < ng (mat x)) ->
  exists s', scat_groups x g gs phi s = Ok s' /\
    added (cells x) (scatter_sum x phi (fun gp => existsb (Nat.eqb gp) gs) g) s s'.
Proof.
  intros P F Hg Hs ND Hi. unfold scat_groups.
  destruct (@add_list_ok _ (cells x)
    (fun gp c => do f <- rd phi gp; do p <- rd f c; do v <- sig_s x c (g_to x g gp) (g_from x g gp); Ok (p * v)%R)
    (fun gp c => (phi_of phi gp c * transfer_xs x c g gp)%R) gs s Hs) as (s' & E & A).
  - intros gp c Hgp Hc. apply scat_term_ok; auto.
  - exists s'. split; auto. eapply added_ext; [|exact A]. intros c Hc. cbv beta.
    unfold scatter_sum. exact (@sum_list_groups _ (fun gp => (phi_of phi gp c * transfer_xs x c g gp)%R) _ ND Hi).
Qed.

Lemma scat_within_ok x g s : problem x -> g < ng (mat x) -> cells x <= length s ->
  exists s', scat_within x g (nth g (flux x) []) s = Ok s' /\
    added (cells x) (scatter_sum x (flux x) (Nat.eqb g) g) s s'.
Proof.
  intros P Hg Hs. unfold scat_within.
  destruct (@add_cells_ok (cells x)
    (fun c => do p <- rd (nth g (flux x) []) c; do v <- sig_s x c g g; Ok (p * v)%R)
    (fun c => phi_of (flux x) g c * transfer_xs x c g g)%R s Hs) as (s' & E & A).
  - intros c Hc. destruct P as (P1 & P2 & P3 & P4). pose proof (P4 g Hg).
    rewrite (@rd_ok _ _ c 0%R) by lia. cbn [bind]. rewrite sig_s_ok; auto.
    + cbn [bind]. unfold phi_of, transfer_xs. destruct (adj x); reflexivity.
    + repeat split; auto.
  - exists s'. split; auto. eapply added_ext; [|exact A]. intros c Hc. cbv beta. unfold scatter_sum.
    rewrite <- (@rsum_delta (ng (mat x)) g (phi_of (flux x) g c * transfer_xs x c g g)%R) by auto.
    apply rsum_ext. intros i _. rewrite (Nat.eqb_sym g i). destruct (Nat.eqb_spec i g) as [->|]; auto.
Qed.

(** Outside the bounds nothing is transferred. *)
Lemma outside_zero x m g gp c : mat x = finalize m -> nonneg_scatter m -> problem x -> c < cells x ->
  g < ng (mat x) -> gp < ng (mat x) ->
  ~ (Nat.min (lo x g) (hi x g) <= gp <= Nat.max (lo x g) (hi x g)) ->
  transfer_xs x c g gp = 0%R.
Proof.
  intros Em NN P Hc Hg Hgp HO. destruct (finalize_bounds m) as [BC _].
  rewrite Em in Hg, Hgp. destruct P as (_ & P2 & _). specialize (P2 c Hc).
  unfold transfer_xs, mat_of, lo, hi in *. rewrite Em in *.
  destruct (adj x).
  - destruct (Rtotal_order 0 (ss (finalize m) gp g (nth c (mmap x) 0))) as [H|[H|H]]; auto.
    + exfalso. apply HO. destruct (BC gp g Hgp Hg) as [_ B]; [exists (nth c (mmap x) 0); auto|].
      lia.
    + cbn [finalize ss] in H. pose proof (NN gp g (nth c (mmap x) 0)). exfalso. lra.
  - destruct (Rtotal_order 0 (ss (finalize m) g gp (nth c (mmap x) 0))) as [H|[H|H]]; auto.
    + exfalso. apply HO. destruct (BC g gp Hg Hgp) as [B _]; [exists (nth c (mmap x) 0); auto|].
      lia.
    + cbn [finalize ss] in H. pose proof (NN g gp (nth c (mmap x) 0)). exfalso. lra.
Qed.

Lemma bounds_range x m g : mat x = finalize m -> g < ng (mat x) ->
  Nat.max (lo x g) (hi x g) < ng (mat x) /\ Nat.min (lo x g) (hi x g) <= g <= Nat.max (lo x g) (hi x g).
Proof.
  intros Em Hg. destruct (finalize_bounds m) as [_ BA]. rewrite Em in *.
  specialize (BA g Hg). unfold lo, hi. rewrite Em. destruct (adj x); lia.
Qed.

Lemma scatter_all_groups x m g s :
  problem x -> mat x = finalize m -> nonneg_scatter m -> g < ng (mat x) -> cells x <= length s ->
  exists s1 s2,
    scat_within x g (nth g (flux x) []) s = Ok s1 /\ scat_in x g s1 = Ok s2 /\
    added (cells x) (scatter_sum x (flux x) all_groups g) s s2.
Proof.
  intros P Em NN Hg Hs. destruct (scat_within_ok P Hg Hs) as (s1 & E1 & A1).
  destruct (bounds_range Em Hg) as [B1 B2].
  set (gs := filter (fun gp => negb (g =? gp)) (groups (lo x g) (hi x g) true)).
  destruct (@scat_groups_ok x g gs (flux x) s1) as (s2 & E2 & A2); auto.
  - destruct P as (_ & _ & F). exact F.
  - rewrite (proj1 A1). auto.
  - apply NoDup_filter, nodup_groups.
  - intros i Hi. apply filter_In in Hi. destruct Hi as [Hi _]. apply in_groups in Hi. lia.
  - exists s1, s2. split; auto. split; auto. eapply added_ext; [|eapply added_trans; eauto].
    intros c Hc. unfold scatter_sum. rewrite <- rsum_plus. apply rsum_ext. intros i Hi.
    unfold all_groups. destruct (Nat.eqb_spec g i) as [<-|Ne].
    + replace (existsb (Nat.eqb g) gs) with false; [ring|].
      symmetry. apply not_true_is_false. rewrite existsb_in. unfold gs. rewrite filter_In, Nat.eqb_refl.
      intros [_ H]. discriminate.
    + destruct (existsb (Nat.eqb i) gs) eqn:E; [ring|].
      rewrite (@outside_zero x m g i c); auto; [ring|]. intros H.
      apply not_true_iff_false in E. apply E. apply existsb_in. apply filter_In.
      split; [apply in_groups; split; auto|]. apply negb_true_iff, Nat.eqb_neq. auto.
Qed.

Lemma scatter_cutoff x m g cutoff phi s :
  problem x -> mat x = finalize m -> nonneg_scatter m -> g < ng (mat x) -> cells x <= length s ->
  flux_ok (cells x) (ng (mat x)) phi ->
  (if adj x then hi x g <= cutoff <= lo x g else lo x g <= cutoff <= hi x g) ->
  exists s1 s2,
    scat_down x g cutoff s = Ok s1 /\ scat_total x g cutoff phi s1 = Ok s2 /\
    added (cells x) (fun c => scatter_sum x (flux x) (below x cutoff) g c +
                              scatter_sum x phi (fun gp => negb (below x cutoff gp)) g c)%R s s2.
Proof.
  intros P Em NN Hg Hs F Hcut. destruct (bounds_range Em Hg) as [B1 B2].
  assert (Hcut' : Nat.min (lo x g) (hi x g) <= cutoff <= Nat.max (lo x g) (hi x g)) by (destruct (adj x); lia).
  destruct (@scat_groups_ok x g (groups (lo x g) cutoff false) (flux x) s) as (s1 & E1 & A1); auto.
  - destruct P as (_ & _ & F'). exact F'.
  - apply nodup_groups.
  - intros i Hi. apply in_groups in Hi. lia.
  - destruct (@scat_groups_ok x g (groups cutoff (hi x g) true) phi s1) as (s2 & E2 & A2); auto.
    + rewrite (proj1 A1). auto.
    + apply nodup_groups.
    + intros i Hi. apply in_groups in Hi. lia.
    + exists s1, s2. split; auto. split; auto. eapply added_ext; [|eapply added_trans; eauto].
      intros c Hc. cbv beta. f_equal; apply rsum_ext; intros i Hi.
      * destruct (existsb (Nat.eqb i) (groups (lo x g) cutoff false)) eqn:E.
        -- apply existsb_in, in_groups in E. replace (below x cutoff i) with true; auto.
           unfold below. destruct E as [E E'].
           assert (i <> cutoff) by (intros ->; specialize (E' eq_refl); discriminate).
           destruct (adj x); symmetry; apply Nat.ltb_lt; lia.
        -- destruct (below x cutoff i) eqn:Bi; auto.
           rewrite (@outside_zero x m g i c); auto; [ring|]. intros H.
           apply not_true_iff_false in E. apply E. apply existsb_in, in_groups. unfold below in Bi.
           destruct (adj x); apply Nat.ltb_lt in Bi; split; lia.
      * destruct (existsb (Nat.eqb i) (groups cutoff (hi x g) true)) eqn:E.
        -- apply existsb_in, in_groups in E. replace (below x cutoff i) with false; auto.
           unfold below. destruct (adj x); symmetry; apply Nat.ltb_ge; lia.
        -- destruct (below x cutoff i) eqn:Bi; auto. cbn [negb].
           rewrite (@outside_zero x m g i c); auto; [ring|]. intros H.
           apply not_true_iff_false in E. apply E. apply existsb_in, in_groups. unfold below in Bi.
           destruct (adj x); apply Nat.ltb_ge in Bi; split; auto; lia.
Qed.

(** Three groups; group 2 receives nothing from below, cutoff at group 1. *)
Definition w_mat : mtl := finalize (set_scatter (material_new 1 3) 0 2 2 1).
Definition w_src : src := {| cells := 1; mat := w_mat; mmap := [0]; adj := false; flux := [[1]; [1]; [1]]%R |}.

Lemma w_lower : lo w_src 2 = 2.
Proof. unfold lo, w_src, w_mat. crunch. reflexivity. Qed.
Lemma w_upper : hi w_src 2 = 2.
Proof. unfold hi, w_src, w_mat. crunch. reflexivity. Qed.
Lemma set_scatter_nonneg m k g gp v : nonneg_scatter m -> (0 <= v)%R -> nonneg_scatter (set_scatter m k g gp v).
Proof.
  intros H Hv a b c. cbn. unfold set3. destruct ((a =? g) && (b =? gp) && (c =? k)); auto.
Qed.
Lemma new_nonneg nmat n : nonneg_scatter (material_new nmat n).
Proof. intros a b c. cbn. lra. Qed.

Lemma scatter_cutoff_twice :
  problem w_src /\ nonneg_scatter w_mat /\
  exists s1 s2, scat_down w_src 2 1 [0%R] = Ok s1 /\ scat_total w_src 2 1 (flux w_src) s1 = Ok s2 /\
    (nth 0 s2 0 = 2)%R /\ (scatter_sum w_src (flux w_src) all_groups 2 0 = 1)%R.
Proof.
  assert (P : problem w_src).
  { split; [cbn; lia|]. split.
    - intros c Hc. change (cells w_src) with 1 in Hc. replace c with 0 by lia. cbn. lia.
    - split; [reflexivity|]. intros g Hg. change (ng (mat w_src)) with 3 in Hg.
      destruct g as [|[|[|g]]]; cbn; lia. }
  split; auto. split; [apply set_scatter_nonneg; [apply new_nonneg|lra]|].
  pose proof P as (P1 & P2 & P3).
  destruct (@scat_groups_ok w_src 2 (groups (lo w_src 2) 1 false) (flux w_src) [0%R]) as (s1 & E1 & A1).
  - exact P.
  - exact P3.
  - cbn; lia.
  - cbn; lia.
  - apply nodup_groups.
  - rewrite w_lower. intros i Hi. apply in_groups in Hi. change (ng (mat w_src)) with 3. lia.
  - destruct (@scat_groups_ok w_src 2 (groups 1 (hi w_src 2) true) (flux w_src) s1) as (s2 & E2 & A2).
    + exact P.
    + exact P3.
    + cbn; lia.
    + rewrite (proj1 A1). cbn; lia.
    + apply nodup_groups.
    + rewrite w_upper. intros i Hi. apply in_groups in Hi. change (ng (mat w_src)) with 3. lia.
    + exists s1, s2. split; [exact E1|]. split; [exact E2|].
      destruct A1 as [L1 A1]. destruct A2 as [L2 A2]. cbn [length] in *.
      rewrite w_lower in A1. rewrite w_upper in A2. split.
      * rewrite A2 by lia. rewrite A1 by lia.
        change (groups 2 1 false) with [2]. change (groups 1 2 true) with [1; 2].
        change (0 <? cells w_src) with true. cbn [nth].
        unfold scatter_sum. change (ng (mat w_src)) with 3. cbn. unfold phi_of, transfer_xs, set3. cbn. lra.
      * cbn. unfold phi_of, transfer_xs, all_groups, set3. cbn. lra.
Qed.

(** A negative transfer is outside the bounds. *)
Definition n_mat : mtl := finalize (set_scatter (material_new 1 2) 0 0 1 (-1)).
Definition n_src : src := {| cells := 1; mat := n_mat; mmap := [0]; adj := false; flux := [[1]; [1]]%R |}.
Lemma positive_neg : positive (-1) = false.
Proof. unfold positive. destruct (Rlt_dec 0 (-1)); auto. lra. Qed.
Lemma scatter_negative_dropped :
  problem n_src /\
  (exists s, scat_within n_src 0 (nth 0 (flux n_src) []) [0%R] = Ok [s] /\ scat_in n_src 0 [s] = Ok [0%R]) /\
  (scatter_sum n_src (flux n_src) all_groups 0 0 = -1)%R.
Proof.
  assert (P : problem n_src).
  { split; [cbn; lia|]. split.
    - intros c Hc. change (cells n_src) with 1 in Hc. replace c with 0 by lia. cbn. lia.
    - split; [reflexivity|]. intros g Hg. change (ng (mat n_src)) with 2 in Hg.
      destruct g as [|[|g]]; cbn; lia. }
  split; auto. split.
  - exists (0 + 1 * 0)%R. split; [reflexivity|].
    assert (L : lo n_src 0 = 0) by (unfold lo, n_src, n_mat; crunch; reflexivity).
    assert (U : hi n_src 0 = 0).
    { unfold hi, n_src, n_mat. cbn -[positive]. unfold set3. cbn -[positive].
      rewrite positive_zero, positive_neg. reflexivity. }
    unfold scat_in. rewrite L, U. cbn. do 2 f_equal. ring.
  - cbn. unfold phi_of, transfer_xs, all_groups, set3. cbn. lra.
Qed.

(** ** Fission *)
Lemma chi_at_ok x c g : problem x -> c < cells x -> g < ng (mat x) ->
  chi_at x c g = Ok (chi (mat x) g (mat_of x c)).
Proof.
  intros (H1 & H2 & _) Hc Hg. unfold chi_at. rewrite (@rd_ok _ _ c 0) by lia. cbn [bind].
  rewrite (proj2 (Nat.ltb_lt _ _) Hg), (proj2 (Nat.ltb_lt _ _) (H2 c Hc)). reflexivity.
Qed.
Lemma nsf_at_ok x c g : problem x -> c < cells x -> g < ng (mat x) ->
  nsf_at x c g = Ok (nsf (mat x) g (mat_of x c)).
Proof.
  intros (H1 & H2 & _) Hc Hg. unfold nsf_at. rewrite (@rd_ok _ _ c 0) by lia. cbn [bind].
  rewrite (proj2 (Nat.ltb_lt _ _) Hg), (proj2 (Nat.ltb_lt _ _) (H2 c Hc)). reflexivity.
Qed.

Lemma fis_groups_ok x g gs phi s :
  problem (fsrc x) -> flux_ok (cells (fsrc x)) (ng (mat (fsrc x))) phi -> g < ng (mat (fsrc x)) ->
  cells (fsrc x) <= length s -> NoDup gs -> (forall i, In i gs -> i < ng (mat (fsrc x))) ->
  exists s', fis_groups x g gs phi s = Ok s' /\
    added (cells (fsrc x)) (fun c => fscale x * fission_sum (fsrc x) phi (fun gp => existsb (Nat.eqb gp) gs) g c)%R s s'.
Proof.
  intros P F Hg Hs ND Hi. unfold fis_groups. set (y := fsrc x) in *.
  destruct (@add_list_ok _ (cells y)
    (fun gp c => do f <- rd phi gp; do p <- rd f c; do u <- chi_at y c (g_to y g gp);
       do v <- nsf_at y c (g_from y g gp); Ok (p * fscale x * u * v)%R)
    (fun gp c => (fscale x * (phi_of phi gp c * fission_xs y c g gp))%R) gs s Hs) as (s' & E & A).
  - intros gp c Hgp Hc. destruct F as (L & F). rewrite (@rd_ok _ phi gp []) by (rewrite L; auto). cbn [bind].
    specialize (F gp (Hi gp Hgp)). rewrite (@rd_ok _ _ c 0%R) by lia. cbn [bind].
    rewrite chi_at_ok, nsf_at_ok; auto.
    + cbn [bind]. unfold phi_of, fission_xs, g_to, g_from. destruct (adj y); f_equal; ring.
    + unfold g_from. destruct (adj y); auto.
    + unfold g_to. destruct (adj y); auto.
  - exists s'. split; auto. eapply added_ext; [|exact A]. intros c Hc. cbv beta.
    rewrite (@sumR_map_scal _ (fun gp => (phi_of phi gp c * fission_xs y c g gp)%R)). f_equal. unfold fission_sum.
    exact (@sum_list_groups _ (fun gp => (phi_of phi gp c * fission_xs y c g gp)%R) _ ND Hi).
Qed.

Lemma fis_total_ok x g phi s :
  problem (fsrc x) -> flux_ok (cells (fsrc x)) (ng (mat (fsrc x))) phi -> g < ng (mat (fsrc x)) ->
  cells (fsrc x) <= length s ->
  exists s', fis_total x g phi s = Ok s' /\
    added (cells (fsrc x)) (fun c => fscale x * fission_sum (fsrc x) phi all_groups g c)%R s s'.
Proof.
  intros P F Hg Hs. destruct (@fis_groups_ok x g (seq 0 (ng (mat (fsrc x)))) phi s) as (s' & E & A); auto.
  - apply seq_NoDup.
  - intros i Hi. apply in_seq in Hi. lia.
  - exists s'. split; auto. eapply added_ext; [|exact A]. intros c Hc. cbv beta. f_equal.
    apply rsum_ext. intros i Hi. replace (existsb (Nat.eqb i) (seq 0 (ng (mat (fsrc x))))) with true; auto.
    symmetry. apply existsb_in. apply in_seq. lia.
Qed.

Lemma fis_parts_ok x g s :
  problem (fsrc x) -> g < ng (mat (fsrc x)) -> cells (fsrc x) <= length s ->
  exists s1 s2,
    fis_within x g (nth g (flux (fsrc x)) []) s = Ok s1 /\
    added (cells (fsrc x)) (fun c => fscale x * fission_sum (fsrc x) (flux (fsrc x)) (Nat.eqb g) g c)%R s s1 /\
    fis_in x g s1 = Ok s2 /\
    added (cells (fsrc x)) (fun c => fscale x * fission_sum (fsrc x) (flux (fsrc x)) (fun gp => negb (gp =? g)) g c)%R s1 s2.
Proof.
  intros P Hg Hs. set (y := fsrc x) in *. unfold fis_within. fold y.
  destruct (@add_cells_ok (cells y)
    (fun c => do p <- rd (nth g (flux y) []) c; do u <- chi_at y c g; do v <- nsf_at y c g; Ok (p * fscale x * u * v)%R)
    (fun c => fscale x * (phi_of (flux y) g c * fission_xs y c g g))%R s Hs) as (s1 & E1 & A1).
  { intros c Hc. pose proof P as (P1 & P2 & P3 & P4). pose proof (P4 g Hg).
    rewrite (@rd_ok _ _ c 0%R) by lia. cbn [bind]. rewrite chi_at_ok, nsf_at_ok; auto.
    cbn [bind]. unfold phi_of, fission_xs. destruct (adj y); f_equal; ring. }
  destruct (@fis_groups_ok x g (filter (fun gp => negb (gp =? g)) (seq 0 (ng (mat y)))) (flux y) s1) as (s2 & E2 & A2); auto.
  - destruct P as (_ & _ & F). exact F.
  - fold y. rewrite (proj1 A1). auto.
  - apply NoDup_filter, seq_NoDup.
  - intros i Hi. apply filter_In in Hi. destruct Hi as [Hi _]. apply in_seq in Hi. fold y. lia.
  - exists s1, s2. split; auto. split; [|split; auto].
    + eapply added_ext; [|exact A1]. intros c Hc. cbv beta. f_equal. unfold fission_sum.
      rewrite <- (@rsum_delta (ng (mat y)) g (phi_of (flux y) g c * fission_xs y c g g)%R) by auto.
      apply rsum_ext. intros i _. rewrite (Nat.eqb_sym g i). destruct (Nat.eqb_spec i g) as [->|]; auto.
    + eapply added_ext; [|exact A2]. intros c Hc. cbv beta. fold y. f_equal.
      apply rsum_ext. intros i Hi.
      replace (existsb (Nat.eqb i) (filter (fun gp => negb (gp =? g)) (seq 0 (ng (mat y))))) with (negb (i =? g)); auto.
      destruct (Nat.eqb_spec i g) as [->|Ne]; cbn [negb]; symmetry.
      * apply not_true_iff_false. rewrite existsb_in, filter_In, Nat.eqb_refl. intros [_ H]. discriminate.
      * apply existsb_in, filter_In. split; [apply in_seq; lia|]. apply negb_true_iff, Nat.eqb_neq. auto.
Qed.

Lemma fission_parts x g s :
  problem (fsrc x) -> g < ng (mat (fsrc x)) -> cells (fsrc x) <= length s ->
  exists s1 s2,
    fis_within x g (nth g (flux (fsrc x)) []) s = Ok s1 /\ fis_in x g s1 = Ok s2 /\
    fis_total x g (flux (fsrc x)) s = Ok s2 /\
    added (cells (fsrc x)) (fun c => fscale x * fission_sum (fsrc x) (flux (fsrc x)) all_groups g c)%R s s2.
Proof.
  intros P Hg Hs. destruct (fis_parts_ok P Hg Hs) as (s1 & s2 & E1 & A1 & E2 & A2).
  destruct (@fis_total_ok x g (flux (fsrc x)) s) as (s3 & E3 & A3); auto.
  { destruct P as (_ & _ & F). exact F. }
  exists s1, s2. split; auto. split; auto.
  assert (A : added (cells (fsrc x)) (fun c => fscale x * fission_sum (fsrc x) (flux (fsrc x)) all_groups g c)%R s s2).
  { eapply added_ext; [|eapply added_trans; [exact A1|exact A2]]. intros c Hc. cbv beta.
    rewrite <- Rmult_plus_distr_l. f_equal. unfold fission_sum. rewrite <- rsum_plus. apply rsum_ext.
    intros i _. cbv beta. unfold all_groups. rewrite (Nat.eqb_sym i g). destruct (g =? i); cbn [negb]; ring. }
  split; auto. rewrite E3. f_equal. eapply added_unique; eauto.
Qed.

Lemma fis_update_ok x : problem (fsrc x) -> cells (fsrc x) <= length (dens x) ->
  exists x', fis_update x = Ok x' /\ fsrc x' = fsrc x /\ fsource x' = fsource x /\ fscale x' = fscale x /\
    length (dens x') = length (dens x) /\
    forall c, c < cells (fsrc x) -> nth c (dens x') 0%R =
      rsum (ng (mat (fsrc x))) (fun gp => (phi_of (flux (fsrc x)) gp c *
        (if adj (fsrc x) then chi (mat (fsrc x)) gp (mat_of (fsrc x) c)
                         else nsf (mat (fsrc x)) gp (mat_of (fsrc x) c)))%R).
Proof.
  intros P Hd. set (y := fsrc x) in *. unfold fis_update. fold y. unfold for_. rewrite Nat.sub_0_r.
  destruct (@add_list_ok _ (cells y)
     (fun g c => do f <- rd (flux y) g; do p <- rd f c;
        do v <- (if adj y then chi_at y c g else nsf_at y c g); Ok (p * v)%R)
     (fun g c => (phi_of (flux y) g c * (if adj y then chi (mat y) g (mat_of y c) else nsf (mat y) g (mat_of y c)))%R)
     (seq 0 (ng (mat y))) (repeat 0%R (length (dens x)))) as (d & E & L & A).
  - rewrite repeat_length. auto.
  - intros g c Hg Hc. apply in_seq in Hg. pose proof P as (_ & _ & P3 & P4).
    rewrite (@rd_ok _ _ g []) by (rewrite P3; lia). cbn [bind]. pose proof (P4 g ltac:(lia)).
    rewrite (@rd_ok _ _ c 0%R) by lia. cbn [bind].
    rewrite chi_at_ok, nsf_at_ok by (auto; lia). destruct (adj y); reflexivity.
  - rewrite repeat_length in *. eexists. split; [rewrite E; reflexivity|]. cbn. repeat split; auto.
    intros c Hc. rewrite A by lia. rewrite (proj2 (Nat.ltb_lt _ _) Hc). rewrite nth_repeat_lt by lia.
    rewrite rsum_sumR. ring.
Qed.

Lemma fis_outer_ok x k : problem (fsrc x) -> cells (fsrc x) <= length (dens x) ->
  length (fsource x) = ng (mat (fsrc x)) ->
  (forall g, g < ng (mat (fsrc x)) -> length (nth g (fsource x) []) = cells (fsrc x)) ->
  exists x', fis_setup_outer x k = Ok x' /\ fsrc x' = fsrc x /\ dens x' = dens x /\ fscale x' = k /\
    length (fsource x') = ng (mat (fsrc x)) /\
    forall g, g < ng (mat (fsrc x)) -> length (nth g (fsource x') []) = cells (fsrc x) /\
      forall c, c < cells (fsrc x) -> nth c (nth g (fsource x') []) 0%R =
        (k * nth c (dens x) 0 * (if adj (fsrc x) then nsf (mat (fsrc x)) g (mat_of (fsrc x) c)
                                 else chi (mat (fsrc x)) g (mat_of (fsrc x) c)))%R.
Proof.
  intros P Hd HL HR. set (y := fsrc x) in *. unfold fis_setup_outer. fold y.
  set (v := fun g c => (k * nth c (dens x) 0 * (if adj y then nsf (mat y) g (mat_of y c) else chi (mat y) g (mat_of y c)))%R).
  set (body := fun g c q => do v <- (if adj y then nsf_at y c g else chi_at y c g); do d <- rd (dens x) c;
     do row <- rd q g; do row0 <- wr row c (k * d * v)%R; wr q g row0).
  set (I := fun n q => length q = ng (mat y) /\ (forall g, g < ng (mat y) -> length (nth g q []) = cells y) /\
     (forall g c, g < n -> c < cells y -> nth c (nth g q []) 0%R = v g c)).
  destruct (@for_inv _ I 0 (ng (mat y)) (fsource x) (fun g q => for_ 0 (cells y) q (body g))) as (q & E & H1 & H2 & H3).
  - lia.
  - split; auto. split; auto. intros; lia.
  - intros g q Hg (I1 & I2 & I3).
    destruct (@for_inv _ (fun n q => I g q /\ forall c, c < n -> c < cells y -> nth c (nth g q []) 0%R = v g c)
       0 (cells y) q (body g)) as (q' & E' & (J1 & J2 & J3) & J4).
    + lia.
    + split; [split; auto|]. intros; lia.
    + intros c r Hc ((K1 & K2 & K3) & K4). unfold body.
      rewrite chi_at_ok, nsf_at_ok by (auto; lia).
      replace (if adj y then Ok (nsf (mat y) g (mat_of y c)) else Ok (chi (mat y) g (mat_of y c)))
        with (Ok (if adj y then nsf (mat y) g (mat_of y c) else chi (mat y) g (mat_of y c))) by (destruct (adj y); auto).
      cbn [bind]. rewrite (@rd_ok _ (dens x) c 0%R) by lia. cbn [bind].
      rewrite (@rd_ok _ r g []) by lia. cbn [bind].
      pose proof (K2 g ltac:(lia)) as Lg.
      unfold wr at 1. rewrite Lg, (proj2 (Nat.ltb_lt c (cells y))) by lia. cbn [bind].
      unfold wr. rewrite K1, (proj2 (Nat.ltb_lt g _)) by lia. eexists. split; [reflexivity|].
      split; [split; [rewrite upd_length; auto|split]|].
      * intros g' Hg'. destruct (Nat.eq_dec g g') as [<-|Ne].
        -- rewrite nth_upd_eq by lia. rewrite upd_length. auto.
        -- rewrite nth_upd_neq by auto. auto.
      * intros g' c' Hg' Hc'. rewrite nth_upd_neq by lia. auto.
      * intros c' Hc' Hc''. rewrite nth_upd_eq by lia. destruct (Nat.eq_dec c c') as [<-|Ne].
        -- rewrite nth_upd_eq by lia. reflexivity.
        -- rewrite nth_upd_neq by auto. apply K4; lia.
    + exists q'. split; auto. split; auto. split; auto. intros g' c Hg' Hc.
      destruct (Nat.eq_dec g' g) as [->|Ne]; [apply J4; auto|]. apply J3; auto. lia.
  - unfold body in E. rewrite E. cbn [bind]. eexists. split; [reflexivity|]. cbn.
    split; auto. split; auto. split; auto. split; auto. intros g Hg. split; auto.
    intros c Hc. apply (H3 g c Hg Hc).
Qed.

(** The two fission paths. *)
Lemma fission_paths x k g s :
  problem (fsrc x) -> cells (fsrc x) <= length (dens x) ->
  length (fsource x) = ng (mat (fsrc x)) ->
  (forall g, g < ng (mat (fsrc x)) -> length (nth g (fsource x) []) = cells (fsrc x)) ->
  g < ng (mat (fsrc x)) -> cells (fsrc x) <= length s ->
  exists x1 x2 s',
    fis_update x = Ok x1 /\ fis_setup_outer x1 k = Ok x2 /\
    fis_total (fis_set_scale x k) g (flux (fsrc x)) s = Ok s' /\
    added (cells (fsrc x)) (fun c => nth c (nth g (fsource x2) []) 0%R) s s' /\
    (forall c, c < cells (fsrc x) ->
       (nth c (nth g (fsource x2) []) 0 = k * fission_sum (fsrc x) (flux (fsrc x)) all_groups g c)%R).
Proof.
  intros P Hd HL HR Hg Hs.
  destruct (fis_update_ok P Hd) as (x1 & E1 & S1 & S2 & S3 & L1 & D1).
  destruct (@fis_outer_ok x1 k) as (x2 & E2 & T1 & T2 & T3 & T4 & T5); rewrite ?S1, ?S2; auto; try lia.
  destruct (@fis_total_ok (fis_set_scale x k) g (flux (fsrc x)) s) as (s' & E3 & A3); auto.
  { destruct P as (_ & _ & F). exact F. }
  rewrite S1 in T5. destruct (T5 g Hg) as (_ & T6).
  assert (V : forall c, c < cells (fsrc x) ->
    (nth c (nth g (fsource x2) []) 0 = k * fission_sum (fsrc x) (flux (fsrc x)) all_groups g c)%R).
  { intros c Hc. rewrite T6, D1 by auto. rewrite Rmult_assoc. f_equal. unfold fission_sum.
    rewrite <- rsum_scal_r. apply rsum_ext. intros i _. unfold all_groups, fission_xs.
    destruct (adj (fsrc x)); ring. }
  exists x1, x2, s'. repeat split; auto; try apply A3.
  intros c Hc. rewrite (proj2 A3) by auto. destruct (Nat.ltb_spec c (cells (fsrc x))) as [H|H].
  - cbn [fis_set_scale fsrc fscale] in *. rewrite (proj2 (Nat.ltb_lt _ _) H). rewrite V by auto. reflexivity.
  - cbn [fis_set_scale fsrc] in *. rewrite (proj2 (Nat.ltb_ge _ _) H). reflexivity.
Qed.

(** Linear in the scale factor. *)
Lemma fission_linear x k1 k2 g :
  problem (fsrc x) -> g < ng (mat (fsrc x)) ->
  exists s1 s2 s3,
    let z := repeat 0%R (cells (fsrc x)) in
    fis_total (fis_set_scale x k1) g (flux (fsrc x)) z = Ok s1 /\
    fis_total (fis_set_scale x k2) g (flux (fsrc x)) z = Ok s2 /\
    fis_total (fis_set_scale x (k1 + k2)) g (flux (fsrc x)) z = Ok s3 /\
    forall c, c < cells (fsrc x) -> (nth c s3 0 = nth c s1 0 + nth c s2 0)%R /\
      (k1 * nth c s2 0 = k2 * nth c s1 0)%R.
Proof.
  intros P Hg. assert (F : flux_ok (cells (fsrc x)) (ng (mat (fsrc x))) (flux (fsrc x)))
    by (destruct P as (_ & _ & F); exact F).
  assert (G : forall k, exists s, fis_total (fis_set_scale x k) g (flux (fsrc x)) (repeat 0%R (cells (fsrc x))) = Ok s /\
    forall c, c < cells (fsrc x) -> (nth c s 0 = k * fission_sum (fsrc x) (flux (fsrc x)) all_groups g c)%R).
  { intros k. destruct (@fis_total_ok (fis_set_scale x k) g (flux (fsrc x)) (repeat 0%R (cells (fsrc x)))) as (s & E & A); auto.
    - rewrite repeat_length. auto.
    - exists s. split; auto. intros c Hc. destruct A as [_ A]. rewrite repeat_length in A. rewrite A by auto.
      cbn [fis_set_scale fsrc fscale]. rewrite (proj2 (Nat.ltb_lt _ _) Hc), nth_repeat_lt by auto. ring. }
  destruct (G k1) as (s1 & E1 & H1). destruct (G k2) as (s2 & E2 & H2). destruct (G (k1 + k2)%R) as (s3 & E3 & H3).
  exists s1, s2, s3. cbv zeta. split; [exact E1|]. split; [exact E2|]. split; [exact E3|].
  intros c Hc. rewrite H1, H2, H3 by auto. split; ring.
Qed.

(** initialize: the density is the normalised production of a flat flux. *)
Lemma fis_initialize_ok x : problem (fsrc x) -> length (dens x) = cells (fsrc x) ->
  (forall g k, 0 <= nsf (mat (fsrc x)) g k)%R ->
  let tot := rsum (cells (fsrc x)) (fun c => rsum (ng (mat (fsrc x))) (fun g => nsf (mat (fsrc x)) g (mat_of (fsrc x) c))) in
  (0 < tot)%R ->
  exists x', fis_initialize x = Ok x' /\ sumR (dens x') = 1%R /\
    forall c, c < cells (fsrc x) ->
      (nth c (dens x') 0 * tot = rsum (ng (mat (fsrc x))) (fun g => nsf (mat (fsrc x)) g (mat_of (fsrc x) c)))%R.
Proof.
  intros P HL NN tot Ht. set (y := fsrc x) in *. unfold fis_initialize. cbv zeta. fold y.
  set (v := fun c => rsum (ng (mat y)) (fun g => nsf (mat y) g (mat_of y c))).
  set (body := fun c d => do d0 <- wr d c 0%R; for_ 0 (ng (mat y)) d0 (fun g d1 =>
     do w <- nsf_at y c g; do z <- rd d1 c; wr d1 c (z + w)%R)).
  destruct (@for_inv _ (fun n d => length d = cells y /\ forall c, c < n -> c < cells y -> nth c d 0%R = v c)
    0 (cells y) (dens x) body) as (d & E & L & D).
  - lia.
  - split; auto. intros; lia.
  - intros c d Hc [L D]. unfold body. unfold wr at 1. rewrite L, (proj2 (Nat.ltb_lt c _)) by lia. cbn [bind].
    destruct (@for_inv _ (fun n d' => length d' = cells y /\ (forall c', c' <> c -> nth c' d' 0%R = nth c' d 0%R) /\
       nth c d' 0%R = rsum n (fun g => nsf (mat y) g (mat_of y c))) 0 (ng (mat y)) (upd d c 0%R)
       (fun g d1 => do w <- nsf_at y c g; do z <- rd d1 c; wr d1 c (z + w)%R)) as (d' & E' & L' & D1 & D2).
    + lia.
    + rewrite upd_length. split; auto. split; [intros; apply nth_upd_neq; auto|]. rewrite nth_upd_eq by lia. reflexivity.
    + intros g d' Hg (L' & D1 & D2). rewrite nsf_at_ok by (auto; lia). cbn [bind].
      rewrite (@rd_ok _ d' c 0%R) by lia. cbn [bind]. unfold wr. rewrite L', (proj2 (Nat.ltb_lt c _)) by lia.
      eexists. split; [reflexivity|]. rewrite upd_length. split; auto. split.
      * intros c' Hc'. rewrite nth_upd_neq by auto. auto.
      * rewrite nth_upd_eq by lia. rewrite D2. reflexivity.
    + exists d'. split; auto. split; auto. intros c' Hc' Hc''. destruct (Nat.eq_dec c' c) as [->|Ne]; auto.
      rewrite D1 by auto. apply D; lia.
  - first [rewrite E | unfold body in E; rewrite E]. cbn [bind]. eexists. split; [reflexivity|]. cbn [with_dens dens].
    assert (N : fold_left (fun acc w => (acc + Rabs w)%R) d 0%R = tot).
    { rewrite (@fold_left_Rplus _ Rabs). rewrite Rplus_0_l.
      transitivity (sumR d).
      - transitivity (sumR (map (fun a => a) d)); [|rewrite map_id; auto]. apply sumR_map_ext.
        intros a Ha. apply In_nth with (d := 0%R) in Ha. destruct Ha as (i & Hi & <-).
        rewrite D by lia. apply Rabs_pos_eq. apply rsum_nonneg. intros; apply NN.
      - rewrite sumR_nth, L. apply rsum_ext. intros i Hi. apply D; auto. }
    rewrite N. split.
    + transitivity (sumR (map (fun a => 1 / tot * a)%R d)).
      * f_equal. apply map_ext. intros; ring.
      * rewrite (@sumR_map_scal _ (fun a => a)), map_id.
        assert (S : sumR d = tot) by (rewrite sumR_nth, L; apply rsum_ext; intros i Hi; apply D; auto).
        rewrite S. field. lra.
    + intros c Hc. rewrite nth_indep with (d' := (0 * (1 / tot))%R) by (rewrite map_length; lia).
      rewrite map_nth with (f := fun w => (w * (1 / tot))%R). rewrite D by auto. fold (v c). field. lra.
Qed.
