(** * Proofs about the sweep source and the state *)
From Verif Require Import Base BaseR Loop Material_Model Source_Model Source_Spec Source_Proofs.
Set Implicit Arguments. Unset Strict Implicit.
Open Scope nat_scope.

Lemma zero_cells_ok n s : n <= length s ->
  exists s', zero_cells n s = Ok s' /\ length s' = length s /\ forall c, c < n -> nth c s' 0%R = 0%R.
Proof.
  intros Hn. unfold zero_cells.
  destruct (@for_inv _ (fun i t => length t = length s /\ forall c, c < i -> nth c t 0%R = 0%R)
     0 n s (fun c s => wr s c 0%R)) as (s' & E & L & H).
  - lia.
  - split; auto. intros; lia.
  - intros i t Hi [L H]. unfold wr. rewrite L, (proj2 (Nat.ltb_lt _ _)) by lia. eexists. split; [reflexivity|].
    rewrite upd_length. split; auto. intros c Hc. destruct (Nat.eq_dec i c) as [<-|Ne].
    + apply nth_upd_eq. lia.
    + rewrite nth_upd_neq by auto. apply H. lia.
  - exists s'. auto.
Qed.

Lemma added_val n v s s' c : added n v s s' -> c < n -> n <= length s -> nth c s' 0%R = (nth c s 0 + v c)%R.
Proof. intros [_ A] Hc Hn. rewrite A by lia. rewrite (proj2 (Nat.ltb_lt _ _) Hc). reflexivity. Qed.

Lemma build_fixed_ok x g : sweep_ready x -> g < ng (mat (ssrc x)) ->
  exists f, build_fixed x g = Ok (with_fixed x f) /\ length f = length (fixed x) /\
    forall c, c < cells (ssrc x) -> nth c f 0%R = (external x g c + explicit_fission x g c)%R.
Proof.
  intros (P & Lf & Ls & HQ & HI) Hg. unfold build_fixed.
  destruct (zero_cells_ok Lf) as (f0 & E0 & L0 & Z0). rewrite E0. cbn [bind].
  destruct (@add_list_ok _ (cells (ssrc x)) (fun (e : nat -> nat -> R) c => Ok (e c g)) (fun e c => e c g) (ext x) f0)
    as (f1 & E1 & A1); [lia|auto|]. rewrite E1. cbn [bind]. pose proof (proj1 A1) as L1.
  unfold explicit_fission. destruct (fiss x) as [q|] eqn:EQ.
  - destruct (implicit x) eqn:EI.
    + cbn [bind]. exists f1. split; auto. split; [congruence|]. intros c Hc.
      rewrite (added_val A1) by lia. rewrite Z0 by auto. unfold external. ring.
    + destruct (HQ q eq_refl) as (_ & Q1 & Q2). rewrite (@rd_ok _ (fsource q) g []) by lia. cbn [bind].
      destruct (@add_cells_ok (cells (ssrc x)) (fun c => rd (nth g (fsource q) []) c)
        (fun c => nth c (nth g (fsource q) []) 0%R) f1) as (f2 & E2 & A2).
      * lia.
      * intros c Hc. apply rd_ok. specialize (Q2 g Hg). lia.
      * rewrite E2. cbn [bind]. exists f2. split; auto. split; [destruct A2; congruence|]. intros c Hc.
        rewrite (added_val A2) by lia. rewrite (added_val A1) by lia. rewrite Z0 by auto. unfold external. ring.
  - cbn [bind]. exists f1. split; auto. split; [congruence|]. intros c Hc.
    rewrite (added_val A1) by lia. rewrite Z0 by auto. unfold external. ring.
Qed.

Lemma fission_within_in x q g s : problem (ssrc x) -> fission_ready (ssrc x) q ->
  g < ng (mat (ssrc x)) -> cells (ssrc x) <= length s ->
  (exists s1, fis_within q g (nth g (flux (ssrc x)) []) s = Ok s1 /\
     added (cells (ssrc x)) (fun c => fscale q * fission_sum (ssrc x) (flux (ssrc x)) (Nat.eqb g) g c)%R s s1) /\
  (exists s1, fis_in q g s = Ok s1 /\
     added (cells (ssrc x)) (fun c => fscale q * fission_sum (ssrc x) (flux (ssrc x)) (fun gp => negb (gp =? g)) g c)%R s s1).
Proof.
  intros P (Q0 & _ & _) Hg Hs. rewrite <- Q0 in *. split.
  - destruct (fis_parts_ok P Hg Hs) as (s1 & s2 & E1 & A1 & _). exists s1. auto.
  - destruct (@fis_groups_ok q g (filter (fun gp => negb (gp =? g)) (seq 0 (ng (mat (fsrc q))))) (flux (fsrc q)) s)
      as (s2 & E2 & A2); auto.
    + destruct P as (_ & _ & F). exact F.
    + apply NoDup_filter, seq_NoDup.
    + intros i Hi. apply filter_In in Hi. destruct Hi as [Hi _]. apply in_seq in Hi. lia.
    + exists s2. split; auto. eapply added_ext; [|exact A2]. intros c Hc. cbv beta. f_equal.
      apply rsum_ext. intros i Hi.
      replace (existsb (Nat.eqb i) (filter (fun gp => negb (gp =? g)) (seq 0 (ng (mat (fsrc q)))))) with (negb (i =? g)); auto.
      destruct (Nat.eqb_spec i g) as [->|Ne]; cbn [negb]; symmetry.
      * apply not_true_iff_false. rewrite existsb_in, filter_In, Nat.eqb_refl. intros [_ H]. discriminate.
      * apply existsb_in, filter_In. split; [apply in_seq; lia|]. apply negb_true_iff, Nat.eqb_neq. auto.
Qed.

Lemma scat_in_ok x m g s : problem x -> mat x = finalize m -> nonneg_scatter m -> g < ng (mat x) ->
  cells x <= length s ->
  exists s', scat_in x g s = Ok s' /\
    added (cells x) (scatter_sum x (flux x) (fun gp => negb (gp =? g)) g) s s'.
Proof.
  intros P Em NN Hg Hs. destruct (bounds_range Em Hg) as [B1 B2].
  set (gs := filter (fun gp => negb (g =? gp)) (groups (lo x g) (hi x g) true)).
  destruct (@scat_groups_ok x g gs (flux x) s) as (s2 & E2 & A2); auto.
  - destruct P as (_ & _ & F). exact F.
  - apply NoDup_filter, nodup_groups.
  - intros i Hi. apply filter_In in Hi. destruct Hi as [Hi _]. apply in_groups in Hi. lia.
  - exists s2. split; auto. eapply added_ext; [|exact A2].
    intros c Hc. unfold scatter_sum. apply rsum_ext. intros i Hi.
    destruct (Nat.eqb_spec i g) as [->|Ne]; cbn [negb].
    + replace (existsb (Nat.eqb g) gs) with false; auto.
      symmetry. apply not_true_is_false. rewrite existsb_in. unfold gs. rewrite filter_In, Nat.eqb_refl.
      intros [_ H]. discriminate.
    + destruct (existsb (Nat.eqb i) gs) eqn:E; auto.
      rewrite (@outside_zero x m g i c); auto; [ring|]. intros H.
      apply not_true_iff_false in E. apply E. apply existsb_in. apply filter_In.
      split; [apply in_groups; split; auto|]. apply negb_true_iff, Nat.eqb_neq. auto.
Qed.

Lemma fixed_with_scatter_ok x m g : sweep_ready x -> mat (ssrc x) = finalize m -> nonneg_scatter m ->
  g < ng (mat (ssrc x)) ->
  exists f, build_fixed_with_scatter x g = Ok (with_fixed x f) /\ length f = length (fixed x) /\
    forall c, c < cells (ssrc x) -> nth c f 0%R =
      (external x g c + explicit_fission x g c +
       scatter_sum (ssrc x) (flux (ssrc x)) (fun gp => negb (gp =? g)) g c +
       implicit_fission x (fun gp => negb (gp =? g)) g c)%R.
Proof.
  intros R Em NN Hg. pose proof R as (P & Lf & Ls & HQ & HI).
  destruct (build_fixed_ok R Hg) as (f0 & E0 & L0 & V0).
  unfold build_fixed_with_scatter. rewrite E0. cbn [bind with_fixed ssrc fixed implicit fiss].
  destruct (@scat_in_ok (ssrc x) m g f0) as (f1 & E1 & A1); auto; [lia|]. rewrite E1. cbn [bind].
  pose proof (proj1 A1) as L1. unfold implicit_fission. destruct (implicit x) eqn:EI.
  - destruct (fiss x) as [q|] eqn:EQ; [|exfalso; apply HI; auto].
    destruct (@fission_within_in x q g f1) as (_ & f2 & E2 & A2); auto; [lia|].
    rewrite E2. cbn [bind]. pose proof (proj1 A2) as L2. exists f2.
    split; [reflexivity|]. split; [congruence|]. intros c Hc.
    rewrite (added_val A2) by lia. rewrite (added_val A1) by lia. rewrite V0 by auto. ring.
  - cbn [bind]. exists f1. split; [reflexivity|]. split; [congruence|]. intros c Hc.
    rewrite (added_val A1) by lia. rewrite V0 by auto. destruct (fiss x); ring.
Qed.

Lemma within_scatter_ok x g : sweep_ready x -> g < ng (mat (ssrc x)) ->
  exists s, build_within_group_scatter x g (nth g (flux (ssrc x)) []) = Ok (with_scat x s) /\
    length s = length (scat x) /\
    forall c, c < cells (ssrc x) -> nth c s 0%R =
      (scatter_sum (ssrc x) (flux (ssrc x)) (Nat.eqb g) g c + implicit_fission x (Nat.eqb g) g c)%R.
Proof.
  intros R Hg. pose proof R as (P & Lf & Ls & HQ & HI).
  unfold build_within_group_scatter.
  destruct (zero_cells_ok Ls) as (s0 & E0 & L0 & Z0). rewrite E0. cbn [bind].
  destruct (@scat_within_ok (ssrc x) g s0) as (s1 & E1 & A1); auto; [lia|]. rewrite E1. cbn [bind].
  pose proof (proj1 A1) as L1. unfold implicit_fission. destruct (implicit x) eqn:EI.
  - destruct (fiss x) as [q|] eqn:EQ; [|exfalso; apply HI; auto].
    destruct (@fission_within_in x q g s1) as ((s2 & E2 & A2) & _); auto; [lia|].
    rewrite E2. cbn [bind]. exists s2. split; [reflexivity|]. pose proof (proj1 A2). split; [congruence|].
    intros c Hc. rewrite (added_val A2) by lia. rewrite (added_val A1) by lia. rewrite Z0 by auto. ring.
  - cbn [bind]. exists s1. split; [reflexivity|]. split; [congruence|]. intros c Hc.
    rewrite (added_val A1) by lia. rewrite Z0 by auto. destruct (fiss x); ring.
Qed.

Lemma sweep_source_ok x mtod g angle s :
  cells (ssrc x) <= length (fixed x) -> cells (ssrc x) <= length (scat x) -> cells (ssrc x) <= length s ->
  exists s', sweep_source x mtod g angle s = Ok s' /\ length s' = length s /\
    forall c, c < cells (ssrc x) -> nth c s' 0%R =
      ((nth c (fixed x) 0 + nth c (scat x) 0) * mtod + discrete x g angle c)%R.
Proof.
  intros Lf Ls L. unfold sweep_source.
  destruct (@for_inv _ (fun i t => length t = length s /\
     forall c, c < i -> nth c t 0%R = ((nth c (fixed x) 0 + nth c (scat x) 0) * mtod)%R)
     0 (cells (ssrc x)) s (fun c s => do f <- rd (fixed x) c; do k <- rd (scat x) c; wr s c ((f + k) * mtod)%R))
    as (s1 & E1 & L1 & H1).
  - lia.
  - split; auto. intros; lia.
  - intros i t Hi [Lt H]. rewrite (@rd_ok _ (fixed x) i 0%R), (@rd_ok _ (scat x) i 0%R) by lia. cbn [bind].
    unfold wr. rewrite Lt, (proj2 (Nat.ltb_lt _ _)) by lia. eexists. split; [reflexivity|].
    rewrite upd_length. split; auto. intros c Hc. destruct (Nat.eq_dec i c) as [<-|Ne].
    + apply nth_upd_eq. lia.
    + rewrite nth_upd_neq by auto. apply H. lia.
  - rewrite E1. cbn [bind].
    destruct (@add_list_ok _ (cells (ssrc x)) (fun (e : nat -> nat -> nat -> R) c => Ok (e c g angle))
      (fun e c => e c g angle) (dext x) s1) as (s2 & E2 & A2); [lia|auto|].
    exists s2. split; auto. pose proof (proj1 A2). split; [congruence|]. intros c Hc.
    rewrite (added_val A2) by lia. rewrite H1 by auto. reflexivity.
Qed.

Lemma sum_parts n (f : nat -> R) g :
  (rsum n (fun gp => if negb (gp =? g) then f gp else 0) + rsum n (fun gp => if g =? gp then f gp else 0) =
   rsum n f)%R.
Proof.
  rewrite <- rsum_plus. apply rsum_ext. intros i _. rewrite (Nat.eqb_sym g i).
  destruct (i =? g); cbn [negb]; ring.
Qed.

(** The complete source of one within-group iteration. *)
Lemma complete_source x m mtod g angle s :
  sweep_ready x -> mat (ssrc x) = finalize m -> nonneg_scatter m -> g < ng (mat (ssrc x)) ->
  cells (ssrc x) <= length s ->
  exists x1 x2 s',
    build_fixed_with_scatter x g = Ok x1 /\
    build_within_group_scatter x1 g (nth g (flux (ssrc x)) []) = Ok x2 /\
    sweep_source x2 mtod g angle s = Ok s' /\
    forall c, c < cells (ssrc x) -> nth c s' 0%R =
      (mtod * (external x g c + explicit_fission x g c + implicit_fission x all_groups g c +
               scatter_sum (ssrc x) (flux (ssrc x)) all_groups g c) + discrete x g angle c)%R.
Proof.
  intros R Em NN Hg Hs. pose proof R as (P & Lf & Ls & HQ & HI).
  destruct (fixed_with_scatter_ok R Em NN Hg) as (f & E1 & L1 & V1).
  destruct (@within_scatter_ok (with_fixed x f) g) as (t & E2 & L2 & V2).
  { unfold sweep_ready, with_fixed. cbn. rewrite L1. auto. }
  { exact Hg. }
  destruct (@sweep_source_ok (with_scat (with_fixed x f) t) mtod g angle s) as (s' & E3 & L3 & V3);
    cbn [with_scat with_fixed ssrc fixed scat] in *; try lia.
  exists (with_fixed x f), (with_scat (with_fixed x f) t), s'. split; auto. split; auto. split; auto.
  intros c Hc. rewrite V3, V1, V2 by auto. unfold discrete. cbn [with_scat with_fixed dext].
  unfold scatter_sum, implicit_fission, fission_sum, all_groups. cbn [with_fixed fiss implicit ssrc].
  rewrite <- (sum_parts _ (fun gp => phi_of (flux (ssrc x)) gp c * transfer_xs (ssrc x) c g gp)%R g).
  destruct (fiss x) as [q|]; [destruct (implicit x)|].
  - rewrite <- (sum_parts _ (fun gp => phi_of (flux (ssrc x)) gp c * fission_xs (ssrc x) c g gp)%R g). ring.
  - ring.
  - ring.
Qed.

(** ** State *)

(** Writing one entry of a nested vector. *)
Lemma wr2 (m : list (list R)) g i v : g < length m -> i < length (nth g m []) ->
  exists m', (do row <- rd m g; do w <- rd row i; do row <- wr row i (v w); wr m g row) = Ok m' /\
    length m' = length m /\ (forall h, length (nth h m' []) = length (nth h m [])) /\
    forall h j, mom2 m' h j = if (h =? g) && (j =? i) then v (mom2 m h j) else mom2 m h j.
Proof.
  intros Hg Hi. rewrite (@rd_ok _ m g []) by auto. cbn [bind]. rewrite (@rd_ok _ _ i 0%R) by auto. cbn [bind].
  unfold wr at 1. rewrite (proj2 (Nat.ltb_lt _ _) Hi). cbn [bind]. unfold wr. rewrite (proj2 (Nat.ltb_lt _ _) Hg).
  eexists. split; [reflexivity|]. rewrite upd_length. split; auto. split.
  - intros h. destruct (Nat.eq_dec g h) as [<-|Ne].
    + rewrite nth_upd_eq by auto. apply upd_length.
    + rewrite nth_upd_neq by auto. auto.
  - intros h j. unfold mom2. destruct (Nat.eqb_spec h g) as [->|Ne]; cbn [andb].
    + rewrite nth_upd_eq by auto. destruct (Nat.eqb_spec j i) as [->|Ne'].
      * apply nth_upd_eq. auto.
      * apply nth_upd_neq. auto.
    + rewrite nth_upd_neq by auto. auto.
Qed.
Lemma wr3 (p : list (list (list R))) g a i v :
  g < length p -> a < length (nth g p []) -> i < length (nth a (nth g p []) []) ->
  exists p', (do pg <- rd p g; do pa <- rd pg a; do w <- rd pa i; do pa <- wr pa i (v w);
              do pg <- wr pg a pa; wr p g pg) = Ok p' /\
    length p' = length p /\ (forall h, length (nth h p' []) = length (nth h p [])) /\
    (forall h b, length (nth b (nth h p' []) []) = length (nth b (nth h p []) [])) /\
    forall h b j, psi3 p' h b j = if (h =? g) && (b =? a) && (j =? i) then v (psi3 p h b j) else psi3 p h b j.
Proof.
  intros Hg Ha Hi. rewrite (@rd_ok _ p g []) by auto. cbn [bind]. rewrite (@rd_ok _ _ a []) by auto. cbn [bind].
  rewrite (@rd_ok _ _ i 0%R) by auto. cbn [bind].
  unfold wr at 1. rewrite (proj2 (Nat.ltb_lt _ _) Hi). cbn [bind].
  unfold wr at 1. rewrite (proj2 (Nat.ltb_lt _ _) Ha). cbn [bind]. unfold wr. rewrite (proj2 (Nat.ltb_lt _ _) Hg).
  eexists. split; [reflexivity|]. rewrite upd_length. split; auto. split; [|split].
  - intros h. destruct (Nat.eq_dec g h) as [<-|Ne].
    + rewrite nth_upd_eq by auto. apply upd_length.
    + rewrite nth_upd_neq by auto. auto.
  - intros h b. destruct (Nat.eq_dec g h) as [<-|Ne].
    + rewrite nth_upd_eq by auto. destruct (Nat.eq_dec a b) as [<-|Ne'].
      * rewrite nth_upd_eq by auto. apply upd_length.
      * rewrite nth_upd_neq by auto. auto.
    + rewrite nth_upd_neq by auto. auto.
  - intros h b j. unfold psi3. destruct (Nat.eqb_spec h g) as [->|Ne]; cbn [andb].
    + rewrite nth_upd_eq by auto. destruct (Nat.eqb_spec b a) as [->|Ne']; cbn [andb].
      * rewrite nth_upd_eq by auto. destruct (Nat.eqb_spec j i) as [->|Ne''].
        -- apply nth_upd_eq. auto.
        -- apply nth_upd_neq. auto.
      * rewrite nth_upd_neq by auto. auto.
    + rewrite nth_upd_neq by auto. auto.
Qed.

Definition done (G g i h j : nat) : bool := (h <? g) || ((h =? g) && (j <? i)).

Lemma done_step C g i h j : i < C -> j < C ->
  done C g (S i) h j = done C g i h j || ((h =? g) && (j =? i)).
Proof.
  intros Hi Hj. unfold done. destruct (Nat.ltb_spec h g), (Nat.eqb_spec h g), (Nat.ltb_spec j (S i)),
    (Nat.ltb_spec j i), (Nat.eqb_spec j i); cbn; auto; lia.
Qed.

(** Effect of the loop of clear and scale: the first number_cells entries of
    every group's moments, and every angular flux entry, are mapped. *)
Lemma state_map_ok h x nmom : 1 <= nmom -> state_shaped nmom x ->
  exists x', state_map h x = Ok x' /\ state_shaped nmom x' /\
    sgroups x' = sgroups x /\ scells x' = scells x /\ sangles x' = sangles x /\ store_psi x' = store_psi x /\
    (forall g i, g < sgroups x -> mom2 (moments x') g i = if i <? scells x then h (mom2 (moments x) g i)
                                                       else mom2 (moments x) g i) /\
    (store_psi x = true -> forall g a i, g < sgroups x -> a < sangles x -> i < scells x ->
       psi3 (psi x') g a i = h (psi3 (psi x) g a i)).
Proof.
  intros Hn (S1 & S2 & S3). set (C := scells x) in *. set (G := sgroups x) in *. set (A := sangles x) in *.
  set (Lens := fun mp : list (list R) * list (list (list R)) =>
     length (fst mp) = length (moments x) /\ (forall g, length (nth g (fst mp) []) = length (nth g (moments x) [])) /\
     length (snd mp) = length (psi x) /\ (forall g, length (nth g (snd mp) []) = length (nth g (psi x) [])) /\
     (forall g a, length (nth a (nth g (snd mp) []) []) = length (nth a (nth g (psi x) []) []))).
  set (I := fun g i (mp : list (list R) * list (list (list R))) => Lens mp /\
     (forall k j, mom2 (fst mp) k j = if (j <? C) && done C g i k j then h (mom2 (moments x) k j) else mom2 (moments x) k j) /\
     (store_psi x = true -> forall k a j, a < A ->
        psi3 (snd mp) k a j = if (j <? C) && done C g i k j then h (psi3 (psi x) k a j) else psi3 (psi x) k a j)).
  unfold state_map. fold C G A.
  match goal with |- context [for_ 0 G ?s0 ?b] => destruct (@for_inv _ (fun g mp => I g 0 mp) 0 G s0 b) as (mp & E & HI) end.
  - lia.
  - split; [repeat split; auto|]. split; cbn [fst snd].
    + intros k j. unfold done. replace (k <? 0) with false by (symmetry; apply Nat.ltb_ge; lia).
      replace (j <? 0) with false by (symmetry; apply Nat.ltb_ge; lia). rewrite andb_false_r. cbn [orb].
      rewrite andb_false_r. auto.
    + intros _ k a j _. unfold done. replace (k <? 0) with false by (symmetry; apply Nat.ltb_ge; lia).
      replace (j <? 0) with false by (symmetry; apply Nat.ltb_ge; lia). rewrite andb_false_r. cbn [orb].
      rewrite andb_false_r. auto.
  - intros g mp Hg HI.
    match goal with |- context [for_ 0 C ?s0 ?b] => destruct (@for_inv _ (fun i mp => I g i mp) 0 C s0 b) as (mp' & E & HI') end.
    + lia.
    + exact HI.
    + clear mp HI. intros i [m p] Hi (HL & HM & HP). destruct HL as (L1 & L2 & L3 & L4 & L5). cbn [fst snd] in *.
      destruct (@wr2 m g i h) as (m' & Em & Lm1 & Lm2 & Vm); [rewrite L1, S1; lia|rewrite L2, S2 by lia; nia|].
      assert (Em' : forall K : list (list R) -> res (list (list R) * list (list (list R))),
        (do row <- rd m g; do v <- rd row i; do row0 <- wr row i (h v); do m0 <- wr m g row0; K m0) = K m').
      { intros K. transitivity (do m0 <- (do row <- rd m g; do w <- rd row i; do row <- wr row i (h w); wr m g row); K m0).
        - destruct (rd m g) as [r| |]; cbn [bind]; auto. destruct (rd r i) as [w| |]; cbn [bind]; auto.
          destruct (wr r i (h w)); cbn [bind]; auto.
        - rewrite Em. reflexivity. }
      rewrite Em'. clear Em' Em.
      assert (VM : forall k j, mom2 m' k j = if (j <? C) && done C g (S i) k j then h (mom2 (moments x) k j) else mom2 (moments x) k j).
      { intros k j. rewrite Vm, HM. destruct (Nat.ltb_spec j C) as [Hj|Hj]; cbn [andb].
        - rewrite done_step by lia. destruct ((k =? g) && (j =? i)) eqn:Q.
          + apply andb_prop in Q. destruct Q as [Q1 Q2]. apply Nat.eqb_eq in Q1, Q2. subst k j.
            replace (done C g i g i) with false; auto. unfold done.
            rewrite Nat.ltb_irrefl, Nat.eqb_refl, Nat.ltb_irrefl. reflexivity.
          + rewrite orb_false_r. auto.
        - replace (j =? i) with false by (symmetry; apply Nat.eqb_neq; lia). rewrite andb_false_r. auto. }
      destruct (store_psi x) eqn:SP.
      * destruct (S3 eq_refl) as (T1 & T2).
        match goal with |- context [for_ 0 A ?s0 ?bd] =>
          destruct (@for_inv _ (fun (b : nat) q => length q = length p /\ (forall g, length (nth g q []) = length (nth g p [])) /\
            (forall g a, length (nth a (nth g q []) []) = length (nth a (nth g p []) [])) /\
            (forall k a j, psi3 q k a j = if (k =? g) && (a <? b) && (j =? i) then h (psi3 p k a j) else psi3 p k a j))
            0 A s0 bd) as (p' & Ep & M1 & M2 & M3 & M4) end.
        -- lia.
        -- repeat split; auto. intros k a j. replace (a <? 0) with false by (symmetry; apply Nat.ltb_ge; lia).
           rewrite andb_false_r. auto.
        -- intros a q Ha (M1 & M2 & M3 & M4).
           destruct (T2 g ltac:(lia)) as (T3 & T4).
           destruct (@wr3 q g a i h) as (q' & Eq & N1 & N2 & N3 & N4).
           ++ rewrite M1, L3, T1. lia.
           ++ rewrite M2, L4, T3. lia.
           ++ rewrite M3, L5, T4 by lia. lia.
           ++ exists q'. split; [exact Eq|]. split; [congruence|]. split; [intros; rewrite N2; auto|].
              split; [intros; rewrite N3; auto|]. intros k b j. rewrite N4, M4.
              destruct (Nat.eqb_spec k g) as [Q1|Q1], (Nat.eqb_spec b a) as [Q2|Q2], (Nat.eqb_spec j i) as [Q3|Q3],
                (Nat.ltb_spec b a), (Nat.ltb_spec b (S a)); cbn [andb]; auto; lia.
        -- rewrite Ep. cbn [bind]. eexists. split; [reflexivity|]. split; [|split]; cbn [fst snd].
           ++ repeat split; cbn [fst snd]; intros; congruence.
           ++ exact VM.
           ++ intros _ k a j Ha. rewrite M4, (HP eq_refl) by auto. rewrite (proj2 (Nat.ltb_lt _ _) Ha), andb_true_r.
              destruct (Nat.ltb_spec j C) as [Hj|Hj]; cbn [andb].
              ** rewrite done_step by lia. destruct ((k =? g) && (j =? i)) eqn:Q.
                 --- apply andb_prop in Q. destruct Q as [Q1 Q2]. apply Nat.eqb_eq in Q1, Q2. subst k j.
                     replace (done C g i g i) with false; auto. unfold done.
                     rewrite Nat.ltb_irrefl, Nat.eqb_refl, Nat.ltb_irrefl. reflexivity.
                 --- rewrite orb_false_r. auto.
              ** replace (j =? i) with false by (symmetry; apply Nat.eqb_neq; lia). rewrite andb_false_r. auto.
      * eexists. split; [reflexivity|]. split; [|split]; cbn [fst snd].
        -- repeat split; cbn [fst snd]; intros; congruence.
        -- exact VM.
        -- intros Q. discriminate.
    + exists mp'. split; auto. destruct HI' as (HL & HM & HP). split; auto.
      assert (D : forall k j, j < C -> done C (S g) 0 k j = done C g C k j).
      { intros k j Hj. unfold done. destruct (Nat.ltb_spec k (S g)), (Nat.ltb_spec k g), (Nat.eqb_spec k g),
         (Nat.eqb_spec k (S g)), (Nat.ltb_spec j C); cbn; auto; lia. }
      split.
      * intros k j. rewrite HM. destruct (Nat.ltb_spec j C) as [Hj|Hj]; cbn [andb]; auto. rewrite D; auto.
      * intros Q k a j Ha. rewrite (HP Q) by auto. destruct (Nat.ltb_spec j C) as [Hj|Hj]; cbn [andb]; auto. rewrite D; auto.
  - rewrite E. cbn [bind]. eexists. split; [reflexivity|]. destruct HI as ((L1 & L2 & L3 & L4 & L5) & HM & HP).
    assert (Dn : forall k j, k < G -> done C G 0 k j = true).
    { intros k j Hk. unfold done. rewrite (proj2 (Nat.ltb_lt _ _) Hk). auto. }
    cbn [sgroups scells sangles store_psi moments psi].
    split; [|split; [auto|split; [auto|split; [auto|split; [auto|split]]]]].
    + split; [|split]; cbn [sgroups scells sangles store_psi moments psi].
      * rewrite L1. auto.
      * intros g Hg. rewrite L2. auto.
      * intros Q. destruct (S3 Q) as (T1 & T2). rewrite L3. split; auto. intros g Hg.
        destruct (T2 g Hg) as (T3 & T4). rewrite L4. split; auto. intros a Ha. rewrite L5. auto.
    + intros g i Hg. rewrite HM. rewrite Dn, andb_true_r by auto. reflexivity.
    + intros Q g a i Hg Ha Hi. rewrite (HP Q) by auto. rewrite (proj2 (Nat.ltb_lt _ _) Hi), Dn by auto. reflexivity.
Qed.

Lemma clear_zeroth x nmom : 1 <= nmom -> state_shaped nmom x ->
  exists x', state_clear x = Ok x' /\ state_shaped nmom x' /\
    (forall g i, g < sgroups x -> i < scells x -> mom2 (moments x') g i = 0%R) /\
    (forall g i, g < sgroups x -> scells x <= i -> mom2 (moments x') g i = mom2 (moments x) g i) /\
    (store_psi x = true -> forall g a i, g < sgroups x -> a < sangles x -> i < scells x -> psi3 (psi x') g a i = 0%R).
Proof.
  intros Hn HS. destruct (@state_map_ok (fun _ => 0%R) x nmom Hn HS) as (x' & E & S' & _ & _ & _ & _ & M & P).
  exists x'. split; auto. split; auto. split; [|split].
  - intros g i Hg Hi. rewrite M by auto. rewrite (proj2 (Nat.ltb_lt _ _) Hi). auto.
  - intros g i Hg Hi. rewrite M by auto. rewrite (proj2 (Nat.ltb_ge _ _) Hi). auto.
  - intros Q. apply P. auto.
Qed.
Lemma scale_zeroth x f nmom : 1 <= nmom -> state_shaped nmom x ->
  exists x', state_scale x f = Ok x' /\ state_shaped nmom x' /\
    (forall g i, g < sgroups x -> i < scells x -> mom2 (moments x') g i = (mom2 (moments x) g i * f)%R) /\
    (forall g i, g < sgroups x -> scells x <= i -> mom2 (moments x') g i = mom2 (moments x) g i) /\
    (store_psi x = true -> forall g a i, g < sgroups x -> a < sangles x -> i < scells x ->
       psi3 (psi x') g a i = (psi3 (psi x) g a i * f)%R).
Proof.
  intros Hn HS. destruct (@state_map_ok (fun v => (v * f)%R) x nmom Hn HS) as (x' & E & S' & _ & _ & _ & _ & M & P).
  exists x'. split; auto. split; auto. split; [|split].
  - intros g i Hg Hi. rewrite M by auto. rewrite (proj2 (Nat.ltb_lt _ _) Hi). auto.
  - intros g i Hg Hi. rewrite M by auto. rewrite (proj2 (Nat.ltb_ge _ _) Hi). auto.
  - intros Q. apply P. auto.
Qed.

(** With a single moment that is everything. *)
Lemma clear_scale_one x f : state_shaped 1 x ->
  (exists x', state_clear x = Ok x' /\ every_moment (fun _ _ v => v = 0%R) x') /\
  (exists x', state_scale x f = Ok x' /\
     every_moment (fun g i v => v = (nth i (nth g (moments x) []) 0 * f)%R) x').
Proof.
  intros HS. split.
  - destruct (@state_map_ok (fun _ => 0%R) x 1 (Nat.le_refl _) HS) as (x' & E & S' & G & C & _ & _ & M & _).
    exists x'. split; auto. intros g i Hg Hi. destruct S' as (T1 & T2 & _). rewrite T1, G in Hg.
    rewrite T2 in Hi by lia. specialize (M g i Hg). rewrite (proj2 (Nat.ltb_lt i (scells x))) in M by lia. exact M.
  - destruct (@state_map_ok (fun v => (v * f)%R) x 1 (Nat.le_refl _) HS) as (x' & E & S' & G & C & _ & _ & M & _).
    exists x'. split; auto. intros g i Hg Hi. destruct S' as (T1 & T2 & _). rewrite T1, G in Hg.
    rewrite T2 in Hi by lia. specialize (M g i Hg). rewrite (proj2 (Nat.ltb_lt i (scells x))) in M by lia. exact M.
Qed.

Lemma new_state_shaped G C nmom A sp : state_shaped nmom (state_new G C nmom A sp).
Proof.
  split; [apply repeat_length|]. split.
  - intros g Hg. cbn. rewrite nth_repeat_lt by auto. apply repeat_length.
  - cbn. intros ->. rewrite repeat_length. split; auto. intros g Hg. rewrite nth_repeat_lt by auto.
    rewrite repeat_length. split; auto. intros a Ha. rewrite nth_repeat_lt by auto. apply repeat_length.
Qed.

(** First-order moments survive clear, and are not scaled. *)
Definition two_moments : state := {| sgroups := 1; scells := 1; sangles := 0; store_psi := false;
  moments := [[3; 5]]%R; psi := [] |}.
Lemma clear_scale_two : state_shaped 2 two_moments /\
  (exists x', state_clear two_moments = Ok x' /\ ~ every_moment (fun _ _ v => v = 0%R) x') /\
  (exists x', state_scale two_moments 2 = Ok x' /\
     ~ every_moment (fun g i v => v = (nth i (nth g (moments two_moments) []) 0 * 2)%R) x').
Proof.
  split; [|split].
  - split; [reflexivity|]. split; [|discriminate]. intros g Hg. cbn in Hg. replace g with 0 by lia. reflexivity.
  - eexists. split; [reflexivity|]. intros H. specialize (H 0 1). cbn in H.
    assert (5 = 0)%R by (apply H; lia). lra.
  - eexists. split; [reflexivity|]. intros H. specialize (H 0 1). cbn in H.
    assert (5 = 5 * 2)%R by (apply H; lia). lra.
Qed.
