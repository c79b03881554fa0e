(** * Spc_Proofs2: the spectra (no model content) *)
From Coq Require Import Lra Lia.
From Verif Require Import Base BaseR Loop Mesh_Model Region_Spec Cpc_Model Cpc_Spec Spc_Model Spc_Spec.
Set Implicit Arguments.
Unset Strict Implicit.
Open Scope nat_scope.

(** ** Filling matrices *)
Lemma existsb_seq b s n : existsb (Nat.eqb b) (seq s n) = (s <=? b) && (b <? s + n).
Proof.
  apply eq_true_iff_eq. rewrite existsb_exists, andb_true_iff, Nat.leb_le, Nat.ltb_lt. split.
  - intros (x & Hx & E). apply in_seq in Hx. apply Nat.eqb_eq in E. lia.
  - intros H. exists b. split; [apply in_seq; lia|apply Nat.eqb_refl].
Qed.
Lemma row_fold g (f : nat -> R -> R) (step : dense -> nat -> dense) :
  (forall M j a b, step M j a b = if (a =? g) && (b =? j) then f j (M a b) else M a b) ->
  forall l M a b, NoDup l -> fold_left step l M a b = if (a =? g) && existsb (Nat.eqb b) l then f b (M a b) else M a b.
Proof.
  intros H. induction l as [|j l IH]; intros M a b N; cbn [fold_left existsb].
  - rewrite andb_false_r. reflexivity.
  - inversion N as [|? ? N1 N2]; subst. rewrite IH by auto. rewrite H. destruct (Nat.eqb_spec a g) as [->|Ha]; cbn [andb]; auto.
    destruct (Nat.eqb_spec b j) as [->|Hb]; cbn [orb]; auto.
    destruct (existsb (Nat.eqb j) l) eqn:E; auto. apply existsb_exists in E as (x & Hx & Ex). apply Nat.eqb_eq in Ex. subst. contradiction.
Qed.
Lemma put_at M i j v a b : put M i j v a b = if (a =? i) && (b =? j) then v else M a b.
Proof. reflexivity. Qed.

Section Medium.
Variables (c : medium) (fis : bool).
Let n := d_ng c.
Let e (k : R) (m : nat) := emit (d_s c m) (d_chi c m) (d_f c m) fis k.

Lemma row_upper m g UL a b : fst (gs_row c fis m g UL) a b = if (a =? g) && ((g <? b) && (b <? n)) then e 1 m g b else fst UL a b.
Proof.
  unfold gs_row. cbn [fst].
  rewrite (@row_fold g (fun j _ => e 1 m g j)) by (try apply seq_NoDup; intros M j a' b'; unfold plus_at, e, emit; destruct fis; rewrite ?put_at;
    rewrite ?Nat.eqb_refl; cbn [andb]; destruct ((a' =? g) && (b' =? j)); auto; field).
  rewrite existsb_seq. fold n. replace ((g + 1 <=? b) && (b <? g + 1 + (n - (g + 1)))) with ((g <? b) && (b <? n)); auto.
  apply eq_true_iff_eq. rewrite !andb_true_iff, !Nat.ltb_lt, Nat.leb_le. lia.
Qed.
Lemma row_lower m g UL a b : snd (gs_row c fis m g UL) a b =
  if (a =? g) && (b <=? g) then ((if b =? g then d_t c m g else snd UL a b) - e 1 m g b)%R else snd UL a b.
Proof.
  unfold gs_row. cbn [snd].
  rewrite (@row_fold g (fun j v => (v - e 1 m g j)%R)) by (try apply seq_NoDup; intros M j a' b'; unfold plus_at, e, emit; destruct fis; rewrite ?put_at;
    rewrite ?Nat.eqb_refl; cbn [andb]; destruct (Nat.eqb_spec a' g) as [->|]; cbn [andb]; auto; destruct (Nat.eqb_spec b' j) as [->|]; auto; field).
  rewrite existsb_seq, put_at. destruct (Nat.eqb_spec a g) as [->|]; cbn [andb]; auto.
  destruct (Nat.leb_spec b g) as [H|H]; destruct (Nat.ltb_spec b (0 + (g + 1))) as [H'|H']; try lia; cbn [andb Nat.leb]; auto.
  destruct (Nat.eqb_spec b g); auto; lia.
Qed.
Lemma mat_rows m UL : forall k a b,
  let r := fold_left (fun UL g => gs_row c fis m g UL) (seq 0 k) UL in
  fst r a b = (if (a <? k) && ((a <? b) && (b <? n)) then e 1 m a b else fst UL a b) /\
  snd r a b = (if (a <? k) && (b <=? a) then ((if b =? a then d_t c m a else snd UL a b) - e 1 m a b)%R else snd UL a b).
Proof.
  induction k as [|k IH]; intros a b; cbn zeta; [auto|]. rewrite seq_S, fold_left_app. cbn [fold_left Nat.add].
  destruct (IH a b) as (I1 & I2). cbn zeta in I1, I2. rewrite row_upper, row_lower, I1, I2.
  destruct (Nat.ltb_spec a k) as [H|H]; destruct (Nat.ltb_spec a (S k)) as [H'|H']; try lia; cbn [andb].
  - destruct (Nat.eqb_spec a k); [lia|]. cbn [andb]. auto.
  - assert (a = k) by lia. subst a. rewrite Nat.eqb_refl. cbn [andb]. auto.
  - destruct (Nat.eqb_spec a k); [lia|]. cbn [andb]. auto.
Qed.
Lemma upper_applied m y g : g < n -> apply n (fst (gs_matrices c fis m (zero2, zero2))) y g = from_below n (e 1 m) y g.
Proof.
  intros H. unfold apply, from_below, gs_matrices. fold n. apply rsum_ext. intros h Hh. destruct (mat_rows m (zero2, zero2) n g h) as (-> & _).
  rewrite (proj2 (Nat.ltb_lt g n) H), (proj2 (Nat.ltb_lt h n) Hh), andb_true_r. cbn [andb]. destruct (g <? h); cbn [fst zero2]; unfold zero2; ring.
Qed.
Lemma lower_applied m y g : g < n -> apply n (snd (gs_matrices c fis m (zero2, zero2))) y g = remainder n (d_t c m) (e 1 m) y g.
Proof.
  intros H. unfold apply, remainder, gs_matrices. fold n.
  replace (d_t c m g * y g)%R with (rsum n (fun h => if h =? g then (d_t c m g * y g)%R else 0%R)) by (apply rsum_delta; auto).
  rewrite <- rsum_minus. apply rsum_ext. intros h Hh. destruct (mat_rows m (zero2, zero2) n g h) as (_ & ->).
  rewrite (proj2 (Nat.ltb_lt g n) H). cbn [andb snd]. unfold zero2.
  destruct (Nat.ltb_spec g h) as [L|L]; destruct (Nat.leb_spec h g) as [L'|L']; try lia.
  - destruct (Nat.eqb_spec h g); [lia|]. ring.
  - destruct (Nat.eqb_spec h g) as [->|]; ring.
Qed.

Lemma gs_first eig : finds_mode n (d_t c 0) (e 1 0) eig -> forall k, gs_mode n (d_t c 0) (e 1 0) (fun g => gs_spectrum eig c fis k g 0).
Proof.
  intros F k. unfold gs_spectrum. cbn [seq fold_left fst snd]. unfold set_column. cbn [Nat.eqb].
  set (UL := gs_matrices c fis 0 (zero2, zero2)).
  assert (Q1 : forall y g, g < n -> apply n (fst UL) y g = from_below n (e 1 0) y g) by (intros; apply upper_applied; auto).
  assert (Q2 : forall y g, g < n -> apply n (snd UL) y g = remainder n (d_t c 0) (e 1 0) y g) by (intros; apply lower_applied; auto).
  destruct (F (fst UL) (snd UL) Q1 Q2) as (U & l & P & G).
  split; [exact U|]. exists l. split.
  - intros g Hg. pose proof (P g Hg) as E. rewrite Q1, Q2 in E by auto. exact E.
  - intros l' y Uy Py. apply (G l' y Uy). intros g Hg. rewrite Q1, Q2 by auto. exact (Py g Hg).
Qed.
Lemma gs_others eig k g m : 0 < m -> gs_spectrum eig c fis k g m = 0%R.
Proof. intros H. unfold gs_spectrum. cbn [seq fold_left snd]. unfold set_column. destruct (Nat.eqb_spec m 0); [lia|]. reflexivity. Qed.

(** ** The fixed source *)
Lemma fs_entry k m A0 : forall a b, a < n -> b < n -> fs_matrix c fis k m A0 a b = ((if a =? b then d_t c m a else 0) - e k m a b)%R.
Proof.
  set (F := fun a b => ((if a =? b then d_t c m a else 0) - e k m a b)%R).
  assert (Row : forall g A a b, fold_left (fun A gp =>
     let A := put A g gp (- d_s c m g gp)%R in
     let A := if fis then plus_at A g gp (- (d_chi c m g * d_f c m gp / k))%R else A in
     if g =? gp then plus_at A g gp (d_t c m g) else A) (seq 0 n) A a b = if (a =? g) && (b <? n) then F g b else A a b).
  { intros g A a b. rewrite (@row_fold g (fun j _ => F g j)).
    - rewrite existsb_seq. cbn [Nat.leb andb Nat.add]. reflexivity.
    - intros M j a' b'. unfold plus_at, F, e, emit. cbv zeta. destruct fis; destruct (g =? j); rewrite ?put_at, ?Nat.eqb_refl; cbn [andb];
        destruct ((a' =? g) && (b' =? j)); auto; unfold Rdiv; ring.
    - apply seq_NoDup. }
  unfold fs_matrix. fold n.
  assert (All : forall q a b, fold_left (fun A g => fold_left (fun A gp =>
     let A := put A g gp (- d_s c m g gp)%R in
     let A := if fis then plus_at A g gp (- (d_chi c m g * d_f c m gp / k))%R else A in
     if g =? gp then plus_at A g gp (d_t c m g) else A) (seq 0 n) A) (seq 0 q) A0 a b = if (a <? q) && (b <? n) then F a b else A0 a b).
  { induction q as [|q IH]; intros a b; [reflexivity|]. rewrite seq_S, fold_left_app. cbn [fold_left Nat.add]. rewrite Row, IH.
    destruct (Nat.ltb_spec a q) as [H|H]; destruct (Nat.ltb_spec a (S q)) as [H'|H']; try lia; cbn [andb].
    - destruct (Nat.eqb_spec a q); [lia|]. reflexivity.
    - replace a with q by lia. rewrite Nat.eqb_refl. destruct (b <? n); reflexivity.
    - destruct (Nat.eqb_spec a q); [lia|]. reflexivity. }
  intros a b Ha Hb. rewrite All. rewrite (proj2 (Nat.ltb_lt _ _) Ha), (proj2 (Nat.ltb_lt _ _) Hb). reflexivity.
Qed.
Lemma fs_applied k m A0 y g : g < n -> apply n (fs_matrix c fis k m A0) y g = loss n (d_t c m) (e k m) y g.
Proof.
  intros H. unfold apply, loss.
  replace (d_t c m g * y g)%R with (rsum n (fun h => if h =? g then (d_t c m g * y g)%R else 0%R)) by (apply rsum_delta; auto).
  rewrite <- rsum_minus. apply rsum_ext. intros h Hh. rewrite fs_entry by auto. rewrite (Nat.eqb_sym g h). destruct (Nat.eqb_spec h g) as [->|]; ring.
Qed.
Lemma rsum_sq_pos q (x : nat -> R) g : g < q -> x g <> 0%R -> (0 < rsum q (fun g => x g * x g))%R.
Proof.
  intros H N. induction q as [|q IH]; [lia|]. cbn [rsum].
  assert (P : (0 <= rsum q (fun g => x g * x g))%R) by (apply rsum_nonneg; intros; nra).
  destruct (Nat.eq_dec g q) as [->|]; [nra|]. assert (0 < rsum q (fun g => x g * x g))%R by (apply IH; lia). nra.
Qed.
Lemma unit_balance (t b x : nat -> R) (E : nat -> nat -> R) : (exists g, g < n /\ b g <> 0%R) -> (forall g, g < n -> loss n t E x g = b g) ->
  unit_vec n (unit_of n x) /\ exists s, (0 < s)%R /\ balance n t E (fun g => s * b g)%R (unit_of n x).
Proof.
  intros (g0 & H0 & N0) H. assert (P : (0 < rsum n (fun g => x g * x g))%R).
  { destruct (Req_dec (rsum n (fun g => x g * x g)%R) 0%R) as [Z|Z].
    - exfalso. assert (X : forall g, g < n -> x g = 0%R).
      { intros g Hg. destruct (Req_dec (x g) 0%R) as [|NX]; auto. pose proof (@rsum_sq_pos n x g Hg NX). lra. }
      apply N0. rewrite <- (H g0 H0). unfold loss. rewrite X by auto. rewrite rsum_zero; [ring|]. intros h Hh. rewrite X by auto. ring.
    - assert (0 <= rsum n (fun g => x g * x g))%R by (apply rsum_nonneg; intros; nra). lra. }
  set (N := norm2 n x). assert (PN : (0 < N)%R) by (apply sqrt_lt_R0; auto). assert (SN : (N * N = rsum n (fun g => x g * x g))%R) by (apply sqrt_sqrt; lra).
  split.
  - unfold unit_vec, unit_of. fold N. rewrite (@rsum_ext n _ (fun g => (1 / N * (1 / N)) * (x g * x g))%R) by (intros; ring). rewrite rsum_scal, <- SN. field. lra.
  - exists (1 / N)%R. split; [apply Rdiv_lt_0_compat; lra|]. intros g Hg. rewrite <- (H g Hg). unfold loss, unit_of. fold N.
    rewrite (@rsum_ext n _ (fun h => 1 / N * (E g h * x h))%R) by (intros; ring). rewrite rsum_scal. ring.
Qed.
Lemma fs_columns lin b k : (exists g, g < n /\ b g <> 0%R) -> (forall m, m < d_nm c -> finds_flux n (d_t c m) (e k m) b lin) ->
  exists xi, fs_spectrum lin c fis (Some b) k = Ok xi /\ forall m, m < d_nm c ->
  unit_vec n (fun g => xi g m) /\ exists s, (0 < s)%R /\ balance n (d_t c m) (e k m) (fun g => s * b g)%R (fun g => xi g m).
Proof.
  intros NB F. eexists. split; [reflexivity|].
  set (body := fun (s : dense * (nat -> R) * columns) (m : nat) => _).
  assert (G : forall q, q <= d_nm c -> forall m, m < q ->
    exists A x0, (forall g, snd (fold_left body (seq 0 q) (zero2, fun _ => 0%R, zero2)) g m = unit_of n (lin A b x0) g) /\
      (forall y g, g < n -> apply n A y g = loss n (d_t c m) (e k m) y g)).
  { induction q as [|q IH]; intros Hq m Hm; [lia|]. rewrite seq_S, fold_left_app. cbn [fold_left Nat.add].
    set (s := fold_left body (seq 0 q) (zero2, fun _ => 0%R, zero2)) in *. unfold body at 1. cbn [snd]. unfold set_column.
    destruct (Nat.eqb_spec m q) as [->|Nm].
    - eexists _, _. split; [intros g; reflexivity|]. intros y g Hg. apply fs_applied; auto.
    - apply IH; lia. }
  intros m Hm. destruct (G (d_nm c) (le_n _) m Hm) as (A & x0 & E & HA). fold n.
  pose proof (F m Hm A x0 HA) as S. destruct (@unit_balance (d_t c m) b (lin A b x0) (e k m) NB) as (U & s & Ps & B).
  { intros g Hg. rewrite <- HA by auto. apply S; auto. }
  split.
  - unfold unit_vec in *. rewrite <- U. apply rsum_ext. intros g Hg. rewrite E. reflexivity.
  - exists s. split; auto. intros g Hg. rewrite <- (B g Hg). rewrite E. f_equal. apply rsum_ext. intros h Hh. rewrite E. reflexivity.
Qed.
End Medium.

(** With sigma_f = nu sigma_f, or without fission, this is the medium. *)
Lemma emit_same c fis k m : (fis = false \/ forall h, h < d_ng c -> d_f c m h = d_nuf c m h) ->
  forall g h, h < d_ng c -> emit (d_s c m) (d_chi c m) (d_f c m) fis k g h = emit (d_s c m) (d_chi c m) (d_nuf c m) fis k g h.
Proof. intros [->|H] g h Hh; unfold emit; auto. destruct fis; auto. rewrite H by auto. reflexivity. Qed.
Lemma from_below_ext n e e' x g : (forall g h, h < n -> e g h = e' g h) -> from_below n e x g = from_below n e' x g.
Proof. intros H. apply rsum_ext. intros h Hh. rewrite H by auto. reflexivity. Qed.
Lemma remainder_ext n t e e' x g : (forall g h, h < n -> e g h = e' g h) -> remainder n t e x g = remainder n t e' x g.
Proof. intros H. unfold remainder. f_equal. apply rsum_ext. intros h Hh. rewrite H by auto. reflexivity. Qed.
Lemma loss_ext n t e e' x g : (forall g h, h < n -> e g h = e' g h) -> loss n t e x g = loss n t e' x g.
Proof. intros H. unfold loss. f_equal. apply rsum_ext. intros h Hh. rewrite H by auto. reflexivity. Qed.
Lemma gs_mode_ext n t e e' x : (forall g h, h < n -> e g h = e' g h) -> gs_mode n t e x -> gs_mode n t e' x.
Proof.
  intros H (U & l & P & G). split; auto. exists l. split.
  - intros g Hg. pose proof (P g Hg) as E. change (from_below n e x g = l * remainder n t e x g)%R in E. change (from_below n e' x g = l * remainder n t e' x g)%R.
    rewrite <- (@from_below_ext n e e' x g H), <- (@remainder_ext n t e e' x g H). auto.
  - intros l' y Uy Py. apply (G l' y Uy). intros g Hg. pose proof (Py g Hg) as E. change (from_below n e' y g = l' * remainder n t e' y g)%R in E.
    change (from_below n e y g = l' * remainder n t e y g)%R. rewrite (@from_below_ext n e e' y g H), (@remainder_ext n t e e' y g H). auto.
Qed.
Lemma finds_mode_ext n t e e' eig : (forall g h, h < n -> e g h = e' g h) -> finds_mode n t e eig -> finds_mode n t e' eig.
Proof.
  intros H F U L HU HL. apply F; intros y g Hg; [rewrite HU by auto; symmetry; apply from_below_ext; auto|rewrite HL by auto; symmetry; apply remainder_ext; auto].
Qed.
Lemma finds_flux_ext n t e e' b lin : (forall g h, h < n -> e g h = e' g h) -> finds_flux n t e b lin -> finds_flux n t e' b lin.
Proof. intros H F A x0 HA. apply F. intros y g Hg. rewrite HA by auto. symmetry. apply loss_ext; auto. Qed.

Section Props.
Variables (c : medium) (fis : bool).
Let n := d_ng c.
Let e k m := emit (d_s c m) (d_chi c m) (d_nuf c m) fis k.

(** The first material, without fission or with one neutron per fission in a critical medium. *)
Lemma gs_partial eig k : fis = false \/ (k = 1%R /\ forall h, h < n -> d_f c 0 h = d_nuf c 0 h) ->
  finds_mode n (d_t c 0) (e k 0) eig -> gs_mode n (d_t c 0) (e k 0) (fun g => build_gs eig c fis k g 0).
Proof.
  intros H F. assert (X : forall g h, h < n -> emit (d_s c 0) (d_chi c 0) (d_f c 0) fis 1 g h = e k 0 g h).
  { intros g h Hh. unfold e. destruct H as [->|(-> & H)]; [reflexivity|]. apply emit_same; auto. }
  apply (gs_mode_ext X). apply gs_first. apply (@finds_mode_ext n _ (e k 0)); auto. intros; symmetry; auto.
Qed.
Lemma fs_partial lin b k : fis = false \/ (forall m h, m < d_nm c -> h < n -> d_f c m h = d_nuf c m h) ->
  (exists g, g < n /\ b g <> 0%R) -> (forall m, m < d_nm c -> finds_flux n (d_t c m) (e k m) b lin) ->
  exists xi, fs_spectrum lin c fis (Some b) k = Ok xi /\ forall m, m < d_nm c ->
  unit_vec n (fun g => xi g m) /\ exists s, (0 < s)%R /\ balance n (d_t c m) (e k m) (fun g => s * b g)%R (fun g => xi g m).
Proof.
  intros H NB F. assert (X : forall m g h, m < d_nm c -> h < n -> emit (d_s c m) (d_chi c m) (d_f c m) fis k g h = e k m g h).
  { intros m g h Hm Hh. apply emit_same; auto. destruct H as [H|H]; auto. }
  destruct (@fs_columns c fis lin b k NB) as (xi & E & P).
  - intros m Hm. apply (@finds_flux_ext n _ (e k m)); auto. intros; symmetry; apply X; auto.
  - exists xi. split; auto. intros m Hm. destruct (P m Hm) as (U & s & Ps & B). split; auto. exists s. split; auto.
    intros g Hg. rewrite <- (B g Hg). f_equal. apply rsum_ext. intros h Hh. rewrite X by auto. reflexivity.
Qed.
Lemma fs_build lin b k : fis = false \/ k = 1%R -> build_fs lin c fis (Some b) k = fs_spectrum lin c fis (Some b) k.
Proof.
  intros [E|E]; rewrite E; reflexivity.
Qed.
End Props.

(** Every coarse group of a cell with another material is empty. *)
Lemma gs_empty eig c fis k ms reg cut fpc i : i < ncells ms -> 0 < nth i reg 0 -> fpc <> [] ->
  ~ no_empty_group ms fpc (at_cell (table_of c (build_gs eig c fis k)) reg cut).
Proof.
  intros Hi Hr Hf N. assert (HG : 0 < length fpc) by (destruct fpc; [contradiction|cbn; lia]). apply (N 0 i HG Hi).
  unfold block_sum. apply rsum_zero. intros g _. unfold at_cell, table_of.
  destruct (Nat.lt_ge_cases (psum fpc 0 + g + cut) (d_ng c)) as [H|H].
  - rewrite nth_map_seq by auto. destruct (Nat.lt_ge_cases (nth i reg 0) (d_nm c)) as [H'|H'].
    + rewrite nth_map_seq by auto. apply gs_others. auto.
    + apply nth_overflow. rewrite map_length, seq_length. auto.
  - rewrite (nth_overflow (map _ _)) by (rewrite map_length, seq_length; auto). destruct (nth i reg 0); reflexivity.
Qed.

(** Two groups: fission in the first, two neutrons born in the second, which go up. *)
Definition duo : medium := {| d_ng := 2; d_nm := 1; d_t := fun _ _ => 1%R; d_s := fun _ g h => if (g =? 0) && (h =? 1) then 1%R else 0%R;
  d_f := fun _ h => if h =? 0 then 1%R else 0%R; d_nuf := fun _ h => if h =? 0 then 2%R else 0%R; d_chi := fun _ g => if g =? 1 then 1%R else 0%R |}.
Lemma half_unit : (1 / sqrt 2 * (1 / sqrt 2) = 1 / 2)%R.
Proof. assert (P : (0 < sqrt 2)%R) by (apply sqrt_lt_R0; lra). assert (Q : (sqrt 2 * sqrt 2 = 2)%R) by (apply sqrt_sqrt; lra). transitivity (1 / (sqrt 2 * sqrt 2))%R; [field; lra|rewrite Q; reflexivity]. Qed.
Lemma duo_finds : finds_mode 2 (d_t duo 0) (emit (d_s duo 0) (d_chi duo 0) (d_f duo 0) true 1) (fun _ _ _ => 1 / sqrt 2)%R.
Proof.
  intros U L HU HL. split.
  - unfold unit_vec. cbn [rsum]. rewrite half_unit. lra.
  - exists 1%R. split.
    + intros g Hg. rewrite HU, HL by auto. unfold from_below, remainder, emit. destruct g as [|[|g]]; try lia; cbn; lra.
    + intros l y Uy Py. pose proof (Py 0 ltac:(lia)) as P0. pose proof (Py 1 ltac:(lia)) as P1. rewrite HU, HL in P0, P1 by lia.
      unfold from_below, remainder, emit in P0, P1. cbn in P0, P1. unfold unit_vec in Uy. cbn [rsum] in Uy.
      destruct (Req_dec l 0%R) as [->|Nl]; [lra|]. assert (y 1 = y 0) by (apply (Rmult_eq_reg_l l); auto; lra).
      assert (y 0 <> 0%R) by (intros Z; rewrite H, Z in Uy; lra). assert (l = 1%R) by (apply (Rmult_eq_reg_r (y 0)); auto; lra). lra.
Qed.
(** Whatever finds the mode of the equations that are set up does not find that of the medium. *)
Lemma gs_nu eig : finds_mode 2 (d_t duo 0) (emit (d_s duo 0) (d_chi duo 0) (d_f duo 0) true 1) eig ->
  ~ gs_mode 2 (d_t duo 0) (emit (d_s duo 0) (d_chi duo 0) (d_nuf duo 0) true 1) (fun g => build_gs eig duo true 1 g 0).
Proof.
  intros F (U & l & P & _). destruct (@gs_first duo true eig F 1%R) as (_ & l1 & P1 & G1).
  change (build_gs eig duo true 1) with (gs_spectrum eig duo true 1) in *. cbn [d_ng duo] in P1, G1. set (x := fun g => gs_spectrum eig duo true 1 g 0) in *. clearbody x.
  assert (L1 : (1 <= l1)%R).
  { apply (G1 1%R (fun _ => 1 / sqrt 2)%R).
    - unfold unit_vec. cbn [rsum]. rewrite half_unit. lra.
    - intros g Hg. unfold emit. destruct g as [|[|g]]; try lia; cbn; lra. }
  pose proof (P1 1 ltac:(lia)) as A1. pose proof (P 0 ltac:(lia)) as B0. pose proof (P 1 ltac:(lia)) as B1. unfold emit in A1, B0, B1. cbn in A1, B0, B1.
  unfold unit_vec in U. cbn [rsum] in U.
  assert (E : x 1 = x 0) by (apply (Rmult_eq_reg_l l1); lra).
  assert (NZ : x 0 <> 0%R) by (intros Z; rewrite E, Z in U; lra). assert (l = 1%R) by (apply (Rmult_eq_reg_r (x 0)); auto; lra). subst l. lra.
Qed.

(** Two groups: fission in the second, neutrons born in the first, which do not scatter. *)
Definition pair_ (nu : R) : medium := {| d_ng := 2; d_nm := 1; d_t := fun _ g => if g =? 0 then 3%R else 1%R; d_s := fun _ _ _ => 0%R;
  d_f := fun _ h => if h =? 1 then 1%R else 0%R; d_nuf := fun _ h => if h =? 1 then nu else 0%R; d_chi := fun _ g => if g =? 0 then 1%R else 0%R |}.
Lemma fs_wrong lin nu k : (nu / k <> 1)%R ->
  finds_flux 2 (d_t (pair_ nu) 0) (emit (d_s (pair_ nu) 0) (d_chi (pair_ nu) 0) (d_f (pair_ nu) 0) true 1) (fun _ => 1%R) lin ->
  exists xi, build_fs lin (pair_ nu) true (Some (fun _ => 1%R)) k = Ok xi /\
  ~ exists s, (0 < s)%R /\ balance 2 (d_t (pair_ nu) 0) (emit (d_s (pair_ nu) 0) (d_chi (pair_ nu) 0) (d_nuf (pair_ nu) 0) true k) (fun _ => s * 1)%R (fun g => xi g 0).
Proof.
  intros N F. destruct (@fs_columns (pair_ nu) true lin (fun _ => 1%R) 1%R) as (xi & E & P).
  - exists 0. cbn. split; [lia|lra].
  - intros m Hm. cbn in Hm. replace m with 0 by lia. exact F.
  - exists xi. split; [exact E|]. intros (s & Ps & B). destruct (P 0) as (U & s1 & P1 & B1); [cbn; lia|]. cbn [d_ng pair_] in B1.
    pose proof (B 0 ltac:(lia)) as b0. pose proof (B 1 ltac:(lia)) as b1. pose proof (B1 0 ltac:(lia)) as c0. pose proof (B1 1 ltac:(lia)) as c1.
    unfold emit in b0, b1, c0, c1. cbn in b0, b1, c0, c1. unfold Rdiv in *. rewrite Rinv_1 in *. set (q := (nu * / k)%R) in *.
    replace (1 * nu * / k)%R with q in b0 by (unfold q; ring).
    assert (s1 = s) by lra. subst s1. assert (xi 1 0 = s) by lra. rewrite H in *. apply N. apply (Rmult_eq_reg_r s); lra.
Qed.
