(** * Proofs about homogenisation *)
From Verif Require Import Base BaseR Loop Material_Model Material_Proofs Mesh_Model Mesh_Spec Mesh_Proofs
  Region_Model Region_Spec Region_Proofs.
Set Implicit Arguments. Unset Strict Implicit.
Open Scope nat_scope.

Lemma for_inv' S (P : nat -> S -> Prop) lo n s body : P 0 s ->
  (forall i s, i < n -> P i s -> exists s', body (lo + i) s = Ok s' /\ P (Datatypes.S i) s') ->
  exists s', for_ lo (lo + n) s body = Ok s' /\ P n s'.
Proof.
  intros H0 H. destruct (@for_inv _ (fun i s => P (i - lo) s) lo (lo + n) s body) as (s' & E & HP).
  - lia.
  - rewrite Nat.sub_diag. auto.
  - intros i s1 Hi HP. destruct (H (i - lo) s1 ltac:(lia) HP) as (s2 & E & H2).
    replace (lo + (i - lo)) with i in E by lia. exists s2. split; auto.
    replace (Datatypes.S i - lo) with (Datatypes.S (i - lo)) by lia. auto.
  - exists s'. split; auto. replace (lo + n - lo) with n in HP by lia. auto.
Qed.

Section Hom.
Variable h : hom.
Hypothesis HR : hom_ready h.
Let n := h_n h.
Let G := ng (h_mat h).
Let W := weight (h_w h).
Let ncc := regions (h_reg h).
(** First fine group requested; the spectrum is read by position. *)
Variable off : nat.

(** Weight used for the diffusion coefficient. *)
Definition cweight (g c : nat) : R :=
  match h_w h, h_dc h with
  | FineMesh _ (Some j), CURRENT_D => nth c (nth g j []) 0%R
  | _, _ => weight (h_w h) g c
  end.

Lemma spectrum_val g c : g < G -> c < n -> spectrum (h_w h) g c = Ok (W g c).
Proof.
  destruct HR as (_ & _ & _ & _ & WO). unfold G, n, W, spectrum, weight. intros Hg Hc.
  destruct (h_w h) as [phi cur|s smap]; cbn [weighting_ok] in WO.
  - destruct WO as (L & B & _). rewrite (@rd_ok _ phi g []) by lia. cbn [bind]. specialize (B g Hg).
    apply rd_ok. lia.
  - destruct WO as (L & B & D). rewrite (@rd_ok _ s g []) by lia. cbn [bind].
    rewrite (@rd_ok _ smap c 0) by lia. cbn [bind]. apply rd_ok. apply D; auto.
Qed.
Lemma current_val g c : g < G -> c < n -> current (h_w h) (h_dc h) g c = Ok (cweight g c).
Proof.
  intros Hg Hc. unfold current, cweight. pose proof (spectrum_val Hg Hc) as E. unfold W in E.
  destruct HR as (_ & _ & _ & _ & WO). destruct (h_w h) as [phi [j|]|s smap]; auto.
  destruct (h_dc h); auto. cbn [weighting_ok] in WO. destruct WO as (_ & _ & L & B). unfold G, n in *.
  rewrite (@rd_ok _ j g []) by lia. cbn [bind]. specialize (B g Hg). apply rd_ok. lia.
Qed.
Lemma vol_val c : c < n -> rd (h_vol h) c = Ok (vol_at h c).
Proof. intros Hc. destruct HR as (L & _). apply rd_ok. unfold n in Hc. lia. Qed.
Lemma pv_val g c : g < G -> c < n -> pv h g c = Ok (W g c * vol_at h c)%R.
Proof. intros Hg Hc. unfold pv. rewrite spectrum_val by auto. cbn [bind]. rewrite vol_val by auto. reflexivity. Qed.
Lemma jv_val g c : g < G -> c < n -> jv h g c = Ok (cweight g c * vol_at h c)%R.
Proof. intros Hg Hc. unfold jv. rewrite current_val by auto. cbn [bind]. rewrite vol_val by auto. reflexivity. Qed.
Lemma xs_val f g c : g < G -> c < n -> xs h f c g = Ok (f g (mat_at h c)).
Proof.
  intros Hg Hc. destruct HR as (_ & _ & L & M & _). unfold xs, mat_at. unfold n, G in *.
  rewrite (@rd_ok _ (h_mmap h) c 0) by lia. cbn [bind].
  rewrite (proj2 (Nat.ltb_lt _ _) Hg), (proj2 (Nat.ltb_lt _ _) (M c Hc)). reflexivity.
Qed.
Lemma reg_lt c : c < n -> nth c (h_reg h) 0 < ncc.
Proof.
  intros Hc. destruct HR as (_ & (L & P) & _). unfold n in Hc.
  destruct (@max_element_ok (h_reg h) ltac:(lia)) as (m & _ & R & B). unfold ncc. rewrite <- R. apply B. lia.
Qed.
Lemma reg_len : length (h_reg h) = n.
Proof. destruct HR as (_ & (L & P) & _). auto. Qed.

(** Production by the last group: what temp_fd ends up holding. *)
Definition last_production (c : nat) : R := (W (G - 1) c * nsf (h_mat h) (G - 1) (mat_at h c) * vol_at h c)%R.
Lemma temp_fd_val c : 0 < G -> c < n -> temp_fd h c = Ok (last_production c).
Proof.
  intros HG Hc. unfold temp_fd. fold G.
  destruct (@for_inv _ (fun i v => 0 < i -> v = (W (i - 1) c * nsf (h_mat h) (i - 1) (mat_at h c) * vol_at h c)%R)
    0 G 0%R (fun gp _ => do s <- spectrum (h_w h) gp c; do x <- xs h (nsf (h_mat h)) c gp; do v <- rd (h_vol h) c; Ok (s * x * v)%R))
    as (v & E & V).
  - lia.
  - lia.
  - intros i v Hi _. rewrite spectrum_val by (auto; lia). cbn [bind]. rewrite xs_val by (auto; lia). cbn [bind].
    rewrite vol_val by auto. cbn [bind]. eexists. split; [reflexivity|]. intros _.
    replace (S i - 1) with i by lia. reflexivity.
  - rewrite E, V by auto. reflexivity.
Qed.

Lemma acc_region_ok start count t T v :
  start + count <= G -> length v = ncc ->
  (forall fg c, start <= fg < start + count -> c < n -> t fg c = Ok (T fg c)) ->
  exists v', acc_region h start count t v = Ok v' /\ length v' = ncc /\
    forall r, r < ncc -> nth r v' 0%R =
      (nth r v 0 + rsum count (fun i => region_sum n (h_reg h) r (T (start + i)%nat)))%R.
Proof.
  intros HC HL Ht. unfold acc_region. fold n.
  destruct (@for_inv' _ (fun k u => length u = ncc /\ forall r, r < ncc -> nth r u 0%R =
      (nth r v 0 + rsum k (fun i => region_sum n (h_reg h) r (T (start + i)%nat)))%R) start count v
      (fun fg v => for_ 0 n v (fun fi v => do x <- t fg fi; accum (h_reg h) fi x v))) as (v' & E & L & V).
  - split; auto. intros r Hr. cbn. ring.
  - intros k u Hk (L & V).
    destruct (@for_inv _ (fun c u' => length u' = ncc /\ forall r, r < ncc -> nth r u' 0%R =
       (nth r u 0 + region_sum c (h_reg h) r (T (start + k)%nat))%R) 0 n u
       (fun fi v => do x <- t (start + k) fi; accum (h_reg h) fi x v)) as (u' & E & L' & V').
    + lia.
    + split; auto. intros r Hr. unfold region_sum. cbn. ring.
    + intros c u' Hc (L' & V'). rewrite Ht by lia. cbn [bind].
      destruct (@accum_ok (h_reg h) c (T (start + k) c) u') as (u2 & E2 & L2 & V2).
      * rewrite reg_len. lia.
      * rewrite L'. apply reg_lt. lia.
      * exists u2. split; auto. split; [lia|]. intros r Hr. rewrite V2, V' by auto. rewrite region_sum_S. ring.
    + exists u'. split; auto. split; auto. intros r Hr. rewrite V', V by auto. cbn [rsum]. ring.
  - exists v'. auto.
Qed.

Lemma acc_zero start count t T :
  start + count <= G ->
  (forall fg c, start <= fg < start + count -> c < n -> t fg c = Ok (T fg c)) ->
  exists v', acc_region h start count t (repeat 0%R ncc) = Ok v' /\ length v' = ncc /\
    forall r, r < ncc -> nth r v' 0%R = rsum count (fun i => region_sum n (h_reg h) r (T (start + i))).
Proof.
  intros HC Ht. destruct (@acc_region_ok start count t T (repeat 0%R ncc) HC) as (v & E & L & V); auto.
  - apply repeat_length.
  - exists v. split; auto. split; auto. intros r Hr. rewrite V by auto. rewrite nth_repeat_lt by auto. ring.
Qed.

Lemma group_map_ok cgs : list_sum cgs <= G ->
  exists m, group_map G cgs = Ok m /\ length m = G /\
    (forall cg fg, in_coarse cgs cg fg -> nth fg m 0 = cg) /\
    (forall fg, list_sum cgs <= fg -> nth fg m 0 = 0).
Proof.
  intros HS. unfold group_map.
  destruct (@for_inv _ (fun k (s : list nat * nat) => length (fst s) = G /\ snd s = psum cgs k /\
     (forall cg fg, cg < k -> psum cgs cg <= fg < psum cgs (S cg) -> nth fg (fst s) 0 = cg) /\
     (forall fg, psum cgs k <= fg -> nth fg (fst s) 0 = 0)) 0 (length cgs) (repeat 0 G, 0)
     (fun cg s => do c <- rd cgs cg; for_ 0 c s (fun _ s => do m <- wr (fst s) (snd s) cg; Ok (m, snd s + 1))))
     as ([m f] & E & L & F & V & Z).
  - lia.
  - cbn [fst snd]. rewrite repeat_length, psum_0. split; auto. split; auto. split; [intros; lia|].
    intros fg _. destruct (Nat.lt_ge_cases fg G); [apply nth_repeat_lt; auto|]. apply nth_overflow. rewrite repeat_length. auto.
  - intros cg [m f] Hcg (L & F & V & Z). cbn [fst snd] in *. rewrite (@rd_ok _ cgs cg 0) by lia. cbn [bind].
    pose proof (psum_S cgs cg) as PS.
    assert (PB : psum cgs (S cg) <= G).
    { etransitivity; [apply psum_mono with (m := length cgs); lia|]. rewrite psum_all. auto. }
    destruct (@for_inv _ (fun k (s : list nat * nat) => length (fst s) = G /\ snd s = psum cgs cg + k /\
       (forall fg, fg < psum cgs cg -> nth fg (fst s) 0 = nth fg m 0) /\
       (forall fg, psum cgs cg <= fg < psum cgs cg + k -> nth fg (fst s) 0 = cg) /\
       (forall fg, psum cgs cg + k <= fg -> nth fg (fst s) 0 = 0)) 0 (nth cg cgs 0) (m, f)
       (fun _ s => do m <- wr (fst s) (snd s) cg; Ok (m, snd s + 1))) as ([m' f'] & E & L' & F' & V1 & V2 & V3).
    + lia.
    + cbn [fst snd]. split; auto. split; [lia|]. split; auto. split; [intros; lia|]. intros; apply Z; lia.
    + intros k [m' f'] Hk (L' & F' & V1 & V2 & V3). cbn [fst snd] in *. unfold wr.
      rewrite L', F', (proj2 (Nat.ltb_lt (psum cgs cg + k) G)) by lia. cbn [bind]. eexists. split; [reflexivity|].
      cbn [fst snd]. rewrite upd_length. split; auto. split; [lia|]. split; [|split].
      * intros fg Hf. rewrite nth_upd_neq by lia. auto.
      * intros fg Hf. destruct (Nat.eq_dec (psum cgs cg + k) fg) as [<-|Ne]; [apply nth_upd_eq; lia|].
        rewrite nth_upd_neq by auto. apply V2. lia.
      * intros fg Hf. rewrite nth_upd_neq by lia. apply V3. lia.
    + exists (m', f'). split; auto. cbn [fst snd] in *. split; auto. split; [lia|].
      split; [|intros fg Hf; apply V3; lia]. intros cg' fg Hc Hf.
      destruct (Nat.eq_dec cg' cg) as [->|Ne].
      * apply V2. lia.
      * rewrite V1; [apply V; auto; lia|]. assert (psum cgs (S cg') <= psum cgs cg) by (apply psum_mono; lia). lia.
  - rewrite E. cbn [bind fst snd] in *. exists m. split; auto. split; auto. split.
    + intros cg fg (H1 & H2). apply V; auto.
    + intros fg Hf. apply Z. rewrite psum_all. auto.
Qed.

(** Scattering into the fine groups of coarse group cgp. *)
Definition scat_into (fgcg : list nat) (cgp g c : nat) : R :=
  rsum G (fun gp => if nth gp fgcg 0 =? cgp then (W g c * vol_at h c * ss (h_mat h) gp (g + off)%nat (mat_at h c))%R else 0%R).

Definition ent (v : list (list R)) (r q : nat) : R := nth q (nth r v []) 0%R.
Definition shaped (v : list (list R)) : Prop := length v = ncc /\ forall r, r < ncc -> length (nth r v []) = G.

Lemma acc_scatter_ok fgcg start count v :
  start + count + off <= G -> shaped v -> length fgcg = G -> (forall g, g < G -> nth g fgcg 0 < G) ->
  exists v', acc_scatter h fgcg start count off v = Ok v' /\ shaped v' /\
    forall r q, r < ncc -> q < G -> ent v' r q =
      (ent v r q + rsum count (fun i => region_sum n (h_reg h) r (scat_into fgcg q (start + i)%nat)))%R.
Proof.
  intros HC HS HL HB. unfold acc_scatter. fold n G.
  match goal with |- context [for_ start (start + count) ?s0 ?b0] =>
    destruct (@for_inv' _ (fun k u => shaped u /\ forall r q, r < ncc -> q < G -> ent u r q =
      (ent v r q + rsum k (fun i => region_sum n (h_reg h) r (scat_into fgcg q (start + i)%nat)))%R) start count s0 b0)
      as (v' & E & S' & V) end.
  - split; auto. intros r q Hr Hq. cbn [rsum]. ring.
  - intros k u Hk (S1 & V1).
    match goal with |- context [for_ 0 n ?s0 ?b0] =>
      destruct (@for_inv _ (fun c u' => shaped u' /\ forall r q, r < ncc -> q < G -> ent u' r q =
        (ent u r q + region_sum c (h_reg h) r (scat_into fgcg q (start + k)%nat))%R) 0 n s0 b0)
        as (u' & E & S2 & V2) end.
    + lia.
    + split; auto. intros r q Hr Hq. unfold region_sum. cbn [rsum]. ring.
    + intros c u' Hc (S2 & V2). assert (Hreg := @reg_lt c ltac:(lia)).
      match goal with |- context [for_ 0 G ?s0 ?b0] =>
        destruct (@for_inv _ (fun p u2 => shaped u2 /\ forall r q, r < ncc -> q < G -> ent u2 r q =
          (ent u' r q + if (nth c (h_reg h) 0 =? r)%nat then
             rsum p (fun gp => if (nth gp fgcg 0 =? q)%nat then
                (W (start + k)%nat c * vol_at h c * ss (h_mat h) gp (start + k + off)%nat (mat_at h c))%R else 0%R) else 0)%R) 0 G s0 b0)
          as (u2 & E & S3 & V3) end.
      * lia.
      * split; auto. intros r q Hr Hq. cbn [rsum]. destruct (_ =? r); ring.
      * intros gp u2 Hgp (S3 & V3). rewrite (@rd_ok _ (h_reg h) c 0) by (rewrite reg_len; lia). cbn [bind].
        rewrite pv_val by lia. cbn [bind]. rewrite xs_val by lia. cbn [bind].
        rewrite (@rd_ok _ fgcg gp 0) by lia. cbn [bind].
        destruct S3 as (L3 & R3). specialize (HB gp ltac:(lia)).
        rewrite (@rd_ok _ u2 _ []) by lia. cbn [bind]. pose proof (R3 _ Hreg) as LR.
        rewrite (@rd_ok _ (nth (nth c (h_reg h) 0) u2 []) _ 0%R) by lia. cbn [bind].
        unfold wr at 1. rewrite LR, (proj2 (Nat.ltb_lt _ _) HB). cbn [bind]. unfold wr.
        rewrite L3, (proj2 (Nat.ltb_lt _ _) Hreg). eexists. split; [reflexivity|]. split.
        -- split; [rewrite upd_length; auto|]. intros r Hr. destruct (Nat.eq_dec (nth c (h_reg h) 0) r) as [Er|Ne].
           ++ rewrite <- Er. rewrite nth_upd_eq by lia. rewrite upd_length. auto.
           ++ rewrite nth_upd_neq by auto. auto.
        -- intros r q Hr Hq. specialize (V3 r q Hr Hq). unfold ent in *.
           destruct (Nat.eqb_spec (nth c (h_reg h) 0) r) as [Er|Ne].
           ++ rewrite <- Er in *. rewrite nth_upd_eq by lia. cbn [rsum].
              destruct (Nat.eqb_spec (nth gp fgcg 0) q) as [Eq|Nq].
              ** rewrite <- Eq in *. rewrite nth_upd_eq by lia. rewrite V3. ring.
              ** rewrite nth_upd_neq by auto. rewrite V3. ring.
           ++ rewrite nth_upd_neq by auto. exact V3.
      * exists u2. split; auto. split; auto. intros r q Hr Hq. rewrite V3, V2 by auto. rewrite region_sum_S.
        unfold scat_into. fold G. ring_simplify. f_equal.
    + exists u'. split; auto. split; auto. intros r q Hr Hq. rewrite V2, V1 by auto. cbn [rsum]. ring.
  - exists v'. auto.
Qed.

(** Two materials agree at (group, material). *)
Definition same_at (x y : mtl) (g k : nat) : Prop :=
  st x g k = st y g k /\ sa x g k = sa y g k /\ sf x g k = sf y g k /\ nu x g k = nu y g k /\
  chi x g k = chi y g k /\ dc x g k = dc y g k /\ forall q, ss x q g k = ss y q g k.

Lemma set2_other f i j v a b : (a, b) <> (i, j) -> set2 f i j v a b = f a b.
Proof.
  intros H. unfold set2. destruct (Nat.eqb_spec a i), (Nat.eqb_spec b j); subst; cbn; auto. congruence.
Qed.
Lemma set2_self f i j v : set2 f i j v i j = v.
Proof. unfold set2. rewrite !Nat.eqb_refl. reflexivity. Qed.
Lemma set3_other f i j k v a b c : (b, c) <> (j, k) -> set3 f i j k v a b c = f a b c.
Proof.
  intros H. unfold set3. destruct (Nat.eqb_spec a i), (Nat.eqb_spec b j), (Nat.eqb_spec c k); subst; cbn; auto; congruence.
Qed.

Lemma set_field_other x f k g v g' k' : (g', k') <> (g, k) -> same_at x (set_field x f k g v) g' k'.
Proof.
  intros H. unfold same_at, set_field. cbn. destruct f; repeat split; auto; symmetry; apply set2_other; auto.
Qed.
Lemma same_at_refl x g k : same_at x x g k.
Proof. repeat split; auto. Qed.
Lemma same_at_trans x y z g k : same_at x y g k -> same_at y z g k -> same_at x z g k.
Proof.
  intros (A1 & A2 & A3 & A4 & A5 & A7 & A6) (B1 & B2 & B3 & B4 & B5 & B7 & B6).
  unfold same_at. repeat split; congruence.
Qed.

Definition coarse_val (o : dc_option) (c : mtl) (ncg cg ci : nat) (F J t a f nf ch fd d : R) (s : list R) : Prop :=
  (0 < t)%R ->
  st c cg ci = (t / F)%R /\ sa c cg ci = (a / F)%R /\
  ((0 < f)%R -> sf c cg ci = (f / F)%R /\ nu c cg ci = (nf / f)%R /\ chi c cg ci = (ch / fd)%R) /\
  (~ (0 < f)%R -> sf c cg ci = 0%R /\ chi c cg ci = 0%R) /\
  dc c cg ci = match o with PHI_SIGMA_TR => (1 / (3 * (t / F)))%R | _ => (d / J)%R end /\
  forall q, q < ncg -> ss c q cg ci = (nth q s 0 / F)%R.

Lemma set_coarse_ok o ncg cg ci F J t a f nf ch fd d s c :
  ncg <= length s -> sf c cg ci = 0%R -> chi c cg ci = 0%R ->
  exists c', set_coarse o ncg cg ci F J t a f nf ch fd d s c = Ok c' /\
    ng c' = ng c /\ nm c' = nm c /\
    (forall g k, (g, k) <> (cg, ci) -> same_at c c' g k) /\
    coarse_val o c' ncg cg ci F J t a f nf ch fd d s.
Proof.
  intros HL H0 H1. unfold set_coarse. destruct (Rlt_dec 0 t) as [Ht|Ht].
  2:{ exists c. split; auto. split; auto. split; auto. split; [intros; apply same_at_refl|]. intros Q. contradiction. }
  set (c1 := set_field c FT ci cg (t / F)). set (c2 := set_field c1 FA ci cg (a / F)).
  set (c3 := if Rlt_dec 0 f then set_field (set_field (set_field (set_field c2 FSF ci cg (f / F)) FNSF ci cg (nf / F)) FNU ci cg (nf / f)) FCHI ci cg (ch / fd) else c2).
  cbv zeta.
  assert (S3 : forall g k, (g, k) <> (cg, ci) -> same_at c c3 g k).
  { intros g k Hgk. apply same_at_trans with (y := c1); [apply set_field_other; auto|].
    apply same_at_trans with (y := c2); [apply set_field_other; auto|]. unfold c3.
    destruct (Rlt_dec 0 f); [|apply same_at_refl].
    eapply same_at_trans; [apply set_field_other with (f := FSF); exact Hgk|].
    eapply same_at_trans; [apply set_field_other with (f := FNSF); exact Hgk|].
    eapply same_at_trans; [apply set_field_other with (f := FNU); exact Hgk|].
    apply set_field_other. auto. }
  assert (V3 : ng c3 = ng c /\ nm c3 = nm c /\ st c3 cg ci = (t / F)%R /\ sa c3 cg ci = (a / F)%R /\
    ((0 < f)%R -> sf c3 cg ci = (f / F)%R /\ nu c3 cg ci = (nf / f)%R /\ chi c3 cg ci = (ch / fd)%R) /\
    (~ (0 < f)%R -> sf c3 cg ci = 0%R /\ chi c3 cg ci = 0%R)).
  { unfold c3, c2, c1. destruct (Rlt_dec 0 f); cbn; rewrite !set2_self; repeat split; auto; intros; contradiction. }
  clearbody c3. clear c1 c2.
  match goal with |- context [for_ 0 ncg ?s0 ?b0] =>
    destruct (@for_inv _ (fun i x => (ng x = ng c /\ nm x = nm c /\ st x cg ci = (t / F)%R /\ sa x cg ci = (a / F)%R /\
    ((0 < f)%R -> sf x cg ci = (f / F)%R /\ nu x cg ci = (nf / f)%R /\ chi x cg ci = (ch / fd)%R) /\
    (~ (0 < f)%R -> sf x cg ci = 0%R /\ chi x cg ci = 0%R)) /\ (forall g k, (g, k) <> (cg, ci) -> same_at c x g k) /\
    (forall q, q < i -> ss x q cg ci = (nth q s 0 / F)%R)) 0 ncg s0 b0) as (c4 & E & V4 & S4 & Q4) end.
  - lia.
  - split; auto. split; auto. intros; lia.
  - intros i x Hi (V & S & Q). rewrite (@rd_ok _ s i 0%R) by lia. cbn [bind]. eexists. split; [reflexivity|].
    split; [exact V|]. split.
    + intros g k Hgk. eapply same_at_trans; [apply S; auto|]. unfold same_at, set_scatter. cbn. repeat split; auto.
      intros q. symmetry. apply set3_other. auto.
    + intros q Hq. cbn. unfold set3. rewrite !Nat.eqb_refl, !andb_true_r.
      destruct (Nat.eqb_spec q i) as [->|Ne]; auto. apply Q. lia.
  - rewrite E. cbn [bind]. eexists. split; [reflexivity|].
    destruct V4 as (N1 & N2 & V5).
    assert (X : forall v, v = match o with PHI_SIGMA_TR => (1 / (3 * (t / F)))%R | _ => (d / J)%R end ->
      let y := set_field c4 FDC ci cg v in
      ng y = ng c /\ nm y = nm c /\ (forall g k, (g, k) <> (cg, ci) -> same_at c y g k) /\
      coarse_val o y ncg cg ci F J t a f nf ch fd d s).
    { intros v Ev. cbv zeta. split; auto. split; auto. split.
      - intros g k Hgk. eapply same_at_trans; [apply S4; auto|]. apply set_field_other. auto.
      - intros _. destruct V5 as (A1 & A2 & A3 & A4). split; [exact A1|]. split; [exact A2|]. split; [exact A3|].
        split; [exact A4|]. split; [|exact Q4]. cbn. rewrite set2_self. exact Ev. }
    destruct o; apply X; auto. destruct V5 as (A1 & _). rewrite A1. reflexivity.
Qed.

(** Quantities accumulated for coarse group cg and region r. *)
Definition Vol (cgs : list nat) (cg r : nat) : R := block_sum cgs cg (fun _ => region_sum n (h_reg h) r (vol_at h)).
Definition last_fd (cgs : list nat) (cg r : nat) : R :=
  if 0 <? nth cg cgs 0 then region_sum n (h_reg h) r last_production else 0%R.
Definition last_chi (cgs : list nat) (cg r : nat) : R :=
  block_sum cgs cg (fun g => region_sum n (h_reg h) r (fun c => last_production c * chi (h_mat h) (g + off)%nat (mat_at h c))%R).
Definition scat_rate (cgs fgcg : list nat) (cg q r : nat) : R :=
  block_sum cgs cg (fun g => region_sum n (h_reg h) r (scat_into fgcg q g)).

Definition cur_flux (cgs : list nat) (cg r : nat) : R :=
  block_sum cgs cg (fun g => region_sum n (h_reg h) r (fun c => cweight g c * vol_at h c)%R).
Definition cur_rate (cgs : list nat) (f : nat -> nat -> R) (cg r : nat) : R :=
  block_sum cgs cg (fun g => region_sum n (h_reg h) r (fun c => cweight g c * vol_at h c * f (g + off)%nat (mat_at h c))%R).

Definition final_val (cgs fgcg : list nat) (c : mtl) (cg r : nat) : Prop :=
  let rate f := region_rate h cgs (fun g k => f (g + off) k) cg r in
  let F := region_flux h cgs cg r in
  (0 < rate (st (h_mat h)))%R ->
  st c cg r = (rate (st (h_mat h)) / F)%R /\ sa c cg r = (rate (sa (h_mat h)) / F)%R /\
  ((0 < rate (sf (h_mat h)))%R -> sf c cg r = (rate (sf (h_mat h)) / F)%R /\
      nu c cg r = (rate (nsf (h_mat h)) / rate (sf (h_mat h)))%R /\ chi c cg r = (last_chi cgs cg r / last_fd cgs cg r)%R) /\
  (~ (0 < rate (sf (h_mat h)))%R -> sf c cg r = 0%R /\ chi c cg r = 0%R) /\
  dc c cg r = match h_dc h with PHI_SIGMA_TR => (1 / (3 * (rate (st (h_mat h)) / F)))%R
              | _ => (cur_rate cgs (dc (h_mat h)) cg r / cur_flux cgs cg r)%R end /\
  forall q, q < length cgs -> ss c q cg r = (scat_rate cgs fgcg cg q r / F)%R.

Lemma final_val_same cgs fgcg x y cg r : same_at x y cg r -> final_val cgs fgcg x cg r -> final_val cgs fgcg y cg r.
Proof.
  intros (A1 & A2 & A3 & A4 & A5 & A7 & A6) V Ht. destruct (V Ht) as (B1 & B2 & B3 & B4 & B6 & B5).
  rewrite <- A1, <- A2, <- A3, <- A4, <- A5, <- A7. split; auto. split; auto. split; auto. split; auto. split; auto.
  intros q Hq. rewrite <- A6. auto.
Qed.

Definition flux_done (cgs : list nat) (fl : list (list R)) (cg r : nat) : Prop :=
  nth r (nth cg fl []) 0%R = (region_flux h cgs cg r / Vol cgs cg r)%R.

Definition grid_ok (cgs fgcg : list nat) (cg ci : nat) (c : mtl) (fl : list (list R)) : Prop :=
  ng c = length cgs /\ nm c = ncc /\ length fl = length cgs /\ (forall g, g < length cgs -> length (nth g fl []) = ncc) /\
  forall g r, g < length cgs -> r < ncc ->
    if (g <? cg) || ((g =? cg) && (r <? ci)) then final_val cgs fgcg c g r /\ flux_done cgs fl g r
    else same_at (material_new ncc (length cgs)) c g r.

Lemma hom_group_ok cgs fgcg cg c fl :
  list_sum cgs + off <= G -> (forall k, In k cgs -> 0 < k) -> length fgcg = G -> (forall g, g < G -> nth g fgcg 0 < length cgs) ->
  cg < length cgs -> grid_ok cgs fgcg cg 0 c fl ->
  exists c' fl', hom_group h fgcg cgs off ncc cg (c, fl, psum cgs cg) = Ok (c', fl', psum cgs (S cg)) /\
    grid_ok cgs fgcg (S cg) 0 c' fl'.
Proof.
  intros HS HP HL HF Hcg Gr. unfold hom_group. cbv zeta. rewrite (@rd_ok _ cgs cg 0) by auto. cbn [bind].
  set (cnt := nth cg cgs 0). set (fg := psum cgs cg).
  assert (PO : fg + cnt + off <= G).
  { unfold fg, cnt. rewrite <- psum_S. assert (psum cgs (S cg) <= psum cgs (length cgs)) by (apply psum_mono; lia).
    rewrite psum_all in *. lia. }
  assert (PB : fg + cnt <= G) by lia.
  assert (Hcnt : 0 < cnt) by (apply HP, nth_In; auto).
  assert (HG : 0 < G) by lia.
  assert (Lcg : length cgs <= G).
  { enough (length cgs <= list_sum cgs) by lia. clear -HP. induction cgs as [|a l IH]; cbn; auto. assert (0 < a) by (apply HP; cbn; auto).
    assert (length l <= list_sum l) by (apply IH; intros; apply HP; cbn; auto). unfold list_sum in *. lia. }
  assert (RT : forall f, exists v, acc_region h fg cnt (fun g c => do p <- pv h g c; do x <- xs h f c (g + off); Ok (p * x)%R) (repeat 0%R ncc) = Ok v /\
     length v = ncc /\ forall r, r < ncc -> nth r v 0%R = region_rate h cgs (fun g k => f (g + off) k) cg r).
  { intros f. destruct (@acc_zero fg cnt (fun g c => do p <- pv h g c; do x <- xs h f c (g + off); Ok (p * x)%R)
      (fun g c => (W g c * vol_at h c * f (g + off)%nat (mat_at h c))%R) PB) as (v & E & L & V).
    - intros g c0 Hg Hc. rewrite pv_val by lia. cbn [bind]. rewrite xs_val by lia. reflexivity.
    - exists v. auto. }
  destruct (@acc_zero fg cnt (fun _ fi => rd (h_vol h) fi) (fun _ c => vol_at h c) PB) as (vol & Ev & Lv & Vv);
    [intros; apply vol_val; auto|]. rewrite Ev. cbn [bind].
  destruct (@acc_zero fg cnt (pv h) (fun g c => (W g c * vol_at h c)%R) PB) as (pvv & Ep & Lp & Vp);
    [intros; apply pv_val; auto; lia|]. rewrite Ep. cbn [bind].
  destruct (@acc_zero fg cnt (jv h) (fun g c => (cweight g c * vol_at h c)%R) PB) as (jvv & Ej & Lj & Vj);
    [intros; apply jv_val; auto; lia|]. rewrite Ej. cbn [bind].
  destruct (RT (st (h_mat h))) as (tv & Et & Lt & Vt). rewrite Et. cbn [bind].
  destruct (RT (sa (h_mat h))) as (av & Ea & La & Va). rewrite Ea. cbn [bind].
  destruct (RT (sf (h_mat h))) as (fv & Ef & Lf & Vf). rewrite Ef. cbn [bind].
  destruct (RT (nsf (h_mat h))) as (nv & En & Ln & Vn). rewrite En. cbn [bind].
  rewrite (proj2 (Nat.ltb_lt _ _) Hcnt).
  destruct (@acc_zero fg 1 (fun _ fi => temp_fd h fi) (fun _ c => last_production c)) as (fdv & Ed & Ld & Vd);
    [lia|intros; apply temp_fd_val; auto|]. rewrite Ed. cbn [bind].
  destruct (@acc_zero fg cnt (fun g c => do q <- temp_fd h c; do x <- xs h (chi (h_mat h)) c (g + off); Ok (q * x)%R)
     (fun g c => (last_production c * chi (h_mat h) (g + off)%nat (mat_at h c))%R) PB) as (cv & Ec & Lc & Vc);
    [intros g c0 Hg Hc; rewrite temp_fd_val by auto; cbn [bind]; rewrite xs_val by lia; reflexivity|].
  rewrite Ec. cbn [bind]. fold G.
  destruct (@acc_scatter_ok fgcg fg cnt (repeat (repeat 0%R G) ncc) PO) as (sv & Es & (Ls & Rs) & Vs); auto.
  { split; [apply repeat_length|]. intros r Hr. rewrite nth_repeat_lt by auto. apply repeat_length. }
  { intros g Hg. specialize (HF g Hg). lia. }
  rewrite Es. cbn [bind].
  match goal with |- context [bind ?e _] => assert (HD : exists dv, e = Ok dv /\ length dv = ncc /\
      (h_dc h <> PHI_SIGMA_TR -> forall r, r < ncc -> nth r dv 0%R = cur_rate cgs (dc (h_mat h)) cg r)) end.
  { destruct (@acc_zero fg cnt (fun g c => do j <- jv h g c; do x <- xs h (dc (h_mat h)) c (g + off); Ok (j * x)%R)
      (fun g c => (cweight g c * vol_at h c * dc (h_mat h) (g + off)%nat (mat_at h c))%R) PB) as (v & E & L & V).
    - intros g c0 Hg Hc. rewrite jv_val by lia. cbn [bind]. rewrite xs_val by lia. reflexivity.
    - destruct (h_dc h); try (exists v; split; auto; split; auto; fail). eexists. split; [reflexivity|]. split; [apply repeat_length|]. intros Q; contradiction. }
  destruct HD as (dv & Edv & Ldv & Vdv). rewrite Edv. cbn [bind].
  match goal with |- context [for_ 0 ncc ?s0 ?b0] =>
    destruct (@for_inv _ (fun i (x : mtl * list (list R)) => grid_ok cgs fgcg cg i (fst x) (snd x)) 0 ncc s0 b0)
      as ([c' fl'] & E & Gr') end.
  - lia.
  - exact Gr.
  - clear c fl Gr. intros i [c fl] Hi Gr. cbn [fst snd] in *. destruct Gr as (N1 & N2 & L1 & L2 & Q).
    rewrite (@rd_ok _ tv i 0%R), (@rd_ok _ av i 0%R), (@rd_ok _ fv i 0%R), (@rd_ok _ nv i 0%R), (@rd_ok _ cv i 0%R),
      (@rd_ok _ fdv i 0%R), (@rd_ok _ dv i 0%R), (@rd_ok _ pvv i 0%R), (@rd_ok _ jvv i 0%R), (@rd_ok _ vol i 0%R),
      (@rd_ok _ sv i []) by lia. cbn [bind].
    pose proof (Q cg i Hcg ltac:(lia)) as Qi. rewrite Nat.ltb_irrefl, Nat.eqb_refl, Nat.ltb_irrefl in Qi. cbn [orb andb] in Qi.
    destruct (@set_coarse_ok (h_dc h) (length cgs) cg i (nth i pvv 0%R) (nth i jvv 0%R) (nth i tv 0%R) (nth i av 0%R)
      (nth i fv 0%R) (nth i nv 0%R) (nth i cv 0%R) (nth i fdv 0%R) (nth i dv 0%R) (nth i sv []) c)
      as (c' & E & N1' & N2' & S' & V').
    + rewrite Rs by lia. auto.
    + destruct Qi as (_ & _ & A & _). rewrite <- A. reflexivity.
    + destruct Qi as (_ & _ & _ & _ & A & _). rewrite <- A. reflexivity.
    + rewrite E. cbn [bind]. rewrite (@rd_ok _ fl cg []) by lia. cbn [bind].
      unfold wr at 1. rewrite L2, (proj2 (Nat.ltb_lt i ncc)) by lia. cbn [bind].
      unfold wr. rewrite L1, (proj2 (Nat.ltb_lt _ _) Hcg). cbn [bind]. eexists. split; [reflexivity|]. cbn [fst snd].
      assert (LL : forall g, length (nth g (upd fl cg (upd (nth cg fl []) i (nth i pvv 0 / nth i vol 0)%R)) []) = length (nth g fl [])).
      { intros g. destruct (Nat.eq_dec cg g) as [<-|Ne]; [rewrite nth_upd_eq by lia; apply upd_length|].
        rewrite nth_upd_neq by auto. auto. }
      split; [lia|]. split; [lia|]. split; [rewrite upd_length; auto|]. split; [intros; rewrite LL; auto|].
      intros g r Hg Hr. specialize (Q g r Hg Hr).
      destruct (Nat.eq_dec g cg) as [->|Ng].
      * rewrite Nat.ltb_irrefl, Nat.eqb_refl in *. cbn [orb andb] in *.
        destruct (Nat.eq_dec r i) as [->|Nr].
        -- rewrite (proj2 (Nat.ltb_lt i (S i))) by lia. split.
           ++ intros Ht. specialize (Vt i ltac:(lia)).
              destruct V' as (B1 & B2 & B3 & B4 & B6 & B5); [rewrite Vt; exact Ht|].
              rewrite B1, B2, Vt, Va by lia.
              assert (EF : nth i pvv 0%R = region_flux h cgs cg i) by (rewrite Vp by lia; reflexivity).
              rewrite EF in *. rewrite Vf in B3, B4 by lia. split; auto. split; auto. split; [|split; [auto|split]].
              ** intros HF'. destruct (B3 HF') as (X1 & X2 & X3). rewrite X1, X2, X3, Vn by lia. split; auto. split; auto.
                 f_equal; [rewrite Vc by lia; reflexivity|]. rewrite Vd by lia. unfold last_fd. fold cnt.
                 rewrite (proj2 (Nat.ltb_lt _ _) Hcnt). cbn [rsum]. rewrite Rplus_0_l. reflexivity.
              ** rewrite B6, Vt by lia. destruct (h_dc h) eqn:Edc; auto; rewrite Vdv, Vj by (congruence || lia); reflexivity.
              ** intros q Hq. rewrite B5 by auto. f_equal. specialize (Vs i q ltac:(lia) ltac:(lia)). unfold ent in Vs.
                 rewrite Vs. rewrite nth_repeat_lt by lia. rewrite nth_repeat_lt by lia. rewrite Rplus_0_l. reflexivity.
           ++ unfold flux_done. rewrite nth_upd_eq by lia. rewrite nth_upd_eq by (rewrite L2; lia).
              rewrite Vp, Vv by lia. reflexivity.
        -- assert (Sm : same_at c c' cg r) by (apply S'; congruence).
           destruct (Nat.ltb_spec r i) as [Hri|Hri].
           ++ rewrite (proj2 (Nat.ltb_lt r (S i))) by lia. destruct Q as (Q1 & Q2). split.
              ** eapply final_val_same; eauto.
              ** unfold flux_done in *. rewrite nth_upd_eq by lia. rewrite nth_upd_neq by auto. auto.
           ++ rewrite (proj2 (Nat.ltb_ge r (S i))) by lia. eapply same_at_trans; eauto.
      * assert (Sm : same_at c c' g r) by (apply S'; congruence).
        replace (g =? cg) with false in * by (symmetry; apply Nat.eqb_neq; auto). cbn [andb] in *. rewrite orb_false_r in *.
        destruct (g <? cg) eqn:Q0.
        -- destruct Q as (Q1 & Q2). split; [eapply final_val_same; eauto|].
           unfold flux_done in *. rewrite nth_upd_neq by auto. auto.
        -- eapply same_at_trans; eauto.
  - rewrite E. cbn [bind fst snd] in *. exists c', fl'. split.
    + unfold fg, cnt. rewrite psum_S. reflexivity.
    + destruct Gr' as (N1 & N2 & L1 & L2 & Q). repeat (split; auto). intros g r Hg Hr. specialize (Q g r Hg Hr).
      replace ((g <? S cg) || ((g =? S cg) && (r <? 0))) with ((g <? cg) || ((g =? cg) && (r <? ncc))); auto.
      rewrite (proj2 (Nat.ltb_lt r ncc)), andb_true_r by auto.
      replace (r <? 0) with false by (symmetry; apply Nat.ltb_ge; lia). rewrite andb_false_r, orb_false_r.
      destruct (Nat.ltb_spec g cg), (Nat.eqb_spec g cg), (Nat.ltb_spec g (S cg)); auto; lia.
Qed.

Lemma homogenize_ok cgs :
  list_sum cgs + off <= G -> (forall k, In k cgs -> 0 < k) -> cgs <> [] ->
  exists fgcg cm fl, group_map G cgs = Ok fgcg /\
    (forall cg fg, in_coarse cgs cg fg -> nth fg fgcg 0 = cg) /\ (forall fg, list_sum cgs <= fg -> nth fg fgcg 0 = 0) /\
    homogenize h cgs off = Ok (finalize cm, fl) /\ ng cm = length cgs /\ nm cm = ncc /\
    forall cg r, cg < length cgs -> r < ncc -> final_val cgs fgcg cm cg r /\ flux_done cgs fl cg r.
Proof.
  intros HS HP HN. destruct (@group_map_ok cgs ltac:(lia)) as (fgcg & Eg & Lg & Vg & Zg).
  unfold homogenize. fold G. rewrite Eg. cbn [bind].
  destruct HR as (_ & (L & P) & _). destruct (@max_element_ok (h_reg h)) as (m & Em & Rg & B); [lia|]. rewrite Em. cbn [bind].
  replace (m + 1) with ncc by (unfold ncc; lia).
  assert (HF : forall g, g < G -> nth g fgcg 0 < length cgs).
  { intros g Hg. destruct (Nat.lt_ge_cases g (list_sum cgs)) as [Hl|Hl].
    - destruct (@psum_block_exists cgs g Hl) as (cg & H1 & H2). rewrite (Vg cg g); [auto|]. split; auto.
    - rewrite Zg by auto. destruct cgs; [congruence|]. cbn. lia. }
  match goal with |- context [for_ 0 (length cgs) ?s0 ?b0] =>
    destruct (@for_inv _ (fun cg (x : mtl * list (list R) * nat) => snd x = psum cgs cg /\
      grid_ok cgs fgcg cg 0 (fst (fst x)) (snd (fst x))) 0 (length cgs) s0 b0) as ([[c fl] f] & E & _ & Gr) end.
  - lia.
  - cbn [fst snd]. split; auto. split; auto. split; auto. split; [apply repeat_length|]. split.
    + intros g Hg. rewrite nth_repeat_lt by auto. apply repeat_length.
    + intros g r Hg Hr. replace (g <? 0) with false by (symmetry; apply Nat.ltb_ge; lia).
      replace (r <? 0) with false by (symmetry; apply Nat.ltb_ge; lia). rewrite andb_false_r. cbn [orb]. apply same_at_refl.
  - intros cg [[c fl] f] Hcg (F & Gr). cbn [fst snd] in *. subst f.
    destruct (@hom_group_ok cgs fgcg cg c fl HS HP Lg HF ltac:(lia) Gr) as (c' & fl' & E & Gr').
    exists (c', fl', psum cgs (S cg)). split; auto.
  - rewrite E. cbn [bind fst snd] in *. exists fgcg, c, fl. destruct Gr as (N1 & N2 & L1 & L2 & Q).
    split; auto. split; auto. split; auto. split; auto. split; auto. split; auto. intros cg r Hcg Hr. specialize (Q cg r Hcg Hr).
    rewrite (proj2 (Nat.ltb_lt _ _) Hcg) in Q. exact Q.
Qed.

End Hom.

Lemma rsum_zero_terms n f : (forall i, i < n -> (0 <= f i)%R) -> (rsum n f <= 0)%R -> forall i, i < n -> f i = 0%R.
Proof.
  induction n as [|n IH]; intros H0 HS i Hi; [lia|]. cbn [rsum] in HS.
  assert (0 <= rsum n f)%R by (apply rsum_nonneg; intros; apply H0; lia).
  assert (0 <= f n)%R by (apply H0; lia).
  destruct (Nat.eq_dec i n) as [->|Ne]; [lra|]. apply IH; [intros; apply H0; lia|lra|lia].
Qed.
Lemma block_pick cgs fgcg q N (x : nat -> R) : list_sum cgs = N -> q < length cgs ->
  (forall cg fg, in_coarse cgs cg fg -> nth fg fgcg 0 = cg) ->
  rsum N (fun gp => if nth gp fgcg 0 =? q then x gp else 0%R) = block_sum cgs q x.
Proof.
  intros HS Hq HM. pose proof (psum_S cgs q) as PS.
  assert (PB : psum cgs (S q) <= N) by (rewrite <- HS, <- psum_all; apply psum_mono; lia).
  replace N with (psum cgs q + (nth q cgs 0 + (N - psum cgs (S q)))) by lia.
  rewrite !rsum_split. rewrite (rsum_zero (n := psum cgs q)).
  2:{ intros i Hi. destruct (@psum_block_exists cgs i ltac:(lia)) as (c & H1 & H2). rewrite (HM c i) by (split; auto).
      destruct (Nat.eqb_spec c q); auto. subst. lia. }
  rewrite (rsum_zero (n := N - _)).
  2:{ intros i Hi. destruct (@psum_block_exists cgs (psum cgs q + (nth q cgs 0 + i)) ltac:(lia)) as (c & H1 & H2).
      rewrite (HM c _) by (split; auto). destruct (Nat.eqb_spec c q); auto. subst. lia. }
  rewrite Rplus_0_l, Rplus_0_r. unfold block_sum. apply rsum_ext. intros i Hi. rewrite (HM q) by (split; lia).
  rewrite Nat.eqb_refl. reflexivity.
Qed.
Lemma region_sum_nonneg n reg r f : (forall c, c < n -> (0 <= f c)%R) -> (0 <= region_sum n reg r f)%R.
Proof. intros H. apply rsum_nonneg. intros i Hi. destruct (_ =? r); [auto|lra]. Qed.
Lemma region_sum_zero n reg r f : (forall c, c < n -> nth c reg 0 = r -> f c = 0%R) -> region_sum n reg r f = 0%R.
Proof. intros H. apply rsum_zero. intros i Hi. destruct (Nat.eqb_spec (nth i reg 0) r); auto. Qed.
Lemma region_sum_scal n reg r k f : region_sum n reg r (fun c => k * f c)%R = (k * region_sum n reg r f)%R.
Proof. unfold region_sum. rewrite <- rsum_scal. apply rsum_ext. intros i Hi. destruct (_ =? r); ring. Qed.
Lemma region_sum_ext' n reg r f g : (forall c, c < n -> nth c reg 0 = r -> f c = g c) -> region_sum n reg r f = region_sum n reg r g.
Proof. intros H. apply rsum_ext. intros i Hi. destruct (Nat.eqb_spec (nth i reg 0) r); auto. Qed.
Lemma block_sum_ext cgs cg f g N : list_sum cgs <= N -> cg < length cgs -> (forall i, i < N -> f i = g i) ->
  block_sum cgs cg f = block_sum cgs cg g.
Proof.
  intros HS Hc H. apply rsum_ext. intros i Hi. apply H. pose proof (psum_S cgs cg).
  assert (psum cgs (S cg) <= list_sum cgs) by (rewrite <- psum_all; apply psum_mono; lia). lia.
Qed.

Lemma rate_off0 h cgs f cg r : region_rate h cgs (fun g k => f (g + 0) k) cg r = region_rate h cgs f cg r.
Proof.
  unfold region_rate, block_sum. apply rsum_ext. intros i Hi. apply region_sum_ext'. intros c Hc _.
  rewrite Nat.add_0_r. reflexivity.
Qed.

Lemma homog_run h cgs : hom_ready h -> collapse_ok h cgs ->
  exists cm fl, homogenize h cgs 0 = Ok (finalize cm, fl) /\ ng cm = length cgs /\ nm cm = regions (h_reg h) /\
    forall cg r, cg < length cgs -> r < regions (h_reg h) ->
    let rate f := region_rate h cgs f cg r in
    let F := region_flux h cgs cg r in
    nth r (nth cg fl []) 0%R = (F / (INR (nth cg cgs 0%nat) * region_volume h r))%R /\
    ((0 < rate (st (h_mat h)))%R ->
    st cm cg r = (rate (st (h_mat h)) / F)%R /\ sa cm cg r = (rate (sa (h_mat h)) / F)%R /\
    ((0 < rate (sf (h_mat h)))%R -> sf cm cg r = (rate (sf (h_mat h)) / F)%R /\
      nu cm cg r = (rate (nsf (h_mat h)) / rate (sf (h_mat h)))%R /\
      chi cm cg r = (last_chi h 0 cgs cg r / region_sum (h_n h) (h_reg h) r (last_production h))%R) /\
    (~ (0 < rate (sf (h_mat h)))%R -> sf cm cg r = 0%R /\ chi cm cg r = 0%R) /\
    dc cm cg r = match h_dc h with PHI_SIGMA_TR => (1 / (3 * (rate (st (h_mat h)) / F)))%R
              | _ => (cur_rate h 0 cgs (dc (h_mat h)) cg r / cur_flux h cgs cg r)%R end /\
    forall q, q < length cgs -> ss cm q cg r = (scatter_rate h cgs q cg r / F)%R).
Proof.
  intros HR (HS & HP & HN).
  destruct (@homogenize_ok h HR 0 cgs) as (fgcg & cm & fl & Eg & Vg & Zg & E & N1 & N2 & V); auto; [lia|].
  exists cm, fl. split; auto. split; auto. split; auto. intros cg r Hcg Hr. cbv zeta.
  destruct (V cg r Hcg Hr) as (V1 & V2). split.
  - unfold flux_done in V2. rewrite V2. f_equal. unfold Vol, block_sum. rewrite rsum_const. reflexivity.
  - unfold final_val in V1. cbv zeta in V1. rewrite !rate_off0 in V1. intros Ht. destruct (V1 Ht) as (B1 & B2 & B3 & B4 & B5 & B6).
    split; auto. split; auto. split.
    { intros Hf. destruct (B3 Hf) as (X1 & X2 & X3). split; auto. split; auto. rewrite X3. f_equal. unfold last_fd.
      assert (0 < nth cg cgs 0) by (apply HP, nth_In; auto). rewrite (proj2 (Nat.ltb_lt _ _) H). reflexivity. }
    split; auto. split; auto. intros q Hq. rewrite B6 by auto. f_equal. unfold scat_rate, scatter_rate.
    apply (block_sum_ext (N := ng (h_mat h))); auto; [lia|]. intros g Hg. apply region_sum_ext'. intros c Hc _.
    unfold scat_into. rewrite (@block_pick cgs fgcg q _ (fun gp => weight (h_w h) g c * vol_at h c * ss (h_mat h) gp (g + 0)%nat (mat_at h c))%R); auto.
    unfold block_sum. rewrite <- rsum_scal. apply rsum_ext. intros i Hi. rewrite Nat.add_0_r. reflexivity.
Qed.

Lemma sf_rate_nonneg h cgs cg r : fission_data_ok h -> list_sum cgs <= ng (h_mat h) -> cg < length cgs ->
  (0 <= region_rate h cgs (sf (h_mat h)) cg r)%R /\
  (~ (0 < region_rate h cgs (sf (h_mat h)) cg r)%R ->
   region_rate h cgs (sf (h_mat h)) cg r = 0%R /\ region_rate h cgs (nsf (h_mat h)) cg r = 0%R).
Proof.
  intros HD HS Hc.
  assert (PB : forall i, i < nth cg cgs 0 -> psum cgs cg + i < ng (h_mat h)).
  { intros i Hi. pose proof (psum_S cgs cg).
    assert (psum cgs (S cg) <= list_sum cgs) by (rewrite <- psum_all; apply psum_mono; lia). lia. }
  assert (N0 : forall g, g < ng (h_mat h) -> (0 <= region_sum (h_n h) (h_reg h) r
    (fun c => weight (h_w h) g c * vol_at h c * sf (h_mat h) g (mat_at h c)))%R).
  { intros g Hg. apply region_sum_nonneg. intros c Hcc. destruct (HD g c Hg Hcc) as (A & B & _). apply Rmult_le_pos; auto. }
  assert (NN : (0 <= region_rate h cgs (sf (h_mat h)) cg r)%R) by (apply rsum_nonneg; intros; apply N0; auto).
  split; auto. intros Hn. split; [lra|]. unfold region_rate, block_sum. apply rsum_zero. intros i Hi.
  apply region_sum_zero. intros c Hcc Hr.
  assert (Z : region_sum (h_n h) (h_reg h) r
    (fun c => weight (h_w h) (psum cgs cg + i) c * vol_at h c * sf (h_mat h) (psum cgs cg + i) (mat_at h c))%R = 0%R).
  { apply (@rsum_zero_terms (nth cg cgs 0) (fun i => region_sum (h_n h) (h_reg h) r
    (fun c => weight (h_w h) (psum cgs cg + i) c * vol_at h c * sf (h_mat h) (psum cgs cg + i) (mat_at h c))%R)); auto.
    unfold region_rate, block_sum in Hn. lra. }
  assert (Z2 : (if nth c (h_reg h) 0%nat =? r then
     (weight (h_w h) (psum cgs cg + i) c * vol_at h c * sf (h_mat h) (psum cgs cg + i) (mat_at h c))%R else 0%R) = 0%R).
  { apply (@rsum_zero_terms (h_n h) (fun c => if nth c (h_reg h) 0 =? r then
     (weight (h_w h) (psum cgs cg + i) c * vol_at h c * sf (h_mat h) (psum cgs cg + i) (mat_at h c))%R else 0%R)); auto.
    - intros j Hj. destruct (nth j (h_reg h) 0 =? r); [|lra].
      destruct (HD _ j (PB i Hi) Hj) as (A & B & _). apply Rmult_le_pos; auto.
    - unfold region_sum in Z. rewrite Z. lra. }
  rewrite Hr, Nat.eqb_refl in Z2.
  destruct (HD _ c (PB i Hi) Hcc) as (_ & _ & N). rewrite N.
  transitivity (nu (h_mat h) (psum cgs cg + i) (mat_at h c) * (weight (h_w h) (psum cgs cg + i) c * vol_at h c * sf (h_mat h) (psum cgs cg + i) (mat_at h c)))%R; [ring|].
  rewrite Z2. ring.
Qed.

(** C46: rates. *)
Lemma homog_rates h cgs : hom_ready h -> collapse_ok h cgs -> fission_data_ok h ->
  exists cm fl, homogenize h cgs 0 = Ok (cm, fl) /\ ng cm = length cgs /\ nm cm = regions (h_reg h) /\
    forall cg r, cg < length cgs -> r < regions (h_reg h) ->
      (0 < region_rate h cgs (st (h_mat h)) cg r)%R -> (region_flux h cgs cg r <> 0)%R ->
      rates_ok h cgs cm cg r.
Proof.
  intros HR HC HD. destruct (homog_run HR HC) as (cm & fl & E & N1 & N2 & V).
  exists (finalize cm), fl. split; auto. split; auto. split; auto. intros cg r Hcg Hr Ht HF.
  destruct HC as (HS & HP & HN).
  destruct (V cg r Hcg Hr) as (_ & V1). cbv zeta in V1. destruct (V1 Ht) as (B1 & B2 & B3 & B4 & B5 & B6).
  destruct (@sf_rate_nonneg h cgs cg r HD ltac:(lia) Hcg) as (NN & NZ).
  unfold rates_ok. cbv zeta. cbn [finalize st sa sf nsf ss dc nu].
  split; [rewrite B1; field; auto|]. split; [rewrite B2; field; auto|].
  assert (FS : (sf cm cg r * region_flux h cgs cg r = region_rate h cgs (sf (h_mat h)) cg r)%R /\
     (nu cm cg r * sf cm cg r * region_flux h cgs cg r = region_rate h cgs (nsf (h_mat h)) cg r)%R).
  { destruct (Rlt_dec 0 (region_rate h cgs (sf (h_mat h)) cg r)) as [Hf|Hf].
    - destruct (B3 Hf) as (X1 & X2 & _). rewrite X1, X2. split; field; auto. split; auto. lra.
    - destruct (NZ Hf) as (Z1 & Z2). destruct (B4 Hf) as (X1 & _). rewrite X1, Z1, Z2. split; ring. }
  destruct FS as (F1 & F2). split; auto. split; auto. split.
  - intros q Hq. rewrite B6 by auto. field; auto.
  - split; intros Ed; rewrite Ed in B5.
    + assert (CW : forall g c, cweight h g c = weight (h_w h) g c).
      { intros. unfold cweight. rewrite Ed. destruct (h_w h) as [? [?|]|]; auto. }
      assert (CF : cur_flux h cgs cg r = region_flux h cgs cg r).
      { unfold cur_flux, region_flux, block_sum. apply rsum_ext. intros i Hi. apply region_sum_ext'. intros c Hc _. rewrite CW. auto. }
      rewrite B5, CF. transitivity (cur_rate h 0 cgs (dc (h_mat h)) cg r); [field; auto|].
      unfold cur_rate, region_rate, block_sum. apply rsum_ext. intros i Hi. apply region_sum_ext'. intros c Hc _.
      rewrite CW, Nat.add_0_r. auto.
    + rewrite B5, B1. field. split; auto. lra.
Qed.

(** C46: the spectrum is right if the region has one spectrum. *)
Lemma homog_spectrum h cgs X : hom_ready h -> collapse_ok h cgs ->
  exists cm fl, homogenize h cgs 0 = Ok (cm, fl) /\
    forall cg r, cg < length cgs -> r < regions (h_reg h) ->
      (0 < region_rate h cgs (st (h_mat h)) cg r)%R -> (0 < region_rate h cgs (sf (h_mat h)) cg r)%R ->
      (forall g c, g < ng (h_mat h) -> c < h_n h -> nth c (h_reg h) 0 = r -> chi (h_mat h) g (mat_at h c) = X g) ->
      (region_sum (h_n h) (h_reg h) r (fun c => weight (h_w h) (ng (h_mat h) - 1)%nat c
          * nsf (h_mat h) (ng (h_mat h) - 1)%nat (mat_at h c) * vol_at h c) <> 0)%R ->
      chi cm cg r = block_sum cgs cg X /\ spectrum_ok h cgs cm cg r.
Proof.
  intros HR HC. destruct (homog_run HR HC) as (cm & fl & E & N1 & N2 & V).
  exists (finalize cm), fl. split; auto. intros cg r Hcg Hr Ht Hf HX HL.
  destruct (V cg r Hcg Hr) as (_ & V1). cbv zeta in V1. destruct (V1 Ht) as (_ & _ & B3 & _).
  destruct (B3 Hf) as (_ & _ & X3). destruct HC as (HS & HP & HN).
  assert (BS : forall f, block_sum cgs cg (fun g => region_sum (h_n h) (h_reg h) r (fun c => f c * chi (h_mat h) g (mat_at h c))%R) =
     (block_sum cgs cg X * region_sum (h_n h) (h_reg h) r f)%R).
  { intros f. unfold block_sum at 2. rewrite <- rsum_scal_r.
    assert (K : forall g, g < ng (h_mat h) -> region_sum (h_n h) (h_reg h) r (fun c => f c * chi (h_mat h) g (mat_at h c))%R =
       (X g * region_sum (h_n h) (h_reg h) r f)%R).
    { intros g Hg. rewrite <- region_sum_scal. apply region_sum_ext'. intros c Hc Hrr. rewrite HX by auto. ring. }
    rewrite (block_sum_ext (N := ng (h_mat h)) (g := fun g => (X g * region_sum (h_n h) (h_reg h) r f)%R)); auto; try lia. }
  assert (CH : chi (finalize cm) cg r = block_sum cgs cg X).
  { cbn. rewrite X3. unfold last_chi.
    assert (Q : block_sum cgs cg (fun g => region_sum (h_n h) (h_reg h) r (fun c => last_production h c * chi (h_mat h) (g + 0)%nat (mat_at h c))%R) =
      block_sum cgs cg (fun g => region_sum (h_n h) (h_reg h) r (fun c => last_production h c * chi (h_mat h) g (mat_at h c))%R)).
    { apply rsum_ext. intros i Hi. rewrite Nat.add_0_r. reflexivity. }
    rewrite Q, BS. field. exact HL. }
  split; auto. unfold spectrum_ok. rewrite CH, BS. reflexivity.
Qed.

(** C46: coarse flux. *)
Lemma homog_flux h cgs : hom_ready h -> collapse_ok h cgs ->
  exists cm fl, homogenize h cgs 0 = Ok (cm, fl) /\
    forall cg r, cg < length cgs -> r < regions (h_reg h) -> (region_volume h r <> 0)%R ->
      (INR (nth cg cgs 0%nat) * (nth r (nth cg fl []) 0 * region_volume h r) = region_flux h cgs cg r)%R.
Proof.
  intros HR HC. destruct (homog_run HR HC) as (cm & fl & E & N1 & N2 & V).
  exists (finalize cm), fl. split; auto. intros cg r Hcg Hr HV. destruct (V cg r Hcg Hr) as (V1 & _). cbv zeta in V1.
  rewrite V1. destruct HC as (_ & HP & _). assert (0 < nth cg cgs 0) by (apply HP, nth_In; auto).
  field. split; auto. apply not_0_INR. lia.
Qed.

(** ** Witnesses *)
(** Two cells of unit volume, two materials, one region, two groups. *)
Definition mix_mat : mtl :=
  finalize (run_ops (material_new 2 2)
    [Set_ FT 0 0 1%R; Set_ FT 0 1 1%R; Set_ FT 1 0 1%R; Set_ FT 1 1 3%R;
     Set_ FCHI 0 0 1%R; Set_ FCHI 1 1 1%R;
     Set_ FSF 0 0 1%R; Set_ FSF 0 1 1%R; Set_ FSF 1 0 3%R; Set_ FSF 1 1 1%R]).
Definition mix_hom (phi : list (list R)) : hom :=
  {| h_mat := mix_mat; h_n := 2; h_vol := [1; 1]%R; h_reg := [0; 0]; h_mmap := [0; 1];
     h_w := FineMesh phi None; h_dc := PHI_D |}.
Definition flat_phi : list (list R) := [[1; 1]; [1; 1]]%R.
Definition steep_phi : list (list R) := [[1; 1]; [1; 3]]%R.
Lemma mix_ready phi : length phi = 2 -> (forall g, g < 2 -> length (nth g phi []) = 2) -> hom_ready (mix_hom phi).
Proof.
  intros L B. split; [cbn; lia|]. split; [split; cbn; lia|]. split; [cbn; lia|]. split.
  - intros [|[|c]] Hc; cbn in *; lia.
  - cbn. split; auto. split; auto. intros g Hg. rewrite B; auto.
Qed.
Lemma flat_ready : hom_ready (mix_hom flat_phi).
Proof. apply mix_ready; [reflexivity|]. intros [|[|g]] Hg; try reflexivity; lia. Qed.
Lemma steep_ready : hom_ready (mix_hom steep_phi).
Proof. apply mix_ready; [reflexivity|]. intros [|[|g]] Hg; try reflexivity; lia. Qed.
Lemma mix_fission : fission_data_ok (mix_hom flat_phi) /\ fission_data_ok (mix_hom steep_phi).
Proof.
  split; intros g c Hg Hc; cbn in Hg, Hc; destruct g as [|[|g]]; try lia; destruct c as [|[|c]]; try lia; cbn; repeat split; lra.
Qed.
Lemma mix_collapse : collapse_ok (mix_hom flat_phi) [1; 1] /\ collapse_ok (mix_hom flat_phi) [2].
Proof. split; (split; [reflexivity|split; [cbn; intros k H; lia|congruence]]). Qed.

Ltac mixc := unfold region_rate, region_flux, block_sum, region_sum, region_volume, production, last_chi, psum; unfold last_production; cbn; unfold set2; cbn.

Lemma homog_spectrum_wrong :
  exists h cgs, hom_ready h /\ collapse_ok h cgs /\ fission_data_ok h /\
    exists cm fl, homogenize h cgs 0 = Ok (cm, fl) /\
      (0 < region_rate h cgs (st (h_mat h)) 0 0)%R /\ (0 < region_rate h cgs (sf (h_mat h)) 0 0)%R /\
      ~ spectrum_ok h cgs cm 0 0.
Proof.
  exists (mix_hom flat_phi), [1; 1]. split; [apply flat_ready|]. split; [apply mix_collapse|]. split; [apply mix_fission|].
  destruct (homog_run flat_ready (proj1 mix_collapse)) as (cm & fl & E & _ & _ & V).
  exists (finalize cm), fl. split; [exact E|].
  assert (HT : (0 < region_rate (mix_hom flat_phi) [1; 1]%nat (st (h_mat (mix_hom flat_phi))) 0 0)%R) by (mixc; lra).
  assert (HF : (0 < region_rate (mix_hom flat_phi) [1; 1]%nat (sf (h_mat (mix_hom flat_phi))) 0 0)%R) by (mixc; lra).
  split; auto. split; auto. destruct (V 0 0 ltac:(apply Nat.ltb_lt; reflexivity) ltac:(apply Nat.ltb_lt; reflexivity)) as (_ & V1). cbv zeta in V1.
  destruct (V1 HT) as (_ & _ & B3 & _). destruct (B3 HF) as (_ & _ & X).
  unfold spectrum_ok. change (chi (finalize cm) 0 0) with (chi cm 0 0). rewrite X. clear.
  intros H. revert H. mixc. intros H.
  match type of H with (?a / ?b * ?c = ?d)%R => assert (a / b * c = 3)%R by (field; lra); lra end.
Qed.

(** A material that fissions only in the last group. *)
Definition thermal_mat : mtl :=
  finalize (run_ops (material_new 1 2) [Set_ FT 0 0 1%R; Set_ FT 0 1 1%R; Set_ FCHI 0 0 1%R; Set_ FSF 0 1 1%R]).
Definition thermal_hom : hom :=
  {| h_mat := thermal_mat; h_n := 1; h_vol := [1]%R; h_reg := [0]; h_mmap := [0];
     h_w := FineMesh [[1]; [1]]%R None; h_dc := PHI_D |}.
Lemma thermal_ready : hom_ready thermal_hom /\ collapse_ok thermal_hom [1; 1] /\ fission_data_ok thermal_hom.
Proof.
  split; [|split].
  - split; [cbn; lia|]. split; [split; cbn; lia|]. split; [cbn; lia|]. split.
    + intros [|c] Hc; cbn in *; lia.
    + cbn. split; auto. split; auto. intros [|[|g]] Hg; cbn; lia.
  - split; [reflexivity|split; [cbn; intros k H; lia|congruence]].
  - intros g c Hg Hc; cbn in Hg, Hc; destruct g as [|[|g]]; try lia; destruct c as [|c]; try lia; cbn; repeat split; lra.
Qed.
Lemma homog_spectrum_lost :
  exists h cgs, hom_ready h /\ collapse_ok h cgs /\ fission_data_ok h /\ h_n h = 1 /\
    exists cm fl, homogenize h cgs 0 = Ok (cm, fl) /\
      (0 < region_rate h cgs (st (h_mat h)) 0 0)%R /\
      chi (h_mat h) 0 0 = 1%R /\ chi cm 0 0 = 0%R /\ ~ spectrum_ok h cgs cm 0 0.
Proof.
  destruct thermal_ready as (HR & HC & HD). exists thermal_hom, [1; 1]. split; auto. split; auto. split; auto. split; auto.
  destruct (homog_run HR HC) as (cm & fl & E & _ & _ & V). exists (finalize cm), fl. split; auto.
  assert (HT : (0 < region_rate thermal_hom [1; 1]%nat (st (h_mat thermal_hom)) 0 0)%R) by (mixc; lra).
  assert (HF : (~ 0 < region_rate thermal_hom [1; 1]%nat (sf (h_mat thermal_hom)) 0 0)%R) by (mixc; lra).
  split; auto. split; [reflexivity|]. destruct (V 0 0 ltac:(apply Nat.ltb_lt; reflexivity) ltac:(apply Nat.ltb_lt; reflexivity)) as (_ & V1). cbv zeta in V1.
  destruct (V1 HT) as (_ & _ & _ & B4 & _). destruct (B4 HF) as (_ & X).
  split; [exact X|]. unfold spectrum_ok. change (chi (finalize cm) 0 0) with (chi cm 0 0). rewrite X. clear. mixc. lra.
Qed.

(** Collapsed groups: the coarse flux is an average, not an integral. *)
Lemma homog_flux_wrong :
  exists h cgs, hom_ready h /\ collapse_ok h cgs /\
    exists cm fl, homogenize h cgs 0 = Ok (cm, fl) /\ (region_volume h 0 <> 0)%R /\
      (nth 0 (nth 0 fl []) 0 * region_volume h 0 <> region_flux h cgs 0 0)%R.
Proof.
  exists (mix_hom flat_phi), [2]. split; [apply flat_ready|]. split; [apply mix_collapse|].
  destruct (homog_flux flat_ready (proj2 mix_collapse)) as (cm & fl & E & V). exists cm, fl. split; auto.
  assert (HV : (region_volume (mix_hom flat_phi) 0 <> 0)%R) by (mixc; lra). split; auto.
  specialize (V 0 0 ltac:(apply Nat.ltb_lt; reflexivity) ltac:(apply Nat.ltb_lt; reflexivity) HV). intros Q. rewrite Q in V. revert V. clear. mixc. lra.
Qed.

(** Only some groups requested: weights come from other groups. *)
Lemma homog_window_wrong :
  exists h, hom_ready h /\ fission_data_ok h /\
    exists cm fl, homogenize h [1] 1 = Ok (cm, fl) /\ ng cm = 1 /\
      (0 < rsum 2 (fun c => weight (h_w h) 1 c * vol_at h c * st (h_mat h) 1%nat (mat_at h c)))%R /\
      (st cm 0%nat 0%nat * rsum 2 (fun c => weight (h_w h) 1 c * vol_at h c) <>
       rsum 2 (fun c => weight (h_w h) 1 c * vol_at h c * st (h_mat h) 1%nat (mat_at h c)))%R.
Proof.
  exists (mix_hom steep_phi). split; [apply steep_ready|]. split; [apply mix_fission|].
  destruct (@homogenize_ok (mix_hom steep_phi) steep_ready 1 [1]) as (fgcg & cm & fl & _ & _ & _ & E & N & _ & V);
    [cbn; lia|cbn; intros; lia|congruence|].
  exists (finalize cm), fl. split; auto. split; auto.
  destruct (V 0 0 ltac:(apply Nat.ltb_lt; reflexivity) ltac:(apply Nat.ltb_lt; reflexivity)) as (V1 & _). unfold final_val in V1. cbv zeta in V1.
  assert (HT : (0 < region_rate (mix_hom steep_phi) [1]%nat (fun g k => st (h_mat (mix_hom steep_phi)) (g + 1)%nat k) 0 0)%R) by (mixc; lra).
  destruct (V1 HT) as (B1 & _). change (st (finalize cm) 0 0) with (st cm 0 0). rewrite B1. clear. split; [mixc; lra|].
  mixc. intros H. match type of H with (?a / ?b * ?c = ?d)%R => assert (a / b * c = 8)%R by (field; lra); lra end.
Qed.
