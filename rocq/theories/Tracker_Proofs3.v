From Verif Require Import Base BaseR Util_Model Mesh_Model Mesh_Spec Csg_Model Csg_Spec Csg_Proofs Pin_Model Pin_Spec Pin_Proofs7 Tracker_Model Tracker_Spec Tracker_Proofs Tracker_Proofs2.
Set Implicit Arguments. Unset Strict Implicit.
Open Scope R_scope.

Lemma seg_eps_pos : 0 < seg_eps. Proof. apply Rinv_0_lt_compat, pow_lt. lra. Qed.
Lemma reg_contains reg n : rnode reg = Some n -> forall p, region_contains reg p = Ok (contains n p).
Proof. intros E p. unfold region_contains. rewrite E. destruct (have_bound reg); [destruct (_ && _)|]; auto. Qed.

(** ** Finitely many points leave a gap *)
Lemma avoid (F : list R) : forall a b, a < b -> exists x, a < x < b /\ ~ In x F.
Proof.
  induction F as [|f F IH]; intros a b H; [exists ((a + b) / 2); split; [lra|auto]|].
  destruct (Rlt_dec a f) as [A|A].
  - destruct (Rlt_dec f b) as [B|B].
    + destruct (IH a f A) as (x & X & N). exists x. split; [lra|]. intros [E|E]; [lra|auto].
    + destruct (IH a b H) as (x & X & N). exists x. split; [lra|]. intros [E|E]; [lra|auto].
  - destruct (IH a b H) as (x & X & N). exists x. split; [lra|]. intros [E|E]; [lra|auto].
Qed.

Section Pairs.
Context (A : Type) (R : A -> A -> Prop) (sym : forall a b, R a b -> R b a).
Inductive pairs : list A -> Prop :=
| pairs_nil : pairs []
| pairs_cons a l : Forall (R a) l -> pairs l -> pairs (a :: l).
Lemma pairs_perm l l' : Permutation l l' -> pairs l -> pairs l'.
Proof.
  induction 1 as [|x l l' P IH|x y l|l l' l'' P1 IH1 P2 IH2]; intros H; auto.
  - inversion H; subst. constructor; auto. eapply Permutation_Forall; eauto.
  - inversion H as [|? ? F H1]; subst. inversion H1 as [|? ? F1 H2]; subst. inversion F as [|? ? Rxy F2]; subst. repeat constructor; auto.
Qed.
Lemma pairs_app l m : pairs l -> pairs m -> (forall a b, In a l -> In b m -> R a b) -> pairs (l ++ m).
Proof.
  intros H K L. induction H as [|a l F H IH]; auto. cbn. constructor.
  - apply Forall_app. split; auto. apply Forall_forall. intros b Hb. apply L; cbn; auto.
  - apply IH. intros; apply L; cbn; auto.
Qed.
End Pairs.

Section Track.
Context (rs : list region) (P0 P1 : point).
Notation L := (distance P0 P1).
Notation y := (track_ray P0 P1).
Notation T := (L + 2 * seg_eps).

Definition item := (nat * (R * R))%type.
Definition lo (e : item) := fst (snd e).
Definition hi (e : item) := snd (snd e).
Definition good_item (e : item) : Prop :=
  seg_eps <= lo e /\ lo e < hi e /\ hi e <= L + seg_eps /\
  exists reg, nth_error rs (fst e) = Some reg /\ forall x, lo e < x < hi e -> region_contains reg (on_track P0 P1 (x - seg_eps)) = Ok true.
Definition apart (e f : item) : Prop := hi e <= lo f \/ hi f <= lo e.
Definition mki (e : item) : mseg := mk y (fst e) (snd e).

Lemma tiles_of F : forall l a b, seg_eps <= a <= b -> StronglySorted (fun e f => hi e <= lo f) l ->
  (forall e, In e l -> good_item e /\ a <= lo e /\ hi e <= b) ->
  (forall x, a < x < b -> ~ In x F -> exists e, In e l /\ lo e < x < hi e) ->
  tiles rs P0 P1 (map (fun e => ms_seg (mki e)) l) (a - seg_eps) (b - seg_eps).
Proof.
  induction l as [|e l IH]; intros a b H S G C.
  - cbn. destruct (Rle_lt_or_eq_dec a b) as [K|K]; [lra| |lra]. destruct (avoid F K) as (x & X & N). destruct (C x X N) as (? & [] & _).
  - inversion S as [|? ? S' FA]; subst. rewrite Forall_forall in FA. destruct (G e ltac:(left; auto)) as ((G1 & G2 & G3 & reg & G4 & G5) & G6 & G7).
    assert (E : lo e = a).
    { destruct (Rle_lt_or_eq_dec a (lo e)) as [K|K]; auto. exfalso. destruct (avoid F K) as (x & X & N). destruct (C x ltac:(lra) N) as (f & [<-|I] & J); [lra|]. specialize (FA f I). lra. }
    cbn [map tiles]. change (slength (ms_seg (mki e))) with (hi e - lo e). change (sregion (ms_seg (mki e))) with (fst e).
    split; [lra|]. split.
    + intros u Hu. exists reg. split; auto. replace u with (u + seg_eps - seg_eps) by ring. apply G5. lra.
    + replace (a - seg_eps + (hi e - lo e)) with (hi e - seg_eps) by lra. apply IH; auto; [lra| |].
      * intros f I. destruct (G f ltac:(right; auto)) as (A & B & D). split; auto.
      * intros x X N. destruct (C x ltac:(lra) N) as (f & [<-|I] & J); [lra|]. eauto.
Qed.

Context (HT : trackable rs P0 P1) (srt : point -> list point -> list point) (HS : is_psort srt).
Lemma L_pos : 0 < L. Proof. apply HT. Qed.
Lemma rays : unit_ray y. Proof. apply track_ray_unit, L_pos. Qed.
Lemma at_t x : at_distance y x = on_track P0 P1 (x - seg_eps).
Proof. rewrite <- at_track by apply L_pos. f_equal. ring. Qed.
Lemma along_t s o x : along s (shift_ray y o) x = qf s (psub (on_track P0 P1 (x - seg_eps)) o).
Proof. unfold along. rewrite at_shift, at_t. auto. Qed.
Lemma regular_ray s o : regular s o P0 P1 -> reg_ray s (shift_ray y o).
Proof.
  intros (a & b & c & F & K). exists a, (b - 2 * a * seg_eps), (a * seg_eps * seg_eps - b * seg_eps + c). split.
  - intros t. rewrite along_t, F. ring.
  - destruct K as [[A B]|[[A B]|(A & B & C)]].
    + left. split; auto. destruct B as [B|B]; auto. right. intros E. apply B. lra.
    + right. left. subst a. split; auto. replace (b - 2 * 0 * seg_eps) with b by ring. auto.
    + right. right. subst. repeat split; auto; [ring|]. replace (0 * seg_eps * seg_eps - 0 * seg_eps + c) with c by ring. auto.
Qed.

(** One region. *)
Lemma region_items i reg : nth_error rs i = Some reg -> exists gs,
  region_pieces srt reg i y T = Ok (map (mk y i) gs) /\ pairs apart (map (pair i) gs) /\
  (forall g, In g gs -> good_item (i, g)) /\
  exists F, forall x, seg_eps < x < L + seg_eps -> ~ In x F -> region_contains reg (on_track P0 P1 (x - seg_eps)) = Ok true -> exists g, In g gs /\ fst g < x < snd g.
Proof.
  intros HI. assert (IN : In reg rs) by (eapply nth_error_In; eauto). pose proof seg_eps_pos as EP.
  destruct HT as (LP & REG & ONE & NONE & BOX & HIT & SP). destruct (REG reg IN) as [NN RG]. unfold region_leaves in RG.
  destruct (rnode reg) as [n|] eqn:EN; [|congruence]. clear NN. assert (RC := reg_contains EN).
  unfold region_pieces. rewrite EN. destruct (intersects_box reg y T) eqn:EB.
  2:{ exists []. split; [reflexivity|]. split; [constructor|]. split; [intros ? []|]. exists []. intros x X _ K. exfalso.
      rewrite (BOX reg (x - seg_eps) IN ltac:(split; lra) K) in EB. discriminate. }
  destruct (tree_hits HS n (P3 0 0 0) T rays) as (ts & E & S & I). rewrite shift_zero in E. rewrite E.
  assert (RR : forall s o, In (s, o) (leaves n (P3 0 0 0)) -> reg_ray s (shift_ray y o)) by (intros; apply regular_ray; auto).
  assert (NE : ts <> []).
  { destruct (HIT reg IN EB) as (t & Tr & s & o & Hl & Z & a & b & c & F & K). unfold region_leaves in Hl. rewrite EN in Hl.
    assert (In (t + seg_eps) ts); [|intros ->; auto]. apply I. exists s, o. split; auto.
    assert (TV : transversal s (shift_ray y o)).
    { exists a, (b - 2 * a * seg_eps), (a * seg_eps * seg_eps - b * seg_eps + c). split; [intros x; rewrite along_t, F; ring|].
      destruct K as [[A B]|[A B]]; [left; split; auto; intros Q; apply B; lra|right; subst a; split; auto; replace (b - 2 * 0 * seg_eps) with b by ring; auto]. }
    apply (@hits_in _ _ T TV). repeat split; [lra|right; lra|]. rewrite along_t. replace (t + seg_eps - seg_eps) with t by ring. auto. }
  assert (PG : match map (at_distance y) ts with [] => UB | _ :: _ => pieces reg i (map (at_distance y) ts) end = Ok (map (mk y i) (gaps (fun t => contains n (at_distance y t)) ts))).
  { destruct ts as [|t0 ts']; [congruence|]. exact (pieces_gaps i rays EN S). }
  set (c := fun t => contains n (at_distance y t)) in *. exists (gaps c ts). split.
  { rewrite <- PG. destruct ts; reflexivity. }
  assert (TB : forall t, In t ts -> 0 < t <= T).
  { intros t Ht. apply I in Ht. destruct Ht as (s & o & _ & Ht). apply hit_sorted in Ht. lra. }
  assert (CH := contains_change RR I).
  assert (CN : forall t, 0 < t < seg_eps \/ L + seg_eps < t < T -> c t = false).
  { intros t Ht. unfold c. rewrite at_t. assert (NR := NONE (t - seg_eps) ltac:(lra)). specialize (NR reg IN). rewrite RC in NR. destruct (contains n (on_track P0 P1 (t - seg_eps))); congruence. }
  assert (CC : forall t u, t < u -> 0 < t -> u <= T -> (forall h, In h ts -> ~ (t <= h <= u)) -> c t = c u).
  { intros t u A B D N. destruct (Bool.bool_dec (c t) (c u)) as [e|K]; auto. exfalso. destruct (CH t u ltac:(lra) D K) as (h & H1 & H2). eapply N; eauto. }
  assert (GP : forall u v, In (u, v) (gaps c ts) -> forall x, u < x < v -> c x = true).
  { intros u v Hg x X. destruct (gaps_in S Hg) as (A & B & C & D & N). destruct (TB u A), (TB v B).
    destruct (Rtotal_order x ((u + v) / 2)) as [O|[->|O]]; auto; rewrite <- D; [|symmetry]; (apply CC; [auto|lra|lra|]); intros h Hh Hx; apply (N h Hh); lra. }
  split; [|split].
  - assert (SS := @gaps_sorted c ts S). clear - SS; induction SS as [|g l SS IH FA]; constructor; [|exact IH].
    apply Forall_forall. intros e He. apply in_map_iff in He. destruct He as (h & <- & Hh). rewrite Forall_forall in FA. left. apply FA; auto.
  - intros [u v] Hg. destruct (gaps_in S Hg) as (A & B & C & D & N). destruct (TB u A), (TB v B).
    assert (G1 : seg_eps <= u).
    { destruct (Rle_or_lt seg_eps u) as [|K]; auto. exfalso. assert (X : exists x, u < x < v /\ x < seg_eps).
      { destruct (Rlt_dec v seg_eps); [exists ((u + v) / 2); lra|exists ((u + seg_eps) / 2); lra]. }
      destruct X as (x & X1 & X2). specialize (GP u v Hg x X1). rewrite CN in GP by lra. discriminate. }
    assert (G2 : v <= L + seg_eps).
    { destruct (Rle_or_lt v (L + seg_eps)) as [|K]; auto. exfalso. assert (X : exists x, u < x < v /\ L + seg_eps < x).
      { destruct (Rlt_dec (L + seg_eps) u); [exists ((u + v) / 2); lra|exists ((L + seg_eps + v) / 2); lra]. }
      destruct X as (x & X1 & X2). specialize (GP u v Hg x X1). rewrite CN in GP by lra. discriminate. }
    unfold good_item, lo, hi. cbn [fst snd]. split; [|split; [|split]]; auto. exists reg. split; auto. intros x X. rewrite RC, <- at_t. f_equal. apply (GP u v); auto.
  - exists ts. intros x X N K. rewrite RC, <- at_t in K. assert (CX : c x = true) by (unfold c; congruence).
    assert (B1 : exists h, In h ts /\ h < x).
    { destruct (CH (seg_eps / 2) x) as (h & H1 & H2); [lra|lra| |].
      - change (c (seg_eps / 2) <> c x). rewrite CN by lra. congruence.
      - exists h. split; auto. destruct (Req_dec h x); [subst; contradiction|lra]. }
    assert (B2 : exists h, In h ts /\ x < h).
    { destruct (CH x (L + seg_eps + seg_eps / 2)) as (h & H1 & H2); [lra|lra| |].
      - change (c x <> c (L + seg_eps + seg_eps / 2)). rewrite (CN (L + seg_eps + seg_eps / 2)) by lra. congruence.
      - exists h. split; auto. destruct (Req_dec h x); [subst; contradiction|lra]. }
    destruct (@gaps_cover c ts S) with (x := x) as (u & v & G & GX); auto.
    + intros u v Hu Hv UV. assert (Z : forall h, In h ts -> meets reg P0 P1 (h - seg_eps)).
      { intros h Hh. apply I in Hh. destruct Hh as (s & o & H1 & H2). exists s, o. unfold region_leaves. rewrite EN. split; auto. apply hit_zero in H2; auto. rewrite along_t in H2. auto. }
      specialize (SP reg _ _ IN (Z u Hu) (Z v Hv) ltac:(lra)). lra.
    + intros t u TU NH (h0 & H0 & L0) (h1 & H1 & L1). destruct (TB h0 H0), (TB h1 H1). apply CC; auto; lra.
    + exists (u, v). auto.
Qed.

Lemma apart_sym e f : apart e f -> apart f e. Proof. unfold apart. tauto. Qed.

Lemma all_items : forall suf pre, rs = pre ++ suf -> exists its,
  all_pieces srt suf (length pre) y T = Ok (map mki its) /\ pairs apart its /\ (forall e, In e its -> good_item e /\ (length pre <= fst e)%nat) /\
  exists F, forall x i reg, seg_eps < x < L + seg_eps -> ~ In x F -> (length pre <= i)%nat -> nth_error rs i = Some reg -> region_contains reg (on_track P0 P1 (x - seg_eps)) = Ok true ->
    exists e, In e its /\ lo e < x < hi e.
Proof.
  induction suf as [|reg suf IH]; intros pre E.
  - exists []. split; [reflexivity|]. split; [constructor|]. split; [intros ? []|]. exists []. intros x i reg _ _ H K. exfalso.
    rewrite app_nil_r in E. subst pre. assert (i < length rs)%nat by (apply nth_error_Some; congruence). lia.
  - destruct (IH (pre ++ [reg])) as (its & E1 & PW & G & F & C). { rewrite <- app_assoc. auto. }
    rewrite app_length in *. cbn [length] in *. replace (length pre + 1)%nat with (S (length pre)) in * by lia.
    assert (NT : nth_error rs (length pre) = Some reg). { rewrite E, nth_error_app2 by lia. rewrite Nat.sub_diag. reflexivity. }
    destruct (region_items NT) as (gs & E2 & PW2 & G2 & F2 & C2).
    exists (map (pair (length pre)) gs ++ its). cbn [all_pieces]. rewrite E2. cbn [bind]. rewrite E1. cbn [bind]. split; [|split; [|split]].
    + rewrite map_app, map_map. reflexivity.
    + apply pairs_app; auto. intros a b Ha Hb. apply in_map_iff in Ha. destruct Ha as (g & <- & Hg). specialize (G2 g Hg). destruct (G b Hb) as [Gb LB].
      destruct G2 as (A1 & A2 & A3 & ra & A4 & A5), Gb as (B1 & B2 & B3 & rb & B4 & B5). cbn [fst] in A4. unfold apart.
      destruct (Rle_or_lt (hi (length pre, g)) (lo b)) as [|K1]; auto. destruct (Rle_or_lt (hi b) (lo (length pre, g))) as [|K2]; auto. exfalso.
      assert (X : exists x, lo (length pre, g) < x < hi (length pre, g) /\ lo b < x < hi b).
      { exists ((Rmax (lo (length pre, g)) (lo b) + Rmin (hi (length pre, g)) (hi b)) / 2). unfold Rmax, Rmin. repeat destruct (Rle_dec _ _); lra. }
      destruct X as (x & X1 & X2). destruct HT as (_ & _ & ONE & _). destruct (ONE (x - seg_eps) ltac:(lra)) as (i & _ & U).
      specialize (A5 x X1). specialize (B5 x X2). rewrite (U _ _ A4) in A5. rewrite (U _ _ B4) in B5. injection A5 as A5. injection B5 as B5. apply Nat.eqb_eq in A5, B5. lia.
    + intros e He. apply in_app_iff in He. destruct He as [He|He]; [|destruct (G e He); split; auto; lia]. apply in_map_iff in He. destruct He as (g & <- & Hg). split; auto.
    + exists (F2 ++ F). intros x i r X N LI NI K. rewrite in_app_iff in N. destruct (Nat.eq_dec i (length pre)) as [->|NE].
      * rewrite NT in NI. injection NI as <-. destruct (C2 x X ltac:(tauto) K) as (g & Hg & GX). exists (length pre, g). split; [apply in_app_iff; left; apply in_map; auto|auto].
      * destruct (C x i r X ltac:(tauto) ltac:(lia) NI K) as (e & He & EX). exists e. split; auto. apply in_app_iff. auto.
Qed.

Theorem segmentize_tiles msrt : is_msort msrt -> exists segs, segmentize srt msrt rs P0 P1 = Ok segs /\ tiles rs P0 P1 segs 0 L.
Proof.
  intros HM. destruct (@all_items rs [] eq_refl) as (its & E & PW & G & F & C). cbn [length] in *. unfold segmentize. rewrite E. cbn [bind].
  destruct (HM P0 (map mki its)) as [PM SM]. apply Permutation_sym in PM. destruct (Permutation_map_inv _ _ PM) as (l & EL & PL). rewrite EL in *. rewrite map_map.
  eexists. split; [reflexivity|]. replace 0 with (seg_eps - seg_eps) by ring. replace L with (L + seg_eps - seg_eps) by ring. pose proof L_pos as LP.
  assert (GL : forall e, In e l -> good_item e) by (intros e He; apply G; eapply Permutation_in; [apply Permutation_sym; exact PL|auto]).
  apply tiles_of with (F := F); [lra| | |].
  - assert (PW' := pairs_perm apart_sym PL PW). clear - SM PW' GL LP HT. induction PW' as [|e l FA PW IH]; constructor.
    + apply IH; [cbn [map] in SM; inversion SM; auto|intros; apply GL; cbn; auto].
    + apply Forall_forall. intros f Hf. cbn [map] in SM. inversion SM as [|? ? _ FM]; subst. rewrite Forall_forall in FM. specialize (FM (mki f) (in_map _ _ _ Hf)).
      rewrite Forall_forall in FA. specialize (FA f Hf). destruct (GL e ltac:(left; auto)) as (A1 & A2 & A3 & _). destruct (GL f ltac:(right; auto)) as (B1 & B2 & B3 & _).
      assert (O : P0 = at_distance y seg_eps). { rewrite at_t. replace (seg_eps - seg_eps) with 0 by ring. unfold on_track. apply point_eq; cbn; field; lra. }
      assert (DM : forall z, distance (at_distance y z) P0 = Rabs (seg_eps - z)) by (intros z; transitivity (distance (at_distance y z) (at_distance y seg_eps)); [f_equal; exact O|apply dist_at, rays]).
      unfold mki, mk in FM. cbn [ms_mid] in FM. rewrite !DM in FM. unfold lo, hi in *.
      rewrite !Rabs_left1 in FM by lra. destruct FA; unfold lo, hi in *; lra.
  - intros e He. destruct (GL e He) as (A & B & D & K). split; [split; auto|]. lra.
  - intros x X N. destruct HT as (_ & _ & ONE & _). destruct (ONE (x - seg_eps) ltac:(lra)) as (i & LI & U). destruct (nth_error rs i) as [r|] eqn:A; [|apply nth_error_None in A; lia].
    assert (B := U i r A). rewrite Nat.eqb_refl in B. destruct (C x i r X N ltac:(lia) A B) as (e & He & EX). exists e. split; auto. eapply Permutation_in; eauto.
Qed.
End Track.

(** The lengths of the segments add up to the length of the track. *)
Lemma tiles_sum rs P0 P1 : forall l a b, tiles rs P0 P1 l a b -> sumR (map slength l) = b - a.
Proof. induction l as [|s l IH]; intros a b H; cbn [tiles map] in *; [subst; unfold sumR; cbn; ring|]. destruct H as (_ & _ & H). apply IH in H. unfold sumR in *. cbn [fold_right]. lra. Qed.
