(** * Proofs about region edits and coarse meshes *)
From Verif Require Import Base BaseR Loop Material_Model Mesh_Model Mesh_Spec Mesh_Proofs Csg_Proofs Region_Model Region_Spec.
Set Implicit Arguments. Unset Strict Implicit.
Open Scope nat_scope.

(** ** Loops *)
Lemma for_ext S lo hi (s : S) f g : (forall i s, lo <= i < hi -> f i s = g i s) -> for_ lo hi s f = for_ lo hi s g.
Proof.
  intros H. unfold for_. assert (G : forall l, (forall i, In i l -> lo <= i < hi) -> forall s,
    foldM (fun s i => f i s) l s = foldM (fun s i => g i s) l s).
  { induction l as [|i l IH]; intros Hl s0; cbn; auto. rewrite H by (apply Hl; cbn; auto).
    destruct (g i s0); cbn; auto. apply IH. intros; apply Hl; cbn; auto. }
  apply G. intros i Hi. apply in_seq in Hi. lia.
Qed.
Lemma for_app S a b (s : S) f : for_ 0 (a + b) s f = bind (for_ 0 a s f) (fun s => for_ 0 b s (fun i => f (a + i))).
Proof.
  induction b as [|b IH].
  - rewrite Nat.add_0_r. destruct (for_ 0 a s f); reflexivity.
  - rewrite Nat.add_succ_r, for_S by lia. rewrite IH.
    destruct (for_ 0 a s f) as [s1| |]; cbn [bind]; auto. rewrite for_S by lia. reflexivity.
Qed.
Lemma for_prod S a b (s : S) f :
  for_ 0 (a * b) s f = for_ 0 b s (fun j s => for_ 0 a s (fun i => f (i + j * a))).
Proof.
  induction b as [|b IH].
  - rewrite Nat.mul_0_r. reflexivity.
  - replace (a * Datatypes.S b) with (a * b + a) by lia. rewrite for_app, for_S by lia. rewrite IH.
    destruct (for_ 0 b s _) as [s1| |]; cbn [bind]; auto. apply for_ext. intros i s' _. f_equal. lia.
Qed.
Lemma for3_flat S nx ny nz (s : S) body :
  for3 nx ny nz s body = for_ 0 (nx * ny * nz) s (fun c =>
    body (cell_to_i nx c) (cell_to_j nx ny c) (cell_to_k nx ny c)).
Proof.
  rewrite for_prod. unfold for3. apply for_ext. intros k s1 Hk. rewrite for_prod. apply for_ext. intros j s2 Hj.
  apply for_ext. intros i s3 Hi.
  destruct (@index_inv nx ny nz i j k ltac:(lia) ltac:(lia) ltac:(lia)) as (A & B & C).
  replace (i + j * nx + k * (nx * ny)) with (index nx ny i j k) by (unfold index; lia).
  rewrite A, B, C. reflexivity.
Qed.

(** ** Accumulation by region *)
Lemma accum_ok map c x v : c < length map -> nth c map 0 < length v ->
  exists v', accum map c x v = Ok v' /\ length v' = length v /\
    forall r, nth r v' 0%R = (nth r v 0 + if nth c map 0%nat =? r then x else 0)%R.
Proof.
  intros Hc Hr. unfold accum. rewrite (@rd_ok _ map c 0) by auto. cbn [bind].
  rewrite (@rd_ok _ v _ 0%R) by auto. cbn [bind]. unfold wr. rewrite (proj2 (Nat.ltb_lt _ _) Hr).
  eexists. split; [reflexivity|]. rewrite upd_length. split; auto. intros r.
  destruct (Nat.eqb_spec (nth c map 0) r) as [<-|Ne].
  - rewrite nth_upd_eq by auto. reflexivity.
  - rewrite nth_upd_neq by auto. ring.
Qed.
Lemma region_sum_S n map r f :
  region_sum (S n) map r f = (region_sum n map r f + if nth n map 0%nat =? r then f n else 0)%R.
Proof. reflexivity. Qed.
Lemma region_sum_ext n map r f g : (forall c, c < n -> f c = g c) -> region_sum n map r f = region_sum n map r g.
Proof. intros H. apply rsum_ext. intros c Hc. rewrite H by auto. reflexivity. Qed.

Lemma max_element_ok l : 0 < length l ->
  exists m, max_element l = Ok m /\ S m = regions l /\ forall c, c < length l -> nth c l 0 < S m.
Proof.
  destruct l as [|a r]; cbn [length]; intros H; [lia|]. cbn [max_element].
  assert (E : forall r a, fold_left Nat.max r a = Nat.max a (list_max r)).
  { clear. induction r as [|b r IH]; intros a; cbn; [lia|]. rewrite IH. unfold list_max. lia. }
  exists (fold_left Nat.max r a). split; auto. split.
  - unfold regions. rewrite E. reflexivity.
  - intros c Hc. rewrite E. apply Nat.lt_succ_r.
    assert (F : nth c (a :: r) 0 <= list_max (a :: r)).
    { assert (G := proj1 (list_max_le (a :: r) (list_max (a :: r))) (Nat.le_refl _)).
      rewrite Forall_forall in G. apply G. apply nth_In. exact Hc. }
    exact F.
Qed.

(** All regions together make up the whole. *)
Lemma regions_total n map N f : (forall c, c < n -> nth c map 0 < N) ->
  rsum N (fun r => region_sum n map r f) = rsum n f.
Proof.
  intros H. unfold region_sum. rewrite rsum_swap. apply rsum_ext. intros c Hc.
  transitivity (rsum N (fun r => if nth c map 0 =? r then f c else 0%R)); auto. apply rsum_pick. auto.
Qed.

(** ** ReactionRates *)
Lemma fission_rate_ok n m mmap phi : power_ready n m mmap phi ->
  exists fr, fission_rate n m mmap phi = Ok fr /\ length fr = n /\
    forall c, c < n -> nth c fr 0%R = fission_density m mmap phi c.
Proof.
  intros (H1 & H2 & H3 & H4). unfold fission_rate.
  match goal with |- context [for_ 0 (ng m) ?s0 ?b0] =>
    destruct (@for_inv _ (fun g fr => length fr = n /\ forall c, c < n -> nth c fr 0%R =
      rsum g (fun g => nth c (nth g phi []) 0 * sf m g (nth c mmap 0%nat))%R) 0 (ng m) s0 b0) as (fr & E & L & V) end.
  - lia.
  - rewrite repeat_length. split; auto. intros c Hc. apply nth_repeat_lt. auto.
  - intros g fr Hg (L & V). rewrite (@rd_ok _ phi g []) by lia. cbn [bind]. specialize (H4 g ltac:(lia)).
    match goal with |- context [for_ 0 n ?s0 ?b0] =>
      destruct (@for_inv _ (fun i fr' => length fr' = n /\ forall c, c < n -> nth c fr' 0%R =
        rsum (if c <? i then S g else g) (fun g => nth c (nth g phi []) 0 * sf m g (nth c mmap 0%nat))%R) 0 n s0 b0)
        as (fr' & E' & L' & V') end.
    + lia.
    + split; auto.
    + intros c fr' Hc (L' & V'). rewrite (@rd_ok _ (nth g phi []) c 0%R) by lia. cbn [bind].
      rewrite (@rd_ok _ mmap c 0) by lia. cbn [bind]. rewrite (proj2 (Nat.ltb_lt _ _) (H2 c ltac:(lia))).
      rewrite (@rd_ok _ fr' c 0%R) by lia. cbn [bind]. unfold wr. rewrite L', (proj2 (Nat.ltb_lt c n)) by lia.
      eexists. split; [reflexivity|]. rewrite upd_length. split; auto. intros c' Hc'.
      destruct (Nat.eq_dec c c') as [<-|Ne].
      * rewrite nth_upd_eq by lia. rewrite V' by lia. rewrite Nat.ltb_irrefl.
        rewrite (proj2 (Nat.ltb_lt c (S c))) by lia. reflexivity.
      * rewrite nth_upd_neq by auto. rewrite V' by auto.
        destruct (Nat.ltb_spec c' c), (Nat.ltb_spec c' (S c)); auto; lia.
    + exists fr'. split; auto. split; auto. intros c Hc. rewrite V' by auto. rewrite (proj2 (Nat.ltb_lt c n)) by lia. auto.
  - exists fr. auto.
Qed.

Lemma ax_volume_ok a c : axes_ok a -> c < ax_cells a ->
  ax_volume a (cell_to_i (ax_nx a) c) (cell_to_j (ax_nx a) (ax_ny a) c) (cell_to_k (ax_nx a) (ax_ny a) c) =
  Ok (cell_volume a c) /\
  index (ax_nx a) (ax_ny a) (cell_to_i (ax_nx a) c) (cell_to_j (ax_nx a) (ax_ny a) c) (cell_to_k (ax_nx a) (ax_ny a) c) = c.
Proof.
  intros (A1 & A2 & A3) Hc. destruct (@index_total _ _ _ c Hc) as (B1 & B2 & B3 & B4). split; auto.
  unfold ax_volume. rewrite (@rd_ok _ (ax_dx a) _ 0%R), (@rd_ok _ (ax_dy a) _ 0%R), (@rd_ok _ (ax_dz a) _ 0%R) by lia.
  reflexivity.
Qed.

Lemma region_power_ok a m mmap phi map scale :
  axes_ok a -> covers map (ax_cells a) -> power_ready (ax_cells a) m mmap phi ->
  let rate c := (cell_volume a c * fission_density m mmap phi c)%R in
  let total := rsum (ax_cells a) rate in
  (0 < scale -> total <> 0)%R ->
  exists p, region_power a m mmap phi map scale = Ok p /\ length p = regions map /\
    ((0 < scale)%R -> sumR p = scale /\
       forall r, r < regions map -> (nth r p 0 * total = scale * region_sum (ax_cells a) map r rate)%R) /\
    (~ (0 < scale)%R -> forall r, r < regions map -> nth r p 0%R = region_sum (ax_cells a) map r rate).
Proof.
  intros A (C1 & C2) P rate total HT. set (n := ax_cells a) in *. unfold region_power. fold n.
  destruct (fission_rate_ok P) as (fr & E & Lf & Vf). rewrite E. cbn [bind].
  destruct (@max_element_ok map ltac:(lia)) as (mx & Em & RM & HM). rewrite Em. cbn [bind]. rewrite C1 in HM.
  rewrite for3_flat. fold (ax_cells a). fold n.
  match goal with |- context [for_ 0 n ?s0 ?b0] =>
    destruct (@for_inv _ (fun i (s : list R * R) => length (fst s) = 1 + mx /\
       (forall r, r < 1 + mx -> nth r (fst s) 0%R = region_sum i map r rate) /\ snd s = rsum i rate) 0 n s0 b0)
      as ([p t] & E1 & L1 & V1 & T1) end.
  - lia.
  - cbn [fst snd]. rewrite repeat_length. split; auto. split; auto. intros r Hr. rewrite nth_repeat_lt by auto. reflexivity.
  - intros c [p t] Hc (L1 & V1 & T1). cbn [fst snd] in *.
    destruct (@ax_volume_ok a c A ltac:(fold n; lia)) as (Ev & Ei). rewrite Ev, Ei. cbn [bind].
    rewrite (@rd_ok _ fr c 0%R) by lia. cbn [bind].
    destruct (@accum_ok map c (cell_volume a c * nth c fr 0)%R p) as (p' & E' & L' & V'); [lia|rewrite L1; apply HM; lia|].
    rewrite E'. cbn [bind]. eexists. split; [reflexivity|]. cbn [fst snd]. split; [lia|]. split.
    + intros r Hr. rewrite V', V1 by auto. rewrite Vf by lia. rewrite region_sum_S. reflexivity.
    + rewrite T1, Vf by lia. reflexivity.
  - rewrite E1. cbn [bind fst snd] in *. rewrite <- RM. destruct (Rlt_dec 0 scale) as [HS|HS].
    + match goal with |- context [for_ 0 ?N ?s0 ?b0] =>
        destruct (@for_inv _ (fun i q => length q = 1 + mx /\ forall r, r < 1 + mx ->
          nth r q 0%R = (nth r p 0 * if r <? i then scale / t else 1)%R) 0 (1 + mx) s0 b0) as (q & E2 & L2 & V2) end.
      * lia.
      * split; auto. intros r Hr. replace (r <? 0) with false by (symmetry; apply Nat.ltb_ge; lia). ring.
      * intros i q Hi (L2 & V2). rewrite (@rd_ok _ q i 0%R) by lia. cbn [bind]. unfold wr.
        rewrite L2, (proj2 (Nat.ltb_lt i _)) by lia. eexists. split; [reflexivity|]. rewrite upd_length.
        split; auto. intros r Hr. destruct (Nat.eq_dec i r) as [<-|Ne].
        -- rewrite nth_upd_eq by lia. rewrite V2 by auto. rewrite Nat.ltb_irrefl, (proj2 (Nat.ltb_lt i (S i))) by lia. ring.
        -- rewrite nth_upd_neq by auto. rewrite V2 by auto. destruct (Nat.ltb_spec r i), (Nat.ltb_spec r (S i)); auto; lia.
      * exists q. split; [exact E2|]. split; [exact L2|]. split; [|intros; contradiction]. intros _.
        specialize (HT HS). rewrite T1 in V2. fold total in V2.
        assert (V3 : forall r, r < 1 + mx -> nth r q 0%R = (scale / total * region_sum n map r rate)%R).
        { intros r Hr. rewrite V2 by auto. rewrite (proj2 (Nat.ltb_lt r _)) by lia. rewrite V1 by auto. ring. }
        split.
        -- rewrite sumR_nth, L2. rewrite (@rsum_ext _ _ (fun r => scale / total * region_sum n map r rate)%R) by auto.
           rewrite rsum_scal, regions_total by exact HM. fold total. field. auto.
        -- intros r Hr. rewrite V3 by auto. field. auto.
    + exists p. split; auto. split; auto. split; [tauto|]. intros _ r Hr. apply V1. auto.
Qed.

Lemma edit_sums a map f : axes_ok a -> covers map (ax_cells a) -> ax_cells a <= length f ->
  exists mx e w, max_element map = Ok mx /\ S mx = regions map /\
    (forall c, c < ax_cells a -> nth c map 0 < S mx) /\
    length e = S mx /\ length w = S mx /\
    (forall r, r < S mx -> nth r e 0%R = region_sum (ax_cells a) map r (fun c => cell_volume a c * nth c f 0)%R) /\
    (forall r, r < S mx -> nth r w 0%R = region_sum (ax_cells a) map r (cell_volume a)) /\
    edit a map f false = Ok e /\
    edit a map f true = for_ 0 (S mx) e (fun cell e =>
      do g <- rd map cell; do y <- rd e g; do v <- rd w g; wr e g (y / v)%R).
Proof.
  intros A (C1 & C2) Hf. set (n := ax_cells a) in *.
  destruct (@max_element_ok map ltac:(lia)) as (mx & Em & RM & HM). rewrite C1 in HM.
  unfold edit. rewrite Em. cbn [bind]. rewrite !for3_flat. fold (ax_cells a). fold n.
  match goal with |- context [for_ 0 n ?s0 ?b0] =>
    destruct (@for_inv _ (fun i (s : list R * list R) => length (fst s) = 1 + mx /\ length (snd s) = 1 + mx /\
       (forall r, r < 1 + mx -> nth r (fst s) 0%R = region_sum i map r (fun c => cell_volume a c * nth c f 0)%R) /\
       (forall r, r < 1 + mx -> nth r (snd s) 0%R = region_sum i map r (cell_volume a))) 0 n s0 b0)
      as ([e w] & E1 & L1 & L2 & V1 & V2) end.
  - lia.
  - cbn [fst snd]. rewrite repeat_length. repeat split; auto; intros r Hr; rewrite nth_repeat_lt by auto; reflexivity.
  - intros c [p t] Hc (L1 & L2 & V1 & V2). cbn [fst snd] in *.
    destruct (@ax_volume_ok a c A ltac:(fold n; lia)) as (Ev & Ei). rewrite Ev, Ei. cbn [bind].
    rewrite (@rd_ok _ f c 0%R) by lia. cbn [bind].
    destruct (@accum_ok map c (cell_volume a c * nth c f 0)%R p) as (p' & E' & L' & V'); [lia|rewrite L1; apply HM; lia|].
    rewrite E'. cbn [bind].
    destruct (@accum_ok map c (cell_volume a c) t) as (t' & E'' & L'' & V''); [lia|rewrite L2; apply HM; lia|].
    rewrite E''. cbn [bind]. eexists. split; [reflexivity|]. cbn [fst snd]. split; [lia|]. split; [lia|]. split.
    + intros r Hr. rewrite V', V1 by auto. rewrite region_sum_S. reflexivity.
    + intros r Hr. rewrite V'', V2 by auto. rewrite region_sum_S. reflexivity.
  - rewrite E1. cbn [bind fst snd] in *. exists mx, e, w.
    split; [reflexivity|]. split; [exact RM|]. split; [exact HM|]. split; [exact L1|]. split; [exact L2|].
    split; [exact V1|]. split; [exact V2|]. split; reflexivity.
Qed.

Lemma edit_sum a map f : axes_ok a -> covers map (ax_cells a) -> ax_cells a <= length f ->
  exists e, edit a map f false = Ok e /\ length e = regions map /\
    forall r, r < regions map ->
      nth r e 0%R = region_sum (ax_cells a) map r (fun c => cell_volume a c * nth c f 0)%R.
Proof.
  intros A C Hf. destruct (edit_sums A C Hf) as (mx & e & w & Em & RM & HM & L1 & L2 & V1 & V2 & E & _).
  exists e. rewrite <- RM. auto.
Qed.

(** The mean is right when the first cells meet the regions once each. *)
Lemma edit_mean a map f : axes_ok a -> covers map (ax_cells a) -> ax_cells a <= length f ->
  regions map <= ax_cells a ->
  (forall r, r < regions map -> exists c, c < regions map /\ nth c map 0 = r) ->
  exists e, edit a map f true = Ok e /\ length e = regions map /\
    forall r, r < regions map ->
      nth r e 0%R = (region_sum (ax_cells a) map r (fun c => cell_volume a c * nth c f 0) /
                     region_sum (ax_cells a) map r (cell_volume a))%R.
Proof.
  intros A C Hf HN HS. destruct (edit_sums A C Hf) as (mx & e & w & Em & RM & HM & L1 & L2 & V1 & V2 & _ & E).
  rewrite E. rewrite <- RM in *. clear E Em RM. destruct C as (C1 & C2).
  assert (HL : incl (seq 0 (S mx)) (List.map (fun c => nth c map 0) (seq 0 (S mx)))).
  { intros r Hr. apply in_seq in Hr. destruct (HS r ltac:(lia)) as (c & Hc & Ec). rewrite <- Ec.
    apply in_map_iff. exists c. split; auto. apply in_seq. lia. }
  assert (ND : NoDup (List.map (fun c => nth c map 0) (seq 0 (S mx)))).
  { apply NoDup_incl_NoDup with (l := seq 0 (S mx)); auto; [apply seq_NoDup|]. rewrite map_length. lia. }
  assert (Inj : forall i j, i < S mx -> j < S mx -> nth i map 0 = nth j map 0 -> i = j).
  { intros i j Hi Hj Eij.
    apply (proj1 (NoDup_nth _ 0) ND); rewrite ?map_length, ?seq_length; auto.
    rewrite !nth_map_seq by auto. auto. }
  assert (NI : forall i j, i < S mx -> j < S mx -> i <> j -> nth i map 0 <> nth j map 0) by (intros i j Hi Hj D Q; apply D; auto).
  match goal with |- context [for_ 0 ?N ?s0 ?b0] =>
    destruct (@for_inv _ (fun i q => length q = S mx /\ forall c, c < S mx ->
      nth (nth c map 0) q 0%R = if c <? i then (nth (nth c map 0%nat) e 0 / nth (nth c map 0%nat) w 0)%R
                                else nth (nth c map 0) e 0%R) 0 N s0 b0) as (q & E2 & L3 & V3) end.
  - lia.
  - split; auto.
  - intros i q Hi (L3 & V3). assert (HMi : nth i map 0 < S mx) by (apply HM; lia).
    rewrite (@rd_ok _ map i 0) by lia. cbn [bind]. rewrite (@rd_ok _ q _ 0%R), (@rd_ok _ w _ 0%R) by lia. cbn [bind].
    unfold wr. rewrite L3, (proj2 (Nat.ltb_lt _ _) HMi). eexists. split; [reflexivity|]. rewrite upd_length.
    split; auto. intros c Hc. destruct (Nat.eq_dec i c) as [<-|Ne].
    + rewrite nth_upd_eq by lia. rewrite V3 by auto. rewrite Nat.ltb_irrefl, (proj2 (Nat.ltb_lt i (S i))) by lia. auto.
    + rewrite nth_upd_neq by (apply NI; auto; lia). rewrite V3 by auto.
      destruct (Nat.ltb_spec c i), (Nat.ltb_spec c (S i)); auto; lia.
  - exists q. split; auto. split; auto. intros r Hr. destruct (HS r Hr) as (c & Hc & <-).
    rewrite V3 by auto. rewrite (proj2 (Nat.ltb_lt c _)) by lia. rewrite V1, V2 by auto. reflexivity.
Qed.

(** Two cells of one region first: the first region is divided twice, the
    second never. *)
Definition mean_axes : axes := {| ax_nx := 3; ax_ny := 1; ax_nz := 1; ax_dx := [1; 1; 1]%R; ax_dy := [1]%R; ax_dz := [2]%R |}.
Lemma edit_mean_wrong :
  axes_ok mean_axes /\ covers [0; 0; 1] (ax_cells mean_axes) /\
  exists e, edit mean_axes [0; 0; 1] [1; 1; 1]%R true = Ok e /\
    (nth 0 e 0 = / 4)%R /\ (nth 1 e 0 = 2)%R /\
    (region_sum 3 [0; 0; 1]%nat 0 (fun c => cell_volume mean_axes c * nth c [1; 1; 1] 0) /
     region_sum 3 [0; 0; 1]%nat 0 (cell_volume mean_axes) = 1)%R.
Proof.
  split; [repeat split|]. split; [split; cbn; auto; lia|]. eexists. split; [reflexivity|].
  unfold region_sum, cell_volume. cbn. repeat split; try lra; field.
Qed.

(** ** CoarseMesh *)
Lemma list_sum_upd l i x : i < length l -> list_sum (upd l i x) + nth i l 0 = list_sum l + x.
Proof.
  revert i. induction l as [|a l IH]; intros [|i] H; cbn in *; try lia.
  specialize (IH i ltac:(lia)). unfold list_sum in *. lia.
Qed.
Lemma list_sum_repeat a n : list_sum (repeat a n) = n * a.
Proof. induction n as [|n IH]; cbn; auto. Qed.
Lemma div_sub_mod n level : 0 < level -> (n - n mod level) / level = n / level.
Proof.
  intros H. pose proof (Nat.div_mod_eq n level) as E.
  replace (n - n mod level) with (n / level * level) by lia. apply Nat.div_mul. lia.
Qed.

Lemma coarse_counts_ok n level : level_ok n level ->
  exists cnt, coarse_counts n level = Ok cnt /\ length cnt = n / level /\ partition cnt n /\
    (forall k, In k cnt -> level <= k).
Proof.
  intros (H0 & H1). unfold coarse_counts. replace (level =? 0) with false by (symmetry; apply Nat.eqb_neq; lia).
  rewrite div_sub_mod by auto. set (nc := n / level) in *. set (r := n mod level) in *.
  assert (EN : n = level * nc + r) by apply Nat.div_mod_eq.
  cbv zeta. destruct (Nat.eqb_spec nc 1) as [E1|N1].
  - rewrite E1 in *. cbn [repeat]. cbn. eexists. split; [reflexivity|]. split; [reflexivity|].
    assert (forall k, In k [level + r] -> level <= k) by (intros k [<-|[]]; lia).
    split; auto. split; [cbn; lia|]. intros k Hk. specialize (H k Hk). lia.
  - destruct H1 as [H1|H1]; [contradiction|].
    match goal with |- context [for_ 0 r ?s0 ?b0] =>
      destruct (@for_inv _ (fun i v => length v = nc /\ list_sum v = nc * level + i /\
        (forall k, k < nc -> nth k v 0 = if k <? i then S level else level)) 0 r s0 b0) as (v & E & L & S1 & V) end.
    + lia.
    + rewrite repeat_length, list_sum_repeat. split; auto. split; [lia|]. intros k Hk. apply nth_repeat_lt. auto.
    + intros i v Hi (L & S1 & V). rewrite (@rd_ok _ v i 0) by lia. cbn [bind]. unfold wr.
      rewrite L, (proj2 (Nat.ltb_lt i nc)) by lia. eexists. split; [reflexivity|]. rewrite upd_length. split; auto.
      pose proof (@list_sum_upd v i (nth i v 0 + 1) ltac:(lia)). split; [lia|]. intros k Hk.
      destruct (Nat.eq_dec i k) as [<-|Ne].
      * rewrite nth_upd_eq by lia. rewrite V by auto. rewrite Nat.ltb_irrefl, (proj2 (Nat.ltb_lt i (S i))) by lia. lia.
      * rewrite nth_upd_neq by auto. rewrite V by auto. destruct (Nat.ltb_spec k i), (Nat.ltb_spec k (S i)); auto; lia.
    + exists v. split; auto. split; auto.
      assert (HK : forall k, In k v -> level <= k).
      { intros k Hk. apply (In_nth v k 0) in Hk. destruct Hk as (i & Hi & <-). rewrite V by lia. destruct (i <? r); lia. }
      split; auto. split; [lia|]. intros k Hk. specialize (HK k Hk). lia.
Qed.

(** Otherwise the constructor writes past the end of a vector. *)
Lemma coarse_counts_ub n level : ~ level_ok n level -> coarse_counts n level = UB.
Proof.
  intros H. unfold coarse_counts. destruct (Nat.eqb_spec level 0) as [->|N0]; auto.
  rewrite div_sub_mod by lia. cbv zeta. set (nc := n / level). set (r := n mod level).
  assert (HN : nc <> 1 /\ nc < r).
  { split; [intros E; apply H; split; [lia|left; exact E]|].
    destruct (le_lt_dec r nc) as [L|L]; auto. exfalso. apply H. split; [lia|right; exact L]. }
  destruct HN as (N1 & HR). replace (nc =? 1) with false by (symmetry; apply Nat.eqb_neq; auto).
  replace r with (nc + (r - nc)) by lia. rewrite for_app.
  match goal with |- context [for_ 0 nc ?s0 ?b0] =>
    destruct (@for_inv _ (fun i v => length v = nc) 0 nc s0 b0) as (v & E & L) end.
  - lia.
  - apply repeat_length.
  - intros i v Hi L. rewrite (@rd_ok _ v i 0) by lia. cbn [bind]. unfold wr. rewrite L, (proj2 (Nat.ltb_lt i nc)) by lia.
    eexists. split; [reflexivity|]. rewrite upd_length. auto.
  - rewrite E. cbn [bind]. replace (r - nc) with (S (r - nc - 1)) by lia.
    unfold for_. rewrite Nat.sub_0_r. cbn [seq foldM]. unfold rd at 1.
    replace (nth_error v (nc + 0)) with (@None nat); [reflexivity|]. symmetry. apply nth_error_None. lia.
Qed.

Lemma left_edge_step w f : left_edge w (S f) = (left_edge w f + nth f w 0)%R.
Proof. reflexivity. Qed.

Lemma coarsen_ok w level : level_ok (length w) level ->
  exists x, coarsen w level = Ok x /\ coarse_ok w x /\ length (c_count x) = length w / level /\
    (forall k, In k (c_count x) -> level <= k).
Proof.
  intros HL. destruct (coarse_counts_ok HL) as (cnt & Ec & Lc & (Sc & Pc) & Mc).
  unfold coarsen. set (n := length w) in *. rewrite Ec. cbn [bind]. set (nc := length cnt) in *. cbv zeta.
  unfold wr at 1. rewrite repeat_length, (proj2 (Nat.ltb_lt 0 (n + 1))) by lia. cbn [bind].
  assert (PB : forall C, C <= nc -> psum cnt C <= n).
  { intros C HC. rewrite <- Sc, <- psum_all. apply psum_mono. auto. }
  assert (PI : forall C D, C <= nc -> D <= nc -> psum cnt C = psum cnt D -> C = D).
  { assert (G : forall C D, C < D -> D <= nc -> psum cnt C < psum cnt D).
    { intros C D HCD HD. assert (psum cnt (S C) <= psum cnt D) by (apply psum_mono; lia).
      rewrite psum_S in H. assert (0 < nth C cnt 0) by (apply Pc, nth_In; fold nc; lia). lia. }
    intros C D HC HD E. destruct (lt_eq_lt_dec C D) as [[L|L]|L]; auto; apply G in L; lia. }
  match goal with |- context [for_ 0 nc ?s0 ?b0] =>
    destruct (@for_inv _ (fun c (s : list R * list nat * list Z * nat) => let '(edges, f2c, fl, fs) := s in
       fs = psum cnt c /\ length edges = nc + 1 /\ length f2c = n /\ length fl = n + 1 /\
       (forall C, C <= c -> nth C edges 0%R = left_edge w (psum cnt C)) /\
       (forall C f, C < c -> psum cnt C <= f < psum cnt (S C) -> nth f f2c 0 = C) /\
       (forall C, C <= c -> nth (psum cnt C) fl 0%Z = Z.of_nat C) /\
       (forall f, f <= n -> (forall C, C <= c -> f <> psum cnt C) -> nth f fl 0%Z = (-1)%Z)) 0 nc s0 b0)
      as ([[[edges f2c] fl] fs] & E & I1 & I2 & I3 & I4 & I5 & I6 & I7 & I8) end.
  - lia.
  - rewrite psum_0, upd_length, !repeat_length. repeat split; auto.
    + intros C HC. replace C with 0 by lia. rewrite psum_0. apply nth_repeat_lt. lia.
    + intros; lia.
    + intros C HC. replace C with 0 by lia. rewrite psum_0. rewrite nth_upd_eq by (rewrite repeat_length; lia). reflexivity.
    + intros f Hf Hn. rewrite nth_upd_neq; [apply nth_repeat_lt; lia|]. intros <-. apply (Hn 0); auto.
  - intros c [[[edges f2c] fl] fs] Hc (I1 & I2 & I3 & I4 & I5 & I6 & I7 & I8). subst fs.
    rewrite (@rd_ok _ edges c 0%R) by lia. cbn [bind]. rewrite (@rd_ok _ cnt c 0) by (fold nc; lia). cbn [bind].
    pose proof (psum_S cnt c) as PS. set (k := nth c cnt 0) in *.
    assert (HB : psum cnt (S c) <= n) by (apply PB; lia).
    assert (Hk : 0 < k) by (apply Pc, nth_In; fold nc; lia).
    match goal with |- context [for_ (psum cnt c) (psum cnt c + k) ?s0 ?b0] =>
      destruct (@for_inv _ (fun f (s : R * list nat) => fst s = left_edge w f /\ length (snd s) = n /\
        (forall g, g < psum cnt c -> nth g (snd s) 0 = nth g f2c 0) /\
        (forall g, psum cnt c <= g < f -> nth g (snd s) 0 = c)) (psum cnt c) (psum cnt c + k) s0 b0)
        as ([e m] & E' & J1 & J2 & J3 & J4) end.
    + lia.
    + cbn [fst snd]. split; [apply I5; auto|]. split; auto. split; auto. intros; lia.
    + intros f [e m] Hf (J1 & J2 & J3 & J4). cbn [fst snd] in *. rewrite (@rd_ok _ w f 0%R) by (fold n; lia). cbn [bind].
      unfold wr. rewrite J2, (proj2 (Nat.ltb_lt f n)) by lia. cbn [bind]. eexists. split; [reflexivity|]. cbn [fst snd].
      rewrite upd_length. split; [rewrite J1; apply left_edge_step|]. split; auto. split.
      * intros g Hg. rewrite nth_upd_neq by lia. auto.
      * intros g Hg. destruct (Nat.eq_dec f g) as [<-|Ne]; [apply nth_upd_eq; lia|].
        rewrite nth_upd_neq by auto. apply J4. lia.
    + rewrite E'. cbn [bind fst snd] in *. unfold wr at 1. rewrite I2, (proj2 (Nat.ltb_lt (c + 1) (nc + 1))) by lia. cbn [bind].
      unfold wr. rewrite I4, (proj2 (Nat.ltb_lt (psum cnt c + k) (n + 1))) by lia. cbn [bind].
      eexists. split; [reflexivity|]. cbv beta iota. rewrite !upd_length. split; [lia|]. split; auto. split; auto. split; auto.
      split; [|split; [|split]].
      * intros C HC. destruct (Nat.eq_dec (c + 1) C) as [<-|Ne].
        -- rewrite nth_upd_eq by lia. rewrite J1. f_equal. rewrite Nat.add_1_r. lia.
        -- rewrite nth_upd_neq by auto. apply I5. lia.
      * intros C f HC Hf. destruct (Nat.eq_dec C c) as [->|Ne].
        -- apply J4. lia.
        -- rewrite J3; [apply I6; auto; lia|]. assert (psum cnt (S C) <= psum cnt c) by (apply psum_mono; lia). lia.
      * intros C HC. destruct (Nat.eq_dec C (S c)) as [->|Ne].
        -- replace (psum cnt c + k) with (psum cnt (S c)) by lia. rewrite nth_upd_eq by lia. lia.
        -- rewrite nth_upd_neq; [apply I7; lia|]. replace (psum cnt c + k) with (psum cnt (S c)) by lia.
           intros Q. apply PI in Q; lia.
      * intros f Hf Hn. rewrite nth_upd_neq.
        -- apply I8; auto.
        -- intros Q. apply (Hn (S c)); auto. lia.
  - rewrite E. cbn [bind]. eexists. split; [reflexivity|]. cbn [c_count c_edges c_map c_flag]. split; [|split; auto].
    split; [split; auto|]. split; [auto|]. cbn [c_count c_edges c_map c_flag]. fold nc n. split; [|split; [lia|split; [auto|split; [lia|split; auto]]]].
    intros C f (HC & Hf). apply I6; auto.
Qed.

Lemma coarsen_ub w level : ~ level_ok (length w) level -> coarsen w level = UB.
Proof. intros H. unfold coarsen. rewrite coarse_counts_ub by auto. reflexivity. Qed.

Lemma map_lt w x f : coarse_ok w x -> f < length w -> nth f (c_map x) 0 < length (c_count x).
Proof.
  intros ((S1 & _) & _ & M & _) Hf. destruct (@psum_block_exists (c_count x) f ltac:(lia)) as (C & HC & HB).
  rewrite (M C f); [auto|]. split; auto.
Qed.

Lemma fine_to_coarse_ok wx wy wz cx cy cz :
  coarse_ok wx cx -> coarse_ok wy cy -> coarse_ok wz cz ->
  exists v, fine_to_coarse_map cx cy cz = Ok v /\ length v = length wx * length wy * length wz /\
    (forall i j k I J K, in_coarse (c_count cx) I i -> in_coarse (c_count cy) J j -> in_coarse (c_count cz) K k ->
       nth (index (length wx) (length wy) i j k) v 0 = index (length (c_count cx)) (length (c_count cy)) I J K) /\
    (forall c, c < length v -> nth c v 0 < length (c_count cx) * length (c_count cy) * length (c_count cz)).
Proof.
  intros HX HY HZ. unfold fine_to_coarse_map.
  pose proof (proj1 (proj2 HX)) as LX. pose proof (proj1 (proj2 HY)) as LY. pose proof (proj1 (proj2 HZ)) as LZ.
  rewrite LX, LY, LZ. set (nx := length wx) in *. set (ny := length wy) in *. set (nz := length wz) in *.
  rewrite for3_flat. cbv zeta.
  set (val := fun c => index (length (c_count cx)) (length (c_count cy)) (nth (cell_to_i nx c) (c_map cx) 0)
     (nth (cell_to_j nx ny c) (c_map cy) 0) (nth (cell_to_k nx ny c) (c_map cz) 0)).
  match goal with |- context [for_ 0 (nx * ny * nz) ?s0 ?b0] =>
    destruct (@for_inv _ (fun i v => length v = nx * ny * nz /\ forall c, c < i -> nth c v 0 = val c) 0 (nx * ny * nz) s0 b0)
      as (v & E & L & V) end.
  - lia.
  - rewrite repeat_length. split; auto. intros; lia.
  - intros c v Hc (L & V). destruct (@index_total nx ny nz c ltac:(lia)) as (B1 & B2 & B3 & B4).
    rewrite (@rd_ok _ (c_map cz) _ 0), (@rd_ok _ (c_map cy) _ 0), (@rd_ok _ (c_map cx) _ 0) by lia. cbn [bind].
    rewrite B4. unfold wr. rewrite L, (proj2 (Nat.ltb_lt c _)) by lia. eexists. split; [reflexivity|].
    rewrite upd_length. split; auto. intros c' Hc'. destruct (Nat.eq_dec c c') as [<-|Ne].
    + apply nth_upd_eq. lia.
    + rewrite nth_upd_neq by auto. apply V. lia.
  - exists v. split; auto. split; auto. split.
    + intros i j k I J K HI HJ HK.
      assert (bi : forall w x C f, coarse_ok w x -> in_coarse (c_count x) C f -> f < length w).
      { intros w x C f ((S1 & _) & _) (HC & Hf).
        assert (psum (c_count x) (S C) <= psum (c_count x) (length (c_count x))) by (apply psum_mono; lia).
        rewrite psum_all in H. lia. }
      assert (Hi : i < nx) by (eapply bi; eauto). assert (Hj : j < ny) by (eapply bi; eauto).
      assert (Hk : k < nz) by (eapply bi; eauto).
      rewrite V by (apply index_lt; auto). unfold val.
      destruct (@index_inv nx ny nz i j k Hi Hj Hk) as (A & B & C). rewrite A, B, C.
      destruct HX as (_ & _ & MX & _). destruct HY as (_ & _ & MY & _). destruct HZ as (_ & _ & MZ & _).
      rewrite (MX _ _ HI), (MY _ _ HJ), (MZ _ _ HK). reflexivity.
    + intros c Hc. rewrite L in Hc. rewrite V by lia. unfold val.
      destruct (@index_total nx ny nz c Hc) as (B1 & B2 & B3 & B4).
      apply index_lt; eapply map_lt; eauto.
Qed.

Lemma coarse_ub_example : coarsen (repeat 1%R 11) 4 = UB /\ coarsen (repeat 1%R 2) 3 = UB.
Proof. split; reflexivity. Qed.

(** Total width is kept. *)
Lemma coarse_width w x : coarse_ok w x ->
  nth (length (c_count x)) (c_edges x) 0%R = left_edge w (length w) /\ nth 0 (c_edges x) 0%R = 0%R.
Proof.
  intros ((S1 & _) & _ & _ & _ & E & _). split.
  - rewrite E by lia. rewrite psum_all, S1. reflexivity.
  - rewrite E by lia. rewrite psum_0. reflexivity.
Qed.
