From Verif Require Import Base BaseR Loop Mesh_Model Mesh_Spec.
Set Implicit Arguments. Unset Strict Implicit.
Open Scope nat_scope.

(** ** C13 *)

Lemma index_lt nx ny nz i j k : i < nx -> j < ny -> k < nz -> index nx ny i j k < nx * ny * nz.
Proof.
  intros. unfold index.
  assert (i + j * nx < nx * ny) by (apply idx2_lt; auto).
  replace (i + j * nx + k * nx * ny) with ((i + j * nx) + k * (nx * ny)) by ring.
  apply idx2_lt; auto.
Qed.

Lemma index_inv nx ny nz i j k : i < nx -> j < ny -> k < nz ->
  cell_to_i nx (index nx ny i j k) = i /\
  cell_to_j nx ny (index nx ny i j k) = j /\
  cell_to_k nx ny (index nx ny i j k) = k.
Proof.
  intros Hi Hj Hk. unfold index, cell_to_i, cell_to_j, cell_to_k.
  assert (L : i + j * nx < nx * ny) by (apply idx2_lt; auto).
  replace (i + j * nx + k * nx * ny) with ((i + j * nx) + k * (nx * ny)) by ring.
  destruct (@idx2 (i + j * nx) k (nx * ny) L) as [A B]. rewrite A, B.
  destruct (@idx2 i j nx Hi) as [C D]. rewrite D. split; auto.
  replace (i + j * nx + k * (nx * ny)) with (i + (j + k * ny) * nx) by ring.
  apply (@idx2 i (j + k * ny) nx Hi).
Qed.


Lemma mod_mul_mod a b c : b <> 0 -> c <> 0 -> (a mod (b * c)) mod b = a mod b.
Proof.
  intros Hb Hc. rewrite Nat.mod_mul_r by auto.
  rewrite (Nat.mul_comm b), Nat.mod_add by auto. apply Nat.mod_mod. auto.
Qed.

Lemma index_total nx ny nz c : c < nx * ny * nz ->
  cell_to_i nx c < nx /\ cell_to_j nx ny c < ny /\ cell_to_k nx ny c < nz /\
  index nx ny (cell_to_i nx c) (cell_to_j nx ny c) (cell_to_k nx ny c) = c.
Proof.
  intros H. assert (nx <> 0 /\ ny <> 0) as [Hx Hy] by (split; intros ->; lia).
  unfold index, cell_to_i, cell_to_j, cell_to_k.
  assert (P : nx * ny <> 0) by nia.
  assert (E1 := Nat.div_mod c (nx * ny) P).
  assert (L1 := Nat.mod_upper_bound c (nx * ny) P).
  assert (E2 := Nat.div_mod (c mod (nx * ny)) nx Hx).
  rewrite (mod_mul_mod c Hx Hy) in E2.
  assert (L2 := Nat.mod_upper_bound c nx Hx).
  split; auto. split.
  { apply Nat.div_lt_upper_bound; auto. }
  split.
  { apply Nat.div_lt_upper_bound; auto. }
  set (q := c / (nx * ny)) in *. set (r := c mod (nx * ny)) in *.
  set (q2 := r / nx) in *. set (r2 := c mod nx) in *. nia.
Qed.

Lemma mesh_index_bijection nx ny nz :
  (forall i j k, i < nx -> j < ny -> k < nz ->
     index nx ny i j k < nx * ny * nz /\
     cell_to_i nx (index nx ny i j k) = i /\
     cell_to_j nx ny (index nx ny i j k) = j /\
     cell_to_k nx ny (index nx ny i j k) = k) /\
  (forall c, c < nx * ny * nz ->
     cell_to_i nx c < nx /\ cell_to_j nx ny c < ny /\ cell_to_k nx ny c < nz /\
     index nx ny (cell_to_i nx c) (cell_to_j nx ny c) (cell_to_k nx ny c) = c) /\
  (forall i j k i' j' k', i < nx -> j < ny -> k < nz -> i' < nx -> j' < ny -> k' < nz ->
     index nx ny i j k = index nx ny i' j' k' -> i = i' /\ j = j' /\ k = k').
Proof.
  split; [|split].
  - intros i j k Hi Hj Hk. split; [apply index_lt; auto|]. apply index_inv with (nz := nz); auto.
  - intros c H. apply index_total. auto.
  - intros i j k i' j' k' Hi Hj Hk Hi' Hj' Hk' E.
    destruct (index_inv Hi Hj Hk) as (A & B & C).
    destruct (index_inv Hi' Hj' Hk') as (A' & B' & C').
    rewrite E in *. split; [congruence|]. split; congruence.
Qed.

(** ** C14 *)

Lemma widths_spec fm cme : (forall f, In f fm -> 0 < f) -> length cme = length fm + 1 ->
  exists w, widths fm cme = Ok w /\ length w = list_sum fm /\
    forall I x, in_coarse fm I x ->
      nth x w 0%R = ((nth (S I) cme 0 - nth I cme 0) / INR (nth I fm 0%nat))%R.
Proof.
  intros Hp HL. unfold widths.
  set (F := fun x v => forall I, in_coarse fm I x ->
     v = ((nth (S I) cme 0 - nth I cme 0) / INR (nth I fm 0%nat))%R).
  set (body := fun (i : nat) (s : list R * nat) => _).
  destruct (@for_holds_st R nat (list_sum fm) F (fun i c => psum fm i <= c < psum fm (S i)) (psum fm)
              (fun _ => False) 0 (length fm) (repeat 0%R (list_sum fm)) body) as (w & E & L & H).
  - lia.
  - intros i D a Hi Ha. unfold body. cbn [fst snd].
    rewrite (rd_ok _ 0 (proj2 Hi)). cbn [bind].
    destruct (@for_holds R (list_sum fm) F (fun x c => c = x) D (psum fm i) (psum fm i + nth i fm 0) a
                (fun ii d => do e1 <- rd cme (i + 1); do e0 <- rd cme i;
                             wr d ii ((e1 - e0) / INR (nth i fm 0%nat))%R)) as (a' & Ea & Ha'); auto; [lia| |].
    + intros x D' a0 Hx Hh. rewrite (rd0 (l := cme) (n := i + 1)), (rd0 (l := cme) (n := i)) by lia.
      cbn [bind]. apply holds_wr; auto.
      * assert (psum fm (S i) <= list_sum fm) by (rewrite <- psum_all; apply psum_mono; lia).
        rewrite psum_S in H. lia.
      * intros I [HI Hb]. assert (I = i).
        { apply (@psum_block_unique fm I i x); auto. rewrite psum_S. lia. }
        subst I. replace (i + 1) with (S i) by lia. auto.
    + rewrite Ea. cbn [bind]. exists a'. replace (i + 1) with (S i) by lia. split; auto.
      eapply holds_weaken; [exact Ha'|]. intros c Hc [HD|HI]; auto. right. exists c.
      rewrite psum_S in HI. split; auto.
  - apply holds_none. apply repeat_length.
  - rewrite psum_0 in E. rewrite E. cbn [bind fst]. exists w. split; auto. split; auto.
    intros I x [HI Hx].
    assert (psum fm (S I) <= list_sum fm) by (rewrite <- psum_all; apply psum_mono; lia).
    destruct (H x ltac:(lia)) as (v & Ev & Fv).
    { right. exists I. split; [lia|auto]. }
    rewrite (nth_error_nth _ _ _ Ev). apply Fv. split; auto.
Qed.

Open Scope R_scope.
Lemma widths_sum fm cme w : axis_ok fm cme -> widths fm cme = Ok w ->
  (forall I, (I <= length fm)%nat -> rsum (psum fm I) (fun i => nth i w 0) = nth I cme 0 - nth 0 cme 0) /\
  (forall i, (i < length w)%nat -> 0 < nth i w 0) /\ length w = list_sum fm.
Proof.
  intros (Hne & Hp & HL & Hinc) E.
  destruct (@widths_spec fm cme Hp HL) as (w' & E' & L & H). rewrite E in E'. inversion E'; subst w'.
  split; [|split; auto].
  - induction I as [|I IH]; intros HI; [rewrite psum_0; simpl; ring|].
    rewrite psum_S, rsum_split, IH by lia.
    set (wI := (nth (S I) cme 0 - nth I cme 0) / INR (nth I fm 0%nat)).
    rewrite (@rsum_ext _ _ (fun _ => wI)).
    + rewrite rsum_const. unfold wI. 
      assert (0 < nth I fm 0)%nat by (apply Hp; apply nth_In; lia).
      assert (INR (nth I fm 0%nat) <> 0) by (apply not_0_INR; lia). field. auto.
    + intros i Hi. apply H. split; [lia|]. rewrite psum_S. lia.
  - intros i Hi. rewrite L in Hi. destruct (psum_block_exists Hi) as (I & HI & Hb).
    rewrite (H I i) by (split; auto).
    assert (0 < nth I fm 0)%nat by (apply Hp; apply nth_In; lia).
    apply Rdiv_lt_0_compat; [specialize (Hinc I HI); lra|]. apply lt_0_INR. lia.
Qed.

Lemma widths_total fm cme : axis_ok fm cme ->
  exists w t, widths fm cme = Ok w /\ total cme = Ok t /\ length w = list_sum fm /\
    t = nth (length fm) cme 0 - nth 0 cme 0 /\
    rsum (list_sum fm) (fun i => nth i w 0) = t /\
    (forall i, (i < list_sum fm)%nat -> 0 < nth i w 0) /\
    forall I x, in_coarse fm I x ->
      nth x w 0 = (nth (S I) cme 0 - nth I cme 0) / INR (nth I fm 0%nat).
Proof.
  intros A. assert (A' := A). destruct A' as (Hne & Hp & HL & Hinc).
  destruct (@widths_spec fm cme Hp HL) as (w & E & L & H).
  destruct (@widths_sum fm cme w A E) as (S1 & S2 & _).
  exists w, (nth (length fm) cme 0 - nth 0 cme 0). split; auto. split.
  - unfold total. rewrite (rd0 (l := cme) (n := length cme - 1)), (rd0 (l := cme) (n := 0)) by lia. cbn [bind].
    replace (length cme - 1)%nat with (length fm) by lia. auto.
  - split; auto. split; auto. split; [rewrite <- (psum_all fm); apply S1; lia|].
    split; auto. intros i Hi. apply S2. lia.
Qed.

Lemma rsum_prod2 a b f : rsum (a * b) f = rsum b (fun j => rsum a (fun i => f (i + j * a)%nat)).
Proof.
  induction b as [|b IH]; [rewrite Nat.mul_0_r; auto|].
  replace (a * S b)%nat with (a * b + a)%nat by lia. rewrite rsum_split, IH. simpl. f_equal.
  apply rsum_ext. intros i Hi. f_equal. lia.
Qed.

Lemma volume_sum nx ny nz (u v w : nat -> R) :
  rsum (nx * ny * nz) (fun c => u (cell_to_i nx c) * v (cell_to_j nx ny c) * w (cell_to_k nx ny c)) =
  rsum nx u * rsum ny v * rsum nz w.
Proof.
  rewrite rsum_prod2.
  rewrite (@rsum_ext nz _ (fun k => rsum nx u * rsum ny v * w k)); [rewrite rsum_scal; ring|].
  intros k Hk. rewrite rsum_prod2.
  rewrite (@rsum_ext ny _ (fun j => rsum nx u * v j * w k)).
  - rewrite rsum_scal_r, rsum_scal. ring.
  - intros j Hj. rewrite (@rsum_ext nx _ (fun i => u i * (v j * w k))); [rewrite rsum_scal_r; ring|].
    intros i Hi. destruct (@index_inv nx ny nz i j k Hi Hj Hk) as (A & B & C).
    unfold index in *. replace (i + j * nx + k * (nx * ny))%nat with (i + j * nx + k * nx * ny)%nat by ring.
    rewrite A, B, C. ring.
Qed.
Open Scope nat_scope.

(** The coarse map expansion. *)
Lemma coarse_map_spec xf yf zf mm : length mm = length xf * length yf * length zf ->
  exists r, add_coarse_mesh_map xf yf zf mm = Ok r /\
    length r = list_sum xf * list_sum yf * list_sum zf /\
    forall I J K x y z, in_coarse xf I x -> in_coarse yf J y -> in_coarse zf K z ->
      nth (index (list_sum xf) (list_sum yf) x y z) r 0%Z =
      nth (index (length xf) (length yf) I J K) mm 0%Z.
Proof.
  intros HL. unfold add_coarse_mesh_map.
  set (nx := list_sum xf). set (ny := list_sum yf). set (nz := list_sum zf).
  set (F := fun c v => forall I J K x y z, in_coarse xf I x -> in_coarse yf J y -> in_coarse zf K z ->
     c = index nx ny x y z -> v = nth (index (length xf) (length yf) I J K) mm 0%Z).
  assert (BX : forall i, i < length xf -> psum xf i + nth i xf 0 <= nx).
  { intros i Hi. unfold nx. rewrite <- psum_S, <- psum_all. apply psum_mono. lia. }
  assert (BY : forall i, i < length yf -> psum yf i + nth i yf 0 <= ny).
  { intros i Hi. unfold ny. rewrite <- psum_S, <- psum_all. apply psum_mono. lia. }
  assert (BZ : forall i, i < length zf -> psum zf i + nth i zf 0 <= nz).
  { intros i Hi. unfold nz. rewrite <- psum_S, <- psum_all. apply psum_mono. lia. }
  assert (IN : forall fm i x, i < length fm -> psum fm i <= x < psum fm i + nth i fm 0 -> in_coarse fm i x).
  { intros fm i x Hi Hx. split; auto. rewrite psum_S. lia. }
  assert (UN : forall fm i j x, in_coarse fm i x -> in_coarse fm j x -> i = j).
  { intros fm i j x [_ H1] [_ H2]. eapply psum_block_unique; eauto. }
  (* innermost three loops *)
  assert (BLK : forall i j k D a, i < length xf -> j < length yf -> k < length zf ->
    holds (nx * ny * nz) F D a ->
    exists a', for_ (psum zf k) (psum zf k + nth k zf 0) a (fun kk tmp =>
          for_ (psum yf j) (psum yf j + nth j yf 0) tmp (fun jj tmp =>
            for_ (psum xf i) (psum xf i + nth i xf 0) tmp (fun ii tmp =>
              do v <- rd mm (i + j * length xf + k * length xf * length yf);
              wr tmp (ii + jj * nx + kk * nx * ny) v))) = Ok a' /\
      holds (nx * ny * nz) F (fun c => D c \/ exists x y z, in_coarse xf i x /\ in_coarse yf j y /\
           in_coarse zf k z /\ c = index nx ny x y z) a').
  { intros i j k D a Hi Hj Hk Ha.
    destruct (@for_holds Z (nx * ny * nz) F (fun z c => exists x y, in_coarse xf i x /\ in_coarse yf j y /\
           c = index nx ny x y z) D (psum zf k) (psum zf k + nth k zf 0) a
        (fun kk tmp =>
          for_ (psum yf j) (psum yf j + nth j yf 0) tmp (fun jj tmp =>
            for_ (psum xf i) (psum xf i + nth i xf 0) tmp (fun ii tmp =>
              do v <- rd mm (i + j * length xf + k * length xf * length yf);
              wr tmp (ii + jj * nx + kk * nx * ny) v)))) as (a' & E & H); auto; [lia| |].
    - intros z D1 a1 Hz Ha1. assert (BZ0 := BZ k Hk).
      destruct (@for_holds Z (nx * ny * nz) F (fun y c => exists x, in_coarse xf i x /\
           c = index nx ny x y z) D1 (psum yf j) (psum yf j + nth j yf 0) a1
        (fun jj tmp =>
            for_ (psum xf i) (psum xf i + nth i xf 0) tmp (fun ii tmp =>
              do v <- rd mm (i + j * length xf + k * length xf * length yf);
              wr tmp (ii + jj * nx + z * nx * ny) v))) as (a' & E & H); auto; [lia| |].
      + intros y D2 a2 Hy Ha2. assert (BY0 := BY j Hj).
        destruct (@for_holds Z (nx * ny * nz) F (fun x c => c = index nx ny x y z) D2 (psum xf i) (psum xf i + nth i xf 0) a2
         (fun ii tmp =>
              do v <- rd mm (i + j * length xf + k * length xf * length yf);
              wr tmp (ii + y * nx + z * nx * ny) v)) as (a' & E & H); auto; [lia| |].
        * intros x D3 a3 Hx Ha3. assert (BX0 := BX i Hi).
          rewrite (rd_ok _ 0%Z) by (rewrite HL; apply (@index_lt (length xf) (length yf) (length zf) i j k); auto).
          cbn [bind]. apply holds_wr; auto.
          -- apply index_lt; lia.
          -- intros I J K x' y' z' HI HJ HK Ec.
             assert (x' < nx) by (destruct HI as [HI0 HI]; assert (P := BX I HI0); rewrite psum_S in HI; lia).
             assert (y' < ny) by (destruct HJ as [HI0 HJ]; assert (P := BY J HI0); rewrite psum_S in HJ; lia).
             assert (z' < nz) by (destruct HK as [HI0 HK]; assert (P := BZ K HI0); rewrite psum_S in HK; lia).
             destruct (proj2 (proj2 (mesh_index_bijection nx ny nz)) x y z x' y' z') as (-> & -> & ->); auto; try lia.
             rewrite (UN xf I i x') by auto. rewrite (UN yf J j y') by auto. rewrite (UN zf K k z') by auto. reflexivity.
        * exists a'. split; auto. eapply holds_weaken; [exact H|]. intros c _ [HD|(x & Hx & ->)]; auto.
          right. exists x. split; auto. destruct Hx as [_ Hx]. rewrite psum_S in Hx. auto.
      + exists a'. split; auto. eapply holds_weaken; [exact H|]. intros c _ [HD|(x & y & Hx & Hy & ->)]; auto.
        right. exists y. split; [destruct Hy as [_ Hy]; rewrite psum_S in Hy; auto|]. exists x. auto.
    - exists a'. split; auto. eapply holds_weaken; [exact H|].
      intros c _ [HD|(x & y & z & Hx & Hy & Hz & ->)]; auto.
      right. exists z. split; [destruct Hz as [_ Hz]; rewrite psum_S in Hz; auto|]. exists x, y. auto. }
  set (body := fun (k : nat) (s : list Z * (nat * (nat * nat))) => _).
  destruct (@for_holds_st Z _ (nx * ny * nz) F
     (fun k c => exists i j x y z, in_coarse xf i x /\ in_coarse yf j y /\ in_coarse zf k z /\ c = index nx ny x y z)
     (fun k => (0, (0, psum zf k))) (fun _ => False) 0 (length zf) (repeat 0%Z (nx * ny * nz)) body) as (r & E & L & H).
  - lia.
  - intros k D a Hk Ha. unfold body. rewrite (rd_ok zf 0 (proj2 Hk)). cbn [bind].
    match goal with |- context [for_ 0 (length yf) _ ?b] => set (bodyj := b) end.
    destruct (@for_holds_st Z _ (nx * ny * nz) F
       (fun j c => exists i x y z, in_coarse xf i x /\ in_coarse yf j y /\ in_coarse zf k z /\ c = index nx ny x y z)
       (fun j => (0, psum yf j)) D 0 (length yf) a bodyj) as (a1 & E1 & H1); auto; [lia| |].
    + intros j D1 a1 Hj Ha1. unfold bodyj. rewrite (rd_ok yf 0 (proj2 Hj)). cbn [bind].
      match goal with |- context [for_ 0 (length xf) _ ?b] => set (bodyi := b) end.
      destruct (@for_holds_st Z _ (nx * ny * nz) F
        (fun i c => exists x y z, in_coarse xf i x /\ in_coarse yf j y /\ in_coarse zf k z /\ c = index nx ny x y z)
        (psum xf) D1 0 (length xf) a1 bodyi) as (a2 & E2 & H2); auto; [lia| |].
      * intros i D2 a2 Hi Ha2. unfold bodyi. rewrite (rd_ok xf 0 (proj2 Hi)). cbn [bind].
        destruct (BLK i j k D2 a2) as (a3 & E3 & H3); auto; try lia. rewrite E3. cbn [bind].
        replace (i + 1) with (S i) by lia. eauto.
      * rewrite psum_0 in E2. rewrite E2. cbn [bind fst]. replace (j + 1) with (S j) by lia.
        exists a2. split; auto. eapply holds_weaken; [exact H2|].
        intros c _ [HD|(i & x & y & z & Hx & Hy & Hz & ->)]; auto. right. exists i.
        split; [destruct Hx; lia|]. exists x, y, z. auto.
    + rewrite psum_0 in E1. rewrite E1. cbn [bind fst snd]. replace (k + 1) with (S k) by lia.
      exists a1. split; auto. eapply holds_weaken; [exact H1|].
      intros c _ [HD|(i & j & x & y & z & Hx & Hy & Hz & ->)]; auto. right. exists j.
      split; [destruct Hy; lia|]. exists i, x, y, z. auto.
  - apply holds_none. apply repeat_length.
  - rewrite psum_0 in E. rewrite E. cbn [bind fst]. exists r. split; auto. split; auto.
    intros I J K x y z HI HJ HK.
    assert (x < nx) by (destruct HI as [HI0 HI]; specialize (BX I HI0); rewrite psum_S in HI; lia).
    assert (y < ny) by (destruct HJ as [HI0 HJ]; specialize (BY J HI0); rewrite psum_S in HJ; lia).
    assert (z < nz) by (destruct HK as [HI0 HK]; specialize (BZ K HI0); rewrite psum_S in HK; lia).
    destruct (H (index nx ny x y z)) as (v & Ev & Fv).
    + apply index_lt; auto.
    + right. exists K. split; [destruct HK; lia|]. exists I, J, x, y, z. auto.
    + rewrite (nth_error_nth _ _ _ Ev). apply (Fv I J K x y z); auto.
Qed.

Lemma volumes m : mesh_good m -> volumes_total m (twx m * twy m * twz m)%R.
Proof.
  intros (LX & LY & LZ & _ & SX & SY & SZ & PX & PY & PZ & _).
  exists (map (fun c => (nth (cell_to_i (ncx m) c) (mdx m) 0 * nth (cell_to_j (ncx m) (ncy m) c) (mdy m) 0 *
                 nth (cell_to_k (ncx m) (ncy m) c) (mdz m) 0)%R) (seq 0 (ncells m))).
  split.
  - apply mapM_ok. intros c Hc. apply in_seq in Hc. unfold ncells in Hc.
    destruct (@index_total (ncx m) (ncy m) (ncz m) c ltac:(lia)) as (A & B & C & _).
    unfold volume. rewrite !rd0 by lia. reflexivity.
  - rewrite <- rsum_sumR. unfold ncells.
    rewrite (@volume_sum (ncx m) (ncy m) (ncz m) (fun i => nth i (mdx m) 0%R)
       (fun i => nth i (mdy m) 0%R) (fun i => nth i (mdz m) 0%R)).
    unfold left_edge in *. rewrite SX, SY, SZ. auto.
Qed.

Lemma in_nth_pos w : (forall i, i < length w -> (0 < nth i w 0)%R) -> forall x, In x w -> (0 < x)%R.
Proof. intros H x Hx. destruct (In_nth w x 0%R Hx) as (i & Hi & <-). auto. Qed.

Lemma axis_pos fm cme : axis_ok fm cme -> 0 < list_sum fm.
Proof.
  intros (Hne & Hp & _). destruct fm as [|f r]; [tauto|]. simpl. specialize (Hp f (or_introl eq_refl)). lia.
Qed.

Lemma unit_axis : exists w, widths [1] [0%R; 0%R] = Ok w /\ length w = 1 /\ upd w 0 1%R = [1%R].
Proof.
  destruct (@widths_spec [1] [0%R; 0%R]) as (w & E & L & _).
  - intros f [<-|[]]. lia.
  - reflexivity.
  - exists w. split; auto. split; auto. destruct w as [|a [|b r]]; try discriminate. reflexivity.
Qed.

Lemma mesh3D_ok xf yf zf xc yc zc mm :
  axis_ok xf xc -> axis_ok yf yc -> axis_ok zf zc -> length mm = length xf * length yf * length zf ->
  exists m, mesh3D xf yf zf xc yc zc mm = Ok m /\ mesh_good m /\
    ncx m = list_sum xf /\ ncy m = list_sum yf /\ ncz m = list_sum zf /\ dim m = 3 /\
    axis_widths xf xc (mdx m) /\ axis_widths yf yc (mdy m) /\ axis_widths zf zc (mdz m) /\
    coarse_map_ok xf yf zf mm (mat m) /\ length (mat m) = ncells m /\
    volumes_total m ((nth (length xf) xc 0 - nth 0 xc 0) * (nth (length yf) yc 0 - nth 0 yc 0) *
                     (nth (length zf) zc 0 - nth 0 zc 0))%R.
Proof.
  intros AX AY AZ HM.
  destruct (widths_total AX) as (wx & tx & EX & TX & LX & QX & SX & PX & HX).
  destruct (widths_total AY) as (wy & ty & EY & TY & LY & QY & SY & PY & HY).
  destruct (widths_total AZ) as (wz & tz & EZ & TZ & LZ & QZ & SZ & PZ & HZ).
  destruct (coarse_map_spec HM) as (r & ER & LR & HR).
  unfold mesh3D, mesh_new. rewrite TX, TY, TZ, EX, EY, EZ, ER. cbn [bind].
  eexists. split; [reflexivity|].
  assert (G : mesh_good {| dim := 3; xfm := xf; yfm := yf; zfm := zf; xcme := xc; ycme := yc; zcme := zc;
     mdx := wx; mdy := wy; mdz := wz; twx := tx; twy := if 3 <? 2 then 1%R else ty;
     twz := if 3 <? 3 then 1%R else tz; mat := r |}).
  { unfold mesh_good, ncx, ncy, ncz, left_edge. cbn. repeat (split; auto); try lia.
    - intros w [H|[H|H]]; revert H; apply in_nth_pos; intros i Hi; [apply PX|apply PY|apply PZ]; lia.
    - apply (axis_pos AX).
    - apply (axis_pos AY).
    - apply (axis_pos AZ). }
  split; auto. split; auto. split; auto. split; auto. split; auto.
  split; [split; auto; split; auto; unfold left_edge; simpl; etransitivity; [eassumption|auto]|].
  split; [split; auto; split; auto; unfold left_edge; simpl; etransitivity; [eassumption|auto]|].
  split; [split; auto; split; auto; unfold left_edge; simpl; etransitivity; [eassumption|auto]|].
  split; auto. split; auto.
  rewrite <- QX, <- QY, <- QZ. apply (volumes G).
Qed.

Lemma mesh2D_ok xf yf xc yc mm :
  axis_ok xf xc -> axis_ok yf yc -> length mm = length xf * length yf ->
  exists m, mesh2D xf yf xc yc mm = Ok m /\ mesh_good m /\
    ncx m = list_sum xf /\ ncy m = list_sum yf /\ ncz m = 1 /\ dim m = 2 /\
    axis_widths xf xc (mdx m) /\ axis_widths yf yc (mdy m) /\ mdz m = [1%R] /\
    coarse_map_ok xf yf [1] mm (mat m) /\ length (mat m) = ncells m /\
    volumes_total m ((nth (length xf) xc 0 - nth 0 xc 0) * (nth (length yf) yc 0 - nth 0 yc 0))%R.
Proof.
  intros AX AY HM.
  destruct (widths_total AX) as (wx & tx & EX & TX & LX & QX & SX & PX & HX).
  destruct (widths_total AY) as (wy & ty & EY & TY & LY & QY & SY & PY & HY).
  destruct unit_axis as (wz & EZ & LZ & UZ).
  destruct (@coarse_map_spec xf yf [1] mm) as (r & ER & LR & HR); [simpl; lia|].
  unfold mesh2D, mesh_new. rewrite TX, TY, EX, EY, EZ, ER.
  change (total [0%R; 0%R]) with (Ok (0 - 0)%R). cbn [bind Nat.ltb Nat.leb].
  cbn [dim xfm yfm zfm xcme ycme zcme mdx mdy mdz twx twy twz mat]. rewrite UZ.
  eexists. split; [reflexivity|]. set (m := Build_mesh _ _ _ _ _ _ _ _ _ _ _ _ _ _).
  assert (G : mesh_good m).
  { unfold mesh_good, m, ncx, ncy, ncz, left_edge. cbn. repeat (split; auto); try lia; try lra.
    - intros w [H|[H|H]]; [revert H|revert H|]; [apply in_nth_pos; intros i Hi; apply PX; lia
        |apply in_nth_pos; intros i Hi; apply PY; lia|].
      destruct H as [<-|[]]. lra.
    - apply (axis_pos AX).
    - apply (axis_pos AY). }
  split; auto. split; auto. split; auto. split; auto. split; auto.
  split; [split; auto; split; auto; unfold left_edge; simpl; etransitivity; [eassumption|auto]|].
  split; [split; auto; split; auto; unfold left_edge; simpl; etransitivity; [eassumption|auto]|].
  split; auto. split; auto. split; auto.
  rewrite <- QX, <- QY. 
  replace (tx * ty)%R with (twx m * twy m * twz m)%R by (unfold m; simpl; ring). apply (volumes G).
Qed.

Lemma mesh1D_ok xf xc mm :
  axis_ok xf xc -> length mm = length xf ->
  exists m, mesh1D xf xc mm = Ok m /\ mesh_good m /\
    ncx m = list_sum xf /\ ncy m = 1 /\ ncz m = 1 /\ dim m = 1 /\
    axis_widths xf xc (mdx m) /\ mdy m = [1%R] /\ mdz m = [1%R] /\
    coarse_map_ok xf [1] [1] mm (mat m) /\ length (mat m) = ncells m /\
    volumes_total m (nth (length xf) xc 0 - nth 0 xc 0)%R.
Proof.
  intros AX HM.
  destruct (widths_total AX) as (wx & tx & EX & TX & LX & QX & SX & PX & HX).
  destruct unit_axis as (wz & EZ & LZ & UZ).
  destruct (@coarse_map_spec xf [1] [1] mm) as (r & ER & LR & HR); [simpl; lia|].
  unfold mesh1D, mesh_new. rewrite TX, EX, EZ, ER.
  change (total [0%R; 0%R]) with (Ok (0 - 0)%R). cbn [bind Nat.ltb Nat.leb].
  cbn [dim xfm yfm zfm xcme ycme zcme mdx mdy mdz twx twy twz mat]. rewrite UZ.
  eexists. split; [reflexivity|]. set (m := Build_mesh _ _ _ _ _ _ _ _ _ _ _ _ _ _).
  assert (G : mesh_good m).
  { unfold mesh_good, m, ncx, ncy, ncz, left_edge. cbn. repeat (split; auto); try lia; try lra.
    - intros w [H|[H|H]]; [revert H; apply in_nth_pos; intros i Hi; apply PX; lia| |];
      destruct H as [<-|[]]; lra.
    - apply (axis_pos AX). }
  split; auto. split; auto. split; auto. split; auto. split; auto.
  split; [split; auto; split; auto; unfold left_edge; simpl; etransitivity; [eassumption|auto]|].
  split; auto. split; auto. split; auto. split; auto.
  rewrite <- QX.
  replace tx with (twx m * twy m * twz m)%R by (unfold m; simpl; ring). apply (volumes G).
Qed.

(** ** C15 *)

Lemma find_axis_spec w x : forall s i0, s = skipn i0 w -> i0 <= length w ->
  (left_edge w i0 <= x <= left_edge w (length w))%R -> i0 < length w ->
  in_cell w (find_axis x (left_edge w i0) i0 s) x.
Proof.
  induction s as [|a r IH]; intros i0 Es Hi0 Hx HL.
  - exfalso. assert (length (skipn i0 w) = 0) by (rewrite <- Es; auto). rewrite skipn_length in H. lia.
  - simpl.
    destruct (@skipn_cons R w i0 a r 0%R (eq_sym Es)) as [Ea Er]. symmetry in Er.
    assert (EL : (left_edge w i0 + a)%R = left_edge w (S i0)) by (unfold left_edge; simpl; rewrite Ea; auto).
    rewrite EL. destruct (Rle_dec x (left_edge w (S i0))) as [L|L].
    + split; auto. lra.
    + destruct (Nat.eq_dec (S i0) (length w)) as [E|E].
      * exfalso. rewrite E in L. lra.
      * apply IH; auto; try lia; try lra.
Qed.

Lemma find_axis_in w x : 0 < length w -> (0 <= x <= left_edge w (length w))%R ->
  in_cell w (find_axis x 0%R 0 w) x.
Proof.
  intros H Hx. change 0%R with (left_edge w 0). apply find_axis_spec; auto.
  lia.
Qed.

Lemma outside_iff x w : outside x w = false <-> (0 <= x <= w)%R.
Proof.
  unfold outside. destruct (Rlt_dec x 0); [split; [discriminate|lra]|].
  destruct (Rlt_dec w x); [split; [discriminate|lra]|]. split; auto. lra.
Qed.

Lemma find_cell_spec m x y z : mesh_good m ->
  (find_cell m (x, y, z) = None <->
     ~ (0 <= x <= twx m /\ 0 <= y <= twy m /\ 0 <= z <= twz m)%R) /\
  (forall c, find_cell m (x, y, z) = Some c ->
     c < ncells m /\
     in_cell (mdx m) (cell_to_i (ncx m) c) x /\
     in_cell (mdy m) (cell_to_j (ncx m) (ncy m) c) y /\
     in_cell (mdz m) (cell_to_k (ncx m) (ncy m) c) z).
Proof.
  intros (LX & LY & LZ & _ & SX & SY & SZ & PX & PY & PZ & HD & D2 & D3). unfold find_cell.
  destruct (outside x (twx m)) eqn:OX; simpl.
  { split; [|discriminate]. split; auto. intros _ (A & _). apply outside_iff in A. congruence. }
  destruct (outside y (twy m)) eqn:OY; simpl.
  { split; [|discriminate]. split; auto. intros _ (_ & A & _). apply outside_iff in A. congruence. }
  destruct (outside z (twz m)) eqn:OZ; simpl.
  { split; [|discriminate]. split; auto. intros _ (_ & _ & A). apply outside_iff in A. congruence. }
  apply outside_iff in OX. apply outside_iff in OY. apply outside_iff in OZ.
  split; [split; [discriminate|tauto]|].
  intros c E. inversion E as [Ec]. clear E Ec.
  assert (IX : in_cell (mdx m) (if 0 <? dim m then find_axis x 0%R 0 (mdx m) else 0) x).
  { rewrite (proj2 (Nat.ltb_lt 0 (dim m))) by lia. apply find_axis_in; try lia. rewrite LX, SX. auto. }
  assert (IY : in_cell (mdy m) (if 1 <? dim m then find_axis y 0%R 0 (mdy m) else 0) y).
  { destruct (Nat.ltb_spec 1 (dim m)).
    - apply find_axis_in; try lia. rewrite LY, SY. auto.
    - rewrite <- SY, (D2 ltac:(lia)) in OY. split; [lia|]. exact OY. }
  assert (IZ : in_cell (mdz m) (if 2 <? dim m then find_axis z 0%R 0 (mdz m) else 0) z).
  { destruct (Nat.ltb_spec 2 (dim m)).
    - apply find_axis_in; try lia. rewrite LZ, SZ. auto.
    - rewrite <- SZ, (D3 ltac:(lia)) in OZ. split; [lia|]. exact OZ. }
  set (i := if 0 <? dim m then _ else _) in *. set (j := if 1 <? dim m then _ else _) in *.
  set (k := if 2 <? dim m then _ else _) in *.
  assert (i < ncx m) by (destruct IX; lia). assert (j < ncy m) by (destruct IY; lia).
  assert (k < ncz m) by (destruct IZ; lia).
  destruct (@index_inv (ncx m) (ncy m) (ncz m) i j k) as (A & B & C); auto.
  rewrite A, B, C. split; auto. apply index_lt; auto.
Qed.

(** The search works in coordinates relative to zero, not to the first edge. *)
Lemma find_cell_offset : exists m p, mesh1D [1; 1] [5; 6; 7]%R [0; 1]%Z = Ok m /\
  (6 < p < 7)%R /\ find_cell m (p, 0%R, 0%R) = None.
Proof.
  destruct (@mesh1D_ok [1; 1] [5; 6; 7]%R [0; 1]%Z) as (m & E & G & A & B & C & D & W & _).
  - split; [discriminate|]. split; [intros f [<-|[<-|[]]]; lia|]. split; auto.
    intros [|[|i]] Hi; simpl in *; try lra; lia.
  - reflexivity.
  - exists m, 6.5%R. split; auto. split; [lra|].
    apply (find_cell_spec 6.5 0 0 G). intros (H & _).
    destruct G as (_ & _ & _ & _ & SX & _). destruct W as (_ & _ & W). rewrite <- SX, A, W in H. simpl in H. lra.
Qed.
