(** * Proofs about the preconditioners *)
From Verif Require Import Base BaseR Loop Matrix_Model Matrix_Spec Matrix_Proofs Vector_Model Vector_Spec Vector_Proofs
  Solver_Model Solver_Spec Solver_Proofs.
Set Implicit Arguments. Unset Strict Implicit.
Open Scope R_scope.

(** ** Jacobi *)

Lemma pcjacobi_ok n C : csr_wf n n C -> one_diag n C ->
  pcjacobi_new C = Ok (vec n (fun i => if Req_EM_T (mentry C i i) 0 then 1 else 1 / mentry C i i)).
Proof.
  intros W O. unfold pcjacobi_new. rewrite (wf_n W). apply mapM_ok. intros i Hi. apply in_seq in Hi.
  assert (Hi' : (i < n)%nat) by lia. destruct (wf_diag W Hi') as (d & E & Ed & Hd & Ec). rewrite Ed. cbn [bind].
  rewrite (wf_rd_val W Hi' Hd). cbn [bind]. rewrite (diag_val W O Hi' E). reflexivity.
Qed.

Lemma pcjacobi_apply_ok n C b x : csr_wf n n C -> one_diag n C -> length b = n -> length x = n ->
  exists P y, pcjacobi_new C = Ok P /\ pcjacobi_apply P b x = Ok y /\ length y = n /\
    forall i, (i < n)%nat ->
      (mentry C i i <> 0 -> mentry C i i * cmp y i = cmp b i) /\ (mentry C i i = 0 -> cmp y i = cmp b i).
Proof.
  intros W O Hb Hx. rewrite (pcjacobi_ok W O). eexists _, _. split; [reflexivity|].
  unfold pcjacobi_apply, vcopy, vmul. rewrite vzip_ok by lia. cbn [bind]. rewrite vzip_ok by (rewrite !vec_length; auto).
  rewrite vec_length, Hx. split; [reflexivity|]. split; [apply vec_length|]. intros i Hi.
  unfold cmp. rewrite !vec_nth by auto. destruct (Req_EM_T (mentry C i i) 0); split; intros; try contradiction; try ring.
  field. auto.
Qed.

Lemma pcjacobi_diagonal n C b x : csr_wf n n C -> one_diag n C -> diag_nz n C -> length b = n -> length x = n ->
  (forall i j, (i < n)%nat -> (j < n)%nat -> i <> j -> mentry C i j = 0) ->
  exists P y, pcjacobi_new C = Ok P /\ pcjacobi_apply P b x = Ok y /\ solves n C b y.
Proof.
  intros W O D Hb Hx HD. destruct (pcjacobi_apply_ok W O Hb Hx) as (P & y & E1 & E2 & HL & HY).
  exists P, y. split; auto. split; auto. intros i Hi. rewrite (ax_split C y Hi).
  rewrite (@rsum_ext n _ (fun _ => 0)). 2:{ intros j Hj. destruct (Nat.eqb_spec j i); auto. rewrite HD by auto. ring. }
  rewrite rsum_zero, Rplus_0_r by auto. apply (proj1 (HY i Hi)). apply D. auto.
Qed.

(** ** Triangular solves *)

Section Tri.
Variables (n : nat) (C : csr).
Hypothesis W : csr_wf n n C.

Lemma take_ok i x a b : (i < n)%nat -> length x = n -> (row_lo C i <= a)%nat -> (a <= b)%nat -> (b <= row_hi C i)%nat ->
  (forall p, (a <= p < b)%nat -> col_at C p <> Z.of_nat i) ->
  exists y, csr_take C x a b i = Ok y /\ length y = n /\ cmp y i = cmp x i - psum_row C x a b /\
    forall j, j <> i -> cmp y j = cmp x j.
Proof.
  intros Hi Hx Ha Hab Hb Hne. unfold csr_take.
  destruct (@for_inv (list R) (fun q y => length y = n /\ cmp y i = cmp x i - psum_row C x a q /\ forall j, j <> i -> cmp y j = cmp x j)
    a b x (fun p x => do j <- rd (c_cols C) p; do w <- rd (c_vals C) p; do xj <- rdz x j; do xi <- rd x i; wr x i (xi - w * xj)) Hab)
    as (y & E & Hy); [| |exists y; auto].
  - split; auto. split; auto. unfold psum_row. rewrite Nat.sub_diag. simpl. ring.
  - intros q y Hq (HL & Hyi & Hyj). rewrite (wf_rd_col W Hi), (wf_rd_val W Hi) by lia. cbn [bind].
    pose proof (@wf_col _ _ W i q Hi ltac:(lia)) as Hc.
    rewrite (rdz_ok HL Hc). cbn [bind]. rewrite (@rd_ok _ y i 0) by lia. cbn [bind].
    rewrite wr_ok by lia. eexists. split; [reflexivity|]. split; [rewrite upd_length; auto|]. split.
    + unfold cmp at 1. rewrite nth_upd_eq by lia. fold (cmp y i). rewrite Hyi.
      unfold psum_row. replace (S q - a)%nat with (S (q - a)) by lia. cbn [rsum].
      replace (a + (q - a))%nat with q by lia. change (at_col y (col_at C q)) with (cmp y (Z.to_nat (col_at C q))).
      rewrite Hyj by (intros Q; apply (Hne q ltac:(lia)); lia). change (at_col x (col_at C q)) with (cmp x (Z.to_nat (col_at C q))). ring.
    + intros j Hj. unfold cmp. rewrite nth_upd_neq by auto. apply Hyj. auto.
Qed.

Hypothesis O : one_diag n C.

Lemma forward_ok b y : length b = n -> length y = n ->
  exists z, forward C b y = Ok z /\ length z = n /\
    forall i, (i < n)%nat -> rsum n (fun j => low C i j * cmp z j) = cmp b i.
Proof.
  intros Hb Hy. unfold forward. rewrite (wf_n W).
  destruct (@for_inv (list R) (fun k z => length z = n /\ forall i, (i < k)%nat -> rsum n (fun j => low C i j * cmp z j) = cmp b i)
    0 n y (fun i y => do s <- rd (c_rows C) i; do d <- csr_diag_at C i; do bi <- rd b i; do y <- wr y i bi; csr_take C y s d i)
    ltac:(lia)) as (z & E & Hz); [| |exists z; auto].
  - split; auto. intros; lia.
  - intros i z [_ Hi] [HL Hz]. destruct (wf_diag W Hi) as (d & E & Ed & Hd & Ec).
    rewrite (wf_rd_rows W) by lia. rewrite Ed, (@rd_ok _ b i 0) by lia. cbn [bind]. rewrite wr_ok by lia. cbn [bind].
    fold (row_lo C i).
    destruct (@take_ok i (upd z i (nth i b 0)) (row_lo C i) d Hi) as (z' & E' & HL' & Hi' & Hj'); try lia.
    { rewrite upd_length. auto. }
    { intros p Hp. pose proof (cols_below W O Hi E Hp). lia. }
    exists z'. split; auto. split; auto.
    assert (Old : forall j, j <> i -> cmp z' j = cmp z j).
    { intros j Hj. rewrite Hj' by auto. unfold cmp. apply nth_upd_neq. auto. }
    intros k Hk. destruct (Nat.eq_dec k i) as [->|Nk].
    + assert (Zi : cmp z' i = cmp b i - psum_row C z' (row_lo C i) d).
      { rewrite Hi'. unfold cmp at 1. rewrite nth_upd_eq by lia. fold (cmp b i). f_equal. unfold psum_row. apply rsum_ext.
        intros q Hq. f_equal. unfold at_col. symmetry. apply Hj'. intros Q.
        pose proof (@cols_below _ _ W i d (row_lo C i + q) O Hi E ltac:(lia)) as B.
        pose proof (@wf_col _ _ W i (row_lo C i + q) Hi ltac:(lia)). lia. }
      pose proof (@row_split _ _ W i d 0 z' [] O Hi E) as RS.
      assert (Up : psum_row C [] (S d) (row_hi C i) = 0).
      { unfold psum_row. rewrite (@rsum_ext _ _ (fun _ => 0)); [apply rsum_zero; auto|]. intros q Hq. unfold at_col.
        destruct (Z.to_nat (col_at C (S d + q))); simpl; ring. }
      rewrite Up in RS.
      rewrite (@rsum_ext n _ (fun j => mentry C i j * (if (j <? i)%nat then cmp z' j else if (j =? i)%nat then 0 else cmp [] j)
        + (if (j =? i)%nat then cmp z' i else 0))).
      * rewrite rsum_plus, <- RS, rsum_delta by auto. lra.
      * intros j Hj. unfold low. destruct (Nat.ltb_spec j i); destruct (Nat.eqb_spec j i); subst; try lia; try ring.
        unfold cmp. destruct j; simpl; ring.
    + rewrite <- (Hz k ltac:(lia)). apply rsum_ext. intros j Hj. unfold low.
      destruct (Nat.ltb_spec j k); [rewrite Old by lia; auto|]. destruct (Nat.eqb_spec j k); [|ring]. subst j.
      rewrite Old by lia. auto.
Qed.

Hypothesis D : diag_nz n C.

Lemma backward_ok (incl : bool) y x : length y = n -> length x = n ->
  exists z, backward incl C y x = Ok z /\ length z = n /\
    forall i, (i < n)%nat -> rsum n (fun j => upp C i j * cmp z j) = (if incl then 1 - mentry C i i else 1) * cmp y i.
Proof.
  intros Hy Hx. unfold backward. rewrite (wf_n W).
  destruct (@for_inv (list R) (fun k z => length z = n /\ forall i, (n - k <= i < n)%nat ->
      rsum n (fun j => upp C i j * cmp z j) = (if incl then 1 - mentry C i i else 1) * cmp y i)
    0 n x (fun k x =>
    let i := (n - 1 - k)%nat in
    do d <- csr_diag_at C i; do e <- rd (c_rows C) (S i);
    do yi <- rd y i; do x <- wr x i yi;
    do x <- csr_take C x (if incl then d else S d) e i;
    do ad <- rd (c_vals C) d; do xi <- rd x i; wr x i (xi / ad)) ltac:(lia)) as (z & E & HL & Hz).
  - split; auto. intros; lia.
  - intros k z [_ Hk] [HL Hz]. set (i := (n - 1 - k)%nat). cbv zeta. assert (Hi : (i < n)%nat) by (unfold i; lia).
    destruct (wf_diag W Hi) as (d & E & Ed & Hd & Ec).
    rewrite Ed, (wf_rd_rows W), (@rd_ok _ y i 0) by lia. cbn [bind]. rewrite wr_ok by lia. cbn [bind]. fold (row_hi C i).
    pose proof (D Hi) as Dn. pose proof (diag_val W O Hi E) as Dv.
    set (z1 := upd z i (nth i y 0)).
    assert (L1 : length z1 = n) by (unfold z1; rewrite upd_length; auto).
    assert (Z1i : cmp z1 i = cmp y i) by (unfold z1, cmp; apply nth_upd_eq; lia).
    assert (Z1j : forall j, j <> i -> cmp z1 j = cmp z j) by (intros j Hj; unfold z1, cmp; apply nth_upd_neq; auto).
    assert (T : exists z2, csr_take C z1 (if incl then d else S d) (row_hi C i) i = Ok z2 /\ length z2 = n /\
      cmp z2 i = (if incl then 1 - mentry C i i else 1) * cmp y i - psum_row C z (S d) (row_hi C i) /\
      forall j, j <> i -> cmp z2 j = cmp z j).
    { assert (G : forall z0, length z0 = n -> (forall j, j <> i -> cmp z0 j = cmp z j) ->
        exists z2, csr_take C z0 (S d) (row_hi C i) i = Ok z2 /\ length z2 = n /\
          cmp z2 i = cmp z0 i - psum_row C z (S d) (row_hi C i) /\ forall j, j <> i -> cmp z2 j = cmp z j).
      { intros z0 L0 Z0. destruct (@take_ok i z0 (S d) (row_hi C i) Hi) as (z2 & E2 & HL2 & Hi2 & Hj2); try lia.
        { intros p Hp. pose proof (@cols_above _ _ W i d p O Hi E ltac:(lia)). lia. }
        exists z2. split; auto. split; auto. split; [|intros j Hj; rewrite Hj2; auto].
        rewrite Hi2. f_equal. unfold psum_row. apply rsum_ext. intros q Hq. f_equal. unfold at_col.
        apply Z0. intros Q. pose proof (@cols_above _ _ W i d (S d + q) O Hi E ltac:(lia)). lia. }
      destruct incl.
      - destruct (G (upd z1 i (nth i z1 0 - val_at C d * nth i z1 0))) as (z2 & E2 & HL2 & Hi2 & Hj2).
        { rewrite upd_length. auto. }
        { intros j Hj. unfold cmp. rewrite nth_upd_neq by auto. apply Z1j. auto. }
        exists z2. split.
        + rewrite <- E2. unfold csr_take, for_.
          replace (row_hi C i - d)%nat with (S (row_hi C i - S d)) by lia. cbn [seq foldM].
          rewrite (wf_rd_col W Hi), (wf_rd_val W Hi) by lia. cbn [bind]. rewrite Ec.
          rewrite (@rdz_ok z1 n (Z.of_nat i) L1) by lia. cbn [bind]. rewrite (@rd_ok _ z1 i 0) by lia. cbn [bind].
          rewrite wr_ok by lia. cbn [bind]. unfold at_col. rewrite Nat2Z.id. reflexivity.
        + split; auto. split; auto. rewrite Hi2. unfold cmp at 1. rewrite nth_upd_eq by lia. fold (cmp z1 i).
          rewrite Z1i, Dv. ring.
      - destruct (G z1 L1 Z1j) as (z2 & E2 & HL2 & Hi2 & Hj2). exists z2. repeat split; auto. rewrite Hi2, Z1i. ring. }
    destruct T as (z2 & E2 & HL2 & Hi2 & Hj2). rewrite E2. cbn [bind].
    rewrite (wf_rd_val W Hi Hd), (@rd_ok _ z2 i 0) by lia. cbn [bind]. rewrite wr_ok by lia.
    eexists. split; [reflexivity|]. split; [rewrite upd_length; auto|].
    set (z3 := upd z2 i (nth i z2 0 / val_at C d)).
    assert (Z3j : forall j, j <> i -> cmp z3 j = cmp z j).
    { intros j Hj. unfold z3, cmp. rewrite nth_upd_neq by auto. apply Hj2. auto. }
    assert (Z3i : mentry C i i * cmp z3 i = (if incl then 1 - mentry C i i else 1) * cmp y i - psum_row C z (S d) (row_hi C i)).
    { rewrite <- Hi2. unfold z3, cmp at 1. rewrite nth_upd_eq by lia. fold (cmp z2 i). rewrite Dv. field. rewrite <- Dv. auto. }
    intros m Hm. destruct (Nat.eq_dec m i) as [->|Nm].
    + pose proof (@row_split _ _ W i d (cmp z3 i) [] z O Hi E) as RS.
      assert (Lo : psum_row C [] (row_lo C i) d = 0).
      { unfold psum_row. rewrite (@rsum_ext _ _ (fun _ => 0)); [apply rsum_zero; auto|]. intros q Hq. unfold at_col.
        destruct (Z.to_nat (col_at C (row_lo C i + q))); simpl; ring. }
      rewrite Lo, <- Dv, Z3i in RS.
      rewrite (@rsum_ext n _ (fun j => mentry C i j * (if (j <? i)%nat then cmp [] j else if (j =? i)%nat then cmp z3 i else cmp z j))).
      * rewrite <- RS. ring.
      * intros j Hj. unfold upp. destruct (Nat.ltb_spec j i); destruct (Nat.eqb_spec j i); subst; try lia; auto.
        -- unfold cmp at 2. destruct j; simpl; ring.
        -- rewrite Z3j by auto. auto.
    + rewrite <- (Hz m) by (unfold i in Nm; lia). apply rsum_ext. intros j Hj. unfold upp.
      destruct (Nat.ltb_spec j m); [ring|]. rewrite Z3j; auto. unfold i in *. lia.
  - exists z. split; auto. split; auto. intros i Hi. apply Hz. lia.
Qed.

Lemma ilut_apply_ok b x : length b = n -> length x = n ->
  exists z, ilut_apply C b x = Ok z /\ length z = n /\ forall i, (i < n)%nat -> lux n C z i = cmp b i.
Proof.
  intros Hb Hx. unfold ilut_apply.
  destruct (@forward_ok b (repeat 0 (length b)) Hb ltac:(rewrite repeat_length; auto)) as (y & E & Hy & FY). rewrite E. cbn [bind].
  destruct (backward_ok false Hy Hx) as (z & Ez & Hz & BZ). exists z. split; auto. split; auto.
  intros i Hi. rewrite <- (FY i Hi). unfold lux. apply rsum_ext. intros k Hk. rewrite (BZ k Hk). ring.
Qed.

Lemma ilu0_apply_ok b x y0 : length b = n -> length x = n -> length y0 = n ->
  exists z y, ilu0_apply C b x y0 = Ok z /\ length z = n /\ length y = n /\
    (forall i, (i < n)%nat -> rsum n (fun j => low C i j * cmp y j) = cmp b i) /\
    (forall i, (i < n)%nat -> rsum n (fun j => upp C i j * cmp z j) = (1 - mentry C i i) * cmp y i).
Proof.
  intros Hb Hx Hy0. unfold ilu0_apply. destruct (@forward_ok b y0 Hb Hy0) as (y & E & Hy & FY). rewrite E. cbn [bind].
  destruct (backward_ok true Hy Hx) as (z & Ez & Hz & BZ). exists z, y. auto.
Qed.

Lemma low_unique y y' : (forall i, (i < n)%nat -> rsum n (fun j => low C i j * cmp y j) = rsum n (fun j => low C i j * cmp y' j)) ->
  forall i, (i < n)%nat -> cmp y i = cmp y' i.
Proof.
  intros H i. induction i as [i IH] using lt_wf_ind. intros Hi. pose proof (H i Hi) as A. apply Rminus_diag_eq in A.
  rewrite <- rsum_minus in A.
  rewrite (@rsum_ext n _ (fun j => if (j =? i)%nat then cmp y i - cmp y' i else 0)) in A.
  - rewrite rsum_delta in A by auto. lra.
  - intros j Hj. cbn beta. unfold low. destruct (Nat.ltb_spec j i); destruct (Nat.eqb_spec j i); subst; try lia; try ring.
    rewrite (IH j) by lia. ring.
Qed.

Lemma ilu0_apply_never b x y0 z : length b = n -> length x = n -> length y0 = n ->
  ilu0_apply C b x y0 = Ok z -> (exists i, (i < n)%nat /\ cmp b i <> 0) -> ~ (forall i, (i < n)%nat -> lux n C z i = cmp b i).
Proof.
  intros Hb Hx Hy0 E (i0 & Hi0 & Nz) HS. destruct (ilu0_apply_ok Hb Hx Hy0) as (z' & y & E' & Hz & Hy & FY & BZ).
  rewrite E in E'. inversion E'; subst z'. clear E'.
  pose (y' := vec n (fun k => (1 - mentry C k k) * cmp y k)).
  assert (Y' : forall k, (k < n)%nat -> cmp y' k = (1 - mentry C k k) * cmp y k) by (intros k Hk; unfold y', cmp; rewrite vec_nth; auto).
  assert (U : forall i, (i < n)%nat -> cmp y i = cmp y' i).
  { apply low_unique. intros i Hi. rewrite (FY i Hi), <- (HS i Hi). unfold lux. apply rsum_ext. intros k Hk. rewrite (BZ k Hk), (Y' k Hk). auto. }
  assert (Zy : forall i, (i < n)%nat -> cmp y i = 0).
  { intros i Hi. pose proof (U i Hi) as Q. rewrite (Y' i Hi) in Q. assert (Q2 : mentry C i i * cmp y i = 0) by lra.
    apply Rmult_integral in Q2. destruct Q2; auto. exfalso. apply (D Hi). auto. }
  apply Nz. rewrite <- (FY i0 Hi0). rewrite (@rsum_ext n _ (fun _ => 0)); [apply rsum_zero; auto|]. intros j Hj. rewrite (Zy j Hj). ring.
Qed.

End Tri.

(** ** What the ILU(0) factorisation changes *)

Section Ilu.
Variables (n : nat) (C : csr).
Hypothesis W : csr_wf n n C.
Hypothesis O : one_diag n C.

Lemma rows_le i k : (i <= k)%nat -> (k <= n)%nat -> (nth i (c_rows C) 0 <= nth k (c_rows C) 0)%nat.
Proof.
  intros H. induction H as [|k H IH]; intros Hk; [lia|].
  pose proof (@wf_row _ _ W k ltac:(lia)) as A. unfold row_lo, row_hi in A. specialize (IH ltac:(lia)). lia.
Qed.

Lemma rows_disjoint i k p : (i < n)%nat -> (k < n)%nat -> (row_lo C i <= p < row_hi C i)%nat -> (row_lo C k <= p < row_hi C k)%nat -> i = k.
Proof.
  intros Hi Hk A B. unfold row_lo, row_hi in *. destruct (lt_eq_lt_dec i k) as [[L|]|L]; auto.
  - pose proof (@rows_le (S i) k ltac:(lia) ltac:(lia)). lia.
  - pose proof (@rows_le (S k) i ltac:(lia) ltac:(lia)). lia.
Qed.

(** Stored positions on or right of the diagonal. *)
Definition upper_pos (p : nat) : Prop :=
  exists i d, (i < n)%nat /\ nth_error (c_diag C) i = Some (Some d) /\ (d <= p < row_hi C i)%nat.
Definition same_upper (l : list R) : Prop :=
  length l = length (c_vals C) /\ forall p, upper_pos p -> nth p l 0 = val_at C p.

Lemma upper_not_lower i d p : (i < n)%nat -> nth_error (c_diag C) i = Some (Some d) -> (row_lo C i <= p < d)%nat -> ~ upper_pos p.
Proof.
  intros Hi E Hp (k & dk & Hk & Ek & Hpk). destruct (wf_diag W Hi) as (d' & E' & _ & Hd & _). rewrite E in E'. inversion E'; subst d'.
  destruct (wf_diag W Hk) as (d' & E'' & _ & Hdk & _). rewrite Ek in E''. inversion E''; subst d'.
  assert (i = k) by (apply (@rows_disjoint i k p); auto; lia). subst k. rewrite E in Ek. inversion Ek. lia.
Qed.

Lemma same_upper_upd l p v : same_upper l -> ~ upper_pos p -> same_upper (upd l p v).
Proof.
  intros [L H] N. split; [rewrite upd_length; auto|]. intros q Hq. rewrite nth_upd_neq; auto. intros ->. contradiction.
Qed.

Definition marked (i a d : nat) (s : nat) (iw : list Z) : Prop :=
  length iw = n /\ forall j, (j < n)%nat -> nth j iw (-1)%Z = (-1)%Z \/
    exists p q, (a <= p < d)%nat /\ col_at C p = Z.of_nat j /\ (s <= q < d)%nat /\ nth j iw (-1)%Z = Z.of_nat q.

Lemma ilu_row_ok i d iw l : (i < n)%nat -> nth_error (c_diag C) i = Some (Some d) ->
  marked i (row_lo C i) d (row_lo C i) iw -> same_upper l ->
  exists l', ilu_row C (row_lo C i) d iw l = Ok l' /\ same_upper l'.
Proof.
  intros Hi E [Lw Hw] Hl. destruct (wf_diag W Hi) as (d' & E' & _ & Hd & _). rewrite E in E'. inversion E'; subst d'. clear E'.
  assert (Lc : length (c_vals C) = length (c_cols C)) by apply W.
  pose proof (wf_hi_le W Hi) as Hh.
  unfold ilu_row. destruct (@for_inv (list R) (fun _ l => same_upper l) (row_lo C i) d l
    (fun p lu =>
    do kz <- rd (c_cols C) p; if (kz <? 0)%Z then UB else
    let k := Z.to_nat kz in
    do dk <- csr_diag_at C k;
    do a <- rd lu p; do akk <- rd lu dk;
    let val := a / akk in
    do lu <- wr lu p val;
    do e <- rd (c_rows C) (S k);
    for_ (S dk) e lu (fun q lu =>
      do j <- rd (c_cols C) q; if (j <? 0)%Z then UB else
      do pp <- rd iw (Z.to_nat j);
      if (pp =? -1)%Z then Ok lu
      else do u <- rd lu q; do t <- rd lu (Z.to_nat pp); wr lu (Z.to_nat pp) (t - val * u)))) as (l' & El & Hl'); [lia|auto| |exists l'; auto].
  intros p s Hp [Ls Hs]. rewrite (wf_rd_col W Hi) by lia. cbn [bind].
  pose proof (@wf_col _ _ W i p Hi ltac:(lia)) as Hc. destruct (Z.ltb_spec (col_at C p) 0); [lia|]. cbv zeta.
  set (k := Z.to_nat (col_at C p)). assert (Hk : (k < n)%nat) by (unfold k; lia).
  destruct (wf_diag W Hk) as (dk & Ek & Edk & Hdk & _). rewrite Edk. cbn [bind]. pose proof (wf_hi_le W Hk) as Hkh.
  rewrite (@rd_ok _ s p 0), (@rd_ok _ s dk 0) by lia. cbn [bind]. rewrite wr_ok by lia. cbn [bind].
  rewrite (wf_rd_rows W) by lia. cbn [bind]. fold (row_hi C k).
  assert (S1 : same_upper (upd s p (nth p s 0 / nth dk s 0))).
  { apply same_upper_upd; [split; auto|]. apply (@upper_not_lower i d); auto. }
  destruct (@for_inv (list R) (fun _ l => same_upper l) (S dk) (row_hi C k) (upd s p (nth p s 0 / nth dk s 0))
    (fun q lu => do j <- rd (c_cols C) q; if (j <? 0)%Z then UB else
      do pp <- rd iw (Z.to_nat j);
      if (pp =? -1)%Z then Ok lu
      else do u <- rd lu q; do t <- rd lu (Z.to_nat pp); wr lu (Z.to_nat pp) (t - nth p s 0 / nth dk s 0 * u))) as (l2 & E2 & H2); [lia|auto| |].
  - intros q t Hq St. rewrite (wf_rd_col W Hk) by lia. cbn [bind].
    pose proof (@wf_col _ _ W k q Hk ltac:(lia)) as Hcq. destruct (Z.ltb_spec (col_at C q) 0); [lia|].
    rewrite (@rd_ok _ iw _ (-1)%Z) by lia. cbn [bind].
    destruct (Hw (Z.to_nat (col_at C q)) ltac:(lia)) as [Em|(p' & q' & _ & _ & Hq' & Em)]; rewrite Em.
    + rewrite Z.eqb_refl. eauto.
    + destruct (Z.eqb_spec (Z.of_nat q') (-1)); [lia|]. rewrite Nat2Z.id. destruct St as [Lt Ht].
      rewrite (@rd_ok _ t q 0), (@rd_ok _ t q' 0) by lia. cbn [bind]. rewrite wr_ok by lia. eexists. split; [reflexivity|].
      apply same_upper_upd; [split; auto|]. apply (@upper_not_lower i d); auto.
  - exists l2. auto.
Qed.

Lemma mark_ok i d iw : (i < n)%nat -> nth_error (c_diag C) i = Some (Some d) -> length iw = n ->
  (forall j, (j < n)%nat -> nth j iw (-1)%Z = (-1)%Z) ->
  exists iw', mark C (row_lo C i) d Z.of_nat iw = Ok iw' /\ marked i (row_lo C i) d (row_lo C i) iw'.
Proof.
  intros Hi E L H0. destruct (wf_diag W Hi) as (d' & E' & _ & Hd & _). rewrite E in E'. inversion E'; subst d'. clear E'.
  unfold mark. destruct (@for_inv (list Z) (fun _ iw => marked i (row_lo C i) d (row_lo C i) iw) (row_lo C i) d iw
    (fun p iw => do k <- rd (c_cols C) p; if (k <? 0)%Z then UB else wr iw (Z.to_nat k) (Z.of_nat p)) ltac:(lia)) as (w & Ew & Hw);
    [split; auto| |exists w; auto].
  intros p w Hp [Lw Hw]. rewrite (wf_rd_col W Hi) by lia. cbn [bind]. pose proof (@wf_col _ _ W i p Hi ltac:(lia)) as Hc.
  destruct (Z.ltb_spec (col_at C p) 0); [lia|]. rewrite wr_ok by lia. eexists. split; [reflexivity|].
  split; [rewrite upd_length; auto|]. intros j Hj. destruct (Nat.eq_dec j (Z.to_nat (col_at C p))) as [->|Ne].
  - right. exists p, p. rewrite nth_upd_eq by lia. repeat split; auto; lia.
  - rewrite nth_upd_neq by auto. apply Hw. auto.
Qed.

Lemma unmark_ok i d iw : (i < n)%nat -> nth_error (c_diag C) i = Some (Some d) -> marked i (row_lo C i) d (row_lo C i) iw ->
  exists iw', mark C (row_lo C i) d (fun _ => (-1)%Z) iw = Ok iw' /\ length iw' = n /\
    forall j, (j < n)%nat -> nth j iw' (-1)%Z = (-1)%Z.
Proof.
  intros Hi E HM. destruct (wf_diag W Hi) as (d' & E' & _ & Hd & _). rewrite E in E'. inversion E'; subst d'. clear E'.
  unfold mark. destruct (@for_inv (list Z) (fun a iw => marked i a d (row_lo C i) iw) (row_lo C i) d iw
    (fun p iw => do k <- rd (c_cols C) p; if (k <? 0)%Z then UB else wr iw (Z.to_nat k) (-1)%Z) ltac:(lia) HM) as (w & Ew & Lw & Hw).
  - intros p w Hp [Lw Hw]. rewrite (wf_rd_col W Hi) by lia. cbn [bind]. pose proof (@wf_col _ _ W i p Hi ltac:(lia)) as Hc.
    destruct (Z.ltb_spec (col_at C p) 0); [lia|]. rewrite wr_ok by lia. eexists. split; [reflexivity|].
    split; [rewrite upd_length; auto|]. intros j Hj. destruct (Nat.eq_dec j (Z.to_nat (col_at C p))) as [->|Ne].
    + left. apply nth_upd_eq. lia.
    + rewrite nth_upd_neq by auto. destruct (Hw j Hj) as [|(p' & q & Hp' & Ec & Hq & En)]; auto. right. exists p', q.
      repeat split; auto; try lia. destruct (Nat.eq_dec p' p) as [->|]; [|lia]. exfalso. apply Ne. rewrite Ec. rewrite Nat2Z.id. auto.
  - exists w. split; auto. split; auto. intros j Hj. destruct (Hw j Hj) as [|(p' & q & Hp' & _)]; auto. lia.
Qed.

(** With a nonzero diagonal the factorisation succeeds, and it leaves every
    stored value on or above the diagonal as it was. *)
Lemma ilu0_ok : diag_nz n C ->
  exists P, ilu0 C = Ok P /\ c_rows P = c_rows C /\ c_cols P = c_cols C /\ c_diag P = c_diag C /\ same_upper (c_vals P).
Proof.
  intros D. unfold ilu0. rewrite (wf_n W).
  set (body := fun (i : nat) (st : list R * list Z) => let '(lu, iw) := st in
    do s <- rd (c_rows C) i; do d <- csr_diag_at C i;
    do iw <- mark C s d Z.of_nat iw;
    do lu <- ilu_row C s d iw lu;
    do u <- rd lu d;
    if Req_EM_T u 0 then Err
    else do iw <- mark C s d (fun _ => (-1)%Z) iw; Ok (lu, iw)).
  assert (G : exists st, for_ 1 n (c_vals C, repeat (-1)%Z n) body = Ok st /\ same_upper (fst st)).
  { destruct n as [|n'] eqn:En.
    - exists (c_vals C, repeat (-1)%Z 0). split; [reflexivity|]. split; auto.
    - rewrite <- En in *.
      destruct (@for_inv (list R * list Z) (fun _ st => same_upper (fst st) /\ length (snd st) = n /\
        forall j, (j < n)%nat -> nth j (snd st) (-1)%Z = (-1)%Z) 1 n (c_vals C, repeat (-1)%Z n) body ltac:(lia)) as (st & Es & Hs & _).
      + cbn [fst snd]. split; [split; auto|]. rewrite repeat_length. split; auto. intros j Hj. apply nth_repeat.
      + intros i [l w] Hi (Sl & Lw & Hw). cbn [fst snd] in *. unfold body. assert (Hi' : (i < n)%nat) by lia.
        destruct (wf_diag W Hi') as (d & E & Ed & Hd & _). rewrite (wf_rd_rows W) by lia. rewrite Ed. cbn [bind]. fold (row_lo C i).
        destruct (mark_ok Hi' E Lw Hw) as (w1 & E1 & M1). rewrite E1. cbn [bind].
        destruct (ilu_row_ok Hi' E M1 Sl) as (l1 & E2 & S1). rewrite E2. cbn [bind].
        pose proof (wf_hi_le W Hi') as Hh. assert (Lc : length (c_vals C) = length (c_cols C)) by apply W.
        rewrite (@rd_ok _ l1 d 0) by (destruct S1; lia). cbn [bind].
        rewrite (proj2 S1) by (exists i, d; repeat split; auto; lia). rewrite <- (diag_val W O Hi' E).
        destruct (Req_EM_T (mentry C i i) 0) as [Z|_]; [exfalso; apply (D i Hi' Z)|].
        destruct (unmark_ok Hi' E M1) as (w2 & E3 & L2 & H2). rewrite E3. cbn [bind].
        eexists. split; [reflexivity|]. cbn [fst snd]. auto.
      + exists st. auto. }
  destruct G as ([l w] & -> & Hl). cbn [bind fst] in *. eexists. split; [reflexivity|]. cbn [c_rows c_cols c_diag c_vals]. auto.
Qed.

End Ilu.

(** ** Statements used by the properties *)

Lemma pcjacobi_linear n C a c u v x : csr_wf n n C -> one_diag n C -> length u = n -> length v = n -> length x = n ->
  exists P w yu yv yw, pcjacobi_new C = Ok P /\ vaxpy (vscale u a) c v = Ok w /\
    pcjacobi_apply P u x = Ok yu /\ pcjacobi_apply P v x = Ok yv /\ pcjacobi_apply P w x = Ok yw /\
    vaxpy (vscale yu a) c yv = Ok yw.
Proof.
  intros W O Hu Hv Hx. rewrite (pcjacobi_ok W O). set (P := vec n _). exists P.
  assert (LP : length P = n) by apply vec_length.
  assert (AP : forall b, length b = n -> pcjacobi_apply P b x = Ok (vec n (fun i => nth i b 0 * nth i P 0))).
  { intros b Hb. unfold pcjacobi_apply, vcopy, vmul. rewrite vzip_ok by lia. cbn [bind].
    rewrite vzip_ok by (rewrite vec_length; lia). rewrite vec_length, Hx. f_equal. apply vec_ext. intros i Hi. rewrite vec_nth by auto. auto. }
  unfold vaxpy. rewrite vzip_ok by (rewrite vscale_length; lia). eexists _, _, _, _. split; [reflexivity|]. split; [reflexivity|].
  rewrite (AP u Hu), (AP v Hv), AP by (rewrite vec_length, vscale_length; auto).
  do 3 (split; [reflexivity|]). rewrite vzip_ok by (rewrite vscale_length, !vec_length; auto). f_equal.
  rewrite vscale_length, vec_length. apply vec_ext. intros i Hi. rewrite vscale_nth, !vec_nth by (rewrite ?vscale_length; auto; lia).
  rewrite vscale_nth. ring.
Qed.

Lemma ilut_inverts n P b x : system n P b -> length x = n ->
  exists z, ilut_apply P b x = Ok z /\ length z = n /\ forall i, (i < n)%nat -> lux n P z i = cmp b i.
Proof. intros (W & O & D & Hb) Hx. apply ilut_apply_ok; auto. Qed.

Lemma ilu0_apply_char n P b x y0 : system n P b -> length x = n -> length y0 = n ->
  exists z y, ilu0_apply P b x y0 = Ok z /\ length z = n /\
    (forall i, (i < n)%nat -> rsum n (fun j => low P i j * cmp y j) = cmp b i) /\
    (forall i, (i < n)%nat -> rsum n (fun j => upp P i j * cmp z j) = (1 - mentry P i i) * cmp y i).
Proof.
  intros (W & O & D & Hb) Hx Hy. destruct (ilu0_apply_ok W O D Hb Hx Hy) as (z & y & E & Hz & _ & F & B). exists z, y. auto.
Qed.

Lemma ilu0_apply_wrong n P b x y0 z : system n P b -> length x = n -> length y0 = n -> ilu0_apply P b x y0 = Ok z ->
  (exists i, (i < n)%nat /\ cmp b i <> 0) -> ~ (forall i, (i < n)%nat -> lux n P z i = cmp b i).
Proof. intros (W & O & D & Hb) Hx Hy. apply ilu0_apply_never; auto. Qed.

Lemma ilu0_upper n C b : system n C b ->
  exists P, ilu0 C = Ok P /\ system n P b /\ forall i j, (i < n)%nat -> (i <= j)%nat -> mentry P i j = mentry C i j.
Proof.
  intros (W & O & D & Hb). destruct (ilu0_ok W O D) as (P & E & Er & Ec & Ed & L & U). exists P. split; auto.
  assert (Lo : forall i, row_lo P i = row_lo C i) by (intros; unfold row_lo; rewrite Er; auto).
  assert (Hi' : forall i, row_hi P i = row_hi C i) by (intros; unfold row_hi; rewrite Er; auto).
  assert (Co : forall p, col_at P p = col_at C p) by (intros; unfold col_at; rewrite Ec; auto).
  assert (M : forall i j, (i < n)%nat -> (i <= j)%nat -> mentry P i j = mentry C i j).
  { intros i j Hi Hj. unfold mentry. rewrite Lo, Hi'. apply rsum_ext. intros k Hk. rewrite Co.
    destruct (Z.eqb_spec (col_at C (row_lo C i + k)) (Z.of_nat j)) as [Q|]; auto. apply U.
    destruct (wf_diag W Hi) as (d & Eq & _ & Hd & Eqc). exists i, d. repeat split; auto; [|lia].
    destruct (le_lt_dec d (row_lo C i + k)) as [|Lt]; auto. exfalso.
    pose proof (@cols_below _ _ W i d (row_lo C i + k) O Hi Eq ltac:(lia)). lia. }
  split; [|auto]. split; [|split; [|split; [|auto]]].
  - destruct W as (W1 & W2 & W3 & W4 & W5). unfold csr_wf. rewrite Er, Ec, Ed. repeat split; auto; try lia; try apply (W5 i); auto.
  - intros i p Hi Hp Q. rewrite Ed. apply O; auto; rewrite <- ?Lo, <- ?Hi', <- ?Co; auto.
  - intros i Hi. rewrite M by lia. apply D. auto.
Qed.

(** A 2x2 tridiagonal matrix [[1,1],[1,2]]; its exact factors have no fill. *)
Definition ex2 : csr :=
  {| c_rows := [0; 2; 4]%nat; c_cols := [0; 1; 0; 1]%Z; c_vals := [1; 1; 1; 2]; c_diag := [Some 0; Some 3]%nat |}.
Lemma ex2_entries : mentry ex2 0 0 = 1 /\ mentry ex2 0 1 = 1 /\ mentry ex2 1 0 = 1 /\ mentry ex2 1 1 = 2.
Proof. unfold mentry, row_lo, row_hi, col_at, val_at. cbn. repeat split; ring. Qed.
Lemma ex2_system b : length b = 2%nat -> system 2 ex2 b.
Proof.
  intros Hb. destruct ex2_entries as (E00 & E01 & E10 & E11). split; [|split; [|split; auto]].
  - do 4 (split; [reflexivity|]). intros i Hi. destruct i as [|[|i]]; [| |lia]; cbn [nth c_rows ex2 c_cols c_diag]; (split; [lia|]); (split; [|split]).
    + intros p Hp. destruct p as [|[|p]]; [| |lia]; cbn; lia.
    + intros p q H1 H2 H3. destruct p as [|[|p]]; destruct q as [|[|q]]; try lia; cbn; lia.
    + intros _. exists 0%nat. cbn. repeat split; lia.
    + intros p Hp. destruct p as [|[|[|[|p]]]]; try lia; cbn; lia.
    + intros p q H1 H2 H3. destruct p as [|[|[|[|p]]]]; destruct q as [|[|[|[|q]]]]; try lia; cbn; lia.
    + intros _. exists 3%nat. cbn. repeat split; lia.
  - intros i p Hi Hp Q. unfold row_lo, row_hi, col_at in *. destruct i as [|[|i]]; [| |lia]; cbn [nth c_rows ex2 c_cols] in Hp, Q.
    + destruct p as [|[|p]]; cbn in *; try lia; auto.
    + destruct p as [|[|[|[|p]]]]; cbn in *; try lia; auto.
  - intros i Hi. destruct i as [|[|i]]; [rewrite E00|rewrite E11|lia]; lra.
Qed.

Lemma ilu0_ex2 : exists P, ilu0 ex2 = Ok P /\ c_vals P = [1; 1; 1 / 1; 2] /\ lu 2 P 1 1 = 3 /\ mentry ex2 1 1 = 2.
Proof.
  unfold ilu0, for_, csr_n. cbn. change (Pos.to_nat 1) with 1%nat. cbn. destruct (Req_EM_T 2 0) as [Q|_]; [exfalso; lra|]. cbn. eexists. split; [reflexivity|].
  split; [reflexivity|]. split; [|apply ex2_entries]. unfold lu, low, upp, mentry, row_lo, row_hi, col_at, val_at. cbn. field.
Qed.

(** Building and applying the preconditioner does not solve the tridiagonal system. *)
Lemma ilu0_solve_wrong : exists b P z,
  system 2 ex2 b /\ (exists x, solves 2 ex2 b x /\ length x = 2%nat) /\ ilu0 ex2 = Ok P /\ ilu0_apply P b [0; 0] [0; 0] = Ok z /\
  ~ solves 2 ex2 b z.
Proof.
  destruct ex2_entries as (E00 & E01 & E10 & E11). exists [1; 1].
  unfold ilu0, for_, csr_n. cbn. change (Pos.to_nat 1) with 1%nat. cbn. destruct (Req_EM_T 2 0) as [Q|_]; [exfalso; lra|]. cbn. eexists _, _.
  split; [apply ex2_system; auto|]. split.
  { exists [1; 0]. split; auto. intros i Hi. unfold ax, cmp. destruct i as [|[|i]]; [| |lia]; cbn [rsum nth]; rewrite ?E00, ?E01, ?E10, ?E11; ring. }
  split; [reflexivity|]. split.
  { unfold ilu0_apply, forward, backward, csr_take, for_, csr_n. cbn. change (Pos.to_nat 1) with 1%nat. cbn. reflexivity. }
  intros H. specialize (H 0%nat ltac:(lia)). unfold ax, cmp in H. cbn [rsum nth] in H. rewrite E00, E01 in H. field_simplify in H. lra.
Qed.

(** A preconditioner requested through the database is built but never used;
    one set directly is. *)
Lemma db_pc_ignored P (q : P) side : ls_pc (set_operators (Some q) side (ls_new P)) = Some q /\
  left_pc (set_operators (Some q) side (ls_new P)) = None.
Proof. split; reflexivity. Qed.
Lemma direct_pc_used P (q : P) s side req : left_pc (set_preconditioner q LEFT s) = Some q /\
  left_pc (set_operators req side (set_preconditioner q LEFT s)) = match req with Some r => Some r | None => Some q end.
Proof. split; [reflexivity|]. destruct req; reflexivity. Qed.

Lemma db_pc_refuted : exists (P : Type) (q : P) side, side <> NONE /\
  ls_pc (set_operators (Some q) side (ls_new P)) = Some q /\ left_pc (set_operators (Some q) side (ls_new P)) = None.
Proof. exists nat, 7%nat, LEFT. repeat split; discriminate || auto. Qed.

Lemma limit_one_refuted : exists p b x x' m, p_maxit p = 1%nat /\ p_norm p = L1 /\ system 2 ex2 b /\
  gauss_seidel p false ex2 1 b x {| m_status := RUNNING; m_iters := 0; m_res := [] |} = Ok (x', m) /\
  m_iters m = p_maxit p /\ threshold p (nth 0 (m_res m) 0) <= gnorm (p_norm p) 2 (resid 2 ex2 b x') /\ m_status m <> MAXIT.
Proof.
  destruct ex2_entries as (E00 & E01 & E10 & E11).
  set (p := {| p_atol := 1 / 10; p_rtol := 0; p_maxit := 1; p_diverge := false; p_norm := L1 |}).
  destruct (@gs_limit_one p false 2 ex2 1 [1; 1] [0; 1] {| m_status := RUNNING; m_iters := 0; m_res := [] |}
    (@ex2_system [1; 1] eq_refl)) as (x' & m & E & Ei & (L & z & Lz & T & U) & Rn & E0 & St); try reflexivity; [constructor|].
  exists p, [1; 1], [0; 1], x', m. do 2 (split; [reflexivity|]). split; [apply ex2_system; auto|]. split; [exact E|]. split; [exact Ei|].
  assert (Q : threshold p (nth 0 (m_res m) 0) <= gnorm (p_norm p) 2 (resid 2 ex2 [1; 1] x')).
  { unfold threshold. cbn [p p_rtol p_atol p_norm]. rewrite Rmult_0_l, Rmax_right by lra.
    pose proof (T 0%nat ltac:(lia)) as T0. pose proof (T 1%nat ltac:(lia)) as T1. cbn [rsum Nat.leb] in T0, T1.
    rewrite E00, E01 in T0. rewrite E10, E11 in T1. unfold cmp in T0, T1. cbn [nth] in T0, T1. fold (cmp z 0) (cmp z 1) in *.
    pose proof (U 0%nat ltac:(lia)) as U0. pose proof (U 1%nat ltac:(lia)) as U1.
    unfold cmp at 2 in U0. unfold cmp at 2 in U1. fold (cmp z 0) in U0. fold (cmp z 1) in U1.
    assert (X0 : cmp x' 0 = 0) by (rewrite U0; unfold cmp in *; cbn [nth]; lra).
    assert (X1 : cmp x' 1 = 1 / 2) by (rewrite U1; unfold cmp in *; cbn [nth]; lra).
    cbn [gnorm rsum]. unfold resid, ax. cbn [rsum]. rewrite E00, E01, E10, E11, X0, X1. unfold cmp. cbn [nth].
    rewrite Rplus_0_l. rewrite Rabs_left by lra. rewrite Rabs_pos_eq by lra. lra. }
  split; [exact Q|]. unfold resnorm in Rn. rewrite <- Rn in Q. rewrite (St Q). discriminate.
Qed.

(** A second solve that converges at once reports the iteration count of the first. *)
Lemma stale_iterations_refuted : exists p mul op b x x' m prev, is_op 1 mul op /\ (2 <= p_maxit p)%nat /\
  richardson p mul None 1 b x prev = Ok (x', m) /\ m_status m = SUCCESS /\ x' = x /\ m_iters m = 7%nat.
Proof.
  set (p := {| p_atol := 1; p_rtol := 0; p_maxit := 10; p_diverge := false; p_norm := L2 |}).
  set (mul := fun x => Ok (vec 1 (cmp x)) : res (list R)).
  assert (Hop : is_op 1 mul cmp) by (intros x Hx; reflexivity).
  destruct (@rich_solve p 1 mul cmp 1 [1] [1] {| m_status := SUCCESS; m_iters := 7; m_res := [] |}) as (x' & m & E & _ & Q & _);
    auto; try (cbn; lia); try constructor.
  exists p, mul, cmp, [1], [1], x', m, {| m_status := SUCCESS; m_iters := 7; m_res := [] |}.
  destruct Q as (-> & St & Ei).
  { replace (gnorm L2 1 (fun i => cmp [1] i - cmp [1] i)) with 0; [cbn; rewrite Rmult_0_r; lra|].
    symmetry. apply gnorm_zero. intros i Hi. ring. }
  split; [exact Hop|]. split; [cbn; lia|]. auto.
Qed.
