(** * Proofs about the linear solvers *)
From Verif Require Import Base BaseR Loop Matrix_Model Matrix_Spec Matrix_Proofs Vector_Model Vector_Spec Vector_Proofs
  Solver_Model Solver_Spec.
Set Implicit Arguments. Unset Strict Implicit.
Open Scope R_scope.

Lemma vec_same n x : length x = n -> vec n (cmp x) = x.
Proof. intros <-. symmetry. apply vec_self. Qed.

(** ** Rows of an assembled matrix *)

Section Rows.
Variables (n : nat) (C : csr).
Hypothesis W : csr_wf n n C.

Lemma wf_n : csr_n C = n.
Proof. destruct W as (L & _). unfold csr_n. lia. Qed.

Lemma wf_row i : (i < n)%nat -> (row_lo C i < row_hi C i)%nat.
Proof. intros H. destruct W as (_ & _ & _ & _ & F). apply (F i H). Qed.

Lemma wf_hi_le i : (i < n)%nat -> (row_hi C i <= length (c_cols C))%nat.
Proof.
  destruct W as (L & _ & E & _ & F). intros H. rewrite <- E.
  assert (G : forall k j, (j + k = n)%nat -> (nth j (c_rows C) 0 <= nth n (c_rows C) 0)%nat).
  { induction k as [|k IH]; intros j Ej; [replace j with n by lia; lia|].
    assert (Hj : (j < n)%nat) by lia. pose proof (proj1 (F j Hj)) as A. cbn zeta in A.
    specialize (IH (S j) ltac:(lia)). lia. }
  apply (G (n - S i)%nat (S i)). lia.
Qed.

Lemma wf_rd_rows i : (i <= n)%nat -> rd (c_rows C) i = Ok (nth i (c_rows C) 0%nat).
Proof. intros H. apply rd_ok. destruct W as (L & _). lia. Qed.

Lemma wf_col i p : (i < n)%nat -> (row_lo C i <= p < row_hi C i)%nat -> (0 <= col_at C p < Z.of_nat n)%Z.
Proof. intros H Hp. destruct W as (_ & _ & _ & _ & F). apply (proj1 (proj2 (F i H)) p Hp). Qed.

Lemma wf_rd_col i p : (i < n)%nat -> (row_lo C i <= p < row_hi C i)%nat -> rd (c_cols C) p = Ok (col_at C p).
Proof. intros H Hp. apply rd_ok. pose proof (wf_hi_le H). lia. Qed.

Lemma wf_rd_val i p : (i < n)%nat -> (row_lo C i <= p < row_hi C i)%nat -> rd (c_vals C) p = Ok (val_at C p).
Proof.
  intros H Hp. apply rd_ok. pose proof (wf_hi_le H). destruct W as (_ & _ & _ & L & _). lia.
Qed.

Lemma wf_sorted i p q : (i < n)%nat -> (row_lo C i <= p)%nat -> (p < q)%nat -> (q < row_hi C i)%nat ->
  (col_at C p <= col_at C q)%Z.
Proof. intros H. destruct W as (_ & _ & _ & _ & F). apply (proj1 (proj2 (proj2 (F i H)))). Qed.

Lemma wf_diag i : (i < n)%nat -> exists d, nth_error (c_diag C) i = Some (Some d) /\ csr_diag_at C i = Ok d /\
  (row_lo C i <= d < row_hi C i)%nat /\ col_at C d = Z.of_nat i.
Proof.
  intros H. destruct W as (_ & _ & _ & _ & F).
  destruct (proj2 (proj2 (proj2 (F i H))) H) as (d & E & Hd & Ec). exists d. repeat split; auto; try apply Hd.
  unfold csr_diag_at, rd. rewrite E. reflexivity.
Qed.

(** Stored sum over a range of positions of a row. *)
Definition psum_row (x : list R) (a b : nat) : R :=
  rsum (b - a) (fun k => val_at C (a + k) * at_col x (col_at C (a + k))).

Lemma csr_sum_ok i x a b v : (i < n)%nat -> length x = n -> (row_lo C i <= a)%nat -> (a <= b)%nat -> (b <= row_hi C i)%nat ->
  csr_sum C x a b v = Ok (v + psum_row x a b).
Proof.
  intros Hi Hx Ha Hab Hb. unfold csr_sum.
  destruct (@for_inv R (fun q s => s = v + psum_row x a q) a b v
    (fun p v => do j <- rd (c_cols C) p; do w <- rd (c_vals C) p; do xj <- rdz x j; Ok (v + w * xj)) Hab)
    as (s & E & Hs).
  - unfold psum_row. rewrite Nat.sub_diag. simpl. ring.
  - intros q s Hq ->. rewrite (wf_rd_col Hi), (wf_rd_val Hi) by lia. cbn [bind].
    rewrite (rdz_ok Hx (wf_col Hi (p := q) ltac:(lia))). cbn [bind]. eexists. split; [reflexivity|].
    unfold psum_row. replace (S q - a)%nat with (S (q - a)) by lia. cbn [rsum].
    replace (a + (q - a))%nat with q by lia. ring.
  - rewrite E, Hs. reflexivity.
Qed.

Lemma psum_row_split x a b c : (a <= b)%nat -> (b <= c)%nat -> psum_row x a c = psum_row x a b + psum_row x b c.
Proof.
  intros H1 H2. unfold psum_row. replace (c - a)%nat with ((b - a) + (c - b))%nat by lia.
  rewrite rsum_split. f_equal. apply rsum_ext. intros k Hk. replace (a + (b - a + k))%nat with (b + k)%nat by lia. reflexivity.
Qed.

Lemma psum_row_one x d : psum_row x d (S d) = val_at C d * at_col x (col_at C d).
Proof. unfold psum_row. replace (S d - d)%nat with 1%nat by lia. simpl. rewrite Nat.add_0_r. ring. Qed.

(** Summing the columns of row i with weights g. *)
Lemma row_by_cols i g : (i < n)%nat ->
  rsum (row_hi C i - row_lo C i) (fun k => val_at C (row_lo C i + k) * g (Z.to_nat (col_at C (row_lo C i + k)))) =
  rsum n (fun j => mentry C i j * g j).
Proof.
  intros Hi. set (m := (row_hi C i - row_lo C i)%nat).
  rewrite (@rsum_ext n (fun j => mentry C i j * g j)
    (fun j => rsum m (fun k => (if (col_at C (row_lo C i + k) =? Z.of_nat j)%Z then val_at C (row_lo C i + k) else 0) * g j))).
  2:{ intros j Hj. unfold mentry. fold m. rewrite rsum_scal_r. reflexivity. }
  rewrite rsum_swap. apply rsum_ext. intros k Hk.
  pose proof (@wf_col i (row_lo C i + k) Hi ltac:(unfold m in Hk; lia)) as Hc.
  set (c := col_at C (row_lo C i + k)) in *.
  rewrite (@rsum_ext n _ (fun j => if (j =? Z.to_nat c)%nat then val_at C (row_lo C i + k) * g (Z.to_nat c) else 0)).
  - symmetry. apply rsum_delta. lia.
  - intros j Hj. destruct (Z.eqb_spec c (Z.of_nat j)); destruct (Nat.eqb_spec j (Z.to_nat c)); subst; try lia; try ring.
Qed.

Lemma psum_row_ax i x : (i < n)%nat -> psum_row x (row_lo C i) (row_hi C i) = ax n C x i.
Proof. intros Hi. unfold psum_row, ax, at_col. apply (@row_by_cols i (cmp x) Hi). Qed.

Lemma multiply_wf x : length x = n -> multiply C x = Ok (vec n (ax n C x)).
Proof.
  intros Hx. unfold multiply, vec. destruct W as (L & _). rewrite L. replace (S n - 1)%nat with n by lia.
  apply mapM_ok. intros i Hi. apply in_seq in Hi. rewrite !wf_rd_rows by lia. cbn [bind].
  assert (Hi' : (i < n)%nat) by lia. rewrite <- (psum_row_ax x Hi').
  pose proof (wf_row Hi') as Hr.
  transitivity (csr_sum C x (row_lo C i) (row_hi C i) 0).
  - unfold mult_row, csr_sum, for_. fold (row_lo C i) (row_hi C i).
    assert (G : forall l s, foldM (fun temp p => do j <- rd (c_cols C) p; do v <- rd (c_vals C) p; do xj <- rdz x j; Ok (temp + xj * v)) l s
      = foldM (fun s p => do j <- rd (c_cols C) p; do w <- rd (c_vals C) p; do xj <- rdz x j; Ok (s + w * xj)) l s).
    { induction l as [|a l IH]; intros s; [reflexivity|]. cbn [foldM].
      destruct (rd (c_cols C) a); cbn [bind]; auto. destruct (rd (c_vals C) a); cbn [bind]; auto.
      destruct (rdz x a0); cbn [bind]; auto. rewrite (Rmult_comm a2 a1). apply IH. }
    apply G.
  - rewrite (@csr_sum_ok i) by (auto; lia). f_equal. ring.
Qed.

(** The stored diagonal value when it is stored once. *)
Lemma diag_val i d : one_diag n C -> (i < n)%nat -> nth_error (c_diag C) i = Some (Some d) -> mentry C i i = val_at C d.
Proof.
  intros O Hi E. destruct (wf_diag Hi) as (d' & E' & _ & Hd & Ec). rewrite E in E'. inversion E'; subst d'.
  unfold mentry. rewrite (@rsum_ext _ _ (fun k => if (k =? d - row_lo C i)%nat then val_at C d else 0)).
  - apply rsum_delta. lia.
  - intros k Hk. destruct (Nat.eqb_spec k (d - row_lo C i)) as [->|Ne].
    + replace (row_lo C i + (d - row_lo C i))%nat with d by lia. rewrite Ec, Z.eqb_refl. reflexivity.
    + destruct (Z.eqb_spec (col_at C (row_lo C i + k)) (Z.of_nat i)) as [Ei|]; auto.
      pose proof (O i (row_lo C i + k)%nat Hi ltac:(lia) Ei) as E2. rewrite E in E2. inversion E2. lia.
Qed.

(** Positions before the diagonal hold columns below i; after it, above. *)
Lemma cols_below i d p : one_diag n C -> (i < n)%nat -> nth_error (c_diag C) i = Some (Some d) ->
  (row_lo C i <= p < d)%nat -> (col_at C p < Z.of_nat i)%Z.
Proof.
  intros O Hi E Hp. destruct (wf_diag Hi) as (d' & E' & _ & Hd & Ec). rewrite E in E'. inversion E'; subst d'.
  pose proof (@wf_sorted i p d Hi ltac:(lia) ltac:(lia) ltac:(lia)) as S1. rewrite Ec in S1.
  destruct (Z.eq_dec (col_at C p) (Z.of_nat i)) as [Ei|]; [|lia].
  pose proof (O i p Hi ltac:(lia) Ei) as E2. rewrite E in E2. inversion E2. lia.
Qed.
Lemma cols_above i d p : one_diag n C -> (i < n)%nat -> nth_error (c_diag C) i = Some (Some d) ->
  (d < p < row_hi C i)%nat -> (Z.of_nat i < col_at C p)%Z.
Proof.
  intros O Hi E Hp. destruct (wf_diag Hi) as (d' & E' & _ & Hd & Ec). rewrite E in E'. inversion E'; subst d'.
  pose proof (@wf_sorted i d p Hi ltac:(lia) ltac:(lia) ltac:(lia)) as S1. rewrite Ec in S1.
  destruct (Z.eq_dec (col_at C p) (Z.of_nat i)) as [Ei|]; [|lia].
  pose proof (O i p Hi ltac:(lia) Ei) as E2. rewrite E in E2. inversion E2. lia.
Qed.

(** Row i split at the diagonal, with different vectors below and above. *)
Lemma row_split i d g u v : one_diag n C -> (i < n)%nat -> nth_error (c_diag C) i = Some (Some d) ->
  psum_row u (row_lo C i) d + val_at C d * g + psum_row v (S d) (row_hi C i) =
  rsum n (fun j => mentry C i j * (if (j <? i)%nat then cmp u j else if (j =? i)%nat then g else cmp v j)).
Proof.
  intros O Hi E. destruct (wf_diag Hi) as (d' & E' & _ & Hd & Ec). rewrite E in E'. inversion E'; subst d'.
  set (h := fun j => if (j <? i)%nat then cmp u j else if (j =? i)%nat then g else cmp v j).
  change (psum_row u (row_lo C i) d + val_at C d * g + psum_row v (S d) (row_hi C i) = rsum n (fun j => mentry C i j * h j)).
  rewrite <- (row_by_cols h Hi).
  replace (row_hi C i - row_lo C i)%nat with ((d - row_lo C i) + (1 + (row_hi C i - S d)))%nat by lia.
  rewrite rsum_split, rsum_split. rewrite Rplus_assoc. f_equal; [|f_equal].
  - unfold psum_row. apply rsum_ext. intros k Hk. f_equal. unfold h, at_col, cmp.
    pose proof (@cols_below i d (row_lo C i + k) O Hi E ltac:(lia)).
    pose proof (@wf_col i (row_lo C i + k) Hi ltac:(lia)).
    replace (Z.to_nat (col_at C (row_lo C i + k)) <? i)%nat with true by (symmetry; apply Nat.ltb_lt; lia). reflexivity.
  - simpl. replace (row_lo C i + (d - row_lo C i + 0))%nat with d by lia. rewrite Ec, Nat2Z.id. unfold h.
    rewrite Nat.ltb_irrefl, Nat.eqb_refl. ring.
  - unfold psum_row. apply rsum_ext. intros k Hk.
    replace (row_lo C i + (d - row_lo C i + (1 + k)))%nat with (S d + k)%nat by lia. f_equal. unfold h, at_col, cmp.
    pose proof (@cols_above i d (S d + k) O Hi E ltac:(lia)).
    pose proof (@wf_col i (S d + k) Hi ltac:(lia)).
    replace (Z.to_nat (col_at C (S d + k)) <? i)%nat with false by (symmetry; apply Nat.ltb_ge; lia).
    replace (Z.to_nat (col_at C (S d + k)) =? i)%nat with false by (symmetry; apply Nat.eqb_neq; lia). reflexivity.
Qed.

End Rows.

(** ** Jacobi *)

Lemma jacobi_row_ok n C w b x i : csr_wf n n C -> length b = n -> length x = n -> (i < n)%nat ->
  exists d, nth_error (c_diag C) i = Some (Some d) /\
    (val_at C d <> 0 -> jacobi_row C w b x i = Ok (cmp x i + w * (cmp b i - ax n C x i) / val_at C d)).
Proof.
  intros W Hb Hx Hi. destruct (wf_diag W Hi) as (d & E & Ed & Hd & Ec). exists d. split; auto. intros Hn.
  unfold jacobi_row. rewrite !(wf_rd_rows W) by lia. rewrite Ed. cbn [bind].
  fold (row_lo C i) (row_hi C i).
  rewrite (@csr_sum_ok _ _ W i) by (auto; lia). cbn [bind].
  rewrite (@csr_sum_ok _ _ W i) by (auto; lia). cbn [bind].
  rewrite (@rd_ok _ b i 0) by lia. rewrite (wf_rd_val W Hi Hd). rewrite (@rd_ok _ x i 0) by lia. cbn [bind].
  f_equal. rewrite <- (psum_row_ax W x Hi).
  rewrite (@psum_row_split C x (row_lo C i) d (row_hi C i)) by lia.
  rewrite (@psum_row_split C x d (S d) (row_hi C i)) by lia.
  rewrite psum_row_one, Ec. unfold at_col. rewrite Nat2Z.id. unfold cmp. field. auto.
Qed.

Lemma jacobi_step_ok n C w b x : system n C b -> length x = n ->
  jacobi_step C w b x = Ok (vec n (fun i => cmp x i + w * (cmp b i - ax n C x i) / mentry C i i)).
Proof.
  intros (W & O & D & Hb) Hx. unfold jacobi_step. rewrite (wf_n W). apply mapM_ok. intros i Hi. apply in_seq in Hi.
  destruct (jacobi_row_ok w W Hb Hx (i := i) ltac:(lia)) as (d & E & G).
  assert (Hi' : (i < n)%nat) by lia. specialize (D i Hi'). rewrite (diag_val W O Hi' E) in *. auto.
Qed.

Lemma ax_split n C x i : (i < n)%nat ->
  ax n C x i = mentry C i i * cmp x i + rsum n (fun j => if (j =? i)%nat then 0 else mentry C i j * cmp x j).
Proof.
  intros Hi. unfold ax.
  rewrite (@rsum_ext n _ (fun j => (if (j =? i)%nat then mentry C i i * cmp x i else 0) +
    (if (j =? i)%nat then 0 else mentry C i j * cmp x j))).
  - rewrite rsum_plus. f_equal. apply rsum_delta. auto.
  - intros j Hj. destruct (Nat.eqb_spec j i) as [->|]; ring.
Qed.

Lemma jacobi_update_ok n C w b x : system n C b -> length x = n ->
  exists y, jacobi_step C w b x = Ok y /\ jacobi_update n C w b x y.
Proof.
  intros S0 Hx. rewrite (jacobi_step_ok w S0 Hx). eexists. split; [reflexivity|].
  destruct S0 as (W & O & D & Hb). split; [apply vec_length|]. intros i Hi. unfold cmp at 1. rewrite vec_nth by auto.
  rewrite (ax_split C x Hi). pose proof (D i Hi). field. auto.
Qed.

Lemma jacobi_fix n C w b x y : system n C b -> w <> 0 -> length x = n -> jacobi_step C w b x = Ok y ->
  (y = x <-> solves n C b x).
Proof.
  intros S0 Hw Hx. rewrite (jacobi_step_ok w S0 Hx). intros E. inversion E; subst y. clear E.
  destruct S0 as (W & O & D & Hb). split.
  - intros E i Hi. pose proof (vec_eq (eq_trans E (eq_sym (vec_same Hx))) Hi) as Q. cbn beta in Q. pose proof (D i Hi) as Dn.
    assert (Z : w * (cmp b i - ax n C x i) / mentry C i i = 0) by lra.
    apply (f_equal (fun t => t * mentry C i i)) in Z. unfold Rdiv in Z. rewrite Rmult_assoc, Rinv_l, Rmult_1_r, Rmult_0_l in Z by auto.
    apply Rmult_integral in Z. lra.
  - intros HS. transitivity (vec n (cmp x)); [|apply vec_same; auto]. apply vec_ext. intros i Hi. rewrite (HS i Hi). unfold Rdiv. ring.
Qed.

(** ** Gauss-Seidel *)

Lemma gs_sweep_ok n C b x0 x1 : system n C b -> length x0 = n -> length x1 = n ->
  exists z, gs_sweep C b x0 x1 = Ok z /\ length z = n /\
    forall i, (i < n)%nat -> rsum n (fun j => mentry C i j * (if (j <=? i)%nat then cmp z j else cmp x0 j)) = cmp b i.
Proof.
  intros (W & O & D & Hb) H0 H1. unfold gs_sweep. rewrite (wf_n W).
  destruct (@for_inv (list R) (fun k z => length z = n /\
    forall i, (i < k)%nat -> rsum n (fun j => mentry C i j * (if (j <=? i)%nat then cmp z j else cmp x0 j)) = cmp b i)
    0 n x1 (gs_row C b x0) ltac:(lia)) as (z & E & Hl & Hz).
  - split; auto. intros; lia.
  - intros i z [_ Hi] [Hl Hz]. unfold gs_row. destruct (wf_diag W Hi) as (d & E & Ed & Hd & Ec).
    rewrite !(wf_rd_rows W) by lia. rewrite Ed. cbn [bind]. fold (row_lo C i) (row_hi C i).
    rewrite (@csr_sum_ok _ _ W i) by (auto; lia). cbn [bind].
    rewrite (@csr_sum_ok _ _ W i) by (auto; lia). cbn [bind].
    rewrite (@rd_ok _ b i 0) by lia. rewrite (wf_rd_val W Hi Hd). cbn [bind].
    pose proof (D i Hi) as Dn. rewrite (diag_val W O Hi E) in Dn.
    set (g := (nth i b 0 - (0 + psum_row C z (row_lo C i) d + psum_row C x0 (S d) (row_hi C i))) / val_at C d).
    unfold wr. rewrite Hl, (proj2 (Nat.ltb_lt i n) Hi). eexists. split; [reflexivity|]. split; [rewrite upd_length; auto|].
    intros k Hk. destruct (Nat.eq_dec k i) as [->|Nk].
    + transitivity (psum_row C z (row_lo C i) d + val_at C d * g + psum_row C x0 (S d) (row_hi C i)).
      2:{ unfold g, cmp. field. auto. }
      rewrite (@row_split _ _ W i d g z x0 O Hi E). apply rsum_ext. intros j Hj. f_equal. unfold cmp.
      destruct (Nat.leb_spec j i); destruct (Nat.ltb_spec j i); destruct (Nat.eqb_spec j i); subst; try lia; auto.
      * apply nth_upd_neq. auto.
      * rewrite nth_upd_eq by lia. reflexivity.
    + rewrite <- (Hz k ltac:(lia)). apply rsum_ext. intros j Hj. f_equal.
      destruct (Nat.leb_spec j k); auto. unfold cmp. apply nth_upd_neq. lia.
  - exists z. auto.
Qed.

(** The triangular equations determine the new iterate. *)
Lemma gs_unique n C (b x z z' : list R) : diag_nz n C ->
  (forall i, (i < n)%nat -> rsum n (fun j => mentry C i j * (if (j <=? i)%nat then cmp z j else cmp x j)) = cmp b i) ->
  (forall i, (i < n)%nat -> rsum n (fun j => mentry C i j * (if (j <=? i)%nat then cmp z' j else cmp x j)) = cmp b i) ->
  forall i, (i < n)%nat -> cmp z i = cmp z' i.
Proof.
  intros D H1 H2 i. induction i as [i IH] using lt_wf_ind. intros Hi.
  pose proof (H1 i Hi) as A. rewrite <- (H2 i Hi) in A. clear H1 H2.
  assert (Z : rsum n (fun j => if (j =? i)%nat then mentry C i i * (cmp z i - cmp z' i) else 0) = 0).
  { apply Rminus_diag_eq in A. rewrite <- rsum_minus in A. etransitivity; [|exact A]. apply rsum_ext. intros j Hj. cbn beta.
    destruct (Nat.eqb_spec j i) as [->|Ne].
    - rewrite Nat.leb_refl. ring.
    - destruct (Nat.leb_spec j i); [|ring]. rewrite (IH j) by lia. ring. }
  rewrite rsum_delta in Z by auto. apply Rmult_integral in Z. pose proof (D i Hi). destruct Z; [contradiction|lra].
Qed.

Lemma gs_step_ok n C w b x0 x1 : system n C b -> length x0 = n -> length x1 = n ->
  exists y, gs_step C w b x0 x1 = Ok y /\ gs_update n C w b x0 y.
Proof.
  intros S0 H0 H1. destruct (gs_sweep_ok S0 H0 H1) as (z & E & Hl & Hz). unfold gs_step. rewrite E. cbn [bind].
  destruct (Req_EM_T w 1) as [->|Nw].
  - exists z. split; auto. split; auto. exists z. repeat split; auto. intros i Hi. ring.
  - unfold vaxpy. rewrite vzip_ok by (rewrite vscale_length; lia). eexists. split; [reflexivity|].
    rewrite vscale_length, Hl. split; [apply vec_length|]. exists z. repeat split; auto. intros i Hi.
    unfold cmp at 1. rewrite vec_nth by auto. rewrite vscale_nth. unfold cmp. ring.
Qed.

Lemma gs_fix n C w b x0 x1 y : system n C b -> w <> 0 -> length x0 = n -> length x1 = n -> gs_step C w b x0 x1 = Ok y ->
  (y = x0 <-> solves n C b x0).
Proof.
  intros S0 Hw H0 H1 E. destruct (gs_step_ok w S0 H0 H1) as (y' & E' & Hy & z & Hz & Tz & Rz).
  rewrite E in E'. inversion E'; subst y'. clear E'. destruct S0 as (W & O & D & Hb).
  assert (Self : solves n C b x0 -> forall i, (i < n)%nat ->
    rsum n (fun j => mentry C i j * (if (j <=? i)%nat then cmp x0 j else cmp x0 j)) = cmp b i).
  { intros HS i Hi. rewrite <- (HS i Hi). apply rsum_ext. intros j Hj. destruct (j <=? i)%nat; auto. }
  split.
  - intros -> i Hi. rewrite <- (Tz i Hi). unfold ax. apply rsum_ext. intros j Hj. f_equal.
    destruct (j <=? i)%nat; auto. pose proof (Rz j Hj) as Q. apply Rmult_eq_reg_l with w; auto. lra.
  - intros HS. pose proof (gs_unique D Tz (Self HS)) as U. apply (@list_ext_nth _ 0); [lia|].
    intros i Hi. rewrite Hy in Hi. change (cmp y i = cmp x0 i). rewrite (Rz i Hi), (U i Hi). ring.
Qed.

(** ** Richardson, for any operator *)

Lemma rich_step_ok n mul op w b x : is_op n mul op -> length b = n -> length x = n ->
  rich_step mul None w (vscale b w) x = Ok (vec n (fun i => cmp x i + w * (cmp b i - op x i))).
Proof.
  intros HO Hb Hx. unfold rich_step. rewrite (HO x Hx). cbn [bind].
  unfold vsub. rewrite vzip_ok by (rewrite vscale_length, vec_length; auto). cbn [bind].
  rewrite vscale_length, vec_length.
  rewrite vzip_ok by (rewrite vscale_length, vec_length; auto). cbn [bind]. rewrite vec_length.
  rewrite vscale_vec, vec_length. f_equal. apply vec_ext. intros i Hi.
  rewrite !vec_nth by auto. rewrite !vscale_nth, vec_nth by auto. unfold cmp. ring.
Qed.

Lemma rich_fix n mul op w b x y : is_op n mul op -> w <> 0 -> length b = n -> length x = n ->
  rich_step mul None w (vscale b w) x = Ok y -> (y = x <-> forall i, (i < n)%nat -> op x i = cmp b i).
Proof.
  intros HO Hw Hb Hx. rewrite (rich_step_ok w HO Hb Hx). intros E. inversion E; subst y. clear E. split.
  - intros E i Hi. pose proof (vec_eq (eq_trans E (eq_sym (vec_same Hx))) Hi) as Q. cbn beta in Q. assert (Z : w * (cmp b i - op x i) = 0) by lra.
    apply Rmult_integral in Z. lra.
  - intros HS. transitivity (vec n (cmp x)); [|apply vec_same; auto]. apply vec_ext. intros i Hi. rewrite (HS i Hi). ring.
Qed.

Lemma multiply_is_op n C : csr_wf n n C -> is_op n (multiply C) (ax n C).
Proof. intros W x Hx. apply multiply_wf; auto. Qed.

(** ** Monitors *)

Lemma ltb_true a b : ltb a b = true <-> a < b.
Proof. unfold ltb. destruct (Rlt_dec a b); split; intros; auto; congruence. Qed.
Lemma ltb_false a b : ltb a b = false <-> b <= a.
Proof. unfold ltb. destruct (Rlt_dec a b); split; intros; auto; try congruence; lra. Qed.

Lemma wr_ok A (l : list A) i v : (i < length l)%nat -> wr l i v = Ok (upd l i v).
Proof. intros H. unfold wr. rewrite (proj2 (Nat.ltb_lt _ _) H). reflexivity. Qed.

Definition judged (p : params) (b : bool) (m : mon) : Prop :=
  let r k := nth k (m_res m) 0 in
  let k := m_iters m in
  match m_status m with
  | SUCCESS => b = true /\ r k < threshold p (r 0%nat)
  | DIVERGE => b = true /\ p_diverge p = true /\ (1 < k)%nat /\ r (k - 1)%nat < r k /\ threshold p (r 0%nat) <= r k
  | MAXIT => b = true /\ S k = p_maxit p /\ threshold p (r 0%nat) <= r k
  | RUNNING => b = false /\ S k <> p_maxit p /\ threshold p (r 0%nat) <= r k
  end.

Lemma monitor_ok p it r m : (1 <= it)%nat -> (it < length (m_res m))%nat ->
  exists b m', monitor p it r m = Ok (b, m') /\ m_iters m' = it /\ m_res m' = upd (m_res m) it r /\ judged p b m'.
Proof.
  intros H1 H2. unfold monitor. rewrite wr_ok by auto. cbn [bind].
  assert (L : length (upd (m_res m) it r) = length (m_res m)) by apply upd_length.
  rewrite (@rd_ok _ _ 0 0) by lia. cbn [bind].
  rewrite nth_upd_neq by lia. fold (threshold p (nth 0 (m_res m) 0)).
  assert (E0 : nth 0 (upd (m_res m) it r) 0 = nth 0 (m_res m) 0) by (apply nth_upd_neq; lia).
  assert (Ek : nth it (upd (m_res m) it r) 0 = r) by (apply nth_upd_eq; auto).
  destruct (ltb r (threshold p (nth 0 (m_res m) 0))) eqn:B.
  - eexists _, _. split; [reflexivity|]. do 2 (split; [reflexivity|]). unfold judged. cbn [m_status m_res m_iters].
    rewrite E0, Ek. split; auto. apply ltb_true. auto.
  - apply ltb_false in B.
    assert (G : exists g, (if (p_diverge p && (1 <? it)%nat)%bool then
        do q <- rd (upd (m_res m) it r) (it - 1); Ok (ltb 0 (r - q)) else Ok false) = Ok g /\
      (g = true -> p_diverge p = true /\ (1 < it)%nat /\ nth (it - 1) (upd (m_res m) it r) 0 < r)).
    { destruct (p_diverge p && (1 <? it)%nat)%bool eqn:Q.
      - apply andb_prop in Q. destruct Q as [Q1 Q2]. apply Nat.ltb_lt in Q2.
        rewrite (@rd_ok _ _ (it - 1) 0) by lia. cbn [bind]. eexists. split; [reflexivity|]. intros T. apply ltb_true in T.
        repeat split; auto. lra.
      - exists false. split; auto. discriminate. }
    destruct G as (g & -> & Hg). cbn [bind]. destruct g.
    + destruct (Hg eq_refl) as (Q1 & Q2 & Q3). eexists _, _. split; [reflexivity|]. do 2 (split; [reflexivity|]).
      unfold judged. cbn [m_status m_res m_iters]. rewrite E0, Ek. repeat split; auto.
    + destruct (Nat.eqb_spec (S it) (p_maxit p)); (eexists _, _; split; [reflexivity|]; do 2 (split; [reflexivity|]);
        unfold judged; cbn [m_status m_res m_iters]; rewrite E0, Ek; repeat split; auto).
Qed.

Lemma iterate_ok X (p : params) (body : X -> res (X * R)) (Inv : X -> Prop) (step : X -> X -> R -> Prop) :
  (forall x, Inv x -> exists x' r, body x = Ok (x', r) /\ Inv x' /\ step x x' r) ->
  forall fuel it x m, (1 <= it)%nat -> (fuel + it = S (p_maxit p))%nat -> length (m_res m) = S (p_maxit p) -> Inv x ->
  exists b x' m', iterate p body fuel it x m = Ok (b, x', m') /\ Inv x' /\ length (m_res m') = S (p_maxit p) /\
    (forall k, (k < it)%nat -> nth k (m_res m') 0 = nth k (m_res m) 0) /\
    (fuel = 0%nat -> b = false /\ x' = x /\ m' = m) /\
    ((0 < fuel)%nat -> judged p b m' /\ (it <= m_iters m' <= p_maxit p)%nat /\
       (b = false -> p_maxit p = it) /\ ((it < p_maxit p)%nat -> (S (m_iters m') <= p_maxit p)%nat) /\
       exists Xs : nat -> X, Xs (it - 1)%nat = x /\ Xs (m_iters m') = x' /\
         forall j, (it - 1 <= j < m_iters m')%nat -> step (Xs j) (Xs (S j)) (nth (S j) (m_res m') 0)).
Proof.
  intros HB. induction fuel as [|f IH]; intros it x m H1 Hf HL HI.
  - exists false, x, m. cbn [iterate]. repeat split; auto; intros; try lia.
  - destruct (HB x HI) as (x1 & r & EB & HI1 & HS). cbn [iterate]. rewrite EB. cbn [bind].
    destruct (@monitor_ok p it r m H1 ltac:(lia)) as (b & m1 & EM & Ei & Er & J). rewrite EM. cbn [bind].
    assert (L1 : length (m_res m1) = S (p_maxit p)) by (rewrite Er, upd_length; auto).
    assert (Elow : forall k, (k < it)%nat -> nth k (m_res m1) 0 = nth k (m_res m) 0).
    { intros k Hk. rewrite Er. apply nth_upd_neq. lia. }
    assert (Eit : nth it (m_res m1) 0 = r) by (rewrite Er; apply nth_upd_eq; lia).
    assert (Stop : exists Xs : nat -> X, Xs (it - 1)%nat = x /\ Xs (m_iters m1) = x1 /\
      forall j, (it - 1 <= j < m_iters m1)%nat -> step (Xs j) (Xs (S j)) (nth (S j) (m_res m1) 0)).
    { exists (fun j => if (j <? it)%nat then x else x1). rewrite Ei.
      rewrite (proj2 (Nat.ltb_lt (it - 1) it) ltac:(lia)), Nat.ltb_irrefl. repeat split; auto.
      intros j Hj. replace j with (it - 1)%nat by lia. replace (S (it - 1)) with it by lia.
      rewrite (proj2 (Nat.ltb_lt (it - 1) it) ltac:(lia)), Nat.ltb_irrefl, Eit. auto. }
    destruct b.
    + exists true, x1, m1. repeat split; auto; intros; try discriminate; try lia.
    + destruct (Nat.eq_dec f 0) as [->|Nf].
      * cbn [iterate]. exists false, x1, m1. repeat split; auto; intros; try discriminate; try lia.
      * destruct (IH (S it) x1 m1 ltac:(lia) ltac:(lia) L1 HI1)
          as (b2 & x2 & m2 & E2 & I2 & L2' & Lw & _ & P2).
        destruct (P2 ltac:(lia)) as (J2 & B2 & F2 & T2 & Xs & X0 & Xn & XS). clear P2.
        exists b2, x2, m2. split; [auto|]. split; [auto|]. split; [auto|]. split.
        { intros k Hk. rewrite Lw by lia. auto. }
        split; [lia|]. intros _. split; [auto|]. split; [lia|].
        assert (Sn : S it <> p_maxit p).
        { unfold judged in J. destruct (m_status m1); try (destruct J as [J _]; congruence). rewrite Ei in J. apply J. }
        split; [intros Eb; specialize (F2 Eb); lia|]. split; [intros _; apply T2; lia|].
        exists (fun j => if (j <? it)%nat then x else Xs j).
        replace (S it - 1)%nat with it in * by lia.
        rewrite (proj2 (Nat.ltb_lt (it - 1) it) ltac:(lia)), (proj2 (Nat.ltb_ge (m_iters m2) it) ltac:(lia)).
        repeat split; auto. intros j Hj. rewrite (proj2 (Nat.ltb_ge (S j) it) ltac:(lia)).
        destruct (Nat.ltb_spec j it).
        -- replace j with (it - 1)%nat by lia. replace (S (it - 1)) with it by lia. rewrite X0, Lw, Eit by lia. auto.
        -- apply XS. lia.
Qed.

Lemma resize_len l k : length (resize l k) = k.
Proof. unfold resize. rewrite app_length, firstn_length, repeat_length. lia. Qed.
Lemma resize_nth l k i : (i < k)%nat -> nth i (resize l k) 0 = nth i l 0.
Proof.
  intros H. unfold resize. destruct (lt_dec i (length l)).
  - rewrite app_nth1 by (rewrite firstn_length; lia). rewrite <- (firstn_skipn k l) at 2.
    rewrite app_nth1 by (rewrite firstn_length; lia). reflexivity.
  - rewrite app_nth2 by (rewrite firstn_length; lia). rewrite (nth_overflow l) by lia.
    apply nth_repeat.
Qed.

Lemma judged_resize p b m k : judged p b m -> (m_iters m < k)%nat ->
  judged p b {| m_status := m_status m; m_iters := m_iters m; m_res := resize (m_res m) k |}.
Proof.
  unfold judged. cbn [m_status m_iters m_res]. intros J H. rewrite !resize_nth by lia. exact J.
Qed.

Lemma monitor_init_ok p r m : (0 < length (m_res m))%nat ->
  exists b m', monitor_init p r m = Ok (b, m') /\ m_iters m' = m_iters m /\ m_res m' = upd (m_res m) 0 r /\
    (b = true <-> r < p_atol p) /\ m_status m' = (if b then SUCCESS else m_status m).
Proof.
  intros H. unfold monitor_init. rewrite wr_ok by auto. cbn [bind]. destruct (ltb r (p_atol p)) eqn:B;
  eexists _, _; (split; [reflexivity|]); repeat split; auto; try (intros; apply ltb_true; auto); try discriminate.
  intros Q. apply ltb_false in B. lra.
Qed.

Lemma judged_stop p b m : judged p b m -> b = true -> verdict p m.
Proof. unfold judged, verdict. intros J ->. destruct (m_status m); tauto || (destruct J; discriminate). Qed.

Lemma norm_residual_ok ty u f n : plain ty -> length u = n ->
  norm_residual ty (vec n f) u = Ok (gnorm ty n (fun i => f i - cmp u i)).
Proof.
  intros P L. rewrite norm_residual_plain by (auto; rewrite vec_length; auto). rewrite vec_length.
  f_equal. apply gnorm_ext. intros i Hi. unfold cmp at 1. rewrite vec_nth by auto. reflexivity.
Qed.

Lemma residual_ok p (succ : bool) n C b x y : csr_wf n n C -> plain (p_norm p) -> length b = n -> length x = n -> length y = n ->
  exists r, (if succ then norm_residual (p_norm p) y x
             else do z <- multiply C y; norm_residual (p_norm p) z b) = Ok r /\ resnorm p succ n C b x y r.
Proof.
  intros W P Hb Hx Hy. unfold resnorm. destruct succ.
  - rewrite <- (vec_same Hy). rewrite (@norm_residual_ok _ x (cmp y) n) by auto. eexists. split; [reflexivity|].
    rewrite (vec_same Hy). reflexivity.
  - rewrite (multiply_wf W Hy). cbn [bind]. rewrite norm_residual_ok by auto. eexists. split; reflexivity.
Qed.

Lemma jacobi_body_ok p succ n C w b : system n C b -> plain (p_norm p) -> forall x, length x = n ->
  exists y r, jacobi_body p succ C w b x = Ok (y, r) /\ length y = n /\
    (jacobi_update n C w b x y /\ resnorm p succ n C b x y r).
Proof.
  intros S0 P x Hx. unfold jacobi_body. destruct (jacobi_update_ok w S0 Hx) as (y & E & U). rewrite E. cbn [bind].
  destruct S0 as (W & O & D & Hb). pose proof (proj1 U) as Hy.
  destruct (@residual_ok p succ n C b x y W P Hb Hx Hy) as (r & Er & Hr). rewrite Er. cbn [bind]. eauto 8.
Qed.

Lemma jacobi_solve p succ n C w b x prev : system n C b -> plain (p_norm p) -> (2 <= p_maxit p)%nat -> length x = n ->
  exists x' m, jacobi p succ C w b x prev = Ok (x', m) /\ length x' = n /\
    report p (gnorm L2 n (resid n C b x)) (fun u v r => jacobi_update n C w b u v /\ resnorm p succ n C b u v r) x x' m.
Proof.
  intros S0 P Hm Hx. unfold jacobi, solve, jacobi_impl. pose proof S0 as (W & O & D & Hb).
  rewrite (multiply_wf W Hx). cbn [bind]. rewrite norm_residual_ok by (auto; constructor). cbn [bind].
  set (r0 := gnorm L2 n _). set (m0 := {| m_status := RUNNING; m_iters := m_iters prev; m_res := _ |}).
  assert (Lm : length (m_res m0) = (p_maxit p + 1)%nat) by apply resize_len.
  destruct (@monitor_init_ok p r0 m0 ltac:(lia)) as (bi & m1 & E1 & _ & R1 & _ & _). rewrite E1. cbn [bind].
  destruct (@iterate_ok (list R) p (jacobi_body p succ C w b) (fun x => length x = n)
    (fun u v r => jacobi_update n C w b u v /\ resnorm p succ n C b u v r) (@jacobi_body_ok p succ n C w b S0 P)
    (p_maxit p) 1%nat x m1) as (bb & x2 & m2 & E2 & I2 & LL & Lw & _ & P2); auto; try lia.
  { rewrite R1, upd_length. lia. }
  rewrite E2. cbn [bind]. destruct (P2 ltac:(lia)) as (J2 & B2 & F2 & T2 & Xs & X0 & Xn & XS). clear P2.
  destruct bb.
  2:{ specialize (F2 eq_refl). lia. }
  eexists _, _. split; [reflexivity|]. split; [auto|]. unfold report, verdict.
  pose proof (@judged_stop p true _ (@judged_resize p true m2 (m_iters m2 + 1) J2 ltac:(lia)) eq_refl) as V.
  cbn [m_iters m_res]. rewrite resize_len.
  assert (R0 : nth 0 (resize (m_res m2) (m_iters m2 + 1)) 0 = r0).
  { rewrite resize_nth by lia. rewrite Lw by lia. rewrite R1. apply nth_upd_eq. lia. }
  assert (Top : (m_iters m2 <= p_maxit p - 1)%nat).
  { specialize (T2 ltac:(lia)). lia. }
  split; [lia|]. split; [lia|]. split; [auto|]. split; [exact V|].
  exists Xs. repeat split; auto; destruct (XS j ltac:(lia)) as [U V2]; try apply U.
  rewrite resize_nth by lia. auto.
Qed.

Lemma gs_body_ok p succ n C w b : system n C b -> plain (p_norm p) ->
  forall s : list R * list R, length (fst s) = n /\ length (snd s) = n ->
  exists s' r, gs_body p succ C w b s = Ok (s', r) /\ (length (fst s') = n /\ length (snd s') = n) /\
    (gs_update n C w b (fst s) (fst s') /\ resnorm p succ n C b (fst s) (fst s') r).
Proof.
  intros S0 P [x y0] [Hx Hy0]. cbn [fst snd] in *. unfold gs_body. destruct (gs_step_ok w S0 Hx Hy0) as (y & E & U). rewrite E. cbn [bind].
  destruct S0 as (W & O & D & Hb). pose proof (proj1 U) as Hy.
  destruct (@residual_ok p succ n C b x y W P Hb Hx Hy) as (r & Er & Hr). rewrite Er. cbn [bind].
  exists (y, x), r. cbn [fst snd]. auto.
Qed.

Lemma gs_solve' p succ n C w b x prev : system n C b -> plain (p_norm p) -> (1 <= p_maxit p)%nat -> length x = n ->
  exists x' m, gauss_seidel p succ C w b x prev = Ok (x', m) /\ length x' = n /\
    ((2 <= p_maxit p)%nat ->
     report p (gnorm L2 n (resid n C b x)) (fun u v r => gs_update n C w b u v /\ resnorm p succ n C b u v r) x x' m) /\
    (p_maxit p = 1%nat -> m_status m <> MAXIT /\ m_status m <> DIVERGE /\ m_iters m = 1%nat /\
       nth 0 (m_res m) 0 = gnorm L2 n (resid n C b x) /\
       gs_update n C w b x x' /\ resnorm p succ n C b x x' (nth 1 (m_res m) 0) /\
       (m_status m = SUCCESS <-> nth 1 (m_res m) 0 < threshold p (nth 0 (m_res m) 0))).
Proof.
  intros S0 P Hm Hx. unfold gauss_seidel, solve, gs_impl. pose proof S0 as (W & O & D & Hb).
  rewrite (multiply_wf W Hx). cbn [bind]. rewrite norm_residual_ok by (auto; constructor). cbn [bind].
  set (r0 := gnorm L2 n _). set (m0 := {| m_status := RUNNING; m_iters := m_iters prev; m_res := _ |}).
  assert (Lm : length (m_res m0) = (p_maxit p + 1)%nat) by apply resize_len.
  destruct (@monitor_init_ok p r0 m0 ltac:(lia)) as (bi & m1 & E1 & _ & R1 & _ & _). rewrite E1. cbn [bind].
  destruct (@iterate_ok _ p (gs_body p succ C w b) _ _ (@gs_body_ok p succ n C w b S0 P)
    (p_maxit p) 1%nat (x, vec n (ax n C x)) m1) as (bb & x2 & m2 & E2 & I2 & LL & Lw & _ & P2); auto; try lia.
  { rewrite R1, upd_length. lia. }
  { cbn [fst snd]. rewrite vec_length. auto. }
  rewrite E2. cbn [bind]. destruct (P2 ltac:(lia)) as (J2 & B2 & F2 & T2 & Xs & X0 & Xn & XS). clear P2.
  eexists _, _. split; [reflexivity|]. split; [apply I2|].
  cbn [m_iters m_res m_status].
  assert (R0 : nth 0 (resize (m_res m2) (m_iters m2 + 1)) 0 = r0).
  { rewrite resize_nth by lia. rewrite Lw by lia. rewrite R1. apply nth_upd_eq. lia. }
  split.
  - intros H2. destruct bb.
    2:{ specialize (F2 eq_refl). lia. }
    unfold report.
    pose proof (@judged_stop p true _ (@judged_resize p true m2 (m_iters m2 + 1) J2 ltac:(lia)) eq_refl) as V.
    cbn [m_iters m_res]. rewrite resize_len.
    specialize (T2 ltac:(lia)). split; [lia|]. split; [lia|]. split; [auto|]. split; [exact V|].
    cbn in X0. exists (fun k => fst (Xs k)). rewrite X0, Xn. split; [auto|]. split; [auto|].
    intros j Hj. rewrite resize_nth by lia. apply XS. lia.
  - intros H1. assert (Ei : m_iters m2 = 1%nat) by lia. rewrite Ei in *.
    specialize (XS 0%nat ltac:(lia)). cbn in X0. rewrite X0, Xn in XS. cbn [fst] in XS.
    unfold judged in J2. rewrite Ei in J2. rewrite R0. rewrite resize_nth by lia.
    assert (R0' : nth 0 (m_res m2) 0 = r0) by (rewrite Lw by lia; rewrite R1; apply nth_upd_eq; lia).
    rewrite R0' in J2. split; [|split; [|split; [|split; [|split; [|split]]]]]; auto; try apply XS;
    destruct (m_status m2); try (intros; discriminate); intuition (try lia; try lra; try discriminate).
Qed.

(** Richardson monitors the step it has just made: |w| times the residual of the
    previous iterate. *)
Lemma rich_body_ok p n mul op w b : is_op n mul op -> plain (p_norm p) -> length b = n -> forall x, length x = n ->
  exists y r, rich_body p mul None w (vscale b w) x = Ok (y, r) /\ length y = n /\
    (rich_update n op w b x y /\ r = Rabs w * gnorm (p_norm p) n (fun i => op x i - cmp b i)).
Proof.
  intros HO P Hb x Hx. unfold rich_body. rewrite (rich_step_ok w HO Hb Hx). cbn [bind].
  rewrite norm_residual_ok by auto. cbn [bind]. eexists _, _. split; [reflexivity|]. rewrite vec_length.
  split; [auto|]. split.
  - split; [apply vec_length|]. intros i Hi. unfold cmp at 1. rewrite vec_nth by auto. reflexivity.
  - rewrite <- Rabs_Ropp, <- gnorm_scal. apply gnorm_ext. intros i Hi. ring.
Qed.

Lemma rich_solve p n mul op w b x prev : is_op n mul op -> plain (p_norm p) -> (2 <= p_maxit p)%nat -> length b = n -> length x = n ->
  let r0 := Rabs w * gnorm L2 n (fun i => op x i - cmp b i) in
  exists x' m, richardson p mul None w b x prev = Ok (x', m) /\ length x' = n /\
    (r0 < p_atol p -> x' = x /\ m_status m = SUCCESS /\ m_iters m = m_iters prev) /\
    (p_atol p <= r0 -> report p r0
       (fun u v r => rich_update n op w b u v /\ r = Rabs w * gnorm (p_norm p) n (fun i => op u i - cmp b i)) x x' m).
Proof.
  intros HO P Hm Hb Hx r0. unfold richardson, solve, rich_impl, rich_rhs. cbn [bind]. rewrite (HO x Hx). cbn [bind].
  rewrite (vscale_vec (vec n (op x))), vec_length. rewrite norm_residual_ok by (try constructor; rewrite ?vscale_length; auto). cbn [bind].
  set (r1 := gnorm L2 n _).
  assert (Er : r1 = r0).
  { unfold r1, r0. rewrite <- gnorm_scal. apply gnorm_ext. intros i Hi. rewrite vec_nth by auto. unfold cmp. rewrite vscale_nth. ring. }
  rewrite Er. clear Er r1.
  set (m0 := {| m_status := RUNNING; m_iters := m_iters prev; m_res := _ |}).
  assert (Lm : length (m_res m0) = (p_maxit p + 1)%nat) by apply resize_len.
  destruct (@monitor_init_ok p r0 m0 ltac:(lia)) as (bi & m1 & E1 & I1 & R1 & B1 & S1). rewrite E1. cbn [bind].
  destruct bi.
  - eexists _, _. split; [reflexivity|]. split; [auto|]. cbn [m_iters m_res m_status]. rewrite I1. split; [auto|].
    intros Q. destruct B1 as [B1 _]. specialize (B1 eq_refl). lra.
  - assert (Ge : p_atol p <= r0). { destruct (Rle_dec (p_atol p) r0); auto. destruct B1 as [_ B1]. specialize (B1 ltac:(lra)). discriminate. }
    destruct (@iterate_ok (list R) p (rich_body p mul None w (vscale b w)) _ _ (@rich_body_ok p n mul op w b HO P Hb)
      (p_maxit p) 1%nat x m1) as (bb & x2 & m2 & E2 & I2 & LL & Lw & _ & P2); auto; try lia.
    { rewrite R1, upd_length. lia. }
    rewrite E2. cbn [bind]. destruct (P2 ltac:(lia)) as (J2 & B2 & F2 & T2 & Xs & X0 & Xn & XS). clear P2.
    eexists _, _. split; [reflexivity|]. split; [apply I2|]. split; [intros; lra|]. intros _.
    destruct bb.
    2:{ specialize (F2 eq_refl). lia. }
    unfold report.
    pose proof (@judged_stop p true _ (@judged_resize p true m2 (m_iters m2 + 1) J2 ltac:(lia)) eq_refl) as V.
    cbn [m_iters m_res]. rewrite resize_len.
    specialize (T2 ltac:(lia)). split; [lia|]. split; [lia|]. split.
    { rewrite resize_nth by lia. rewrite Lw by lia. rewrite R1. apply nth_upd_eq. lia. }
    split; [exact V|]. exists Xs. split; [auto|]. split; [auto|].
    intros j Hj. rewrite resize_nth by lia. apply XS. lia.
Qed.

(** ** Consequences *)

Lemma history_stays n (X : nat -> list R) k h (step : list R -> list R -> R -> Prop) :
  length (X 0%nat) = n -> (forall u v r, u = X 0%nat -> step u v r -> v = u) ->
  history X k h step -> forall j, (j <= k)%nat -> X j = X 0%nat.
Proof.
  intros HL HS HH j. induction j as [|j IH]; intros Hj; [auto|]. rewrite (HS _ _ _ (IH ltac:(lia)) (HH j ltac:(lia))). apply IH. lia.
Qed.

Lemma jacobi_update_fix n C w b x y : system n C b -> length x = n -> jacobi_update n C w b x y -> solves n C b x -> y = x.
Proof.
  intros S0 Hx [Hy U] HS. destruct S0 as (W & O & D & Hb). apply (@list_ext_nth _ 0); [lia|]. intros i Hi. rewrite Hy in Hi.
  pose proof (U i Hi) as E. pose proof (HS i Hi) as Ai. rewrite (ax_split C x Hi) in Ai. pose proof (D i Hi).
  apply Rmult_eq_reg_l with (mentry C i i); auto. fold (cmp y i) (cmp x i). rewrite E, <- Ai. ring.
Qed.
Lemma gs_update_fix n C w b x y : system n C b -> length x = n -> gs_update n C w b x y -> solves n C b x -> y = x.
Proof.
  intros S0 Hx (Hy & z & Hz & T & U) HS. destruct S0 as (W & O & D & Hb). apply (@list_ext_nth _ 0); [lia|]. intros i Hi. rewrite Hy in Hi.
  fold (cmp y i) (cmp x i). rewrite (U i Hi).
  rewrite (@gs_unique n C b x z x D T) by (auto; intros k Hk; rewrite <- (HS k Hk); apply rsum_ext; intros j Hj; destruct (j <=? k)%nat; auto).
  ring.
Qed.
Lemma rich_update_fix n op w b x y : length x = n -> rich_update n op w b x y ->
  (forall i, (i < n)%nat -> op x i = cmp b i) -> y = x.
Proof.
  intros Hx [Hy U] HS. apply (@list_ext_nth _ 0); [lia|]. intros i Hi. rewrite Hy in Hi. fold (cmp y i) (cmp x i).
  rewrite (U i Hi), (HS i Hi). ring.
Qed.

Lemma jacobi_keeps p succ n C w b x prev : system n C b -> plain (p_norm p) -> (2 <= p_maxit p)%nat -> length x = n ->
  solves n C b x -> exists m, jacobi p succ C w b x prev = Ok (x, m).
Proof.
  intros S0 P Hm Hx HS. destruct (@jacobi_solve p succ n C w b x prev S0 P Hm Hx) as (x' & m & E & _ & (_ & _ & _ & _ & X & X0 & Xn & HH)).
  exists m. rewrite E. do 2 f_equal. rewrite <- Xn, <- X0. apply (@history_stays n _ _ _ _ ltac:(rewrite X0; auto)) with (3 := le_n _) (2 := HH).
  intros u v r -> [U _]. rewrite X0 in *. apply (jacobi_update_fix S0 Hx U HS).
Qed.
Lemma gs_keeps p succ n C w b x prev : system n C b -> plain (p_norm p) -> (2 <= p_maxit p)%nat -> length x = n ->
  solves n C b x -> exists m, gauss_seidel p succ C w b x prev = Ok (x, m).
Proof.
  intros S0 P Hm Hx HS. destruct (@gs_solve' p succ n C w b x prev S0 P ltac:(lia) Hx) as (x' & m & E & _ & Rp & _).
  destruct (Rp Hm) as (_ & _ & _ & _ & X & X0 & Xn & HH).
  exists m. rewrite E. do 2 f_equal. rewrite <- Xn, <- X0. apply (@history_stays n _ _ _ _ ltac:(rewrite X0; auto)) with (3 := le_n _) (2 := HH).
  intros u v r -> [U _]. rewrite X0 in *. apply (gs_update_fix S0 Hx U HS).
Qed.
Lemma rich_keeps p n mul op w b x prev : is_op n mul op -> plain (p_norm p) -> (2 <= p_maxit p)%nat -> length b = n -> length x = n ->
  (forall i, (i < n)%nat -> op x i = cmp b i) -> exists m, richardson p mul None w b x prev = Ok (x, m).
Proof.
  intros HO P Hm Hb Hx HS. destruct (@rich_solve p n mul op w b x prev HO P Hm Hb Hx) as (x' & m & E & _ & R1 & R2).
  destruct (Rle_dec (p_atol p) (Rabs w * gnorm L2 n (fun i => op x i - cmp b i))) as [Le|Nle].
  - destruct (R2 Le) as (_ & _ & _ & _ & X & X0 & Xn & HH).
    exists m. rewrite E. do 2 f_equal. rewrite <- Xn, <- X0. apply (@history_stays n _ _ _ _ ltac:(rewrite X0; auto)) with (3 := le_n _) (2 := HH).
    intros u v r -> [U _]. rewrite X0 in *. apply (rich_update_fix Hx U HS).
  - destruct (R1 ltac:(lra)) as (-> & _). eauto.
Qed.

Lemma success_residual p n C b r0 x x' m (upd' : list R -> list R -> Prop) :
  report p r0 (fun u v r => upd' u v /\ resnorm p false n C b u v r) x x' m -> m_status m = SUCCESS ->
  gnorm (p_norm p) n (resid n C b x') < threshold p r0.
Proof.
  intros (B & _ & R0 & V & X & X0 & Xn & HH) E. unfold verdict in V. rewrite E, R0 in V.
  destruct (HH (m_iters m - 1)%nat ltac:(lia)) as [_ Q]. replace (S (m_iters m - 1)) with (m_iters m) in Q by lia.
  unfold resnorm in Q. rewrite Xn in Q. rewrite <- Q. exact V.
Qed.

Lemma rich_success p n mul op w b x prev x' m : is_op n mul op -> plain (p_norm p) -> (2 <= p_maxit p)%nat ->
  length b = n -> length x = n -> richardson p mul None w b x prev = Ok (x', m) -> m_status m = SUCCESS ->
  let r0 := Rabs w * gnorm L2 n (fun i => op x i - cmp b i) in
  exists u, length u = n /\ (u = x' \/ rich_update n op w b u x') /\
    (Rabs w * gnorm (p_norm p) n (fun i => op u i - cmp b i) < threshold p r0 \/
     (u = x' /\ Rabs w * gnorm L2 n (fun i => op u i - cmp b i) < p_atol p)).
Proof.
  intros HO P Hm Hb Hx E St r0. destruct (@rich_solve p n mul op w b x prev HO P Hm Hb Hx) as (x2 & m2 & E2 & HL & R1 & R2).
  rewrite E in E2. inversion E2; subst x2 m2. clear E2.
  destruct (Rle_dec (p_atol p) r0) as [Le|Nle].
  - destruct (R2 Le) as (B & _ & R0 & V & X & X0 & Xn & HH). unfold verdict in V. rewrite St, R0 in V.
    assert (LX : forall j, (j <= m_iters m)%nat -> length (X j) = n).
    { intros [|j] Hj; [rewrite X0; auto|]. destruct (HH j ltac:(lia)) as [[L _] _]. auto. }
    destruct (HH (m_iters m - 1)%nat ltac:(lia)) as [U Q]. replace (S (m_iters m - 1)) with (m_iters m) in * by lia.
    rewrite Xn in U. exists (X (m_iters m - 1)%nat). split; [apply LX; lia|]. split; [auto|]. left. rewrite <- Q. exact V.
  - destruct (R1 ltac:(unfold r0 in *; lra)) as (-> & _). exists x. split; auto. split; auto. right. split; auto. unfold r0 in *. lra.
Qed.

(** With a limit of one iteration an unfinished solve is reported as running. *)
Lemma gs_limit_one p succ n C w b x prev : system n C b -> plain (p_norm p) -> p_maxit p = 1%nat -> length x = n ->
  exists x' m, gauss_seidel p succ C w b x prev = Ok (x', m) /\ m_iters m = 1%nat /\
    gs_update n C w b x x' /\ resnorm p succ n C b x x' (nth 1 (m_res m) 0) /\
    nth 0 (m_res m) 0 = gnorm L2 n (resid n C b x) /\
    (threshold p (nth 0 (m_res m) 0) <= nth 1 (m_res m) 0 -> m_status m = RUNNING).
Proof.
  intros S0 P H1 Hx. destruct (@gs_solve' p succ n C w b x prev S0 P ltac:(lia) Hx) as (x' & m & E & _ & _ & G).
  destruct (G H1) as (N1 & N2 & Ei & E0 & U & Rn & St). exists x', m. repeat split; auto; try apply U. intros Le.
  destruct (m_status m); try congruence. destruct St as [St _]. specialize (St eq_refl). lra.
Qed.

Lemma gs_solve p succ n C w b x prev : system n C b -> plain (p_norm p) -> (2 <= p_maxit p)%nat -> length x = n ->
  exists x' m, gauss_seidel p succ C w b x prev = Ok (x', m) /\ length x' = n /\
    report p (gnorm L2 n (resid n C b x)) (fun u v r => gs_update n C w b u v /\ resnorm p succ n C b u v r) x x' m.
Proof.
  intros S0 P H1 Hx. destruct (@gs_solve' p succ n C w b x prev S0 P ltac:(lia) Hx) as (x' & m & E & HL & Rp & _).
  exists x', m. auto.
Qed.

(** Jacobi, Gauss-Seidel: an exit with SUCCESS bounds the true residual. *)
Lemma jacobi_success p n C w b x prev x' m : system n C b -> plain (p_norm p) -> (2 <= p_maxit p)%nat -> length x = n ->
  jacobi p false C w b x prev = Ok (x', m) -> m_status m = SUCCESS ->
  gnorm (p_norm p) n (resid n C b x') < threshold p (gnorm L2 n (resid n C b x)).
Proof.
  intros S0 P H1 Hx E St. destruct (@jacobi_solve p false n C w b x prev S0 P H1 Hx) as (x2 & m2 & E2 & _ & Rp).
  rewrite E in E2. inversion E2; subst. apply (success_residual Rp St).
Qed.
Lemma gs_success p n C w b x prev x' m : system n C b -> plain (p_norm p) -> (2 <= p_maxit p)%nat -> length x = n ->
  gauss_seidel p false C w b x prev = Ok (x', m) -> m_status m = SUCCESS ->
  gnorm (p_norm p) n (resid n C b x') < threshold p (gnorm L2 n (resid n C b x)).
Proof.
  intros S0 P H1 Hx E St. destruct (@gs_solve p false n C w b x prev S0 P H1 Hx) as (x2 & m2 & E2 & _ & Rp).
  rewrite E in E2. inversion E2; subst. apply (success_residual Rp St).
Qed.

(** One iteration leaves x alone exactly at solutions. *)
Lemma jacobi_fixed_point n C w b x : system n C b -> w <> 0 -> length x = n ->
  exists y, jacobi_step C w b x = Ok y /\ (y = x <-> solves n C b x).
Proof.
  intros S0 Hw Hx. destruct (jacobi_update_ok w S0 Hx) as (y & E & _). exists y. split; auto. apply (jacobi_fix S0 Hw Hx E).
Qed.
Lemma gs_fixed_point n C w b x old : system n C b -> w <> 0 -> length x = n -> length old = n ->
  exists y, gs_step C w b x old = Ok y /\ (y = x <-> solves n C b x).
Proof.
  intros S0 Hw Hx Ho. destruct (gs_step_ok w S0 Hx Ho) as (y & E & _). exists y. split; auto. apply (gs_fix S0 Hw Hx Ho E).
Qed.
Lemma rich_fixed_point n mul op w b x : is_op n mul op -> w <> 0 -> length b = n -> length x = n ->
  exists B y, rich_rhs None w b = Ok B /\ rich_step mul None w B x = Ok y /\ (y = x <-> forall i, (i < n)%nat -> op x i = cmp b i).
Proof.
  intros HO Hw Hb Hx. eexists _, _. split; [reflexivity|]. pose proof (rich_step_ok w HO Hb Hx) as E. split; [exact E|].
  apply (rich_fix HO Hw Hb Hx E).
Qed.
