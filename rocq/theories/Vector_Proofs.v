(** * Proofs about vectors *)
From Verif Require Import Base BaseR Vector_Model Vector_Spec.
Set Implicit Arguments. Unset Strict Implicit.
Open Scope R_scope.

Lemma vec_length n f : length (vec n f) = n.
Proof. unfold vec. rewrite map_length, seq_length. reflexivity. Qed.
Lemma vec_nth n f i : (i < n)%nat -> nth i (vec n f) 0 = f i.
Proof. intros H. unfold vec. apply nth_map_seq. auto. Qed.
Lemma vec_ext n f g : (forall i, (i < n)%nat -> f i = g i) -> vec n f = vec n g.
Proof. intros H. unfold vec. apply map_ext_in. intros i Hi. apply in_seq in Hi. apply H. lia. Qed.
Lemma vec_self v : v = vec (length v) (cmp v).
Proof.
  apply (@list_ext_nth _ 0); [rewrite vec_length; auto|]. intros i Hi. rewrite vec_nth by auto. reflexivity.
Qed.
Lemma vec_eq n f g : vec n f = vec n g -> forall i, (i < n)%nat -> f i = g i.
Proof. intros E i Hi. rewrite <- (@vec_nth n f), <- (@vec_nth n g) by auto. rewrite E. auto. Qed.

Lemma vzip_ok f u x : length u = length x -> vzip f u x = Ok (vec (length u) (fun i => f (nth i u 0) (nth i x 0))).
Proof.
  intros H. unfold vzip, vec. apply mapM_ok. intros i Hi. apply in_seq in Hi.
  rewrite (rd0 (l := u)), (rd0 (l := x)) by lia. reflexivity.
Qed.
Lemma vzip_ub f u x : (length x < length u)%nat -> vzip f u x = UB.
Proof.
  intros H. unfold vzip.
  assert (G : forall l, (forall i, In i l -> (i < length u)%nat) -> (exists i, In i l /\ (length x <= i)%nat) ->
     mapM (fun i => do a <- rd u i; do b <- rd x i; Ok (f a b)) l = UB).
  { induction l as [|k l IH]; intros HA (i & Hi & Hx); [destruct Hi|]. cbn [mapM].
    rewrite (rd0 (l := u)) by (apply HA; cbn; auto). cbn [bind].
    destruct (Nat.lt_ge_cases k (length x)) as [Hk|Hk].
    - rewrite (rd0 (l := x)) by auto. cbn [bind]. rewrite IH; auto; [intros; apply HA; cbn; auto|].
      exists i. split; auto. destruct Hi; auto. lia.
    - unfold rd. rewrite (proj2 (nth_error_None x k)) by auto. reflexivity. }
  apply G.
  - intros i Hi. apply in_seq in Hi. lia.
  - exists (length x). split; auto. apply in_seq. lia.
Qed.
Lemma vscale_nth u v i : nth i (vscale u v) 0 = nth i u 0 * v.
Proof.
  unfold vscale. destruct (Nat.lt_ge_cases i (length u)).
  - rewrite nth_indep with (d' := 0 * v) by (rewrite map_length; auto). apply (map_nth (fun a => a * v)).
  - rewrite !nth_overflow by (rewrite ?map_length; auto). ring.
Qed.
Lemma vscale_vec u v : vscale u v = vec (length u) (fun i => nth i u 0 * v).
Proof.
  apply (@list_ext_nth _ 0); [unfold vscale; rewrite vec_length, map_length; auto|].
  intros i Hi. unfold vscale in Hi. rewrite map_length in Hi. rewrite vec_nth by auto. apply vscale_nth.
Qed.
Lemma vscale_length u v : length (vscale u v) = length u.
Proof. apply map_length. Qed.

Lemma fold_over u x (f : R -> R -> R -> R) n s0 : (n <= length u)%nat -> (n <= length x)%nat ->
  foldM (fun s i => do a <- rd u i; do b <- rd x i; Ok (f s a b)) (seq 0 n) s0 =
  Ok (fold_left (fun s i => f s (nth i u 0) (nth i x 0)) (seq 0 n) s0).
Proof.
  intros Hu Hx. assert (G : forall l s, (forall i, In i l -> (i < n)%nat) ->
    foldM (fun s i => do a <- rd u i; do b <- rd x i; Ok (f s a b)) l s =
    Ok (fold_left (fun s i => f s (nth i u 0) (nth i x 0)) l s)).
  { induction l as [|k l IH]; intros s HA; auto. cbn [foldM fold_left].
    assert (k < n)%nat by (apply HA; cbn; auto).
    rewrite (rd0 (l := u)), (rd0 (l := x)) by lia. cbn [bind]. apply IH. intros; apply HA; cbn; auto. }
  apply G. intros i Hi. apply in_seq in Hi. lia.
Qed.
Lemma fold_sum g n s : fold_left (fun s i => s + g i) (seq 0 n) s = s + rsum n g.
Proof. rewrite (fold_left_Rplus g). rewrite rsum_sumR. reflexivity. Qed.
Lemma fold_max g n : fold_left (fun s i => Rmax s (g i)) (seq 0 n) 0 = rmax n g.
Proof.
  induction n as [|n IH]; auto. rewrite seq_S, fold_left_app, IH. reflexivity.
Qed.
Lemma vdot_ok u x : length u = length x -> vdot u x = Ok (inner (length u) (cmp u) (cmp x)).
Proof.
  intros H. unfold vdot. rewrite (@fold_over u x (fun s a b => s + a * b)) by lia.
  rewrite (fold_sum (fun i => nth i u 0 * nth i x 0)). rewrite Rplus_0_l. reflexivity.
Qed.

Lemma fold_list (h : R -> R -> R) (l : list R) (s : R) :
  fold_left h l s = fold_left (fun s i => h s (nth i l 0)) (seq 0 (length l)) s.
Proof.
  assert (SH : forall (f : R -> nat -> R) m k s, fold_left f (seq (S k) m) s = fold_left (fun s i => f s (S i)) (seq k m) s).
  { induction m as [|m IH]; intros k s1; auto. cbn [seq fold_left]. apply IH. }
  revert s. induction l as [|a l IH]; intros s; auto. cbn [length seq fold_left nth]. rewrite IH, SH. reflexivity.
Qed.

Lemma norm_plain ty v : plain ty -> norm ty v = gnorm ty (length v) (cmp v).
Proof.
  intros H. destruct H; cbn [norm gnorm]; rewrite fold_list.
  - rewrite (fold_sum (fun i => Rabs (nth i v 0))). rewrite Rplus_0_l. reflexivity.
  - rewrite (fold_sum (fun i => nth i v 0 * nth i v 0)). rewrite Rplus_0_l. reflexivity.
  - rewrite (fold_max (fun i => Rabs (nth i v 0))). reflexivity.
Qed.
Lemma norm_residual_plain ty v x : plain ty -> length v = length x ->
  norm_residual ty v x = Ok (gnorm ty (length v) (fun i => cmp v i - cmp x i)).
Proof.
  intros H L. destruct H; cbn [norm_residual gnorm].
  - rewrite (@fold_over v x (fun s a b => s + Rabs (a - b))) by lia.
    rewrite (fold_sum (fun i => Rabs (nth i v 0 - nth i x 0))). rewrite Rplus_0_l. reflexivity.
  - rewrite (@fold_over v x (fun s a b => s + (a - b) * (a - b))) by lia. cbn [bind].
    rewrite (fold_sum (fun i => (nth i v 0 - nth i x 0) * (nth i v 0 - nth i x 0))). rewrite Rplus_0_l. reflexivity.
  - rewrite (@fold_over v x (fun s a b => Rmax s (Rabs (a - b)))) by lia.
    rewrite (fold_max (fun i => Rabs (nth i v 0 - nth i x 0))). reflexivity.
Qed.

(** ** Norm laws *)
Lemma rsum_pos_terms n f : (forall i, (i < n)%nat -> 0 <= f i) -> rsum n f = 0 -> forall i, (i < n)%nat -> f i = 0.
Proof.
  induction n as [|n IH]; intros H0 HS i Hi; [lia|]. cbn [rsum] in HS.
  assert (0 <= rsum n f) by (apply rsum_nonneg; intros; apply H0; lia).
  assert (0 <= f n) by (apply H0; lia).
  destruct (Nat.eq_dec i n) as [->|Ne]; [lra|]. apply IH; [intros; apply H0; lia|lra|lia].
Qed.
Lemma rmax_ge n f i : (i < n)%nat -> f i <= rmax n f.
Proof.
  induction n as [|n IH]; intros H; [lia|]. cbn [rmax]. destruct (Nat.eq_dec i n) as [->|Ne]; [apply Rmax_r|].
  eapply Rle_trans; [apply IH; lia|apply Rmax_l].
Qed.
Lemma rmax_lub n f c : 0 <= c -> (forall i, (i < n)%nat -> f i <= c) -> rmax n f <= c.
Proof. induction n as [|n IH]; intros H0 H; cbn [rmax]; auto. apply Rmax_lub; [apply IH; auto|apply H; lia]. Qed.
Lemma rmax_nonneg n f : 0 <= rmax n f.
Proof. induction n as [|n IH]; cbn [rmax]; [lra|]. eapply Rle_trans; [exact IH|apply Rmax_l]. Qed.
Lemma rmax_ext n f g : (forall i, (i < n)%nat -> f i = g i) -> rmax n f = rmax n g.
Proof. induction n as [|n IH]; intros H; cbn [rmax]; auto. rewrite IH, H; auto. Qed.
Lemma rmax_scal n c f : 0 <= c -> rmax n (fun i => c * f i) = c * rmax n f.
Proof.
  intros Hc. induction n as [|n IH]; cbn [rmax]; [ring|]. rewrite IH. apply RmaxRmult. auto.
Qed.
Lemma gnorm_ext ty n f g : (forall i, (i < n)%nat -> f i = g i) -> gnorm ty n f = gnorm ty n g.
Proof.
  intros H. destruct ty; cbn [gnorm]; first [apply rmax_ext|apply rsum_ext|f_equal; apply rsum_ext]; intros; rewrite H; auto.
Qed.
Lemma sq_nonneg n f : 0 <= rsum n (fun i => f i * f i).
Proof. apply rsum_nonneg. intros. apply Rle_0_sqr. Qed.
Lemma gnorm_nonneg ty n f : 0 <= gnorm ty n f.
Proof. destruct ty; cbn [gnorm]; try apply rmax_nonneg; [apply rsum_nonneg; intros; apply Rabs_pos|apply sqrt_pos]. Qed.
Lemma gnorm_zero ty n f : gnorm ty n f = 0 <-> forall i, (i < n)%nat -> f i = 0.
Proof.
  split.
  - intros H i Hi. destruct ty; cbn [gnorm] in H;
      try (apply Rabs_eq_0 || idtac);
      try (assert (Q := @rmax_ge n (fun i => Rabs (f i)) i Hi); cbv beta in Q; rewrite H in Q;
           pose proof (Rabs_pos (f i)); destruct (Req_dec (f i) 0) as [?|Hn]; auto; apply Rabs_pos_lt in Hn; lra).
    + assert (Q := @rsum_pos_terms n (fun i => Rabs (f i)) ltac:(intros; apply Rabs_pos) H i Hi). cbv beta in Q.
      destruct (Req_dec (f i) 0) as [?|Hn]; auto. apply Rabs_pos_lt in Hn. lra.
    + apply sqrt_eq_0 in H; [|apply sq_nonneg].
      assert (Q := @rsum_pos_terms n (fun i => f i * f i) ltac:(intros; apply Rle_0_sqr) H i Hi). cbv beta in Q.
      apply Rsqr_0_uniq. exact Q.
  - intros H. assert (E : gnorm ty n f = gnorm ty n (fun _ => 0)) by (apply gnorm_ext; auto). rewrite E.
    assert (M : rmax n (fun _ : nat => Rabs 0) = 0).
    { rewrite Rabs_R0. clear. induction n as [|n IH]; cbn [rmax]; auto. rewrite IH. apply Rmax_left. lra. }
    destruct ty; cbn [gnorm]; auto.
    + apply rsum_zero. intros. apply Rabs_R0.
    + rewrite rsum_zero by (intros; ring). apply sqrt_0.
Qed.
Lemma gnorm_scal ty n c f : gnorm ty n (fun i => c * f i) = Rabs c * gnorm ty n f.
Proof.
  assert (M : rmax n (fun i => Rabs (c * f i)) = Rabs c * rmax n (fun i => Rabs (f i))).
  { rewrite <- rmax_scal by apply Rabs_pos. apply rmax_ext. intros. apply Rabs_mult. }
  destruct ty; cbn [gnorm]; auto.
  - rewrite <- rsum_scal. apply rsum_ext. intros. apply Rabs_mult.
  - rewrite <- (sqrt_Rsqr_abs c). rewrite <- sqrt_mult; [|apply Rle_0_sqr|apply sq_nonneg].
    f_equal. rewrite <- rsum_scal. apply rsum_ext. intros. unfold Rsqr. ring.
Qed.

(** Cauchy-Schwarz *)
Lemma cauchy n u v : inner n u v * inner n u v <= inner n u u * inner n v v.
Proof.
  assert (E : rsum n (fun i => rsum n (fun j => (u i * v j - u j * v i) * (u i * v j - u j * v i))) =
     2 * (inner n u u * inner n v v - inner n u v * inner n u v)).
  { unfold inner. transitivity (rsum n (fun i => (u i * u i) * rsum n (fun j => v j * v j)
        + (-2) * (u i * v i) * rsum n (fun j => u j * v j) + (v i * v i) * rsum n (fun j => u j * u j))).
    - apply rsum_ext. intros i Hi. rewrite <- !rsum_scal, <- !rsum_plus. apply rsum_ext. intros j Hj. ring.
    - rewrite !rsum_plus, !rsum_scal_r.
      assert (Q : rsum n (fun i => -2 * (u i * v i)) = -2 * rsum n (fun i => u i * v i)) by apply rsum_scal.
      rewrite Q. ring. }
  assert (0 <= rsum n (fun i => rsum n (fun j => (u i * v j - u j * v i) * (u i * v j - u j * v i)))).
  { apply rsum_nonneg. intros. apply rsum_nonneg. intros. apply Rle_0_sqr. }
  lra.
Qed.
Lemma inner_plus n u v w : inner n (fun i => u i + v i) w = inner n u w + inner n v w.
Proof. unfold inner. rewrite <- rsum_plus. apply rsum_ext. intros. ring. Qed.
Lemma inner_comm n u v : inner n u v = inner n v u.
Proof. apply rsum_ext. intros. ring. Qed.
Lemma gnorm_triangle ty n f g : gnorm ty n (fun i => f i + g i) <= gnorm ty n f + gnorm ty n g.
Proof.
  assert (M : rmax n (fun i => Rabs (f i + g i)) <= rmax n (fun i => Rabs (f i)) + rmax n (fun i => Rabs (g i))).
  { pose proof (rmax_nonneg n (fun i => Rabs (f i))). pose proof (rmax_nonneg n (fun i => Rabs (g i))).
    apply rmax_lub; [lra|]. intros i Hi. eapply Rle_trans; [apply Rabs_triang|].
    apply Rplus_le_compat; apply (@rmax_ge n (fun i => Rabs (_ i)) i Hi). }
  destruct ty; cbn [gnorm]; auto.
  - rewrite <- rsum_plus. apply rsum_le. intros. apply Rabs_triang.
  - apply Rsqr_incr_0; [|apply sqrt_pos|apply Rplus_le_le_0_compat; apply sqrt_pos].
    unfold Rsqr. rewrite sqrt_sqrt by apply sq_nonneg.
    set (a := sqrt (rsum n (fun i => f i * f i))). set (b := sqrt (rsum n (fun i => g i * g i))).
    assert (Ea : a * a = inner n f f) by (apply sqrt_sqrt; apply sq_nonneg).
    assert (Eb : b * b = inner n g g) by (apply sqrt_sqrt; apply sq_nonneg).
    assert (E : rsum n (fun i => (f i + g i) * (f i + g i)) = inner n f f + 2 * inner n f g + inner n g g).
    { unfold inner. rewrite <- rsum_scal, <- !rsum_plus. apply rsum_ext. intros. ring. }
    rewrite E. pose proof (cauchy n f g) as C. rewrite <- Ea, <- Eb in C.
    assert (Pa : 0 <= a) by apply sqrt_pos. assert (Pb : 0 <= b) by apply sqrt_pos.
    assert (inner n f g <= a * b).
    { apply Rsqr_incr_0_var; [unfold Rsqr; lra|]. apply Rmult_le_pos; auto. }
    nra.
Qed.

(** ** Statements used by the properties *)

Lemma norm_laws ty v : plain ty ->
  0 <= norm ty v /\ (norm ty v = 0 <-> forall i, (i < length v)%nat -> cmp v i = 0) /\
  (forall c, norm ty (vscale v c) = Rabs c * norm ty v) /\
  (forall w, length w = length v -> exists s, vadd v w = Ok s /\ norm ty s <= norm ty v + norm ty w).
Proof.
  intros P. rewrite (norm_plain v P). split; [apply gnorm_nonneg|]. split; [apply gnorm_zero|]. split.
  - intros c. rewrite (norm_plain _ P), vscale_length, <- gnorm_scal. apply gnorm_ext. intros i Hi. unfold cmp.
    rewrite vscale_nth. ring.
  - intros w Hw. unfold vadd. rewrite vzip_ok by auto. eexists. split; [reflexivity|].
    rewrite !(norm_plain _ P), vec_length, Hw. eapply Rle_trans; [|apply gnorm_triangle]. right. apply gnorm_ext.
    intros i Hi. unfold cmp. rewrite vec_nth by auto. reflexivity.
Qed.

Lemma residual_distance ty v x : plain ty -> length v = length x ->
  exists d, vsub v x = Ok d /\ norm_residual ty v x = Ok (norm ty d) /\ (norm ty d = 0 <-> v = x).
Proof.
  intros P L. unfold vsub. rewrite vzip_ok by auto. eexists. split; [reflexivity|].
  assert (E : norm ty (vec (length v) (fun i => nth i v 0 - nth i x 0)) = gnorm ty (length v) (fun i => cmp v i - cmp x i)).
  { rewrite (norm_plain _ P), vec_length. apply gnorm_ext. intros i Hi. unfold cmp. rewrite vec_nth by auto. reflexivity. }
  rewrite E. split; [apply norm_residual_plain; auto|]. rewrite gnorm_zero. split.
  - intros H. apply (@list_ext_nth _ 0); auto. intros i Hi. specialize (H i Hi). unfold cmp in H. lra.
  - intros -> i Hi. ring.
Qed.

Lemma dot_laws u v : length u = length v ->
  exists s, vdot u v = Ok s /\ vdot v u = Ok s /\ Rabs s <= norm L2 u * norm L2 v /\
    vdot u u = Ok (norm L2 u * norm L2 u).
Proof.
  intros L. rewrite (vdot_ok L), (vdot_ok (eq_sym L)), (@vdot_ok u u eq_refl). eexists. split; [reflexivity|].
  split; [f_equal; rewrite inner_comm, L; reflexivity|].
  rewrite !(@norm_plain L2) by constructor. cbn [gnorm]. rewrite sqrt_sqrt by apply sq_nonneg. split; [|reflexivity].
  rewrite <- sqrt_mult by apply sq_nonneg. rewrite <- sqrt_Rsqr_abs. apply sqrt_le_1.
  - apply Rle_0_sqr.
  - apply Rmult_le_pos; apply sq_nonneg.
  - unfold Rsqr. rewrite <- L. apply (@cauchy (length u) (cmp u) (cmp v)).
Qed.

(** Vectors multiplied by a common factor have the same relative distance. *)
Lemma relative_scale ty v x c : ty = L1REL \/ ty = L2REL -> length v = length x -> c <> 0 ->
  (forall i, (i < length v)%nat -> cmp v i <> 0) ->
  exists r, norm_residual ty v x = Ok r /\ norm_residual ty (vscale v c) (vscale x c) = Ok r.
Proof.
  intros T L Hc Hv. assert (Q : forall i, (i < length v)%nat ->
    (nth i (vscale v c) 0 - nth i (vscale x c) 0) / nth i (vscale v c) 0 = (nth i v 0 - nth i x 0) / nth i v 0).
  { intros i Hi. rewrite !vscale_nth. pose proof (Hv i Hi) as N. unfold cmp in N. field. auto. }
  destruct T as [-> | ->]; unfold norm_residual.
  - rewrite (@fold_over v x (fun s a b => s + Rabs ((a - b) / a))) by lia.
    rewrite (@fold_over (vscale v c) (vscale x c) (fun s a b => s + Rabs ((a - b) / a))) by (rewrite !vscale_length; lia).
    rewrite !fold_sum, vscale_length. eexists. split; [reflexivity|]. do 2 f_equal. apply rsum_ext. intros i Hi. rewrite Q; auto.
  - rewrite (@fold_over v x (fun s a b => s + ((a - b) / a) * ((a - b) / a))) by lia.
    rewrite (@fold_over (vscale v c) (vscale x c) (fun s a b => s + ((a - b) / a) * ((a - b) / a))) by (rewrite !vscale_length; lia).
    rewrite !fold_sum, vscale_length. cbn [bind]. eexists. split; [reflexivity|]. do 3 f_equal. apply rsum_ext. intros i Hi. rewrite Q; auto.
Qed.

Lemma linfrel_not_relative :
  exists v x c, c <> 0 /\ norm_residual LINFREL v x = Ok 1 /\ norm_residual LINFREL (vscale v c) (vscale x c) = Ok 2.
Proof.
  exists [2], [1], 2. split; [lra|]. unfold norm_residual. cbn. split; f_equal; rewrite ?Rabs_right by lra; rewrite Rmax_right; lra.
Qed.

(** norm() silently answers 0 for the relative kinds. *)
Lemma norm_rel_zero : exists v, norm L1 v = 1 /\ norm L1REL v = 0 /\ norm L2REL v = 0 /\ norm LINFREL v = 0.
Proof. exists [1]. repeat split. cbn. rewrite Rabs_right by lra. ring. Qed.
