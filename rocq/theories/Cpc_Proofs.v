(** * Cpc_Proofs: matrices filled one column after the other. *)
From Verif Require Import Base BaseR Loop Mesh_Model Mesh_Spec Matrix_Model Matrix_Spec Matrix_Proofs Region_Model Region_Spec Region_Proofs.
Set Implicit Arguments.
Unset Strict Implicit.
Open Scope nat_scope.

Section Fill.
Variables (srt : list triplet -> list triplet) (m n K cap : nat) (row col : nat -> nat) (val : nat -> R).
Hypothesis Hsrt : is_sort srt.
Hypothesis Hrow : forall k, k < K -> row k < m.
Hypothesis Hcol : forall k, k < K -> col k < n.

Definition trip (r k : nat) : triplet := T (Z.of_nat r) (Z.of_nat (col k)) (val k).
Definition hits (r k : nat) : list nat := filter (fun j => row j =? r) (seq 0 k).
Definition ents (r k : nat) : list triplet := firstn cap (map (trip r) (hits r k)).
Definition FI (k : nat) (A : coo) : Prop :=
  length A = m /\ forall r rw, nth_error A r = Some rw -> RI r n rw (ents r k) /\ length (fst rw) = cap.

Lemma hits_S r k : hits r (S k) = hits r k ++ (if row k =? r then [k] else []).
Proof. unfold hits. rewrite seq_S, filter_app. cbn. destruct (row k =? r); reflexivity. Qed.
Lemma FI_0 : FI 0 (preallocate (repeat cap m)).
Proof.
  split; [unfold preallocate; rewrite map_length, repeat_length; reflexivity|].
  intros r rw H. unfold preallocate in H. rewrite nth_error_map in H.
  destruct (nth_error (repeat cap m) r) as [c|] eqn:E; [|discriminate].
  assert (c = cap) by (apply nth_error_In in E; apply repeat_spec in E; auto). subst c.
  cbn in H. injection H as <-. unfold ents, hits. cbn. rewrite firstn_nil. split; [|apply repeat_length].
  exists cap. repeat split; auto.
Qed.
Lemma FI_S k A : k < K -> FI k A ->
  exists b A', insert A (row k) (Z.of_nat (col k)) (val k) INSERT = Ok (b, A') /\ FI (S k) A'.
Proof.
  intros Hk (LA & HA). pose proof (Hrow Hk) as Hr. pose proof (Hcol Hk) as Hc.
  destruct (nth_error A (row k)) as [rw|] eqn:E; [|apply nth_error_None in E; lia].
  destruct (HA _ _ E) as (RI0 & L0).
  assert (OTHER : forall rw' r w, nth_error (upd A (row k) rw') r = Some w -> r <> row k -> RI r n w (ents r (S k)) /\ length (fst w) = cap).
  { intros rw' r w H N. rewrite nth_error_upd_neq in H by auto. destruct (HA _ _ H) as (P1 & P2). split; auto.
    unfold ents in *. rewrite hits_S. replace (row k =? r) with false by (symmetry; apply Nat.eqb_neq; auto). rewrite app_nil_r. auto. }
  assert (Q : exists b rw', row_append (row k) (Z.of_nat (col k)) (val k) rw = (b, rw') /\ RI (row k) n rw' (ents (row k) (S k)) /\ length (fst rw') = cap).
  { destruct (@row_append_spec _ _ (Z.of_nat (col k)) (val k) _ _ RI0) as [(Ea & La)|(rw' & Ea & RI1 & La)]; [lia| |].
    - exists false, rw. split; auto. split; auto. unfold ents in *. rewrite hits_S, Nat.eqb_refl, map_app.
      rewrite firstn_length in La. rewrite firstn_app.
      replace (cap - length (map (trip (row k)) (hits (row k) k))) with 0 by lia. cbn. rewrite app_nil_r. auto.
    - exists true, rw'. split; auto. split; [|lia]. unfold ents in *. rewrite hits_S, Nat.eqb_refl, map_app.
      destruct RI1 as (j & E1 & E2 & E3). assert (length (fst rw') = cap) by lia. rewrite E1, !app_length, firstn_length in H. cbn [length] in H.
      rewrite firstn_all2 in E1, E2, E3 by lia. exists j. rewrite firstn_all2; [repeat split; auto|]. rewrite app_length. cbn. lia. }
  destruct Q as (b & rw' & E1 & E2 & E3). unfold insert. unfold rd; rewrite E. cbn [bind row_insert]. rewrite E1.
  exists b, (upd A (row k) rw'). split; auto. split; [rewrite upd_length; auto|]. intros r w H.
  destruct (Nat.eq_dec r (row k)) as [->|N]; [|eapply OTHER; eauto].
  rewrite nth_error_upd_eq in H by lia. injection H as <-. auto.
Qed.
Definition fill_loop (A : coo) : res coo := for_ 0 K A (fun k A => do x <- insert A (row k) (Z.of_nat (col k)) (val k) INSERT; Ok (snd x)).
Lemma fill_ok : exists A, fill_loop (preallocate (repeat cap m)) = Ok A /\ FI K A.
Proof.
  apply (@for_inv _ FI 0 K); [lia|apply FI_0|]. intros k A Hk HI. destruct (FI_S (proj2 Hk) HI) as (b & A' & E & H).
  exists A'. rewrite E. auto.
Qed.
(** What the product with the assembled matrix is. *)
Definition row_value (x : list R) (r : nat) : R := sumR (map (fun k => val k * nth (col k) x 0)%R (firstn cap (hits r K))).
Lemma fill_multiply : 0 < cap -> (forall r, r < m -> exists k, k < K /\ row k = r) ->
  exists A M, fill_loop (preallocate (repeat cap m)) = Ok A /\ assemble srt n A = Ok M /\
  forall x, length x = n -> multiply M x = Ok (map (row_value x) (seq 0 m)).
Proof.
  intros Hcap Hon. destruct fill_ok as (A & E & LA & HA). exists A.
  destruct (@assemble_rows_spec srt n A Hsrt 0 (fun r => ents r K)) as (ls & E1 & L1 & F1).
  { intros k rw H. apply (HA _ _ H). }
  { intros k Hk. cbn. rewrite LA in Hk. destruct (Hon k Hk) as (j & Hj & Ej). unfold ents.
    assert (In j (hits k K)) by (unfold hits; apply filter_In; split; [apply in_seq; lia|apply Nat.eqb_eq; auto]).
    destruct (hits k K) as [|h t]; [destruct H|]. destruct cap; [lia|]. discriminate. }
  exists (csr_of ls). split; auto. split; [unfold assemble; rewrite E1; reflexivity|]. intros x Hx.
  rewrite (@multiply_spec ls n x); auto.
  - f_equal. rewrite L1, LA. apply map_ext_in. intros r Hr. apply in_seq in Hr.
    destruct (nth_error ls r) as [l|] eqn:El; [|apply nth_error_None in El; lia].
    rewrite (nth_error_nth _ _ _ El). specialize (F1 _ _ El). cbn in F1. rewrite (row_fine_sum _ F1).
    unfold rowsum, row_value, ents. rewrite firstn_map, map_map. f_equal. apply map_ext. intros k. cbn [trip tv tj]. unfold at_col. rewrite Nat2Z.id. reflexivity.
  - intros i l Hl. apply F1 in Hl. destruct Hl. auto.
Qed.
(** Enough places: nothing is lost. *)
Lemma sum_filter (p : nat -> bool) (f : nat -> R) k : sumR (map f (filter p (seq 0 k))) = rsum k (fun j => if p j then f j else 0%R).
Proof.
  induction k as [|k IH]; [reflexivity|]. rewrite seq_S, filter_app, map_app, sumR_app, IH. cbn [plus rsum filter].
  destruct (p k); cbn; ring.
Qed.
Lemma row_value_all x r : length (hits r K) <= cap -> row_value x r = rsum K (fun k => if row k =? r then val k * nth (col k) x 0 else 0)%R.
Proof. intros H. unfold row_value. rewrite firstn_all2 by auto. apply sum_filter. Qed.
(** Too few: positive entries are missing. *)
Lemma row_value_less x r : cap < length (hits r K) -> (forall k, k < K -> row k = r -> (0 < val k * nth (col k) x 0)%R) ->
  (row_value x r < rsum K (fun k => if row k =? r then val k * nth (col k) x 0 else 0))%R.
Proof.
  intros H P. rewrite <- (sum_filter (fun k => row k =? r)). fold (hits r K). unfold row_value.
  rewrite <- (firstn_skipn cap (hits r K)) at 2. rewrite map_app, sumR_app.
  assert (F : forall k, In k (skipn cap (hits r K)) -> (0 < val k * nth (col k) x 0)%R).
  { intros k Hk. assert (I : In k (hits r K)) by (rewrite <- (firstn_skipn cap); apply in_or_app; auto).
    unfold hits in I. apply filter_In in I. destruct I as (I1 & I2). apply in_seq in I1. apply Nat.eqb_eq in I2. apply P; auto. lia. }
  assert (0 < length (skipn cap (hits r K))) by (rewrite skipn_length; lia).
  set (l := skipn cap (hits r K)) in *. assert (Q : forall l : list nat, (forall k, In k l -> (0 < val k * nth (col k) x 0)%R) ->
     (0 <= sumR (map (fun k => val k * nth (col k) x 0) l))%R).
  { clear. induction l as [|a l IH]; intros F; cbn [map]; [unfold sumR; cbn; lra|]. rewrite sumR_cons. pose proof (F a (or_introl eq_refl)). specialize (IH (fun k Hk => F k (or_intror Hk))). lra. }
  destruct l as [|a l]; [cbn in H0; lia|]. cbn [map]. rewrite sumR_cons. pose proof (F a (or_introl eq_refl)). specialize (Q l (fun k Hk => F k (or_intror Hk))). lra.
Qed.
End Fill.
