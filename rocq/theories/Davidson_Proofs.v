(** * Davidson_Proofs: the generalized Davidson eigensolver. *)
From Verif Require Import Base BaseR Loop Vector_Model Vector_Spec Vector_Proofs Solver_Spec Gmres_Model Gmres_Spec Gmres_Proofs Matrix_Model Dense_Model Dense_Spec Dense_Proofs Rom_Spec Davidson_Model Davidson_Spec.
From Verif Require Dsa_Proofs2.
From Coq Require Import Lra.
Set Implicit Arguments. Unset Strict Implicit.
Open Scope nat_scope.

Section Dav.
  Variable n : nat.
  Notation ip := (ip n). Notation orthonormal := (orthonormal n).

  Lemma gram_ok i V W : (forall j, j <= i -> length (V j) = n) -> (forall j, j <= i -> length (W j) = n) ->
    exists M, dav_gram i V W = Ok M /\ dwf M /\ dm M = S i /\ dn M = S i /\ forall a b, a <= i -> b <= i -> dent M a b = ip (V a) (W b).
  Proof.
    intros HV HW. unfold dav_gram.
    destruct (@for_inv _ (fun h M => dwf M /\ dm M = S i /\ dn M = S i /\ forall a b, a < h -> b <= i -> dent M a b = ip (V a) (W b))
      0 (S i) (dense_new (S i) (S i) 0%R) (fun row A => for_ 0 (S i) A (fun col A => do d <- vdot (V row) (W col); dinsert A row col d INSERT))) as (M & E & W1 & D1 & D2 & H); [lia|..].
    - split; [unfold dwf; cbn [dense_new dv dm dn]; apply repeat_length|]. do 2 (split; [reflexivity|]). intros; lia.
    - intros row M Hr (W1 & D1 & D2 & H).
      destruct (@for_inv _ (fun h M => dwf M /\ dm M = S i /\ dn M = S i /\ forall a b, a <= i -> b <= i -> (a < row \/ a = row /\ b < h) -> dent M a b = ip (V a) (W b))
        0 (S i) M (fun col A => do d <- vdot (V row) (W col); dinsert A row col d INSERT)) as (M' & E & W1' & D1' & D2' & H'); [lia|..].
      + do 3 (split; auto). intros a b Ha Hb [L|[_ L]]; [|lia]. apply H; auto.
      + intros c M' Hc (W2 & E1 & E2 & H2). rewrite (@vdot_ip n) by (apply HV || apply HW; lia). cbn [bind].
        destruct (@dinsert_ok M' row c (ip (V row) (W c)) INSERT W2) as (M2 & -> & W3 & F1 & F2 & H3); try lia. exists M2. split; auto. split; auto.
        split; [congruence|]. split; [congruence|]. intros a b Ha Hb Q. rewrite H3 by lia. unfold tbl_upd. cbn [d_i d_j d_x d_t].
        destruct (Nat.eqb_spec a row) as [->|Na]; cbn [andb]; [|apply H2; auto; lia]. destruct (Nat.eqb_spec b c) as [->|Nb]; auto. apply H2; auto. lia.
      + exists M'. split; auto. do 3 (split; auto). intros a b Ha Hb. apply H'; auto; lia.
    - exists M. do 4 (split; auto). intros; apply H; lia.
  Qed.

  Lemma ritz_ok i y V u : length y = S i -> (forall j, j <= i -> length (V j) = n) -> length u = n ->
    exists w, dav_ritz i y V u = Ok w /\ length w = n /\ forall e, e < n -> cmp w e = rsum (S i) (fun j => cmp y j * cmp (V j) e)%R.
  Proof.
    intros Hy HV Hu. unfold dav_ritz.
    destruct (@for_inv _ (fun h w => length w = n /\ forall e, e < n -> cmp w e = rsum h (fun j => cmp y j * cmp (V j) e)%R)
      0 (S i) (vscale u 0) (fun j u => do yj <- rd y j; vaxpy u yj (V j))) as (w & E & H); [lia|..].
    - rewrite vscale_length. split; auto. intros e He. unfold cmp. rewrite vscale_nth. cbn. ring.
    - intros j w Hj (L & H). rewrite (@rd_ok _ y j 0%R) by lia. cbn [bind]. destruct (@vaxpy_ok n w (nth j y 0%R) (V j) L ltac:(apply HV; lia)) as (w' & -> & L' & H').
      exists w'. split; auto. split; auto. intros e He. rewrite H', H by auto. cbn [rsum]. reflexivity.
    - exists w. tauto.
  Qed.

  Lemma residual_ok i y l VA VB r : length y = S i -> (forall j, j <= i -> length (VA j) = n) -> (forall j, j <= i -> length (VB j) = n) -> length r = n ->
    exists w, dav_residual i y l VA VB r = Ok w /\ length w = n /\ forall e, e < n -> cmp w e = rsum (S i) (fun j => cmp y j * (cmp (VA j) e - l * cmp (VB j) e))%R.
  Proof.
    intros Hy HA HB Hu. unfold dav_residual.
    destruct (@for_inv _ (fun h w => length w = n /\ forall e, e < n -> cmp w e = rsum h (fun j => cmp y j * (cmp (VA j) e - l * cmp (VB j) e))%R)
      0 (S i) (vscale r 0) (fun j r => do yj <- rd y j; do r <- vaxpy r yj (VA j); vaxpy r (- l * yj)%R (VB j))) as (w & E & H); [lia|..].
    - rewrite vscale_length. split; auto. intros e He. unfold cmp. rewrite vscale_nth. cbn. ring.
    - intros j w Hj (L & H). rewrite (@rd_ok _ y j 0%R) by lia. cbn [bind]. destruct (@vaxpy_ok n w (nth j y 0%R) (VA j) L ltac:(apply HA; lia)) as (w' & -> & L' & H'). cbn [bind].
      destruct (@vaxpy_ok n w' (- l * nth j y 0)%R (VB j) L' ltac:(apply HB; lia)) as (w2 & -> & L2 & H2).
      exists w2. split; auto. split; auto. intros e He. rewrite H2, H', H by auto. cbn [rsum]. fold (cmp y j). ring.
    - exists w. tauto.
  Qed.

  Lemma orth_ok i y V u : length y = S i -> orthonormal (S i) V -> length u = n ->
    exists w, dav_orth i y V u = Ok w /\ length w = n /\ (forall e, e < n -> cmp w e = (cmp u e - rsum (S i) (fun j => ip (V j) u * cmp (V j) e))%R) /\
      forall j, j <= i -> ip w (V j) = 0%R.
  Proof.
    intros Hy [HV HO] Hu. unfold dav_orth.
    destruct (@for_inv _ (fun h y => length y = S i /\ forall j, j < h -> cmp y j = ip (V j) u) 0 (S i) y (fun j y => do d <- vdot (V j) u; wr y j d)) as (z & -> & Lz & Hz); [lia|..].
    - split; auto. intros; lia.
    - intros j z Hj (L & H). rewrite (@vdot_ip n) by (auto; apply HV; lia). cbn [bind]. rewrite Dsa_Proofs2.wr_ok by lia. eexists. split; [reflexivity|].
      rewrite upd_length. split; auto. intros k Hk. unfold cmp. destruct (Nat.eq_dec j k) as [->|N]; [apply nth_upd_eq; lia|]. rewrite nth_upd_neq by auto. apply H. lia.
    - cbn [bind].
      destruct (@for_inv _ (fun h w => length w = n /\ forall e, e < n -> cmp w e = (cmp u e - rsum h (fun j => ip (V j) u * cmp (V j) e))%R)
        0 (S i) u (fun j u => do yj <- rd z j; vaxpy u (- yj)%R (V j))) as (w & E & L & H); [lia|..].
      + split; auto. intros. cbn. ring.
      + intros j w Hj (L & H). rewrite (@rd_ok _ z j 0%R) by lia. cbn [bind]. destruct (@vaxpy_ok n w (- nth j z 0)%R (V j) L ltac:(apply HV; lia)) as (w' & -> & L' & H').
        exists w'. split; auto. split; auto. intros e He. rewrite H', H by auto. cbn [rsum]. fold (cmp z j). rewrite Hz by lia. ring.
      + exists w. split; auto. split; auto. split; auto. intros j Hj. unfold Gmres_Proofs.ip, inner.
        rewrite (@rsum_ext n _ (fun e => cmp u e * cmp (V j) e - rsum (S i) (fun k => ip (V k) u * (cmp (V k) e * cmp (V j) e)))%R).
        * rewrite rsum_minus. rewrite rsum_swap. rewrite (@rsum_ext (S i) _ (fun k => if k =? j then ip (V j) u else 0%R)).
          { rewrite rsum_delta by lia. fold (inner n (cmp u) (cmp (V j))). fold (ip u (V j)). rewrite ip_comm. ring. }
          intros k Hk. rewrite rsum_scal. fold (inner n (cmp (V k)) (cmp (V j))). fold (ip (V k) (V j)). rewrite HO by lia. destruct (Nat.eqb_spec k j) as [->|]; ring.
        * intros e He. rewrite H by auto. rewrite Rmult_minus_distr_r. f_equal. rewrite <- rsum_scal_r. apply rsum_ext. intros; ring.
  Qed.

  (** Adding a unit vector. *)
  Lemma orth_add i V w nu : orthonormal (S i) V -> length w = n -> (forall j, j <= i -> ip w (V j) = 0%R) -> nu = norm L2 w -> nu <> 0%R ->
    orthonormal (S (S i)) (setf V (S i) (vscale w (1 / nu))).
  Proof.
    intros [HV HO] Lw HW -> Nz. set (q := vscale w (1 / norm L2 w)).
    assert (Lq : length q = n) by (unfold q; rewrite vscale_length; auto).
    assert (Cq : forall z, ip q z = (1 / norm L2 w * ip w z)%R).
    { intros z. unfold Gmres_Proofs.ip, inner. rewrite <- rsum_scal. apply rsum_ext. intros e He. unfold q, cmp. rewrite vscale_nth. ring. }
    split.
    - intros j Hj. unfold setf. destruct (Nat.eqb_spec j (S i)); auto. apply HV. lia.
    - intros a b Ha Hb. unfold setf. destruct (Nat.eqb_spec a (S i)) as [->|Na], (Nat.eqb_spec b (S i)) as [->|Nb].
      + rewrite Nat.eqb_refl. rewrite Cq, ip_comm, Cq, <- (@norm_sq n w Lw). field. auto.
      + rewrite Cq, HW by lia. destruct (Nat.eqb_spec (S i) b); [lia|]. ring.
      + rewrite ip_comm, Cq, HW by lia. destruct (Nat.eqb_spec a (S i)); [lia|]. ring.
      + apply HO; lia.
  Qed.

  (** Nothing is orthogonal to n orthonormal vectors. *)
  Lemma orth_full V w : orthonormal n V -> length w = n -> (forall j, j < n -> ip w (V j) = 0%R) -> norm L2 w = 0%R.
  Proof.
    intros O Lw H. destruct (Req_EM_T (norm L2 w) 0) as [|N]; auto. exfalso. destruct n as [|m] eqn:En.
    - apply N. rewrite (@norm_ip 0 w Lw). unfold Gmres_Proofs.ip, inner. cbn. apply sqrt_0.
    - assert (O' := O). rewrite <- En in *. assert (Q : orthonormal (S (S m)) (setf V (S m) (vscale w (1 / norm L2 w)))).
      { apply orth_add; auto. - rewrite <- En. auto. - intros j Hj. apply H. lia. }
      apply orthonormal_dim in Q. lia.
  Qed.
End Dav.
