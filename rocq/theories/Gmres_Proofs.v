(** * Proofs about GMRES *)
From Verif Require Import Base BaseR Loop Vector_Model Vector_Spec Vector_Proofs Solver_Model Solver_Spec Solver_Proofs
  Gmres_Model Gmres_Spec.
Set Implicit Arguments. Unset Strict Implicit.
Open Scope R_scope.

(** ** Rotations *)

Definition rot (c s : R) (i : nat) (u : nat -> R) : nat -> R :=
  fun m => if (m =? i)%nat then c * u i - s * u (S i) else if (m =? S i)%nat then s * u i + c * u (S i) else u m.
Fixpoint rots (c s : nat -> R) (k : nat) (u : nat -> R) : nat -> R :=
  match k with O => u | S j => rot (c j) (s j) j (rots c s j u) end.

Lemma rot_ext c s i u w : (forall m, u m = w m) -> forall m, rot c s i u m = rot c s i w m.
Proof. intros H m. unfold rot. rewrite !H. reflexivity. Qed.
Lemma rots_ext c s k u w : (forall m, u m = w m) -> forall m, rots c s k u m = rots c s k w m.
Proof. intros H. induction k as [|k IH]; intros m; cbn [rots]; auto. apply rot_ext. auto. Qed.
Lemma rots_cs c s c' s' k u : (forall i, (i < k)%nat -> c i = c' i /\ s i = s' i) -> forall m, rots c s k u m = rots c' s' k u m.
Proof.
  induction k as [|k IH]; intros H m; cbn [rots]; auto. destruct (H k ltac:(lia)) as [-> ->]. apply rot_ext. apply IH. auto.
Qed.
Lemma rots_out c s k u m : (k < m)%nat -> rots c s k u m = u m.
Proof.
  induction k as [|k IH]; intros H; cbn [rots]; auto. unfold rot.
  rewrite (proj2 (Nat.eqb_neq m k) ltac:(lia)), (proj2 (Nat.eqb_neq m (S k)) ltac:(lia)). apply IH. lia.
Qed.
Lemma rots_lin c s k u w a m : rots c s k (fun i => u i + a * w i) m = rots c s k u m + a * rots c s k w m.
Proof.
  revert m. induction k as [|k IH]; intros m; cbn [rots]; auto. unfold rot. rewrite !IH.
  destruct (m =? k)%nat; [ring|]. destruct (m =? S k)%nat; ring.
Qed.
Lemma rots_ext_le c s k u w N : (k <= N)%nat -> (forall m, (m <= N)%nat -> u m = w m) -> forall m, (m <= N)%nat -> rots c s k u m = rots c s k w m.
Proof.
  intros HN H. induction k as [|k IH]; intros m Hm; cbn [rots]; auto. specialize (IH ltac:(lia)). unfold rot.
  rewrite (IH k) by lia. rewrite (IH (S k)) by lia. rewrite (IH m) by lia. reflexivity.
Qed.
Lemma rots_zero c s k m : rots c s k (fun _ => 0) m = 0.
Proof.
  revert m. induction k as [|k IH]; intros m; cbn [rots]; auto. unfold rot. rewrite !IH.
  destruct (m =? k)%nat; [ring|]. destruct (m =? S k)%nat; ring.
Qed.
Lemma rots_comb c s k u q (h : nat -> nat -> R) z m :
  rots c s k (fun i => u i - rsum q (fun j => h i j * z j)) m = rots c s k u m - rsum q (fun j => rots c s k (fun i => h i j) m * z j).
Proof.
  induction q as [|q IH]; cbn [rsum].
  - rewrite Rminus_0_r. apply rots_ext. intros. ring.
  - rewrite (@rots_ext c s k _ (fun i => (u i - rsum q (fun j => h i j * z j)) + (- z q) * h i q)) by (intros; ring).
    rewrite rots_lin, IH. ring.
Qed.

Lemma rsum_two N f g i : (S i < N)%nat -> (forall m, (m < N)%nat -> m <> i -> m <> S i -> f m = g m) ->
  f i + f (S i) = g i + g (S i) -> rsum N f = rsum N g.
Proof.
  intros H E Q. assert (Z : rsum N (fun m => f m - g m) = 0).
  { rewrite (@rsum_ext N _ (fun m => (if (m =? i)%nat then f i - g i else 0) + (if (m =? S i)%nat then f (S i) - g (S i) else 0))).
    - rewrite rsum_plus, !rsum_delta by lia. lra.
    - intros m Hm. destruct (Nat.eqb_spec m i); destruct (Nat.eqb_spec m (S i)); subst; try lia; try ring.
      rewrite E by auto. ring. }
  rewrite rsum_minus in Z. lra.
Qed.

Lemma rot_norm c s i u N : c * c + s * s = 1 -> (S i < N)%nat ->
  rsum N (fun m => rot c s i u m * rot c s i u m) = rsum N (fun m => u m * u m).
Proof.
  intros E H. apply (@rsum_two N _ _ i H).
  - intros m Hm N1 N2. unfold rot. rewrite (proj2 (Nat.eqb_neq m i) N1), (proj2 (Nat.eqb_neq m (S i)) N2). reflexivity.
  - unfold rot. rewrite !Nat.eqb_refl. rewrite (proj2 (Nat.eqb_neq (S i) i) ltac:(lia)).
    replace (u i * u i + u (S i) * u (S i)) with ((c * c + s * s) * (u i * u i + u (S i) * u (S i))) by (rewrite E; ring). ring.
Qed.
Lemma rots_norm c s k u N : (forall i, (i < k)%nat -> c i * c i + s i * s i = 1) -> (k < N)%nat ->
  rsum N (fun m => rots c s k u m * rots c s k u m) = rsum N (fun m => u m * u m).
Proof.
  intros E. induction k as [|k IH]; intros H; cbn [rots]; auto. rewrite rot_norm by (auto; lia). apply IH; auto; lia.
Qed.

Lemma setH_eq H i j v : setH H i j v i j = v.
Proof. unfold setH. rewrite !Nat.eqb_refl. reflexivity. Qed.
Lemma setH_neq H i j v a b : (a <> i \/ b <> j) -> setH H i j v a b = H a b.
Proof. unfold setH. intros Q. destruct (Nat.eqb_spec a i); destruct (Nat.eqb_spec b j); cbn; auto. subst. destruct Q; congruence. Qed.
Lemma setf_eq A (f : nat -> A) k v : setf f k v k = v.
Proof. unfold setf. rewrite Nat.eqb_refl. reflexivity. Qed.
Lemma setf_neq A (f : nat -> A) k v i : i <> k -> setf f k v i = f i.
Proof. unfold setf. intros H. rewrite (proj2 (Nat.eqb_neq i k) H). reflexivity. Qed.

Lemma apply_givens_ok k c s H i j :
  apply_givens k c s H i j = if (j =? k)%nat then rots c s k (fun m => H m k) i else H i j.
Proof.
  unfold apply_givens.
  assert (G : forall q i, fold_left (fun H i => setH (setH H i k (c i * H i k - s i * H (S i) k)) (S i) k (s i * H i k + c i * H (S i) k))
      (seq 0 q) H i j = if (j =? k)%nat then rots c s q (fun m => H m k) i else H i j).
  { induction q as [|q IH]; intros m.
    - cbn. destruct (Nat.eqb_spec j k); subst; auto.
    - rewrite seq_S, fold_left_app. cbn [fold_left plus].
      set (G := fold_left _ (seq 0 q) H) in *. cbn [rots].
      destruct (Nat.eqb_spec j k) as [->|Nk].
      + unfold rot. rewrite <- !IH. destruct (Nat.eqb_spec m q) as [->|N1].
        * rewrite setH_neq by lia. apply setH_eq.
        * destruct (Nat.eqb_spec m (S q)) as [->|N2]; [apply setH_eq|]. rewrite !setH_neq by auto. reflexivity.
      + rewrite !setH_neq by auto. apply IH. }
  apply G.
Qed.

(** ** Back substitution *)

Lemma compute_y_ok k H g y : (forall i, (i < k)%nat -> H i i <> 0) ->
  exists y', compute_y k H g y = Ok y' /\
    forall i, (i < k)%nat -> rsum k (fun j => if (i <=? j)%nat then H i j * y' j else 0) = g i.
Proof.
  intros HD. unfold compute_y.
  destruct (@for_inv (nat -> R) (fun a y => forall i, (k - a <= i < k)%nat ->
      rsum k (fun j => if (i <=? j)%nat then H i j * y j else 0) = g i) 0 k y
    (fun a y => let i := (k - 1 - a)%nat in
      let yi := fold_left (fun s j => s - H i j * y j) (seq (S i) (k - S i)) (g i) in
      if Req_EM_T (H i i) 0 then UB else Ok (setf y i (yi / H i i))) ltac:(lia)) as (y' & E & Hy).
  - intros i Hi. lia.
  - intros a z Ha Hz. cbv zeta. set (i := (k - 1 - a)%nat). assert (Hi : (i < k)%nat) by (unfold i; lia).
    destruct (Req_EM_T (H i i) 0) as [Q|N]; [exfalso; apply (HD i Hi Q)|]. eexists. split; [reflexivity|].
    assert (F : forall q s0, fold_left (fun s j => s - H i j * z j) (seq (S i) q) s0 = s0 - rsum q (fun t => H i (S i + t)%nat * z (S i + t)%nat)).
    { induction q as [|q IH]; intros s0; [cbn; ring|]. rewrite seq_S, fold_left_app. cbn [fold_left rsum]. rewrite IH. ring. }
    rewrite F. set (yi := (g i - _) / H i i).
    intros l Hl. destruct (Nat.eq_dec l i) as [->|Nl].
    + rewrite (@rsum_ext k _ (fun j => (if (j =? i)%nat then H i i * yi else 0) + (if (S i <=? j)%nat then H i j * z j else 0))).
      * rewrite rsum_plus, rsum_delta by auto.
        assert (T : rsum k (fun j => if (S i <=? j)%nat then H i j * z j else 0) = rsum (k - S i) (fun t => H i (S i + t)%nat * z (S i + t)%nat)).
        { replace k with (S i + (k - S i))%nat at 1 by lia. rewrite rsum_split. rewrite rsum_zero.
          2:{ intros j Hj. rewrite (proj2 (Nat.leb_gt (S i) j)) by lia. reflexivity. }
          rewrite Rplus_0_l. apply rsum_ext. intros j Hj. rewrite (proj2 (Nat.leb_le (S i) (S i + j))) by lia. reflexivity. }
        rewrite T. unfold yi. field. auto.
      * intros j Hj. destruct (Nat.eqb_spec j i) as [->|Nj].
        -- rewrite Nat.leb_refl, setf_eq. rewrite (proj2 (Nat.leb_gt (S i) i)) by lia. ring.
        -- rewrite setf_neq by auto. destruct (Nat.leb_spec i j); destruct (Nat.leb_spec (S i) j); try lia; ring.
    + rewrite <- (Hz l) by (unfold i in Nl; lia). apply rsum_ext. intros j Hj. destruct (Nat.leb_spec l j); auto.
      rewrite setf_neq; auto. unfold i in *. lia.
  - exists y'. split; auto. intros i Hi. apply Hy. lia.
Qed.

(** ** Linear algebra on n-vectors *)

Section Krylov.
Variable n : nat.
Definition ip (u v : list R) : R := inner n (cmp u) (cmp v).

Lemma ip_comm u v : ip u v = ip v u.
Proof. apply inner_comm. Qed.
Lemma ip_axpy u a v w z : length z = n -> (forall i, (i < n)%nat -> cmp z i = cmp u i + a * cmp v i) -> ip z w = ip u w + a * ip v w.
Proof.
  intros Hz E. unfold ip, inner. rewrite <- rsum_scal, <- rsum_plus. apply rsum_ext. intros i Hi. rewrite (E i Hi). ring.
Qed.
Lemma ip_pos u : 0 <= ip u u.
Proof. apply sq_nonneg. Qed.
Lemma ip_zero u : ip u u = 0 -> forall i, (i < n)%nat -> cmp u i = 0.
Proof.
  intros H i Hi. pose proof (@rsum_pos_terms n (fun i => cmp u i * cmp u i) (fun j _ => Rle_0_sqr _) H i Hi) as Q. cbn beta in Q.
  apply Rmult_integral in Q. tauto.
Qed.
Lemma norm_ip u : length u = n -> norm L2 u = sqrt (ip u u).
Proof. intros H. rewrite norm_plain by constructor. cbn [gnorm]. rewrite H. reflexivity. Qed.
Lemma norm_sq u : length u = n -> norm L2 u * norm L2 u = ip u u.
Proof. intros H. rewrite norm_ip by auto. apply sqrt_sqrt. apply ip_pos. Qed.

Lemma vaxpy_ok u a v : length u = n -> length v = n ->
  exists w, vaxpy u a v = Ok w /\ length w = n /\ forall i, (i < n)%nat -> cmp w i = cmp u i + a * cmp v i.
Proof.
  intros Hu Hv. unfold vaxpy. rewrite vzip_ok by lia. eexists. split; [reflexivity|]. rewrite vec_length, Hu. split; auto.
  intros i Hi. unfold cmp. rewrite vec_nth by auto. reflexivity.
Qed.
Lemma vdot_ip u v : length u = n -> length v = n -> vdot u v = Ok (ip u v).
Proof. intros Hu Hv. rewrite vdot_ok by lia. rewrite Hu. reflexivity. Qed.

(** Gram-Schmidt against an orthonormal family. *)
Definition orthonormal (q : nat) (v : nat -> list R) : Prop :=
  (forall j, (j < q)%nat -> length (v j) = n) /\
  forall i j, (i < q)%nat -> (j < q)%nat -> ip (v i) (v j) = if (i =? j)%nat then 1 else 0.

Lemma mgs_ok k v w H : orthonormal (S k) v -> length w = n ->
  exists w' H', mgs k v w H = Ok (w', H') /\ length w' = n /\
    (forall i, (i < n)%nat -> cmp w' i = cmp w i - rsum (S k) (fun l => ip w (v l) * cmp (v l) i)) /\
    (forall i j, H' i j = if ((j =? k) && (i <=? k))%nat%bool then ip w (v i) else H i j) /\
    (forall j, (j <= k)%nat -> ip w' (v j) = 0).
Proof.
  intros [VL VO] Hw. unfold mgs.
  destruct (@for_inv (list R * (nat -> nat -> R)) (fun q st => length (fst st) = n /\
      (forall i, (i < n)%nat -> cmp (fst st) i = cmp w i - rsum q (fun l => ip w (v l) * cmp (v l) i)) /\
      (forall i j, snd st i j = if ((j =? k) && (i <? q))%nat%bool then ip w (v i) else H i j) /\
      (forall j, (j <= k)%nat -> ip (fst st) (v j) = if (j <? q)%nat then 0 else ip w (v j))) 0 (S k) (w, H)
    (fun j st => let '(w, H) := st in
      do h <- vdot w (v j); do w <- vaxpy w (- h) (v j); Ok (w, setH H j k h)) ltac:(lia)) as ([w' H'] & E & L & C & HH & O).
  - cbn [fst snd]. split; auto. split; [intros; cbn; ring|]. split; auto. intros i j. rewrite andb_comm. reflexivity.
  - intros j [u G] Hj (L & C & HH & O). cbn [fst snd] in *. rewrite (vdot_ip L (VL j ltac:(lia))). cbn [bind].
    destruct (@vaxpy_ok u (- ip u (v j)) (v j) L (VL j ltac:(lia))) as (u' & Eu & Lu & Cu). rewrite Eu. cbn [bind].
    assert (Ej : ip u (v j) = ip w (v j)).
    { rewrite (O j ltac:(lia)). rewrite Nat.ltb_irrefl. reflexivity. }
    eexists. split; [reflexivity|]. cbn [fst snd]. split; [auto|]. split; [|split].
    + intros i Hi. rewrite (Cu i Hi), (C i Hi). cbn [rsum]. rewrite Ej. ring.
    + intros a b. unfold setH. destruct (Nat.eqb_spec b k); cbn [andb]; [|rewrite andb_false_r, HH; destruct (Nat.eqb_spec b k); [lia|auto]].
      rewrite andb_true_r. destruct (Nat.eqb_spec a j).
      * subst. rewrite (proj2 (Nat.ltb_lt j (S j))) by lia. auto.
      * rewrite HH. destruct (Nat.eqb_spec b k); [|lia]. cbn [andb]. destruct (Nat.ltb_spec a j); destruct (Nat.ltb_spec a (S j)); try lia; auto.
    + intros l Hl. rewrite (@ip_axpy u (- ip u (v j)) (v j) (v l) u' Lu Cu), (O l Hl), Ej.
      rewrite (VO j l ltac:(lia) ltac:(lia)).
      destruct (Nat.eqb_spec j l) as [->|N].
      * rewrite Nat.ltb_irrefl. rewrite (proj2 (Nat.ltb_lt l (S l))) by lia. ring.
      * destruct (Nat.ltb_spec l j); destruct (Nat.ltb_spec l (S j)); try lia; ring.
  - exists w', H'. cbn [fst snd] in *. split; auto. split; auto. split; auto. split.
    + intros i j. rewrite HH. destruct (Nat.ltb_spec i (S k)); destruct (Nat.leb_spec i k); try lia; auto.
    + intros j Hj. rewrite (O j Hj). rewrite (proj2 (Nat.ltb_lt j (S k))) by lia. reflexivity.
Qed.

Lemma vaxpy_null u a v : length u = n -> length v = n -> a = 0 -> vaxpy u a v = Ok u.
Proof.
  intros Hu Hv ->. destruct (@vaxpy_ok u 0 v Hu Hv) as (w & E & L & C). rewrite E. f_equal. apply (@list_ext_nth _ 0); [lia|].
  intros i Hi. rewrite L in Hi. fold (cmp w i) (cmp u i). rewrite (C i Hi). ring.
Qed.

(** Reorthogonalisation changes nothing in exact arithmetic. *)
Lemma reorth_ok k v w H : (forall j, (j < k)%nat -> length (v j) = n) -> length w = n -> (forall j, (j < k)%nat -> ip w (v j) = 0) ->
  exists H', reorth k v w H = Ok (w, H') /\ forall i j, H' i j = H i j.
Proof.
  intros VL Hw VO. unfold reorth.
  destruct (@for_inv (list R * (nat -> nat -> R)) (fun q st => fst st = w /\ forall i j, snd st i j = H i j) 0 k (w, H)
    (fun j st => let '(w, H) := st in
      do hr <- vdot (v j) w; do w <- vaxpy w (- hr) (v j); Ok (w, setH H j k (H j k + hr))) ltac:(lia)) as ([w' H'] & E & EW & HH).
  - split; auto.
  - intros j [u G] Hj [EW HH]. cbn [fst snd] in *. subst u. rewrite (vdot_ip (VL j ltac:(lia)) Hw). cbn [bind].
    rewrite ip_comm, (VO j) by lia. rewrite vaxpy_null by (auto; try ring; apply VL; lia). cbn [bind]. eexists. split; [reflexivity|].
    cbn [fst snd]. split; auto. intros a b. unfold setH. destruct (Nat.eqb_spec a j); destruct (Nat.eqb_spec b k); cbn; auto.
    subst. rewrite HH. ring.
  - cbn [fst snd] in *. subst. exists H'. auto.
Qed.

(** n+1 orthonormal vectors do not fit into n dimensions. *)
Lemma orthonormal_dim q v : orthonormal q v -> (q <= n)%nat.
Proof.
  intros [VL VO]. destruct (le_lt_dec q n) as [|Lt]; auto. exfalso.
  assert (B : forall m, (m < n)%nat -> rsum q (fun l => cmp (v l) m * cmp (v l) m) <= 1).
  { intros m Hm. set (S := rsum q (fun l => cmp (v l) m * cmp (v l) m)).
    assert (Q : 0 <= rsum n (fun i => ((if (i =? m)%nat then 1 else 0) - rsum q (fun l => cmp (v l) m * cmp (v l) i)) *
                                      ((if (i =? m)%nat then 1 else 0) - rsum q (fun l => cmp (v l) m * cmp (v l) i)))) by apply sq_nonneg.
    assert (E : rsum n (fun i => ((if (i =? m)%nat then 1 else 0) - rsum q (fun l => cmp (v l) m * cmp (v l) i)) *
                                 ((if (i =? m)%nat then 1 else 0) - rsum q (fun l => cmp (v l) m * cmp (v l) i))) = 1 - S).
    { rewrite (@rsum_ext n _ (fun i => (if (i =? m)%nat then 1 - 2 * S else 0) +
        rsum q (fun l => rsum q (fun l' => (cmp (v l) m * cmp (v l') m) * (cmp (v l) i * cmp (v l') i))))).
      - rewrite rsum_plus, rsum_delta by auto.
        rewrite rsum_swap. rewrite (@rsum_ext q _ (fun l => cmp (v l) m * cmp (v l) m)); [unfold S; ring|].
        intros l Hl. rewrite rsum_swap. rewrite (@rsum_ext q _ (fun l' => if (l' =? l)%nat then cmp (v l) m * cmp (v l) m else 0)).
        + apply rsum_delta. auto.
        + intros l' Hl'. rewrite rsum_scal. fold (inner n (cmp (v l)) (cmp (v l'))). fold (ip (v l) (v l')). rewrite (VO l l') by auto.
          destruct (Nat.eqb_spec l l'); destruct (Nat.eqb_spec l' l); subst; try lia; ring.
      - intros i Hi. set (P := rsum q (fun l => cmp (v l) m * cmp (v l) i)).
        assert (EP : rsum q (fun l => rsum q (fun l' => cmp (v l) m * cmp (v l') m * (cmp (v l) i * cmp (v l') i))) = P * P).
        { unfold P at 2. rewrite <- rsum_scal. apply rsum_ext. intros l Hl. unfold P. rewrite Rmult_comm, <- rsum_scal.
          apply rsum_ext. intros l' Hl'. ring. }
        rewrite EP. destruct (Nat.eqb_spec i m) as [->|]; [|ring]. unfold P, S. ring. }
    rewrite E in Q. lra. }
  assert (T : rsum q (fun l => ip (v l) (v l)) = INR q).
  { rewrite (@rsum_ext q _ (fun _ => 1)); [rewrite rsum_const; ring|]. intros l Hl. rewrite VO by auto. rewrite Nat.eqb_refl. auto. }
  unfold ip, inner in T. rewrite rsum_swap in T.
  assert (U : rsum n (fun j => rsum q (fun l => cmp (v l) j * cmp (v l) j)) <= rsum n (fun _ => 1)) by (apply rsum_le; auto).
  rewrite rsum_const in U. apply lt_INR in Lt. lra.
Qed.

(** ** Linear operators *)

Lemma lin_zero op z : linear n op -> length z = n -> (forall i, (i < n)%nat -> cmp z i = 0) -> forall i, (i < n)%nat -> op z i = 0.
Proof.
  intros L Hz Z i Hi. pose proof (L z z z 1 Hz Hz Hz (fun j Hj => ltac:(rewrite (Z j Hj); ring)) i Hi). lra.
Qed.
Lemma lin_ext op u w : linear n op -> length u = n -> length w = n -> (forall i, (i < n)%nat -> cmp w i = cmp u i) ->
  forall i, (i < n)%nat -> op w i = op u i.
Proof.
  intros L Hu Hw E i Hi. rewrite (L u u w 0 Hu Hu Hw (fun j Hj => ltac:(rewrite (E j Hj); ring)) i Hi). ring.
Qed.
Lemma cmp_vec f i : (i < n)%nat -> cmp (vec n f) i = f i.
Proof. intros H. unfold cmp. apply vec_nth. auto. Qed.

Lemma lin_comb op k z (v : nat -> list R) u w : linear n op -> length u = n -> length w = n -> (forall j, (j < k)%nat -> length (v j) = n) ->
  (forall i, (i < n)%nat -> cmp w i = cmp u i + rsum k (fun j => z j * cmp (v j) i)) ->
  forall i, (i < n)%nat -> op w i = op u i + rsum k (fun j => z j * op (v j) i).
Proof.
  intros L Hu. revert w. induction k as [|k IH]; intros w Hw HV E i Hi.
  - cbn [rsum]. rewrite Rplus_0_r. apply (lin_ext L Hu Hw); auto. intros j Hj. rewrite (E j Hj). cbn [rsum]. ring.
  - set (t := vec n (fun i => cmp u i + rsum k (fun j => z j * cmp (v j) i))).
    assert (Ht : length t = n) by apply vec_length.
    rewrite (L t (v k) w (z k) Ht (HV k ltac:(lia)) Hw).
    + cbn [rsum]. rewrite (IH t Ht (fun j Hj => HV j ltac:(lia)) (fun j Hj => cmp_vec _ Hj) i Hi). ring.
    + intros j Hj. rewrite (E j Hj). unfold t. rewrite cmp_vec by auto. cbn [rsum]. ring.
    + auto.
Qed.
Lemma lin_comb0 op k z (v : nat -> list R) w : linear n op -> length w = n -> (forall j, (j < k)%nat -> length (v j) = n) ->
  (forall i, (i < n)%nat -> cmp w i = rsum k (fun j => z j * cmp (v j) i)) ->
  forall i, (i < n)%nat -> op w i = rsum k (fun j => z j * op (v j) i).
Proof.
  intros L Hw HV E i Hi. set (u := vec n (fun _ => 0)). assert (Hu : length u = n) by apply vec_length.
  rewrite (@lin_comb op k z v u w L Hu Hw HV).
  - rewrite (lin_zero L Hu) by (auto; intros; unfold u; rewrite cmp_vec; auto). ring.
  - intros j Hj. rewrite (E j Hj). unfold u. rewrite cmp_vec by auto. ring.
  - auto.
Qed.

Variables (mul : vop) (pl pr : option vop) (A L Rt : list R -> nat -> R).
Hypothesis HA : is_op n mul A.
Hypothesis LA : linear n A.
Hypothesis HL : is_pc n pl L.
Hypothesis HR : is_pc n pr Rt.
Let K := chain n L A Rt.
Hypothesis KI : injective n K.

Lemma pre_ok p op x : is_pc n p op -> length x = n -> pre p x = Ok (vec n (op x)).
Proof.
  intros [_ H] Hx. destruct p as [ap|]; cbn [pre]; auto. f_equal. rewrite <- (vec_same Hx) at 1. apply vec_ext. intros. rewrite H. auto.
Qed.
Lemma kop_ok v : length v = n -> kop mul pl pr v = Ok (vec n (K v)).
Proof.
  intros Hv. unfold kop. rewrite (pre_ok HR Hv). cbn [bind]. rewrite HA by apply vec_length. cbn [bind].
  rewrite (pre_ok HL) by apply vec_length. reflexivity.
Qed.
Lemma linear_vec op op' : linear n op -> linear n op' -> linear n (fun v => op (vec n (op' v))).
Proof.
  intros H H' u v w a Hu Hv Hw E i Hi. apply H; auto; try apply vec_length.
  intros j Hj. rewrite !cmp_vec by auto. apply H'; auto.
Qed.
Lemma LK : linear n K.
Proof. apply (linear_vec (proj1 HL) (linear_vec LA (proj1 HR))). Qed.

(** ** The Arnoldi process with its QR factorisation *)

Definition e1 (rho : R) : nat -> R := fun i => if (i =? 0)%nat then rho else 0.

Record arnoldi (r : nat -> R) (rho : R) (k : nat) (st : gm) (Hr : nat -> nat -> R) : Prop := {
  ar_len : forall j, (j <= k)%nat -> length (g_v st j) = n;
  ar_on : orthonormal k (g_v st);
  ar_off : forall j, (j < k)%nat -> ip (g_v st k) (g_v st j) = 0;
  ar_last : ip (g_v st k) (g_v st k) = 1 \/
            ((0 < k)%nat /\ (forall i, (i < n)%nat -> cmp (g_v st k) i = 0) /\ (forall j, (j < k)%nat -> Hr k j = 0) /\ g_g st k = 0);
  ar_rel : forall j i, (j < k)%nat -> (i < n)%nat -> K (g_v st j) i = rsum (S k) (fun l => Hr l j * cmp (g_v st l) i);
  ar_hess : forall i j, (S j < i)%nat -> Hr i j = 0;
  ar_sub : forall j, (S j < k)%nat \/ S j = k /\ ip (g_v st k) (g_v st k) = 1 -> Hr (S j) j <> 0;
  ar_cs : forall i, (i < k)%nat -> g_c st i * g_c st i + g_s st i * g_s st i = 1;
  ar_R : forall j i, (j < k)%nat -> rots (g_c st) (g_s st) k (fun l => Hr l j) i = if (i <=? j)%nat then g_H st i j else 0;
  ar_diag : forall j, (j < k)%nat -> g_H st j j <> 0;
  ar_g : forall i, rots (g_c st) (g_s st) k (e1 rho) i = g_g st i;
  ar_0 : forall i, (i < n)%nat -> rho * cmp (g_v st 0%nat) i = r i }.

Lemma ar_full r rho k st Hr : arnoldi r rho k st Hr -> ip (g_v st k) (g_v st k) = 1 -> orthonormal (S k) (g_v st).
Proof.
  intros [] U. split; [intros; apply ar_len0; lia|]. intros i j Hi Hj. destruct (Nat.eq_dec i k) as [->|Ni].
  - destruct (Nat.eqb_spec k j) as [<-|N]; auto. apply ar_off0. lia.
  - destruct (Nat.eq_dec j k) as [->|Nj].
    + rewrite (proj2 (Nat.eqb_neq i k) Ni). rewrite ip_comm. apply ar_off0. lia.
    + apply (proj2 ar_on0); lia.
Qed.

(** The Euclidean norm of a combination of orthogonal vectors. *)
Lemma pythagoras N q (v : nat -> list R) : (forall i j, (i < N)%nat -> (j < N)%nat -> i <> j -> ip (v i) (v j) = 0) ->
  rsum n (fun i => rsum N (fun l => q l * cmp (v l) i) * rsum N (fun l => q l * cmp (v l) i)) = rsum N (fun l => q l * q l * ip (v l) (v l)).
Proof.
  intros O. rewrite (@rsum_ext n _ (fun i => rsum N (fun l => rsum N (fun m => (q l * q m) * (cmp (v l) i * cmp (v m) i))))).
  - rewrite rsum_swap. apply rsum_ext. intros l Hl. rewrite rsum_swap.
    rewrite (@rsum_ext N _ (fun m => if (m =? l)%nat then q l * q l * ip (v l) (v l) else 0)); [apply rsum_delta; auto|].
    intros m Hm. rewrite rsum_scal. fold (inner n (cmp (v l)) (cmp (v m))). fold (ip (v l) (v m)).
    destruct (Nat.eqb_spec m l) as [->|Q]; auto. rewrite O by auto. ring.
  - intros i Hi. rewrite <- rsum_scal. apply rsum_ext. intros l Hl. rewrite Rmult_comm, <- rsum_scal. apply rsum_ext. intros m Hm. ring.
Qed.

Lemma rsum_sq_zero N f : rsum N (fun i => f i * f i) = 0 -> forall i, (i < N)%nat -> f i = 0.
Proof.
  intros H i Hi. pose proof (@rsum_pos_terms N (fun i => f i * f i) (fun j _ => Rle_0_sqr _) H i Hi) as Q. cbn beta in Q.
  apply Rmult_integral in Q. tauto.
Qed.

(** The residual of every vector of the search space. *)
Lemma residual_identity r rho k st Hr z : arnoldi r rho k st Hr ->
  rsum n (fun i => (r i - rsum k (fun j => z j * K (g_v st j) i)) * (r i - rsum k (fun j => z j * K (g_v st j) i))) =
  rsum k (fun i => (g_g st i - rsum k (fun j => if (i <=? j)%nat then g_H st i j * z j else 0)) *
                   (g_g st i - rsum k (fun j => if (i <=? j)%nat then g_H st i j * z j else 0))) + g_g st k * g_g st k.
Proof.
  intros AR. set (q := fun l => e1 rho l - rsum k (fun j => Hr l j * z j)).
  transitivity (rsum (S k) (fun l => q l * q l)).
  - transitivity (rsum (S k) (fun l => q l * q l * ip (g_v st l) (g_v st l))).
    + rewrite <- pythagoras.
      * apply rsum_ext. intros i Hi. assert (E : r i - rsum k (fun j => z j * K (g_v st j) i) = rsum (S k) (fun l => q l * cmp (g_v st l) i)).
        { unfold q. rewrite (@rsum_ext (S k) _ (fun l => (if (l =? 0)%nat then rho * cmp (g_v st 0%nat) i else 0) -
            rsum k (fun j => z j * (Hr l j * cmp (g_v st l) i)))).
          - rewrite rsum_minus, rsum_delta by lia. rewrite (ar_0 AR) by auto. f_equal.
            rewrite rsum_swap. apply rsum_ext. intros j Hj. rewrite rsum_scal. f_equal. apply (ar_rel AR); auto.
          - intros l Hl. rewrite Rmult_minus_distr_r. f_equal.
            + unfold e1. destruct (Nat.eqb_spec l 0); subst; ring.
            + rewrite Rmult_comm, <- rsum_scal. apply rsum_ext. intros j Hj. ring. }
        rewrite E. reflexivity.
      * intros i j Hi Hj N. destruct (Nat.eq_dec i k) as [->|Ni]; [apply (ar_off AR); lia|].
        destruct (Nat.eq_dec j k) as [->|Nj]; [rewrite ip_comm; apply (ar_off AR); lia|].
        rewrite (proj2 (ar_on AR)) by lia. rewrite (proj2 (Nat.eqb_neq i j) N). reflexivity.
    + apply rsum_ext. intros l Hl. destruct (Nat.eq_dec l k) as [->|Nl].
      * destruct (ar_last AR) as [U|(Hk & Z & HZ & _)]; [rewrite U; ring|].
        assert (Q : q k = 0).
        { unfold q, e1. rewrite (proj2 (Nat.eqb_neq k 0) ltac:(lia)). rewrite rsum_zero; [ring|]. intros j Hj. rewrite HZ by auto. ring. }
        rewrite Q. ring.
      * rewrite (proj2 (ar_on AR)) by lia. rewrite Nat.eqb_refl. ring.
  - rewrite <- (@rots_norm (g_c st) (g_s st) k q (S k) (ar_cs AR)) by lia.
    assert (E : forall i, rots (g_c st) (g_s st) k q i = g_g st i - rsum k (fun j => if (i <=? j)%nat then g_H st i j * z j else 0)).
    { intros i. unfold q. rewrite rots_comb, (ar_g AR). f_equal. apply rsum_ext. intros j Hj. rewrite (ar_R AR) by auto.
      destruct (i <=? j)%nat; ring. }
    cbn [rsum]. rewrite (E k). f_equal.
    + apply rsum_ext. intros i Hi. rewrite E. reflexivity.
    + rewrite rsum_zero; [ring|]. intros j Hj. rewrite (proj2 (Nat.leb_gt k j)) by lia. reflexivity.
Qed.

Lemma norm_zero w : length w = n -> norm L2 w = 0 -> forall i, (i < n)%nat -> cmp w i = 0.
Proof. intros Hw Z. apply ip_zero. rewrite <- (norm_sq Hw). rewrite Z. ring. Qed.

(** A step of the process never divides by zero if the operator is injective. *)
Lemma no_breakdown r rho k st Hr (u : nat -> R) (h : nat -> R) : arnoldi r rho k st Hr -> ip (g_v st k) (g_v st k) = 1 ->
  (forall i, (i < n)%nat -> K (g_v st k) i = rsum (S k) (fun l => h l * cmp (g_v st l) i)) ->
  (forall i, (i <= k)%nat -> rots (g_c st) (g_s st) k h i = u i) -> u k = 0 -> False.
Proof.
  intros AR U EK EU Z.
  destruct (@compute_y_ok k (g_H st) u (fun _ => 0) (ar_diag AR)) as (z & _ & Hz).
  set (q := fun l => h l - rsum k (fun j => Hr l j * z j)).
  assert (RQ : forall i, (i <= k)%nat -> rots (g_c st) (g_s st) k q i = 0).
  { intros i Hi. unfold q. rewrite rots_comb, EU by auto.
    rewrite (@rsum_ext k _ (fun j => if (i <=? j)%nat then g_H st i j * z j else 0)).
    2:{ intros j Hj. rewrite (ar_R AR) by auto. destruct (i <=? j)%nat; ring. }
    destruct (Nat.eq_dec i k) as [->|N].
    - rewrite Z. rewrite rsum_zero; [ring|]. intros j Hj. rewrite (proj2 (Nat.leb_gt k j)) by lia. reflexivity.
    - rewrite Hz by lia. ring. }
  assert (Q0 : forall l, (l < S k)%nat -> q l = 0).
  { apply rsum_sq_zero. rewrite <- (@rots_norm (g_c st) (g_s st) k q (S k) (ar_cs AR)) by lia.
    rewrite rsum_zero; auto. intros i Hi. rewrite RQ by lia. ring. }
  set (x := vec n (fun i => cmp (g_v st k) i + rsum k (fun j => - z j * cmp (g_v st j) i))).
  assert (Lx : length x = n) by apply vec_length.
  assert (Kx : forall i, (i < n)%nat -> K x i = 0).
  { intros i Hi. rewrite (@lin_comb K k (fun j => - z j) (g_v st) (g_v st k) x LK (ar_len AR (le_n k)) Lx (fun j Hj => ar_len AR (Nat.lt_le_incl _ _ Hj))
      (fun i Hi => cmp_vec _ Hi) i Hi).
    rewrite EK by auto. rewrite (@rsum_ext k _ (fun j => rsum (S k) (fun l => - z j * (Hr l j * cmp (g_v st l) i)))).
    2:{ intros j Hj. rewrite (ar_rel AR) by auto. rewrite rsum_scal. reflexivity. }
    rewrite rsum_swap, <- rsum_plus. apply rsum_zero. intros l Hl.
    replace (h l * cmp (g_v st l) i + rsum k (fun i0 => - z i0 * (Hr l i0 * cmp (g_v st l) i))) with (q l * cmp (g_v st l) i).
    { rewrite Q0 by auto. ring. }
    unfold q. rewrite Rmult_minus_distr_r. unfold Rminus. f_equal.
    rewrite (@rsum_ext k (fun i0 => - z i0 * (Hr l i0 * cmp (g_v st l) i)) (fun j => - cmp (g_v st l) i * (Hr l j * z j))) by (intros; ring).
    rewrite rsum_scal. ring. }
  pose proof (KI Lx Kx) as X0.
  assert (T : ip x (g_v st k) = 1).
  { unfold ip, inner. rewrite (@rsum_ext n _ (fun i => cmp (g_v st k) i * cmp (g_v st k) i + rsum k (fun j => - z j * (cmp (g_v st j) i * cmp (g_v st k) i)))).
    - rewrite rsum_plus. fold (inner n (cmp (g_v st k)) (cmp (g_v st k))). fold (ip (g_v st k) (g_v st k)). rewrite U.
      rewrite rsum_swap. rewrite rsum_zero; [ring|]. intros j Hj. rewrite rsum_scal.
      fold (inner n (cmp (g_v st j)) (cmp (g_v st k))). fold (ip (g_v st j) (g_v st k)). rewrite ip_comm, (ar_off AR) by auto. ring.
    - intros i Hi. unfold x. rewrite cmp_vec by auto. rewrite Rmult_plus_distr_r. f_equal.
      rewrite Rmult_comm, <- rsum_scal. apply rsum_ext. intros j Hj. ring. }
  unfold ip, inner in T. rewrite rsum_zero in T; [lra|]. intros i Hi. rewrite X0 by auto. ring.
Qed.

Lemma gm_step_ok r rho k st Hr mode : arnoldi r rho k st Hr -> ip (g_v st k) (g_v st k) = 1 ->
  exists st' Hr', gm_step mul pl pr mode k st = Ok (st', Rabs (g_g st' (S k))) /\ arnoldi r rho (S k) st' Hr' /\
    (forall j, (j <= k)%nat -> g_v st' j = g_v st j) /\ Rabs (g_g st' (S k)) <= Rabs (g_g st k).
Proof.
  intros AR U. pose proof (ar_full AR U) as ON. pose proof (ar_len AR (le_n k)) as Lk.
  unfold gm_step. rewrite (kop_ok Lk). cbn [bind]. set (w0 := vec n (K (g_v st k))).
  assert (L0 : length w0 = n) by apply vec_length.
  destruct (@mgs_ok k (g_v st) w0 (g_H st) ON L0) as (w1 & H1 & E1 & L1 & C1 & HH1 & O1). rewrite E1. cbn [bind].
  set (hn := norm L2 w1). cbv zeta. set (H2 := setH H1 (S k) k hn).
  match goal with |- context [bind ?B _] => assert (EB : exists H3, B = Ok (w1, H3) /\ forall i j, H3 i j = H2 i j) end.
  { match goal with |- context [if ?c then _ else _] => destruct c end.
    - destruct (@reorth_ok k (g_v st) w1 H2 (fun j Hj => ar_len AR (Nat.lt_le_incl _ _ Hj)) L1 (fun j Hj => O1 j (Nat.lt_le_incl _ _ Hj))) as (G & EG & HG).
      rewrite EG. cbn [bind]. eexists. split; [reflexivity|]. intros i j. unfold setH. fold hn.
      destruct (Nat.eqb_spec i (S k)); destruct (Nat.eqb_spec j k); cbn; auto. subst. unfold H2. symmetry. apply setH_eq.
    - eexists. split; [reflexivity|]. auto. }
  destruct EB as (H3 & EB & HH3). rewrite EB. cbn [bind]. clear EB.
  assert (E3 : H3 (S k) k = hn) by (rewrite HH3; apply setH_eq). rewrite !E3.
  set (w2 := if Req_EM_T hn 0 then w1 else vscale w1 (1 / hn)).
  assert (L2' : length w2 = n) by (unfold w2; destruct (Req_EM_T hn 0); [auto|rewrite vscale_length; auto]).
  assert (N1 : hn * hn = ip w1 w1) by (apply norm_sq; auto).
  assert (W2 : forall i, (i < n)%nat -> hn * cmp w2 i = cmp w1 i).
  { intros i Hi. unfold w2. destruct (Req_EM_T hn 0) as [Z|Z].
    - rewrite Z, (norm_zero L1 Z Hi). ring.
    - unfold cmp. rewrite vscale_nth by lia. field. auto. }
  set (Hr' := fun i j => if (j =? k)%nat then (if (i <=? k)%nat then ip w0 (g_v st i) else if (i =? S k)%nat then hn else 0) else Hr i j).
  set (u := rots (g_c st) (g_s st) k (fun l => Hr' l k)).
  assert (HrC : forall l, (l <= k)%nat -> Hr' l k = ip w0 (g_v st l)) by (intros l Hl; unfold Hr'; rewrite Nat.eqb_refl, (proj2 (Nat.leb_le l k) Hl); auto).
  assert (HrS : Hr' (S k) k = hn) by (unfold Hr'; rewrite Nat.eqb_refl, (proj2 (Nat.leb_gt (S k) k)), Nat.eqb_refl by lia; auto).
  assert (HrO : forall i j, j <> k -> Hr' i j = Hr i j) by (intros i j N; unfold Hr'; rewrite (proj2 (Nat.eqb_neq j k) N); auto).
  assert (H3C : forall m, (m <= S k)%nat -> H3 m k = Hr' m k).
  { intros m Hm. rewrite HH3. destruct (Nat.eq_dec m (S k)) as [->|N]; [rewrite HrS; apply setH_eq|]. unfold H2. rewrite setH_neq by auto.
    rewrite HH1, Nat.eqb_refl, HrC by lia. rewrite (proj2 (Nat.leb_le m k)) by lia. reflexivity. }
  set (H4 := apply_givens k (g_c st) (g_s st) H3).
  assert (H4C : forall i, (i <= S k)%nat -> H4 i k = u i).
  { intros i Hi. unfold H4. rewrite apply_givens_ok, Nat.eqb_refl. unfold u. apply (@rots_ext_le _ _ k _ _ (S k)); auto. }
  assert (H4O : forall i j, j <> k -> H4 i j = g_H st i j).
  { intros i j N. unfold H4. rewrite apply_givens_ok, (proj2 (Nat.eqb_neq j k) N), HH3. unfold H2. rewrite setH_neq by auto.
    rewrite HH1, (proj2 (Nat.eqb_neq j k) N). reflexivity. }
  assert (Us : u (S k) = hn) by (unfold u; rewrite rots_out by lia; exact HrS).
  rewrite !(H4C k), !(H4C (S k)), Us by lia.
  set (nu := sqrt (u k * u k + hn * hn)).
  assert (NU : nu * nu = u k * u k + hn * hn).
  { unfold nu. apply sqrt_sqrt. pose proof (Rle_0_sqr (u k)). pose proof (Rle_0_sqr hn). unfold Rsqr in *. lra. }
  destruct (Req_EM_T nu 0) as [Z|NZ].
  { exfalso. rewrite Z in NU. pose proof (Rle_0_sqr (u k)). pose proof (Rle_0_sqr hn). unfold Rsqr in *.
    assert (Z1 : u k = 0) by (apply Rsqr_0_uniq; unfold Rsqr; lra). assert (Z2 : hn = 0) by (apply Rsqr_0_uniq; unfold Rsqr; lra).
    apply (@no_breakdown r rho k st Hr u (fun l => Hr' l k) AR U); auto.
    intros i Hi. pose proof (C1 i Hi) as Q. rewrite (norm_zero L1 Z2 Hi) in Q. unfold w0 at 1 in Q. rewrite cmp_vec in Q by auto.
    rewrite (@rsum_ext (S k) _ (fun l => ip w0 (g_v st l) * cmp (g_v st l) i)); [lra|]. intros l Hl. rewrite HrC by lia. reflexivity. }
  set (ck := u k / nu). set (sk := - hn / nu).
  assert (CS : ck * ck + sk * sk = 1).
  { unfold ck, sk. replace (u k / nu * (u k / nu) + - hn / nu * (- hn / nu)) with ((u k * u k + hn * hn) / (nu * nu)) by (field; auto).
    rewrite <- NU. field. auto. }
  assert (GS : g_g st (S k) = 0) by (rewrite <- (ar_g AR), rots_out by lia; reflexivity).
  assert (RC : forall f i, rots (setf (g_c st) k ck) (setf (g_s st) k sk) (S k) f i = rot ck sk k (rots (g_c st) (g_s st) k f) i).
  { intros f i. cbn [rots]. rewrite !setf_eq. apply rot_ext. apply rots_cs. intros j Hj. rewrite !setf_neq by lia. auto. }
  match goal with |- context [Ok (?s, _)] => set (st' := s) end.
  exists st', Hr'.
  assert (VO : forall j, (j <= k)%nat -> g_v st' j = g_v st j) by (intros j Hj; unfold st'; cbn [g_v]; apply setf_neq; lia).
  assert (VS : g_v st' (S k) = w2) by (unfold st'; cbn [g_v]; apply setf_eq).
  assert (GS' : g_g st' (S k) = sk * g_g st k + ck * g_g st (S k)) by (unfold st'; cbn [g_g]; apply setf_eq).
  split; [rewrite GS'; reflexivity|]. split; [|split; [exact VO|]].
  2:{ rewrite GS', GS, Rmult_0_r, Rplus_0_r, Rabs_mult. rewrite <- (Rmult_1_l (Rabs (g_g st k))) at 2.
      apply Rmult_le_compat_r; [apply Rabs_pos|].
      rewrite <- Rabs_R1. apply Rsqr_le_abs_0. unfold Rsqr. pose proof (Rle_0_sqr ck). unfold Rsqr in *. lra. }
  assert (RW : forall w, ip w2 w = (if Req_EM_T hn 0 then 1 else 1 / hn) * ip w1 w).
  { intros w. unfold w2. destruct (Req_EM_T hn 0); [ring|]. unfold ip, inner. rewrite <- rsum_scal. apply rsum_ext. intros i Hi.
    unfold cmp. rewrite vscale_nth by lia. ring. }
  constructor.
  - intros j Hj. destruct (Nat.eq_dec j (S k)) as [->|N]; [rewrite VS; auto|]. rewrite VO by lia. apply (ar_len AR). lia.
  - split; [intros j Hj; rewrite VO by lia; apply (ar_len AR); lia|]. intros i j Hi Hj. rewrite !VO by lia. apply (proj2 ON); auto.
  - intros j Hj. rewrite VS, VO by lia. rewrite RW, O1 by lia. ring.
  - rewrite VS. destruct (Req_EM_T hn 0) as [Z|N].
    + right. split; [lia|]. split; [intros i Hi; unfold w2; destruct (Req_EM_T hn 0); [|lra]; apply (norm_zero L1 Z); auto|]. split.
      * intros j Hj. destruct (Nat.eq_dec j k) as [->|Nj]; [rewrite HrS; auto|]. rewrite HrO by auto. apply (ar_hess AR). lia.
      * rewrite GS', GS. unfold sk. rewrite Z. field. auto.
    + left. rewrite RW, ip_comm, RW. destruct (Req_EM_T hn 0); [lra|]. rewrite <- N1. field. auto.
  - intros j i Hj Hi. rewrite VO by lia. cbn [rsum]. rewrite VS. destruct (Nat.eq_dec j k) as [->|N].
    + pose proof (C1 i Hi) as Q. unfold w0 at 1 in Q. rewrite cmp_vec in Q by auto. rewrite HrS, W2 by auto.
      change (rsum k (fun i0 => Hr' i0 k * cmp (g_v st' i0) i) + Hr' k k * cmp (g_v st' k) i) with (rsum (S k) (fun i0 => Hr' i0 k * cmp (g_v st' i0) i)).
      rewrite (@rsum_ext (S k) _ (fun l => ip w0 (g_v st l) * cmp (g_v st l) i)); [lra|]. intros l Hl. rewrite HrC, VO by lia. reflexivity.
    + rewrite (ar_rel AR) by (auto; lia). rewrite (HrO (S k) j) by auto. rewrite (@ar_hess _ _ _ _ _ AR (S k) j) by lia. cbn [rsum].
      rewrite !HrO, VO by (auto; lia). rewrite Rmult_0_l, Rplus_0_r. f_equal. apply rsum_ext. intros l Hl. rewrite HrO, VO by (auto; lia). reflexivity.
  - intros i j Hij. destruct (Nat.eq_dec j k) as [->|N].
    + unfold Hr'. rewrite Nat.eqb_refl, (proj2 (Nat.leb_gt i k)), (proj2 (Nat.eqb_neq i (S k))) by lia. reflexivity.
    + rewrite HrO by auto. apply (ar_hess AR). auto.
  - intros j [Hj|[Hj Q]].
    + rewrite HrO by lia. apply (ar_sub AR). destruct (Nat.eq_dec (S j) k); [right; split; auto|left; lia].
    + injection Hj as ->. rewrite HrS. intros Z. rewrite VS in Q. unfold w2 in Q. destruct (Req_EM_T hn 0); [|contradiction].
      rewrite <- N1, Z in Q. lra.
  - intros i Hi. unfold st'. cbn [g_c g_s]. destruct (Nat.eq_dec i k) as [->|N]; [rewrite !setf_eq; auto|].
    rewrite !setf_neq by auto. apply (ar_cs AR). lia.
  - intros j i Hj. unfold st'. cbn [g_c g_s g_H]. rewrite RC. destruct (Nat.eq_dec j k) as [->|N].
    + fold u. unfold rot. rewrite Us. destruct (Nat.eqb_spec i k) as [->|N1'].
      * rewrite Nat.leb_refl. rewrite setH_neq, setH_eq by lia. reflexivity.
      * destruct (Nat.eqb_spec i (S k)) as [->|N2].
        -- rewrite (proj2 (Nat.leb_gt (S k) k)) by lia. unfold sk, ck. field. auto.
        -- destruct (Nat.leb_spec i k).
           ++ rewrite !setH_neq by auto. symmetry. apply H4C. lia.
           ++ unfold u. rewrite rots_out by lia. unfold Hr'. rewrite Nat.eqb_refl, (proj2 (Nat.leb_gt i k)), (proj2 (Nat.eqb_neq i (S k))) by lia. reflexivity.
    + unfold rot. rewrite !(@rots_ext _ _ k (fun l => Hr' l j) (fun l => Hr l j)) by (intros; apply HrO; auto).
      rewrite !(ar_R AR) by lia. rewrite (proj2 (Nat.leb_gt k j)), (proj2 (Nat.leb_gt (S k) j)) by lia.
      rewrite !setH_neq by auto. destruct (Nat.eqb_spec i k) as [->|]; [rewrite (proj2 (Nat.leb_gt k j)) by lia; ring|].
      destruct (Nat.eqb_spec i (S k)) as [->|]; [rewrite (proj2 (Nat.leb_gt (S k) j)) by lia; ring|].
      rewrite H4O by auto. reflexivity.
  - intros j Hj. unfold st'. cbn [g_H]. destruct (Nat.eq_dec j k) as [->|N].
    + rewrite setH_neq, setH_eq by lia. unfold ck, sk. replace (u k / nu * u k - - hn / nu * hn) with ((u k * u k + hn * hn) / nu) by (field; auto).
      rewrite <- NU. replace (nu * nu / nu) with nu by (field; auto). auto.
    + rewrite !setH_neq by auto. rewrite H4O by auto. apply (ar_diag AR). lia.
  - intros i. unfold st'. cbn [g_c g_s g_g]. rewrite RC. unfold rot. rewrite !(ar_g AR).
    destruct (Nat.eqb_spec i k) as [->|]; [rewrite setf_neq, setf_eq by lia; auto|].
    destruct (Nat.eqb_spec i (S k)) as [->|]; [rewrite setf_eq; auto|]. rewrite !setf_neq by auto. reflexivity.
  - intros i Hi. rewrite VO by lia. apply (ar_0 AR). auto.
Qed.

Lemma ar_strict r rho k st Hr : arnoldi r rho k st Hr -> g_g st k <> 0 -> ip (g_v st k) (g_v st k) = 1 /\ (k < n)%nat.
Proof.
  intros AR N. assert (U : ip (g_v st k) (g_v st k) = 1).
  { destruct (ar_last AR) as [U|(_ & _ & _ & Z)]; auto. contradiction. }
  split; auto. pose proof (orthonormal_dim (ar_full AR U)). lia.
Qed.


Lemma inner_ok p mode r rho r0 : 0 < threshold p r0 ->
  forall fuel k it st m Hr, arnoldi r rho k st Hr -> threshold p r0 <= Rabs (g_g st k) ->
  length (m_res m) = S (p_maxit p) -> nth 0 (m_res m) 0 = r0 -> nth it (m_res m) 0 = Rabs (g_g st k) ->
  falling (m_res m) it -> m_status m = RUNNING -> (S it < p_maxit p \/ it = 0)%nat ->
  exists k' it' done st' m' Hr', inner_loop p mul pl pr mode fuel k it st m = Ok (k', it', done, st', m') /\
    arnoldi r rho k' st' Hr' /\ (k <= k' <= k + fuel)%nat /\
    let i' := (it + (k' - k))%nat in
    length (m_res m') = S (p_maxit p) /\ nth 0 (m_res m') 0 = r0 /\ nth i' (m_res m') 0 = Rabs (g_g st' k') /\
    falling (m_res m') i' /\ (k' = k -> m' = m) /\ ((k < k')%nat -> m_iters m' = i' /\ (S i' < p_maxit p)%nat) /\
    (done = false /\ k' = (k + fuel)%nat /\ it' = i' /\ m_status m' = RUNNING /\ threshold p r0 <= Rabs (g_g st' k') \/
     done = true /\ m_status m' = RUNNING /\ threshold p r0 <= Rabs (g_g st' k') /\ (p_maxit p <= S (S i'))%nat \/
     done = true /\ m_status m' = SUCCESS /\ Rabs (g_g st' k') < threshold p r0 /\ (k < k')%nat).
Proof.
  intros T0. induction fuel as [|f IH]; intros k it st m Hr AR TG LR R0 RI FA ST LI; cbn [inner_loop].
  - exists k, it, false, st, m, Hr. rewrite Nat.sub_diag, !Nat.add_0_r. cbv zeta. split; [reflexivity|]. split; [auto|]. split; [lia|].
    do 4 (split; [auto|]). split; [auto|]. split; [lia|]. left. auto.
  - destruct (Nat.leb_spec (p_maxit p) (S (S it))) as [LM|LM].
    { exists k, (S it), true, st, m, Hr. rewrite Nat.sub_diag, !Nat.add_0_r. cbv zeta. split; [reflexivity|]. split; [auto|]. split; [lia|].
      do 4 (split; [auto|]). split; [auto|]. split; [lia|]. right. left. auto. }
    assert (GN : g_g st k <> 0) by (intros Z; rewrite Z, Rabs_R0 in TG; lra).
    destruct (ar_strict AR GN) as [U _].
    destruct (@gm_step_ok r rho k st Hr mode AR U) as (st1 & Hr1 & E1 & AR1 & V1 & M1). rewrite E1. cbn [bind].
    destruct (@monitor_ok p (S it) (Rabs (g_g st1 (S k))) m ltac:(lia) ltac:(lia)) as (b & m1 & E2 & I1 & Q1 & J). rewrite E2. cbn [bind].
    assert (N0 : nth 0 (m_res m1) 0 = r0) by (rewrite Q1, nth_upd_neq by lia; auto).
    assert (NS : nth (S it) (m_res m1) 0 = Rabs (g_g st1 (S k))) by (rewrite Q1; apply nth_upd_eq; lia).
    assert (NI : nth it (m_res m1) 0 = Rabs (g_g st k)) by (rewrite Q1, nth_upd_neq by lia; auto).
    assert (L1 : length (m_res m1) = S (p_maxit p)) by (rewrite Q1, upd_length; auto).
    assert (F1 : falling (m_res m1) (S it)).
    { intros j Hj. destruct (Nat.eq_dec j it) as [->|N]; [rewrite NS, NI; auto|]. rewrite Q1, !nth_upd_neq by lia. apply FA. lia. }
    assert (J' : (b = true /\ m_status m1 = SUCCESS /\ Rabs (g_g st1 (S k)) < threshold p r0) \/
                 (b = false /\ m_status m1 = RUNNING /\ threshold p r0 <= Rabs (g_g st1 (S k)))).
    { unfold judged in J. rewrite I1, N0, NS in J. destruct (m_status m1).
      - right. tauto.
      - left. tauto.
      - exfalso. lia.
      - exfalso. destruct J as (_ & _ & _ & Q & _). replace (S it - 1)%nat with it in Q by lia. rewrite NI in Q. lra. }
    destruct J' as [(-> & S1 & T1)|(-> & S1 & T1)].
    + exists (S k), (S it), true, st1, m1, Hr1. replace (it + (S k - k))%nat with (S it) by lia. cbv zeta.
      split; [reflexivity|]. split; [auto|]. split; [lia|]. do 4 (split; [auto|]). split; [lia|]. split; [intros _; split; [auto|lia]|].
      right. right. repeat split; auto.
    + destruct (IH (S k) (S it) st1 m1 Hr1 AR1 T1 L1 N0 NS F1 S1 ltac:(lia)) as (k' & it' & dn & st' & m' & Hr' & E & AR' & Hk & X).
      exists k', it', dn, st', m', Hr'. cbv zeta in X. replace (S it + (k' - S k))%nat with (it + (k' - k))%nat in X by lia. cbv zeta.
      destruct X as (X1 & X2 & X3 & X4 & X5 & X6 & X7).
      split; [exact E|]. split; [exact AR'|]. split; [lia|]. do 4 (split; [auto|]). split; [lia|]. split.
      * intros _. destruct (Nat.eq_dec k' (S k)) as [->|N]; [|apply X6; lia]. rewrite (X5 eq_refl). split; [rewrite I1; lia|lia].
      * destruct X7 as [(A1 & A2 & A3)|[A1|(A1 & A2 & A3 & A4)]].
        -- left. split; auto. split; [lia|auto].
        -- right. left. auto.
        -- right. right. split; auto. split; auto. split; auto. lia.
Qed.

(** ** Residuals of updated vectors *)
Variable b : list R.
Hypothesis Lb : length b = n.

Lemma pres_shift x d x' : length x = n -> length d = n -> length x' = n ->
  (forall i, (i < n)%nat -> cmp x' i = cmp x i + Rt d i) -> forall i, (i < n)%nat -> pres n L A b x' i = pres n L A b x i - K d i.
Proof.
  intros Hx Hd Hx' E i Hi. unfold pres, K, chain.
  rewrite ((proj1 HL) (vec n (fun i => cmp b i - A x i)) (vec n (A (vec n (Rt d)))) (vec n (fun i => cmp b i - A x' i)) (-1)); auto; try apply vec_length; [ring|].
  intros j Hj. rewrite !cmp_vec by auto.
  rewrite (LA Hx (vec_length n (Rt d)) Hx' (a := 1)); auto; [ring|]. intros l Hl. rewrite cmp_vec by auto. rewrite E by auto. ring.
Qed.

Lemma pnorm_sq x : pnorm n L A b x * pnorm n L A b x = rsum n (fun i => pres n L A b x i * pres n L A b x i).
Proof. unfold pnorm. cbn [gnorm]. apply sqrt_sqrt. apply sq_nonneg. Qed.
Lemma pnorm_pos x : 0 <= pnorm n L A b x.
Proof. apply gnorm_nonneg. Qed.

Lemma sq_le a c : 0 <= a -> 0 <= c -> a * a <= c * c -> a <= c.
Proof. intros. apply Rsqr_incr_0; auto. Qed.

(** The vectors the Arnoldi process has produced span the Krylov space. *)
Lemma krylov_len r j : length r = n -> length (krylov n K r j) = n.
Proof. intros. destruct j; cbn [krylov]; auto. apply vec_length. Qed.
Lemma krylov_span r rho k st Hr j : arnoldi r rho k st Hr -> (j < k)%nat ->
  exists a, (forall l, (j < l)%nat -> a l = 0) /\
    forall i, (i < n)%nat -> cmp (krylov n K (vec n r) j) i = rsum k (fun l => a l * cmp (g_v st l) i).
Proof.
  intros AR. induction j as [|j IH]; intros Hj.
  - exists (e1 rho). split; [intros l Hl; unfold e1; rewrite (proj2 (Nat.eqb_neq l 0)) by lia; auto|].
    intros i Hi. cbn [krylov]. rewrite cmp_vec by auto. rewrite <- (ar_0 AR) by auto.
    rewrite (@rsum_ext k _ (fun l => if (l =? 0)%nat then rho * cmp (g_v st 0%nat) i else 0)); [rewrite rsum_delta by lia; auto|].
    intros l Hl. unfold e1. destruct (Nat.eqb_spec l 0); subst; ring.
  - destruct IH as (a & Za & Ea); [lia|]. exists (fun m => rsum k (fun l => a l * Hr m l)). 
    assert (Z : forall m, (S j < m)%nat -> rsum k (fun l => a l * Hr m l) = 0).
    { intros m Hm. apply rsum_zero. intros l Hl. destruct (le_lt_dec l j).
      - rewrite (@ar_hess _ _ _ _ _ AR m l) by lia. ring.
      - rewrite Za by auto. ring. }
    split; auto. intros i Hi. cbn [krylov]. rewrite cmp_vec by auto.
    rewrite (@lin_comb0 K k a (g_v st) (krylov n K (vec n r) j) LK (krylov_len _ (vec_length n r)) (fun l Hl => ar_len AR (Nat.lt_le_incl _ _ Hl)) Ea i Hi).
    rewrite (@rsum_ext k _ (fun l => rsum (S k) (fun m => a l * Hr m l * cmp (g_v st m) i))).
    2:{ intros l Hl. rewrite (ar_rel AR) by auto. rewrite <- rsum_scal. apply rsum_ext. intros. ring. }
    rewrite rsum_swap. cbn [rsum].
    assert (T : forall m, rsum k (fun l => a l * Hr m l * cmp (g_v st m) i) = rsum k (fun l => a l * Hr m l) * cmp (g_v st m) i).
    { intros m. rewrite Rmult_comm, <- rsum_scal. apply rsum_ext. intros. ring. }
    rewrite (T k), Z by lia. rewrite Rmult_0_l, Rplus_0_r. apply rsum_ext. intros m Hm. apply T.
Qed.
Lemma krylov_comb r rho k st Hr a q : arnoldi r rho k st Hr -> (q <= k)%nat ->
  exists z, forall i, (i < n)%nat -> rsum q (fun j => a j * cmp (krylov n K (vec n r) j) i) = rsum k (fun l => z l * cmp (g_v st l) i).
Proof.
  intros AR. induction q as [|q IH]; intros Hq.
  - exists (fun _ => 0). intros i Hi. symmetry. apply rsum_zero. intros. ring.
  - destruct IH as (z & Hz); [lia|]. destruct (@krylov_span r rho k st Hr q AR ltac:(lia)) as (c & _ & Hc).
    exists (fun l => z l + a q * c l). intros i Hi. cbn [rsum]. rewrite Hz, Hc by auto. rewrite <- rsum_scal, <- rsum_plus. apply rsum_ext.
    intros. ring.
Qed.

(** ... and only it. *)
Lemma basis_span r rho k st Hr j : arnoldi r rho k st Hr -> rho <> 0 -> (j < k)%nat ->
  exists a, forall i, (i < n)%nat -> cmp (g_v st j) i = rsum (S j) (fun l => a l * cmp (krylov n K (vec n r) l) i).
Proof.
  intros AR NR. induction j as [j IH] using lt_wf_ind. intros Hj. destruct j as [|j].
  - exists (fun _ => 1 / rho). intros i Hi. cbn [rsum krylov]. rewrite cmp_vec by auto. rewrite <- (ar_0 AR) by auto. field. auto.
  - assert (SUMS : forall N q c, N = S j -> (q <= N)%nat -> exists a, forall i, (i < n)%nat ->
      rsum q (fun l => c l * cmp (g_v st l) i) = rsum N (fun l => a l * cmp (krylov n K (vec n r) l) i)).
    { intros N. induction q as [|q IHq]; intros c EN Hq.
      - exists (fun _ => 0). intros i Hi. symmetry. apply rsum_zero. intros. ring.
      - destruct (IHq c EN ltac:(lia)) as (a & Ha). destruct (IH q ltac:(lia) ltac:(lia)) as (d & Hd).
        exists (fun l => a l + c q * (if (l <=? q)%nat then d l else 0)). intros i Hi. cbn [rsum]. rewrite Ha, Hd by auto.
        rewrite (@rsum_ext N (fun l => (a l + c q * (if (l <=? q)%nat then d l else 0)) * cmp (krylov n K (vec n r) l) i)
          (fun l => a l * cmp (krylov n K (vec n r) l) i + c q * (if (l <=? q)%nat then d l * cmp (krylov n K (vec n r) l) i else 0))).
        2:{ intros l Hl. destruct (l <=? q)%nat; ring. }
        rewrite rsum_plus, rsum_scal. f_equal. f_equal.
        replace N with (S q + (j - q))%nat by lia. rewrite rsum_split.
        rewrite (rsum_zero (n := j - q)). 2:{ intros l Hl. rewrite (proj2 (Nat.leb_gt (S q + l) q)) by lia. reflexivity. }
        rewrite Rplus_0_r. apply rsum_ext. intros l Hl. rewrite (proj2 (Nat.leb_le l q)) by lia. reflexivity. }
    assert (NH : Hr (S j) j <> 0) by (apply (ar_sub AR); lia).
    destruct (IH j ltac:(lia) ltac:(lia)) as (d & Hd). destruct (SUMS (S j) (S j) (fun l => Hr l j) eq_refl (le_n _)) as (c & Hc).
    exists (fun l => (match l with O => 0 | S m => d m end - (if (l <=? j)%nat then c l else 0)) / Hr (S j) j).
    intros i Hi.
    assert (E : K (g_v st j) i = rsum (S j) (fun l => Hr l j * cmp (g_v st l) i) + Hr (S j) j * cmp (g_v st (S j)) i).
    { rewrite (ar_rel AR) by (auto; lia). replace (S k) with (S (S j) + (k - S j))%nat by lia. rewrite rsum_split.
      rewrite (rsum_zero (n := k - S j)). 2:{ intros l Hl. rewrite (@ar_hess _ _ _ _ _ AR (S (S j) + l) j) by lia. ring. }
      cbn [rsum]. ring. }
    rewrite Hc in E by auto.
    rewrite (@lin_comb0 K (S j) d (krylov n K (vec n r)) (g_v st j) LK) in E;
      [| apply (ar_len AR); lia | intros; apply krylov_len; apply vec_length | exact Hd | auto].
    assert (EV : cmp (g_v st (S j)) i = (rsum (S j) (fun l => d l * K (krylov n K (vec n r) l) i) - rsum (S j) (fun l => c l * cmp (krylov n K (vec n r) l) i)) / Hr (S j) j).
    { rewrite E. field. auto. }
    rewrite EV. unfold Rdiv. rewrite Rmult_comm.
    rewrite (@rsum_ext (S (S j)) _ (fun l => / Hr (S j) j * (match l with O => 0 | S m => d m end * cmp (krylov n K (vec n r) l) i - (if (l <=? j)%nat then c l * cmp (krylov n K (vec n r) l) i else 0)))).
    2:{ intros l Hl. destruct (l <=? j)%nat; ring. }
    rewrite rsum_scal. f_equal. rewrite rsum_minus. f_equal.
    + change (S (S j)) with (1 + S j)%nat. rewrite rsum_split. cbn [rsum plus]. rewrite !Rmult_0_l, !Rplus_0_l.
      cbn [krylov]. rewrite !cmp_vec by auto. f_equal. apply rsum_ext. intros l Hl. rewrite cmp_vec by auto. reflexivity.
    + replace (S (S j)) with (S j + 1)%nat by lia. rewrite rsum_split. cbn [rsum]. rewrite Nat.add_0_r.
      rewrite (proj2 (Nat.leb_gt (S j) j)) by lia. rewrite !Rplus_0_r, Nat.leb_refl. f_equal. apply rsum_ext. intros l Hl.
      rewrite (proj2 (Nat.leb_le l j)) by lia. reflexivity.
Qed.
Lemma basis_comb r rho k st Hr z q : arnoldi r rho k st Hr -> rho <> 0 -> (q <= k)%nat ->
  exists a, forall i, (i < n)%nat -> rsum q (fun l => z l * cmp (g_v st l) i) = rsum k (fun j => a j * cmp (krylov n K (vec n r) j) i).
Proof.
  intros AR NR. induction q as [|q IH]; intros Hq.
  - exists (fun _ => 0). intros i Hi. symmetry. apply rsum_zero. intros. ring.
  - destruct IH as (a & Ha); [lia|]. destruct (@basis_span r rho k st Hr q AR NR ltac:(lia)) as (c & Hc).
    exists (fun l => a l + z q * (if (l <=? q)%nat then c l else 0)). intros i Hi. cbn [rsum]. rewrite Ha, Hc by auto.
    rewrite (@rsum_ext k (fun l => (a l + z q * (if (l <=? q)%nat then c l else 0)) * cmp (krylov n K (vec n r) l) i)
      (fun l => a l * cmp (krylov n K (vec n r) l) i + z q * (if (l <=? q)%nat then c l * cmp (krylov n K (vec n r) l) i else 0))).
    2:{ intros l Hl. destruct (l <=? q)%nat; ring. }
    rewrite rsum_plus, rsum_scal. f_equal. f_equal. replace k with (S q + (k - S q))%nat by lia. rewrite rsum_split.
    rewrite (rsum_zero (n := k - S q)). 2:{ intros l Hl. rewrite (proj2 (Nat.leb_gt (S q + l) q)) by lia. reflexivity. }
    rewrite Rplus_0_r. apply rsum_ext. intros l Hl. rewrite (proj2 (Nat.leb_le l q)) by lia. reflexivity.
Qed.

Lemma comb_loop k v y x0 : (forall j, (j < k)%nat -> length (v j) = n) -> length x0 = n ->
  for_ 0 k (vset x0 0) (fun i x => vaxpy x (y i) (v i)) = Ok (vec n (fun i => rsum k (fun j => y j * cmp (v j) i))).
Proof.
  intros HV Hx. destruct (@for_inv (list R) (fun q x => length x = n /\ forall i, (i < n)%nat -> cmp x i = rsum q (fun j => y j * cmp (v j) i)) 0 k (vset x0 0)
    (fun i x => vaxpy x (y i) (v i)) ltac:(lia)) as (x' & E & Lx & Cx).
  - unfold vset. rewrite map_length. split; auto. intros i Hi. unfold cmp. cbn [rsum].
    exact (map_nth (fun _ : R => 0) x0 0 i).
  - intros j x Hj [Lx Cx]. destruct (@vaxpy_ok x (y j) (v j) Lx (HV j ltac:(lia))) as (w & E & Lw & Cw). exists w. split; auto. split; auto.
    intros i Hi. rewrite Cw, Cx by auto. cbn [rsum]. reflexivity.
  - rewrite E. f_equal. rewrite <- (vec_same Lx). apply vec_ext. auto.
Qed.
Lemma vadd_vec f x : length x = n -> vadd (vec n f) x = Ok (vec n (fun i => f i + cmp x i)).
Proof.
  intros Hx. unfold vadd. rewrite vzip_ok by (rewrite vec_length; lia). rewrite vec_length. f_equal. apply vec_ext. intros i Hi.
  rewrite vec_nth by auto. reflexivity.
Qed.
Lemma update_ok k v y x : (forall j, (j < k)%nat -> length (v j) = n) -> length x = n ->
  update_x pr k v y x = Ok (vec n (fun i => Rt (vec n (fun i => rsum k (fun j => y j * cmp (v j) i))) i + cmp x i)).
Proof.
  intros HV Hx. unfold update_x. rewrite (comb_loop y HV Hx). cbn [bind]. rewrite (pre_ok HR) by apply vec_length. cbn [bind].
  apply vadd_vec. auto.
Qed.

(** One restart cycle. *)

Lemma start_residual x : length x = n ->
  (do r <- mul x; do r <- vsub r b; pre pl (vscale r (-1))) = Ok (vec n (pres n L A b x)).
Proof.
  intros Hx. rewrite HA by auto. cbn [bind]. unfold vsub. rewrite vzip_ok by (rewrite vec_length; lia). rewrite vec_length. cbn [bind].
  rewrite (pre_ok HL) by (rewrite vscale_length, vec_length; auto). f_equal. unfold pres. f_equal. f_equal.
  apply (@list_ext_nth _ 0); [rewrite vscale_length, !vec_length; auto|]. rewrite vscale_length, vec_length. intros i Hi.
  rewrite vscale_nth by (rewrite vec_length; auto). rewrite !vec_nth by auto. unfold cmp. ring.
Qed.

Lemma cycle_ok p mode restart st0 y x m it : length x = n -> (1 <= restart)%nat ->
  let rho := pnorm n L A b x in
  let r0 := nth 0 (m_res m) 0 in
  0 < threshold p r0 -> threshold p r0 <= rho ->
  length (m_res m) = S (p_maxit p) -> nth it (m_res m) 0 = rho -> falling (m_res m) it -> m_status m = RUNNING ->
  (S it < p_maxit p \/ it = 0)%nat ->
  let st := {| g_v := setf (g_v st0) 0%nat (vscale (vec n (pres n L A b x)) (1 / rho)); g_H := g_H st0; g_c := g_c st0; g_s := g_s st0;
               g_g := setf (fun _ => 0) 0%nat rho |} in
  exists k it' done st' m' y' x', inner_loop p mul pl pr mode restart 0 it st m = Ok (k, it', done, st', m') /\
    compute_y k (g_H st') (g_g st') y = Ok y' /\ update_x pr k (g_v st') y' x = Ok x' /\ length x' = n /\ (k <= restart /\ k <= n)%nat /\
    minimiser n L A Rt b x x' k /\ (k = 0%nat -> x' = x) /\
    let i' := (it + k)%nat in
    length (m_res m') = S (p_maxit p) /\ nth 0 (m_res m') 0 = r0 /\ nth i' (m_res m') 0 = pnorm n L A b x' /\
    falling (m_res m') i' /\ (k = 0%nat -> m' = m) /\ ((0 < k)%nat -> m_iters m' = i' /\ (S i' < p_maxit p)%nat) /\
    (done = false /\ k = restart /\ it' = i' /\ m_status m' = RUNNING /\ threshold p r0 <= pnorm n L A b x' /\ (k < n)%nat \/
     done = true /\ m_status m' = RUNNING /\ threshold p r0 <= pnorm n L A b x' /\ (p_maxit p <= S (S i'))%nat /\ (k < n)%nat \/
     done = true /\ m_status m' = SUCCESS /\ pnorm n L A b x' < threshold p r0 /\ (0 < k)%nat).
Proof.
  intros Hx HRs rho r0 T0 TG LR RI FA ST LI st. set (rr := pres n L A b x).
  assert (RP : 0 < rho) by lra.
  assert (RN : rho * rho = rsum n (fun i => rr i * rr i)) by apply pnorm_sq.
  assert (CV : forall i, (i < n)%nat -> cmp (vscale (vec n rr) (1 / rho)) i = rr i / rho).
  { intros i Hi. unfold cmp. rewrite vscale_nth by (rewrite vec_length; auto). rewrite vec_nth by auto. field. lra. }
  assert (AR : arnoldi rr rho 0 st (fun _ _ => 0)).
  { constructor; unfold st; cbn [g_v g_H g_c g_s g_g]; intros; try lia.
    - replace j with 0%nat by lia. rewrite setf_eq, vscale_length, vec_length. auto.
    - split; intros; lia.
    - left. rewrite setf_eq. unfold ip, inner.
      rewrite (@rsum_ext n _ (fun i => (1 / (rho * rho)) * (rr i * rr i))).
      + rewrite rsum_scal, <- RN. field. lra.
      + intros i Hi. fold rr. rewrite CV by auto. field. lra.
    - auto.
    - reflexivity.
    - rewrite setf_eq. fold rr. rewrite CV by auto. field. lra. }
  assert (G0 : Rabs (g_g st 0%nat) = rho) by (unfold st; cbn [g_g]; rewrite setf_eq; apply Rabs_right; lra).
  destruct (@inner_ok p mode rr rho r0 T0 restart 0 it st m (fun _ _ => 0) AR ltac:(rewrite G0; auto) LR eq_refl ltac:(rewrite G0; auto) FA ST LI)
    as (k & it' & dn & st' & m' & Hr' & E & AR' & Hk & X).
  cbv zeta in X. rewrite Nat.sub_0_r in X. destruct X as (X1 & X2 & X3 & X4 & X5 & X6 & X7).
  destruct (@compute_y_ok k (g_H st') (g_g st') y (ar_diag AR')) as (y' & EY & HY).
  assert (LV : forall j, (j < k)%nat -> length (g_v st' j) = n) by (intros; apply (ar_len AR'); lia).
  pose proof (update_ok y' LV Hx) as EX. set (d := vec n (fun i => rsum k (fun j => y' j * cmp (g_v st' j) i))) in EX.
  set (x' := vec n (fun i => Rt d i + cmp x i)) in EX.
  assert (RG : forall z dz xz, length dz = n -> length xz = n -> (forall i, (i < n)%nat -> cmp dz i = rsum k (fun j => z j * cmp (g_v st' j) i)) ->
    (forall i, (i < n)%nat -> cmp xz i = cmp x i + Rt dz i) ->
    pnorm n L A b xz * pnorm n L A b xz =
    rsum k (fun i => (g_g st' i - rsum k (fun j => if (i <=? j)%nat then g_H st' i j * z j else 0)) *
                     (g_g st' i - rsum k (fun j => if (i <=? j)%nat then g_H st' i j * z j else 0))) + g_g st' k * g_g st' k).
  { intros z dz xz Ld Lz Ed Ez. rewrite pnorm_sq, <- (residual_identity z AR'). apply rsum_ext. intros i Hi.
    rewrite (pres_shift Hx Ld Lz Ez Hi). fold rr.
    rewrite (@lin_comb0 K k z (g_v st') dz LK Ld LV Ed i Hi). reflexivity. }
  assert (LX' : length x' = n) by apply vec_length.
  assert (SQ : pnorm n L A b x' * pnorm n L A b x' = g_g st' k * g_g st' k).
  { rewrite (RG y' d x' (vec_length _ _) LX').
    - rewrite rsum_zero; [ring|]. intros i Hi. rewrite HY by auto. ring.
    - intros i Hi. unfold d. apply cmp_vec. auto.
    - intros i Hi. unfold x'. rewrite cmp_vec by auto. ring. }
  assert (PN : pnorm n L A b x' = Rabs (g_g st' k)).
  { rewrite <- (Rabs_right (pnorm n L A b x')) by (apply Rle_ge, pnorm_pos). apply Rsqr_eq_abs_0. exact SQ. }
  assert (KN : threshold p r0 <= Rabs (g_g st' k) -> (k < n)%nat).
  { intros T. apply (ar_strict AR'). intros Z. rewrite Z, Rabs_R0 in T. lra. }
  exists k, it', dn, st', m', y', x'. split; [exact E|]. split; [exact EY|]. split; [exact EX|]. split; [exact LX'|]. split; [split; [lia|apply (orthonormal_dim (ar_on AR'))]|].
  split; [|split; [|]].
  - split.
    { destruct (@basis_comb rr rho k st' Hr' y' k AR' ltac:(lra) (le_n k)) as (a & Ha). exists a. unfold candidate. fold rr.
      replace (vec n (fun i => rsum k (fun j => a j * cmp (krylov n (chain n L A Rt) (vec n rr) j) i))) with d.
      - unfold x'. apply vec_ext. intros i Hi. ring.
      - unfold d. apply vec_ext. intros i Hi. apply Ha. auto. }
    intros a. apply sq_le; try apply pnorm_pos. rewrite SQ. unfold candidate. fold rr. fold K.
    set (dz := vec n (fun i => rsum k (fun j => a j * cmp (krylov n K (vec n rr) j) i))).
    destruct (@krylov_comb rr rho k st' Hr' a k AR' (le_n k)) as (z & Hz).
    rewrite (RG z dz).
    + match goal with |- _ <= ?s + _ => assert (0 <= s) by apply sq_nonneg end. lra.
    + apply vec_length.
    + apply vec_length.
    + intros i Hi. unfold dz. rewrite cmp_vec by auto. apply Hz. auto.
    + intros i Hi. rewrite cmp_vec by auto. reflexivity.
  - intros ->. unfold x'. rewrite <- (vec_same Hx). apply vec_ext. intros i Hi. rewrite (vec_same Hx).
    rewrite (lin_zero (proj1 HR)) by (auto; try apply vec_length; intros; unfold d; rewrite cmp_vec; auto). ring.
  - cbv zeta. rewrite PN. do 4 (split; [auto|]). split; [auto|]. split; [auto|].
    destruct X7 as [(A1 & A2 & A3 & A4 & A5)|[(A1 & A2 & A3 & A4)|A1]]; [left|right; left|right; right]; tauto.
Qed.

Lemma outer_ok p mode restart r0 : (1 <= restart)%nat -> 0 < threshold p r0 ->
  forall fuel it st y x m, (p_maxit p <= fuel + it)%nat -> (0 < it)%nat -> (S it < p_maxit p)%nat -> length x = n ->
  length (m_res m) = S (p_maxit p) -> nth 0 (m_res m) 0 = r0 -> nth it (m_res m) 0 = pnorm n L A b x -> falling (m_res m) it ->
  m_status m = RUNNING -> m_iters m = it -> threshold p r0 <= pnorm n L A b x ->
  exists x' m', outer_loop p mul pl pr mode restart b fuel it st y x m = Ok (x', m') /\ length x' = n /\
    let i' := m_iters m' in (it <= i')%nat /\ (S i' < p_maxit p)%nat /\ (i' = it -> x' = x) /\
    length (m_res m') = S (p_maxit p) /\ nth 0 (m_res m') 0 = r0 /\ nth i' (m_res m') 0 = pnorm n L A b x' /\ falling (m_res m') i' /\
    (m_status m' = SUCCESS /\ pnorm n L A b x' < threshold p r0 \/
     m_status m' = RUNNING /\ threshold p r0 <= pnorm n L A b x' /\ S (S i') = p_maxit p).
Proof.
  intros HRs T0. induction fuel as [|f IH]; intros it st y x m HF I0 IM Hx LR R0 RI FA ST MI TG; [lia|].
  cbn [outer_loop]. rewrite (proj2 (Nat.leb_gt (p_maxit p) it)) by lia.
  pose proof (start_residual Hx) as ES. destruct (mul x) as [r1| |]; cbn [bind] in ES |- *; try discriminate.
  destruct (vsub r1 b) as [r2| |]; cbn [bind] in ES |- *; try discriminate. rewrite ES. cbn [bind].
  rewrite (proj2 (Nat.eqb_neq it 0)) by lia. cbn [bind].
  assert (EN : norm L2 (vec n (pres n L A b x)) = pnorm n L A b x).
  { rewrite norm_plain by constructor. rewrite vec_length. apply gnorm_ext. intros i Hi. apply cmp_vec. auto. }
  rewrite EN. destruct (Req_EM_T (pnorm n L A b x) 0) as [Z|_]; [exfalso; lra|].
  match goal with |- context [inner_loop _ _ _ _ _ _ _ _ {| g_v := setf ?v0 _ _; g_H := ?h; g_c := ?c; g_s := ?s; g_g := _ |} _] =>
    destruct (@cycle_ok p mode restart {| g_v := v0; g_H := h; g_c := c; g_s := s; g_g := g_g st |} y x m it Hx HRs) as
      (k & it' & dn & st' & m' & y' & x' & E1 & E2 & E3 & LX & KR & B & K0 & X) end; auto; try (rewrite R0; auto); try lia.
  cbn [g_v g_H g_c g_s] in E1. rewrite E1. cbn [bind]. rewrite E2. cbn [bind]. rewrite E3. cbn [bind].
  cbv zeta in X. rewrite R0 in X. destruct X as (X1 & X2 & X3 & X4 & X5 & X6 & X7).
  assert (IE : m_iters m' = (it + k)%nat) by (destruct k; [rewrite X5 by auto; lia|apply X6; lia]).
  assert (IL : (S (it + k) < p_maxit p)%nat) by (destruct k; [lia|apply X6; lia]).
  assert (XE : (it + k)%nat = it -> x' = x) by (intros; apply K0; lia).
  destruct X7 as [(-> & A2 & A3 & A4 & A5 & A6)|[(-> & A2 & A3 & A4 & A5)|(-> & A2 & A3 & A4)]].
  - subst it'. destruct (IH (it + k)%nat st' y' x' m' ltac:(lia) ltac:(lia) IL LX X1 X2 X3 X4 A4 IE A5) as (x2 & m2 & E & L' & I1 & I2 & I3 & I4).
    exists x2, m2. split; [exact E|]. split; [exact L'|]. cbv zeta. split; [lia|]. split; [auto|]. split; [lia|]. exact I4.
  - exists x', m'. split; [reflexivity|]. split; [auto|]. cbv zeta. rewrite IE. split; [lia|]. split; [auto|]. split; [auto|].
    do 4 (split; [auto|]). right. split; auto. split; auto. lia.
  - exists x', m'. split; [reflexivity|]. split; [auto|]. cbv zeta. rewrite IE. split; [lia|]. split; [auto|]. split; [auto|].
    do 4 (split; [auto|]). left. auto.
Qed.

Lemma outer0_ok p mode restart fuel st y x m : (1 <= restart)%nat -> (3 <= p_maxit p)%nat -> 0 < p_atol p -> p_rtol p <= 1 ->
  (p_maxit p <= S fuel)%nat -> length x = n -> length (m_res m) = S (p_maxit p) -> m_status m = RUNNING ->
  exists x' m', outer_loop p mul pl pr mode restart b (S fuel) 0 st y x m = Ok (x', m') /\ length x' = n /\
    (pnorm n L A b x < p_atol p -> x' = x /\ m_status m' = SUCCESS) /\
    (p_atol p <= pnorm n L A b x ->
       let k := m_iters m' in
       let thr := threshold p (pnorm n L A b x) in
       (1 <= k)%nat /\ (S k < p_maxit p)%nat /\ nth 0 (m_res m') 0 = pnorm n L A b x /\ nth k (m_res m') 0 = pnorm n L A b x' /\
       falling (m_res m') k /\
       (m_status m' = SUCCESS /\ pnorm n L A b x' < thr \/ m_status m' = RUNNING /\ thr <= pnorm n L A b x' /\ S (S k) = p_maxit p) /\
       ((k <= restart)%nat -> minimiser n L A Rt b x x' k) /\
       ((n <= restart)%nat -> (n + 2 <= p_maxit p)%nat -> m_status m' = SUCCESS /\ (k <= n)%nat)).
Proof.
  intros HRs HM HT HT1 HF Hx LR ST. cbn [outer_loop]. rewrite (proj2 (Nat.leb_gt (p_maxit p) 0)) by lia.
  pose proof (start_residual Hx) as ES. destruct (mul x) as [r1| |]; cbn [bind] in ES |- *; try discriminate.
  destruct (vsub r1 b) as [r2| |]; cbn [bind] in ES |- *; try discriminate. rewrite ES. cbn [bind Nat.eqb].
  assert (EN : norm L2 (vec n (pres n L A b x)) = pnorm n L A b x).
  { rewrite norm_plain by constructor. rewrite vec_length. apply gnorm_ext. intros i Hi. apply cmp_vec. auto. }
  rewrite EN. set (rho := pnorm n L A b x) in *.
  destruct (@monitor_init_ok p rho m ltac:(lia)) as (stop & m0 & EM & I0 & Q0 & BS & S0). rewrite EM. cbn [bind].
  destruct stop.
  { exists x, m0. split; [reflexivity|]. split; [auto|]. split; [auto|]. intros C. pose proof (proj1 BS eq_refl). lra. }
  assert (RA : p_atol p <= rho) by (apply Rnot_lt_le; intros C; apply BS in C; discriminate).
  destruct (Req_EM_T rho 0) as [Z|_]; [exfalso; lra|].
  assert (T0 : 0 < threshold p rho) by (unfold threshold; pose proof (Rmax_r (p_rtol p * rho) (p_atol p)); lra).
  assert (N0 : nth 0 (m_res m0) 0 = rho) by (rewrite Q0; apply nth_upd_eq; lia).
  assert (L0 : length (m_res m0) = S (p_maxit p)) by (rewrite Q0, upd_length; auto).
  assert (F0 : falling (m_res m0) 0) by (intros j Hj; lia).
  assert (TG : threshold p rho <= rho).
  { unfold threshold. apply Rmax_lub; auto. rewrite <- (Rmult_1_l rho) at 2. apply Rmult_le_compat_r; lra. }
  match goal with |- context [inner_loop _ _ _ _ _ _ _ _ {| g_v := setf ?v0 _ _; g_H := ?h; g_c := ?c; g_s := ?s; g_g := _ |} _] =>
    destruct (@cycle_ok p mode restart {| g_v := v0; g_H := h; g_c := c; g_s := s; g_g := g_g st |} y x m0 0 Hx HRs) as
      (k & it' & dn & st' & m' & y' & x' & E1 & E2 & E3 & LX & KR & B & K0 & X) end; auto; try (rewrite N0; auto).
  { rewrite S0. auto. }
  cbn [g_v g_H g_c g_s] in E1. fold rho in E1. rewrite E1. cbn [bind]. rewrite E2. cbn [bind]. rewrite E3. cbn [bind].
  cbv zeta in X. rewrite N0 in X. cbn [plus] in X. destruct X as (X1 & X2 & X3 & X4 & X5 & X6 & X7).
  assert (KP : (0 < k)%nat).
  { destruct k; [|lia]. exfalso. destruct X7 as [(_ & A2 & _)|[(_ & _ & _ & A4 & _)|(_ & _ & _ & A4)]]; lia. }
  destruct (X6 KP) as [IE IL].
  destruct X7 as [(-> & A2 & A3 & A4 & A5 & A6)|[(-> & A2 & A3 & A4 & A5)|(-> & A2 & A3 & A4)]].
  - subst it'. destruct (@outer_ok p mode restart rho HRs T0 fuel k st' y' x' m' ltac:(lia) KP IL LX X1 X2 X3 X4 A4 IE A5) as (x2 & m2 & E & L' & I1 & I2 & I3 & I4 & I5 & I6 & I7 & I8).
    exists x2, m2. split; [exact E|]. split; [exact L'|]. split; [intros C; lra|]. intros _. cbv zeta. split; [lia|]. do 5 (split; [auto|]). split.
    + intros Q. assert (Q' : m_iters m2 = k) by lia. rewrite Q', (I3 Q'). auto.
    + intros. lia.
  - exists x', m'. split; [reflexivity|]. split; [auto|]. split; [intros C; lra|]. intros _. cbv zeta. rewrite IE. split; [lia|]. do 4 (split; [auto|]).
    split; [right; split; [auto|]; split; [auto|]; lia|]. split; [auto|]. intros. lia.
  - exists x', m'. split; [reflexivity|]. split; [auto|]. split; [intros C; lra|]. intros _. cbv zeta. rewrite IE. split; [lia|]. do 4 (split; [auto|]).
    split; [left; auto|]. split; [auto|]. intros.  split; auto.
    apply KR.
Qed.

Lemma gmres_sound p mode restart x st prev : (1 <= restart)%nat -> (3 <= p_maxit p)%nat -> 0 < p_atol p -> p_rtol p <= 1 -> length x = n ->
  exists x' m, gmres p mul pl pr mode restart b x st prev = Ok (x', m) /\ length x' = n /\
    (pnorm n L A b x < p_atol p -> x' = x /\ m_status m = SUCCESS) /\
    (p_atol p <= pnorm n L A b x ->
       let k := m_iters m in
       let thr := threshold p (pnorm n L A b x) in
       (1 <= k)%nat /\ (S k < p_maxit p)%nat /\ length (m_res m) = S k /\ nth 0 (m_res m) 0 = pnorm n L A b x /\ nth k (m_res m) 0 = pnorm n L A b x' /\
       falling (m_res m) k /\
       (m_status m = SUCCESS /\ pnorm n L A b x' < thr \/ m_status m = RUNNING /\ thr <= pnorm n L A b x' /\ S (S k) = p_maxit p) /\
       ((k <= restart)%nat -> minimiser n L A Rt b x x' k) /\
       ((n <= restart)%nat -> (n + 2 <= p_maxit p)%nat -> m_status m = SUCCESS /\ (k <= n)%nat)).
Proof.
  intros HRs HM HT HT1 Hx. unfold gmres, solve, gmres_impl.
  remember (p_maxit p) as M eqn:EM. destruct M as [|f]; [lia|].
  match goal with |- context [outer_loop _ _ _ _ _ _ _ _ _ ?s ?y _ ?m] =>
    destruct (@outer0_ok p mode restart f s y x m HRs ltac:(lia) HT HT1 ltac:(lia) Hx) as (x' & m' & E & LX & P1 & P2) end.
  { cbn [m_res]. rewrite resize_len. lia. }
  { reflexivity. }
  rewrite E. cbn [bind]. eexists _, _. split; [reflexivity|]. split; [auto|]. cbn [m_status m_iters m_res]. split; [auto|].
  intros C. destruct (P2 C) as (Q1 & Q2 & Q3 & Q4 & Q5 & Q6 & Q7 & Q8). cbv zeta. split; [auto|]. split; [lia|]. split; [rewrite resize_len; lia|].
  rewrite !resize_nth by lia. split; [auto|]. split; [auto|]. split; [|split; [rewrite EM; auto|split; [auto|rewrite EM; auto]]].
  intros j Hj. rewrite !resize_nth by lia. apply Q5. auto.
Qed.
End Krylov.

(** ** Statements outside the section *)

Lemma givens_norm k c s H N : (forall i, (i < k)%nat -> c i * c i + s i * s i = 1) -> (k < N)%nat ->
  rsum N (fun i => apply_givens k c s H i k * apply_givens k c s H i k) = rsum N (fun i => H i k * H i k) /\
  forall i j, j <> k -> apply_givens k c s H i j = H i j.
Proof.
  intros E HN. split.
  - rewrite <- (@rots_norm c s k (fun m => H m k) N E HN). apply rsum_ext. intros i Hi. rewrite apply_givens_ok, Nat.eqb_refl. reflexivity.
  - intros i j N'. rewrite apply_givens_ok, (proj2 (Nat.eqb_neq j k) N'). reflexivity.
Qed.

Lemma gmres_ok n mul pl pr A L Rt b p mode restart x st prev :
  is_op n mul A -> linear n A -> is_pc n pl L -> is_pc n pr Rt -> injective n (chain n L A Rt) -> length b = n -> length x = n ->
  (1 <= restart)%nat -> (3 <= p_maxit p)%nat -> 0 < p_atol p -> p_rtol p <= 1 ->
  exists x' m, gmres p mul pl pr mode restart b x st prev = Ok (x', m) /\ length x' = n /\
    (pnorm n L A b x < p_atol p -> x' = x /\ m_status m = SUCCESS) /\
    (p_atol p <= pnorm n L A b x ->
       let k := m_iters m in
       let thr := threshold p (pnorm n L A b x) in
       (1 <= k)%nat /\ (S k < p_maxit p)%nat /\ length (m_res m) = S k /\ nth 0 (m_res m) 0 = pnorm n L A b x /\ nth k (m_res m) 0 = pnorm n L A b x' /\
       falling (m_res m) k /\
       (m_status m = SUCCESS /\ pnorm n L A b x' < thr \/ m_status m = RUNNING /\ thr <= pnorm n L A b x' /\ S (S k) = p_maxit p)).
Proof.
  intros HA LA HL HR KI Lb Hx HRs HM HT HT1.
  destruct (@gmres_sound n mul pl pr A L Rt HA LA HL HR KI b Lb p mode restart x st prev HRs HM HT HT1 Hx) as (x' & m & E & LX & P1 & P2).
  exists x', m. split; auto. split; auto. split; auto. intros C. destruct (P2 C) as (Q1 & Q0 & Q2 & Q3 & Q4 & Q5 & Q6 & _). cbv zeta. auto 10.
Qed.

Lemma gmres_minimal n mul pl pr A L Rt b p mode restart x st prev :
  is_op n mul A -> linear n A -> is_pc n pl L -> is_pc n pr Rt -> injective n (chain n L A Rt) -> length b = n -> length x = n ->
  (1 <= restart)%nat -> (3 <= p_maxit p)%nat -> 0 < p_atol p -> p_rtol p <= 1 -> p_atol p <= pnorm n L A b x ->
  exists x' m, gmres p mul pl pr mode restart b x st prev = Ok (x', m) /\
    ((m_iters m <= restart)%nat -> minimiser n L A Rt b x x' (m_iters m)).
Proof.
  intros HA LA HL HR KI Lb Hx HRs HM HT HT1 C.
  destruct (@gmres_sound n mul pl pr A L Rt HA LA HL HR KI b Lb p mode restart x st prev HRs HM HT HT1 Hx) as (x' & m & E & LX & P1 & P2).
  exists x', m. split; auto. apply (P2 C).
Qed.

Lemma gmres_terminates n mul pl pr A L Rt b p mode restart x st prev :
  is_op n mul A -> linear n A -> is_pc n pl L -> is_pc n pr Rt -> injective n (chain n L A Rt) -> length b = n -> length x = n ->
  (1 <= n <= restart)%nat -> (n + 2 <= p_maxit p)%nat -> 0 < p_atol p -> p_rtol p <= 1 -> p_atol p <= pnorm n L A b x ->
  exists x' m, gmres p mul pl pr mode restart b x st prev = Ok (x', m) /\
    m_status m = SUCCESS /\ (1 <= m_iters m <= n)%nat /\ pnorm n L A b x' < threshold p (pnorm n L A b x).
Proof.
  intros HA LA HL HR KI Lb Hx HRs HM HT HT1 C.
  destruct (@gmres_sound n mul pl pr A L Rt HA LA HL HR KI b Lb p mode restart x st prev ltac:(lia) ltac:(lia) HT HT1 Hx) as (x' & m & E & LX & P1 & P2).
  exists x', m. split; auto. destruct (P2 C) as (Q1 & _ & _ & _ & _ & _ & Q6 & _ & Q7). destruct (Q7 ltac:(lia) HM) as [S1 K1].
  split; auto. split; [lia|]. destruct Q6 as [[_ Q]|[Q _]]; auto. congruence.
Qed.

(** One restart cycle, whatever the arrays held before. *)
Lemma gmres_cycle n mul pl pr A L Rt b p mode restart st0 y x m it :
  is_op n mul A -> linear n A -> is_pc n pl L -> is_pc n pr Rt -> injective n (chain n L A Rt) -> length b = n -> length x = n ->
  (1 <= restart)%nat ->
  let rho := pnorm n L A b x in
  let r0 := nth 0 (m_res m) 0 in
  0 < threshold p r0 -> threshold p r0 <= rho ->
  length (m_res m) = S (p_maxit p) -> nth it (m_res m) 0 = rho -> falling (m_res m) it -> m_status m = RUNNING ->
  (S it < p_maxit p \/ it = 0)%nat ->
  let st := {| g_v := setf (g_v st0) 0%nat (vscale (vec n (pres n L A b x)) (1 / rho)); g_H := g_H st0; g_c := g_c st0; g_s := g_s st0;
               g_g := setf (fun _ => 0) 0%nat rho |} in
  exists k it' done st' m' y' x', inner_loop p mul pl pr mode restart 0 it st m = Ok (k, it', done, st', m') /\
    compute_y k (g_H st') (g_g st') y = Ok y' /\ update_x pr k (g_v st') y' x = Ok x' /\
    minimiser n L A Rt b x x' k /\ nth (it + k) (m_res m') 0 = pnorm n L A b x'.
Proof.
  intros HA LA HL HR KI Lb Hx HRs rho r0 T0 TG LR RI FA ST LI st.
  destruct (@cycle_ok n mul pl pr A L Rt HA LA HL HR KI b Lb p mode restart st0 y x m it Hx HRs T0 TG LR RI FA ST LI)
    as (k & it' & dn & st' & m' & y' & x' & E1 & E2 & E3 & LX & KR & B & K0 & _ & _ & X3 & _).
  exists k, it', dn, st', m', y', x'. auto 10.
Qed.

(** ** A system that a one-iteration limit cannot solve *)

Definition swap_op (x : list R) (i : nat) : R := cmp x (1 - i).
Definition swap_mul (x : list R) : res (list R) := Ok (vec 2 (swap_op x)).
Definition idop (x : list R) (i : nat) : R := cmp x i.
Lemma swap_is_op : is_op 2 swap_mul swap_op.
Proof. intros x _. reflexivity. Qed.
Lemma swap_linear : linear 2 swap_op.
Proof. intros u v w a _ _ _ E i Hi. unfold swap_op. apply E. lia. Qed.
Lemma id_pc n : is_pc n None idop.
Proof. split; [|reflexivity]. intros u v w a _ _ _ E i Hi. apply E. auto. Qed.
Lemma swap_injective : injective 2 (chain 2 idop swap_op idop).
Proof.
  intros v Hv Z i Hi. specialize (Z (1 - i)%nat ltac:(lia)). unfold chain, idop, swap_op, cmp in Z.
  rewrite !vec_nth in Z by lia. replace (1 - (1 - i))%nat with i in Z by lia. exact Z.
Qed.
Lemma swap_pnorm x : pnorm 2 idop swap_op [1; 0] x = sqrt ((1 - cmp x 1) * (1 - cmp x 1) + cmp x 0 * cmp x 0).
Proof.
  unfold pnorm. cbn [gnorm]. f_equal. unfold inner. cbn [rsum]. unfold pres, idop. rewrite !cmp_vec by lia. unfold swap_op, cmp. cbn [nth Nat.sub]. ring.
Qed.

Definition swap_params (maxit : nat) := {| p_atol := 1 / 10; p_rtol := 0; p_maxit := maxit; p_diverge := true; p_norm := L2 |}.

Lemma swap_threshold M r : threshold (swap_params M) r = 1 / 10.
Proof. unfold threshold, swap_params. cbn [p_rtol p_atol]. rewrite Rmult_0_l, Rmax_right; lra. Qed.

(** With the limit 3 the residual stays 1 and the status is neither SUCCESS nor MAXIT. *)
Lemma gmres_limit_refuted st prev : exists x' m,
  gmres (swap_params 3) swap_mul None None 0 20 [1; 0] [0; 0] st prev = Ok (x', m) /\
  m_status m = RUNNING /\ m_iters m = 1%nat /\ threshold (swap_params 3) (pnorm 2 idop swap_op [1; 0] [0; 0]) <= pnorm 2 idop swap_op [1; 0] x'.
Proof.
  assert (P0 : pnorm 2 idop swap_op [1; 0] [0; 0] = 1).
  { rewrite swap_pnorm. unfold cmp. cbn [nth]. replace ((1 - 0) * (1 - 0) + 0 * 0) with 1 by ring. apply sqrt_1. }
  destruct (@gmres_sound 2 swap_mul None None swap_op idop idop swap_is_op swap_linear (id_pc 2) (id_pc 2) swap_injective [1; 0] eq_refl
    (swap_params 3) 0 20 [0; 0] st prev) as (x' & m & E & LX & _ & P2); try (cbn; lra); try (cbn; lia); auto.
  exists x', m. split; [exact E|]. destruct (P2 ltac:(rewrite P0; cbn; lra)) as (Q1 & Q0 & _ & _ & _ & _ & Q6 & Q7 & _). rewrite swap_threshold in *.
  assert (KE : m_iters m = 1%nat) by (cbn in Q0; lia). rewrite KE in *.
  destruct (Q7 ltac:(lia)) as ((a & Ea) & _).
  assert (C1 : cmp x' 1 = 0).
  { rewrite Ea. unfold candidate. rewrite cmp_vec by lia. unfold idop. rewrite cmp_vec by lia. cbn [rsum krylov]. rewrite cmp_vec by lia.
    unfold pres, idop. rewrite cmp_vec by lia. unfold swap_op, cmp. cbn [nth Nat.sub]. ring. }
  assert (G : 1 / 10 <= pnorm 2 idop swap_op [1; 0] x').
  { rewrite swap_pnorm, C1. apply Rle_trans with (sqrt 1); [rewrite sqrt_1; lra|]. apply sqrt_le_1_alt. pose proof (Rle_0_sqr (cmp x' 0)). unfold Rsqr in *. lra. }
  split; [|auto]. destruct Q6 as [[_ Q]|[Q _]]; auto. lra.
Qed.

(** With room for two iterations the same system is solved. *)
Lemma gmres_swap_solved st prev : exists x' m,
  gmres (swap_params 4) swap_mul None None 0 20 [1; 0] [0; 0] st prev = Ok (x', m) /\ m_status m = SUCCESS /\ (m_iters m <= 2)%nat.
Proof.
  assert (P0 : pnorm 2 idop swap_op [1; 0] [0; 0] = 1).
  { rewrite swap_pnorm. unfold cmp. cbn [nth]. replace ((1 - 0) * (1 - 0) + 0 * 0) with 1 by ring. apply sqrt_1. }
  destruct (@gmres_terminates 2 swap_mul None None swap_op idop idop [1; 0] (swap_params 4) 0 20 [0; 0] st prev
    swap_is_op swap_linear (id_pc 2) (id_pc 2) swap_injective eq_refl eq_refl) as (x' & m & E & Q1 & Q2 & _);
    try (cbn; lra); try (cbn; lia); try (rewrite P0; cbn; lra).
  exists x', m. split; auto. split; auto. lia.
Qed.

Lemma ax_linear n C : linear n (ax n C).
Proof.
  intros u v w a _ _ _ E i Hi. unfold ax. rewrite <- rsum_scal, <- rsum_plus. apply rsum_ext. intros j Hj. rewrite E by auto. ring.
Qed.
