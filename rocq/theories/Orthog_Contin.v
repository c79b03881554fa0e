(** * Proofs about the continuous bases CLP, ChebyshevU and Jacobi01 *)
From Verif Require Import Base BaseR Loop Vector_Model Vector_Spec Vector_Proofs Orthog_Model Orthog_Spec Orthog_Proofs
  Orthog_Legendre Orthog_Discrete.
From Coq Require Import Lra Ranalysis.
Set Implicit Arguments. Unset Strict Implicit.
Open Scope R_scope.

(** ** Polynomials on the line *)
Lemma poly_ext d f g : (forall x, f x = g x) -> poly d f -> poly d g.
Proof. intros H (c & E). exists c. intros x. rewrite <- H. apply E. Qed.
Lemma poly_mono d d' f : (d <= d')%nat -> poly d f -> poly d' f.
Proof.
  intros H (c & E). exists (fun k => if (k <=? d)%nat then c k else 0). intros x. rewrite E.
  replace (S d') with (S d + (d' - d))%nat by lia. rewrite rsum_split.
  rewrite (@rsum_ext (S d) (fun k => (if (k <=? d)%nat then c k else 0) * x ^ k) (fun k => c k * x ^ k)).
  - rewrite (rsum_zero (n := d' - d)); [ring|]. intros i Hi. rewrite (proj2 (Nat.leb_gt _ _)) by lia. ring.
  - intros k Hk. rewrite (proj2 (Nat.leb_le _ _)) by lia. reflexivity.
Qed.
Lemma poly_plus d f g : poly d f -> poly d g -> poly d (fun x => f x + g x).
Proof.
  intros (c & E) (e & F). exists (fun k => c k + e k). intros x. rewrite E, F, <- rsum_plus.
  apply rsum_ext. intros. ring.
Qed.
Lemma poly_scal d s f : poly d f -> poly d (fun x => s * f x).
Proof. intros (c & E). exists (fun k => s * c k). intros x. rewrite E, <- rsum_scal. apply rsum_ext. intros. ring. Qed.
Lemma poly_X d f : poly d f -> poly (S d) (fun x => x * f x).
Proof.
  intros (c & E). exists (fun k => match k with O => 0 | S k => c k end). intros x. rewrite E.
  change (S (S d)) with (1 + S d)%nat. rewrite (rsum_split 1 (S d)).
  cbn [rsum pow Nat.add]. rewrite Rmult_0_l, !Rplus_0_l.
  rewrite Rmult_plus_distr_l. f_equal; [|ring].
  rewrite <- rsum_scal. apply rsum_ext. intros. cbn [pow]. ring.
Qed.
Lemma poly_const s : poly 0 (fun _ => s).
Proof. exists (fun _ => s). intros x. cbn. ring. Qed.
Lemma poly_affine a b k : poly k (fun x => (a * x + b) ^ k).
Proof.
  induction k as [|k IH]; [apply (@poly_ext 0 (fun _ => 1)); [intros; reflexivity|apply poly_const]|].
  apply (@poly_ext _ (fun x => a * (x * (a * x + b) ^ k) + b * (a * x + b) ^ k)); [intros; cbn [pow]; ring|].
  apply poly_plus; apply poly_scal; [apply poly_X; auto|apply (@poly_mono k); auto].
Qed.

Lemma affine_deriv a b x : derivable_pt_lim (fun x => a * x + b) x a.
Proof.
  assert (H : derivable_pt_lim (fun x => a * x + b) x (a * 1 + 0)).
  { apply (derivable_pt_lim_plus (fun x => a * x) (fun _ => b) x (a * 1) 0).
    - apply (derivable_pt_lim_scal (fun x => x) a x 1). apply derivable_pt_lim_id.
    - apply derivable_pt_lim_const. }
  replace (a * 1 + 0) with a in H by ring. exact H.
Qed.
Lemma affine_pow_deriv a b k x : derivable_pt_lim (fun x => (a * x + b) ^ S k) x (INR (S k) * (a * x + b) ^ k * a).
Proof.
  apply (derivable_pt_lim_comp (fun x => a * x + b) (fun y => y ^ S k) x a (INR (S k) * (a * x + b) ^ k)).
  - apply affine_deriv.
  - apply (derivable_pt_lim_pow (a * x + b) (S k)).
Qed.

(** Integral of y^k over [-1, 1]. *)
Definition mom (k : nat) : R := (1 - (-1) ^ S k) / INR (S k).

(** An exact rule on [lo, hi] gives the moments in the scaled variable. *)
Lemma exact_moments n xs ws lo hi D k : lo < hi -> exact_rule n xs ws lo hi D -> (k <= D)%nat ->
  rsum n (fun i => nth i ws 0 * (2 * (nth i xs 0 - lo) / (hi - lo) - 1) ^ k) = (hi - lo) / 2 * mom k.
Proof.
  intros Hlt Ex Hk. set (a := 2 / (hi - lo)). set (b := - 2 * lo / (hi - lo) - 1).
  assert (Ha : a <> 0) by (unfold a; apply Rgt_not_eq, Rdiv_lt_0_compat; lra).
  assert (Hs : INR (S k) <> 0) by (apply not_0_INR; lia).
  rewrite (@rsum_ext n _ (fun i => nth i ws 0 * (a * nth i xs 0 + b) ^ k)).
  2:{ intros i Hi. f_equal. f_equal. unfold a, b. field. lra. }
  rewrite (Ex (fun x => (a * x + b) ^ k) (fun x => / (INR (S k) * a) * (a * x + b) ^ S k)).
  - replace (a * hi + b) with 1 by (unfold a, b; field; lra).
    replace (a * lo + b) with (-1) by (unfold a, b; field; lra).
    rewrite pow1. unfold mom. replace (hi - lo) with (2 / a) by (unfold a; field; lra). field. auto.
  - apply (@poly_mono k); auto. apply poly_affine.
  - intros x. replace ((a * x + b) ^ k) with (/ (INR (S k) * a) * (INR (S k) * (a * x + b) ^ k * a)) by (field; auto).
    apply (derivable_pt_lim_scal (fun x => (a * x + b) ^ S k)). apply affine_pow_deriv.
Qed.

(** ** Legendre polynomials *)
Lemma LP_snd l x : snd (LP2 l x) = LP (S l) x.
Proof. unfold LP. cbn [LP2]. destruct (LP2 l x). reflexivity. Qed.
Lemma LP_SS l x : INR (l + 2) * LP (S (S l)) x = (2 * INR l + 3) * x * LP (S l) x - (INR l + 1) * LP l x.
Proof.
  rewrite <- (LP_snd (S l)). cbn [LP2]. rewrite <- (LP_snd l). unfold LP. destruct (LP2 l x) as (u & v). cbn [fst snd].
  pose proof (pos_INR l). rewrite plus_INR. cbn [INR]. field. lra.
Qed.
Lemma LP_is_legendre : is_legendre LP.
Proof.
  split; [reflexivity|]. split; [reflexivity|]. intros l x.
  replace (LP (l + 2)%nat x) with (LP (S (S l)) x) by (f_equal; lia).
  replace (LP (l + 1)%nat x) with (LP (S l) x) by (f_equal; lia). apply LP_SS.
Qed.
Lemma LP_poly l : poly l (LP l).
Proof.
  assert (G : forall l, poly l (LP l) /\ poly (S l) (LP (S l))).
  { clear l. induction l as [|l (A & B)].
    - split; [apply (@poly_ext 0 (fun _ => 1)); [intros; reflexivity|apply poly_const]|].
      apply (@poly_ext _ (fun x => x * 1)); [intros; unfold LP; cbn; ring|]. apply poly_X, poly_const.
    - split; auto. apply (@poly_ext _ (fun x => (2 * INR l + 3) / INR (l + 2) * (x * LP (S l) x) + - (INR l + 1) / INR (l + 2) * LP l x)).
      + intros x. assert (INR (l + 2) <> 0) by (apply not_0_INR; lia).
        apply (Rmult_eq_reg_l (INR (l + 2))); auto. rewrite LP_SS. field. auto.
      + apply poly_plus; apply poly_scal; [apply poly_X; auto|apply (@poly_mono l); auto]. }
  apply G.
Qed.

Section Rule.
  Variables (n D : nat) (q y : nat -> R) (h : R).
  Hypothesis M : forall k, (k <= D)%nat -> rsum n (fun i => q i * y i ^ k) = h * mom k.
  Definition mu (l k : nat) : R := rsum n (fun i => q i * (y i ^ k * LP l (y i))).

  Lemma mu_rec l k : INR (l + 2) * mu (S (S l)) k = (2 * INR l + 3) * mu (S l) (S k) - (INR l + 1) * mu l k.
  Proof.
    unfold mu. rewrite <- !rsum_scal, <- rsum_minus. apply rsum_ext. intros i Hi.
    transitivity (q i * y i ^ k * (INR (l + 2) * LP (S (S l)) (y i))); [ring|]. rewrite LP_SS. cbn [pow]. ring.
  Qed.
  Lemma mu_0 k : (k <= D)%nat -> mu 0 k = h * mom k.
  Proof. intros H. rewrite <- M by auto. apply rsum_ext. intros. unfold LP. cbn. ring. Qed.
  Lemma mu_1 k : (S k <= D)%nat -> mu 1 k = h * mom (S k).
  Proof. intros H. rewrite <- M by auto. apply rsum_ext. intros. unfold LP. cbn. ring. Qed.

  Let A l k := (INR k + INR l + 2) * mu (S l) k = INR k * mu l (Nat.pred k).
  Let B l k := (INR k + 1) * mu (S l) k = (INR k + 1 - INR l) * mu l (S k).

  Lemma mu_AB l : forall k, (k + S l <= D)%nat -> A l k /\ B l k.
  Proof.
    induction l as [l IH] using lt_wf_ind. destruct l as [|l]; intros k Hk.
    - unfold A, B. rewrite !mu_1, !mu_0 by lia. split; [|cbn [INR]; ring].
      destruct k as [|k].
      + unfold mom. cbn [INR pow Nat.pred]. field.
      + cbn [Nat.pred]. unfold mom. cbn [pow]. rewrite !S_INR. change (INR 0) with 0.
        pose proof (pos_INR k). field. split; lra.
    - destruct (IH l ltac:(lia) (S k) ltac:(lia)) as (A1 & _). unfold A in A1. cbn [Nat.pred] in A1. rewrite S_INR in A1.
      pose proof (mu_rec l k) as Rc. rewrite plus_INR in Rc. cbn [INR] in Rc.
      pose proof (pos_INR k) as Hk0. pose proof (pos_INR l) as Hl0.
      assert (HB : (INR k + 1) * mu (S (S l)) k = (INR k + 1 - INR (S l)) * mu (S l) (S k)).
      { rewrite S_INR. apply (Rmult_eq_reg_l (INR l + 2)); [|lra].
        transitivity ((INR k + 1) * ((INR l + (1 + 1)) * mu (S (S l)) k)); [ring|]. rewrite Rc.
        transitivity ((2 * INR l + 3) * (INR k + 1) * mu (S l) (S k) - (INR l + 1) * ((INR k + 1) * mu l k)); [ring|].
        rewrite <- A1. ring. }
      split; [|exact HB]. unfold A. rewrite S_INR.
      apply (Rmult_eq_reg_l (INR k + 1)); [|lra].
      transitivity ((INR k + INR l + 3) * ((INR k + 1) * mu (S (S l)) k)); [ring|]. rewrite HB, S_INR.
      transitivity ((INR k - INR l) * ((INR k + 1 + INR l + 2) * mu (S l) (S k))); [ring|]. rewrite A1.
      destruct k as [|k].
      + cbn [INR Nat.pred]. destruct l as [|l]; [cbn [INR]; ring|].
        destruct (IH l ltac:(lia) 0%nat ltac:(lia)) as (A2 & _). unfold A in A2. cbn [INR Nat.pred] in A2.
        assert (mu (S l) 0 = 0) as ->; [|ring].
        assert (E : (0 + INR l + 2) * mu (S l) 0 = 0) by (rewrite A2; ring).
        pose proof (pos_INR l). apply Rmult_integral in E. destruct E; [lra|auto].
      + cbn [Nat.pred]. destruct (IH l ltac:(lia) k ltac:(lia)) as (_ & B2). unfold B in B2. rewrite S_INR in *.
        transitivity ((INR k + 1 + 1) * ((INR k + 1 - INR l) * mu l (S k))); [ring|]. rewrite <- B2. ring.
  Qed.

  Lemma mu_zero l : forall k, (k < l)%nat -> (k + l <= D)%nat -> mu l k = 0.
  Proof.
    induction l as [|l IH]; intros k Hk HD; [lia|].
    destruct (mu_AB (l := l) (k := k) HD) as (E & _). unfold A in E.
    assert (Z : INR k * mu l (Nat.pred k) = 0).
    { destruct k as [|k]; [cbn [INR]; ring|]. cbn [Nat.pred]. rewrite IH by lia. ring. }
    rewrite Z in E. pose proof (pos_INR k). pose proof (pos_INR l).
    apply Rmult_integral in E. destruct E; [lra|auto].
  Qed.

  Definition ip (f g : R -> R) : R := rsum n (fun i => q i * f (y i) * g (y i)).
  Lemma ip_poly_zero l d g : (d < l)%nat -> (d + l <= D)%nat -> poly d g -> ip (LP l) g = 0.
  Proof.
    intros Hd HD (c & E). unfold ip.
    rewrite (@rsum_ext n _ (fun i => rsum (S d) (fun k => c k * (q i * (y i ^ k * LP l (y i)))))).
    - rewrite rsum_swap. apply (rsum_zero (n := S d)). intros k Hk. rewrite rsum_scal. fold (mu l k).
      rewrite mu_zero by lia. ring.
    - intros i Hi. rewrite E, <- rsum_scal. apply rsum_ext. intros. ring.
  Qed.
  Lemma ip_comm f g : ip f g = ip g f.
  Proof. apply rsum_ext. intros. ring. Qed.
  Lemma ip_orth l k : l <> k -> (l + k <= D)%nat -> ip (LP l) (LP k) = 0.
  Proof.
    intros Ne HD. destruct (Nat.lt_ge_cases k l).
    - apply (@ip_poly_zero l k); [lia|lia|apply LP_poly].
    - rewrite ip_comm. apply (@ip_poly_zero k l); [lia|lia|apply LP_poly].
  Qed.
  Lemma ip_norm l : (2 * l <= D)%nat -> (2 * INR l + 1) * ip (LP l) (LP l) = 2 * h.
  Proof.
    induction l as [|l IH]; intros HD.
    - transitivity (mu 0 0).
      + cbn [INR]. unfold mu, ip. rewrite Rmult_0_r, Rplus_0_l, Rmult_1_l. apply rsum_ext. intros. unfold LP. cbn. ring.
      + rewrite mu_0 by lia. unfold mom. cbn [pow INR]. field.
    - rewrite <- IH by lia. rewrite S_INR. pose proof (pos_INR l) as Hl.
      set (X := rsum n (fun i => q i * y i * LP l (y i) * LP (S l) (y i))).
      assert (E1 : (INR l + 1) * ip (LP (S l)) (LP (S l)) = (2 * INR l + 1) * X).
      { destruct l as [|l].
        - cbn [INR]. unfold ip, X. rewrite <- !rsum_scal. apply rsum_ext. intros. unfold LP. cbn. ring.
        - assert (O : ip (LP (S (S l))) (LP l) = 0) by (apply ip_orth; lia).
          transitivity (INR (l + 2) * ip (LP (S (S l))) (LP (S (S l))) + (INR l + 1) * ip (LP (S (S l))) (LP l)).
          + rewrite O, S_INR, plus_INR. cbn [INR]. ring.
          + rewrite S_INR. unfold ip, X. rewrite <- !rsum_scal, <- rsum_plus. apply rsum_ext. intros i Hi.
            transitivity (q i * LP (S (S l)) (y i) * (INR (l + 2) * LP (S (S l)) (y i)) + (INR l + 1) * (q i * LP (S (S l)) (y i) * LP l (y i))); [ring|].
            rewrite LP_SS. ring. }
      assert (E2 : (2 * INR l + 3) * X = (INR l + 1) * ip (LP l) (LP l)).
      { assert (O : ip (LP (S (S l))) (LP l) = 0) by (apply ip_orth; lia).
        transitivity (INR (l + 2) * ip (LP (S (S l))) (LP l) + (INR l + 1) * ip (LP l) (LP l)); [|rewrite O; ring].
        unfold ip, X. rewrite <- !rsum_scal, <- rsum_plus. apply rsum_ext. intros i Hi.
        transitivity (q i * LP l (y i) * (INR (l + 2) * LP (S (S l)) (y i)) + (INR l + 1) * (q i * LP l (y i) * LP l (y i))); [|ring].
        rewrite LP_SS. ring. }
      apply (Rmult_eq_reg_l (INR l + 1)); [|lra].
      transitivity ((2 * INR l + 3) * ((INR l + 1) * ip (LP (S l)) (LP (S l)))); [ring|]. rewrite E1.
      transitivity ((2 * INR l + 1) * ((2 * INR l + 3) * X)); [ring|]. rewrite E2. ring.
  Qed.
End Rule.

(** ** The constructors *)
Lemma points_ok p : (op_size p <= length (op_x p))%nat ->
  points p = Ok (map (fun i => scaled p (nth i (op_x p) 0)) (seq 0 (op_size p))).
Proof.
  intros H. unfold points. apply mapM_seq. intros j Hj. rewrite (@rd_nth _ (op_x p) j 0) by lia. reflexivity.
Qed.
Lemma weights_ok p f ys : (op_size p <= length (op_qw p))%nat -> length ys = op_size p ->
  weights p f ys = Ok (map (fun i => nth i (op_qw p) 0 * f (nth i ys 0)) (seq 0 (op_size p))).
Proof.
  intros H L. unfold weights. apply mapM_seq. intros j Hj. rewrite (@rd_nth _ (op_qw p) j 0), (@rd_nth _ ys j 0) by lia. reflexivity.
Qed.

Definition ypt (p : oparams) (i : nat) : R := scaled p (nth i (op_x p) 0).

Lemma on_points_col f order (g : nat -> R) n l i : (l <= order)%nat -> (i < n)%nat ->
  col (on_points f order (map g (seq 0 n))) l i = f l (g i).
Proof.
  intros Hl Hi. unfold col, on_points. rewrite nth_map_seq by lia.
  rewrite map_map. rewrite nth_map_seq by auto. reflexivity.
Qed.
Lemma on_points_shape f order (g : nat -> R) n :
  length (on_points f order (map g (seq 0 n))) = S order /\
  forall c, In c (on_points f order (map g (seq 0 n))) -> length c = n.
Proof.
  unfold on_points. split; [rewrite map_length, seq_length; auto|].
  intros c Hc. apply in_map_iff in Hc. destruct Hc as (l & <- & _). rewrite !map_length, seq_length. auto.
Qed.

(** CLP on an exact rule: orthogonal, but normalised for an interval of length 2. *)
Lemma CLP_ok p : sized p ->
  exact_rule (op_size p) (op_x p) (op_qw p) (op_lower p) (op_upper p) (2 * op_order p) ->
  exists b, CLP p = Ok b /\ shaped b /\ ob_order b = op_order p /\ ob_size b = op_size p /\
    orthogonal (ob_size b) (S (ob_order b)) (wgt (ob_w b)) (col (ob_basis b)) /\
    exists a, ob_a b = Some a /\ length a = S (ob_order b) /\
      forall l, (l <= ob_order b)%nat ->
        at_ a l * bdot b (col (ob_basis b) l) (col (ob_basis b) l) = (op_upper p - op_lower p) / 2.
Proof.
  intros (H1 & H2 & H3) Ex. unfold CLP. rewrite points_ok by auto. cbn [bind].
  rewrite weights_ok by (auto; rewrite map_length, seq_length; auto). cbn [bind].
  set (n := op_size p) in *. set (K := op_order p) in *. set (h := (op_upper p - op_lower p) / 2).
  assert (Hh : 0 < h) by (unfold h; lra).
  eexists. split; [reflexivity|].
  set (w := map (fun i => nth i (op_qw p) 0 * _) (seq 0 n)).
  set (cols := on_points LP K _).
  assert (M : forall k, (k <= 2 * K)%nat -> rsum n (fun i => nth i (op_qw p) 0 * ypt p i ^ k) = h * mom k).
  { intros k Hk. apply exact_moments with (D := (2 * K)%nat); auto. }
  assert (Wd : forall l k, (l <= K)%nat -> (k <= K)%nat ->
    wdot n (wgt (Some w)) (col cols l) (col cols k) = ip n (fun i => nth i (op_qw p) 0) (ypt p) (LP l) (LP k)).
  { intros l k Hl Hk. unfold wdot, ip. apply rsum_ext. intros i Hi. unfold wgt, w, cols.
    rewrite nth_map_seq by auto. rewrite !on_points_col by auto. unfold ypt. ring. }
  assert (Nm : forall l, (l <= K)%nat -> (2 * INR l + 1) * wdot n (wgt (Some w)) (col cols l) (col cols l) = 2 * h).
  { intros l Hl. rewrite Wd by auto. apply (ip_norm M). lia. }
  cbn [ob_order ob_size ob_w ob_basis ob_a].
  destruct (on_points_shape LP K (fun i => scaled p (nth i (op_x p) 0)) n) as (S1 & S2).
  split; [split; [exact S1|split; [exact S2|]]|].
  { cbn. intros w' E. injection E as <-. unfold w. rewrite map_length, seq_length. auto. }
  split; [reflexivity|]. split; [reflexivity|]. split.
  - split.
    + intros l k Hl Hk Ne. rewrite Wd by lia. apply (ip_orth M); auto. lia.
    + intros l Hl. specialize (Nm l ltac:(lia)). pose proof (pos_INR l).
      apply (Rmult_lt_reg_l (2 * INR l + 1)); [lra|]. rewrite Nm. lra.
  - eexists. split; [reflexivity|]. split; [rewrite map_length, seq_length; auto|].
    intros l Hl. unfold at_. rewrite nth_map_seq by lia. unfold bdot. cbn [ob_size ob_w].
    specialize (Nm l Hl). transitivity (/ 2 * ((2 * INR l + 1) * wdot n (wgt (Some w)) (col cols l) (col cols l))); [unfold Rdiv; ring|].
    rewrite Nm. field.
Qed.

(** transform after inverse multiplies by half the length of the interval. *)
Lemma CLP_factor p : sized p ->
  exact_rule (op_size p) (op_x p) (op_qw p) (op_lower p) (op_upper p) (2 * op_order p) ->
  exists b, CLP p = Ok b /\ forall c f0 c0, length c = S (op_order p) -> length c0 = S (op_order p) -> length f0 = op_size p ->
    exists f, inverse b c f0 = Ok f /\
      transform b f c0 = Ok (vec (S (op_order p)) (fun l => (op_upper p - op_lower p) / 2 * at_ c l)).
Proof.
  intros Hs Ex. destruct (CLP_ok Hs Ex) as (b & E & Sh & Eo & Es & O & a & Ea & La & Ha).
  exists b. split; [exact E|]. rewrite <- Eo, <- Es in *. intros c f0 c0 Lc Lc0 Lf0.
  rewrite (inverse_ok Sh Ea La Lc Lf0). eexists. split; [reflexivity|].
  rewrite transform_ok by (auto; rewrite vec_length; auto). f_equal. apply vec_ext. intros l Hl.
  unfold bdot. rewrite (@wdot_ext _ _ _ (combo (S (ob_order b)) (fun l => at_ c l * at_ a l) (col (ob_basis b))) _ (col (ob_basis b) l));
    auto; [|intros; unfold at_; rewrite vec_nth; auto].
  rewrite wdot_combo_orth by auto. rewrite Rmult_assoc. fold (bdot b). rewrite Ha by lia. ring.
Qed.

Lemma CLP_normed p : sized p -> op_upper p - op_lower p = 2 ->
  exact_rule (op_size p) (op_x p) (op_qw p) (op_lower p) (op_upper p) (2 * op_order p) ->
  exists b, CLP p = Ok b /\ ob_order b = op_order p /\ ob_size b = op_size p /\ normed b.
Proof.
  intros Hs L2 Ex. destruct (CLP_ok Hs Ex) as (b & E & Sh & Eo & Es & O & a & Ea & La & Ha).
  exists b. split; [exact E|]. split; [exact Eo|]. split; [exact Es|]. split; [exact Sh|]. split; [exact O|].
  exists a. split; [exact Ea|]. split; [exact La|]. intros l Hl. rewrite Ha by auto. rewrite L2. field.
Qed.

(** ** Chebyshev polynomials of the second kind *)

Lemma sin_rec k th : sin ((INR k + 3) * th) = 2 * cos th * sin ((INR k + 2) * th) - sin ((INR k + 1) * th).
Proof.
  replace ((INR k + 3) * th) with ((INR k + 2) * th + th) by ring.
  replace ((INR k + 1) * th) with ((INR k + 2) * th - th) by ring.
  rewrite sin_plus, sin_minus. ring.
Qed.
Lemma cheby_low_rec l x : (l + 2 <= 8)%nat -> cheby_low (l + 2) x = 2 * x * cheby_low (l + 1) x - cheby_low l x.
Proof.
  intros H. do 7 (destruct l as [|l]; [cbn; ring|]). lia.
Qed.
Lemma cheby_low_ok l th : (l <= 8)%nat -> cheb_value l (cheby_low l (cos th)) th.
Proof.
  assert (G : forall l, (l + 1 <= 8)%nat -> cheb_value l (cheby_low l (cos th)) th /\ cheb_value (l + 1) (cheby_low (l + 1) (cos th)) th).
  { clear l. induction l as [|l IH]; intros H.
    - unfold cheb_value. cbn [cheby_low Nat.add INR]. split.
      + rewrite Rplus_0_l, !Rmult_1_l. reflexivity.
      + replace ((1 + 1) * th) with (2 * th) by ring. rewrite sin_2a. ring.
    - destruct IH as (A & B); [lia|]. replace (S l) with (l + 1)%nat by lia. split; auto.
      replace (l + 1 + 1)%nat with (l + 2)%nat by lia. unfold cheb_value in *.
      rewrite cheby_low_rec by lia. rewrite !plus_INR in *. cbn [INR] in *.
      replace (INR l + (1 + 1) + 1) with (INR l + 3) by ring. rewrite sin_rec.
      replace ((INR l + 2) * th) with ((INR l + 1 + 1) * th) by ring. rewrite <- A, <- B. ring. }
  intros H. destruct l as [|l]; [apply (G 0%nat); lia|].
  replace (S l) with (l + 1)%nat by lia. apply (G l). lia.
Qed.
Lemma cheby_u_ok l th : (l <= 8)%nat -> cheb_value l (cheby_u l (cos th)) th.
Proof. intros H. unfold cheby_u. rewrite (proj2 (Nat.leb_le _ _) H). apply cheby_low_ok; auto. Qed.

Lemma cheby_high_0 k : cheby_high k 0 = (INR k, INR k + 1).
Proof.
  induction k as [|k IH].
  - cbn. f_equal; ring.
  - cbn [cheby_high]. rewrite IH, S_INR. f_equal. ring.
Qed.
Lemma cheby_u_wrong_mid l : (8 < l)%nat -> ~ cheb_value l (cheby_u l (cos (PI / 2))) (PI / 2).
Proof.
  intros H. unfold cheb_value, cheby_u. rewrite (proj2 (Nat.leb_gt _ _) H).
  rewrite cos_PI2, cheby_high_0, sin_PI2. cbn [snd]. intros E.
  assert (1 <= INR (l - 8)) by (assert (G : (1 <= l - 8)%nat) by lia; apply le_INR in G; simpl in G; lra).
  pose proof (SIN_bound ((INR l + 1) * (PI / 2))). lra.
Qed.
