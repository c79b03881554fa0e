(** * Proofs about spherical harmonics and the moment to discrete operator *)
From Coq Require Import QArith Qreals Qabs Lra.
From Verif Require Import Base BaseR Util_Model Angle_Model Angle_Spec Angle_Proofs Harm_Model Harm_Spec.
Set Implicit Arguments.
Unset Strict Implicit.
Open Scope R_scope.

Definition valid (l : nat) (m : Z) : Prop := (l <= 3)%nat /\ (- Z.of_nat l <= m <= Z.of_nat l)%Z.
Ltac each_lm l m H :=
  let H1 := fresh in let H2 := fresh in destruct H as [H1 H2];
  destruct l as [|[|[|[|l]]]]; [| | | |exfalso; lia];
  [ assert (m = 0)%Z by lia
  | assert (m = -1 \/ m = 0 \/ m = 1)%Z as [|[|]] by lia
  | assert (m = -2 \/ m = -1 \/ m = 0 \/ m = 1 \/ m = 2)%Z as [|[|[|[|]]]] by lia
  | assert (m = -3 \/ m = -2 \/ m = -1 \/ m = 0 \/ m = 1 \/ m = 2 \/ m = 3)%Z as [|[|[|[|[|[|]]]]]] by lia ]; subst m.

(** The table as polynomials in the cosines. *)
Definition mono := (nat * nat * nat)%type.
Definition poly := list (Q * mono).
Definition ypoly (l : nat) (m : Z) : poly :=
  match l, m with
  | 0%nat, _ => [(1%Q, (0, 0, 0)%nat)]
  | 1%nat, Zneg 1 => [(1%Q, (0, 1, 0)%nat)]
  | 1%nat, Z0 => [(1%Q, (0, 0, 1)%nat)]
  | 1%nat, _ => [(1%Q, (1, 0, 0)%nat)]
  | 2%nat, Zneg 2 => [((1.732050807568877)%Q, (1, 1, 0)%nat)]
  | 2%nat, Zneg _ => [((1.732050807568877)%Q, (0, 1, 1)%nat)]
  | 2%nat, Z0 => [((1.5)%Q, (0, 0, 2)%nat); ((-0.5)%Q, (0, 0, 0)%nat)]
  | 2%nat, Zpos 1 => [((1.732050807568877)%Q, (1, 0, 1)%nat)]
  | 2%nat, _ => [((0.8660254037844385)%Q, (2, 0, 0)%nat); ((-0.8660254037844385)%Q, (0, 2, 0)%nat)]
  | _, Zneg 3 => [((3 * 0.7905694150420948)%Q, (2, 1, 0)%nat); ((-0.7905694150420948)%Q, (0, 3, 0)%nat)]
  | _, Zneg 2 => [((3.872983346207417)%Q, (1, 1, 1)%nat)]
  | _, Zneg _ => [((5 * 0.6123724356957945)%Q, (0, 1, 2)%nat); ((-0.6123724356957945)%Q, (0, 1, 0)%nat)]
  | _, Z0 => [((2.5)%Q, (0, 0, 3)%nat); ((-1.5)%Q, (0, 0, 1)%nat)]
  | _, Zpos 1 => [((5 * 0.6123724356957945)%Q, (1, 0, 2)%nat); ((-0.6123724356957945)%Q, (1, 0, 0)%nat)]
  | _, Zpos 2 => [((1.936491673103708)%Q, (2, 0, 1)%nat); ((-1.936491673103708)%Q, (0, 2, 1)%nat)]
  | _, _ => [((0.7905694150420948)%Q, (3, 0, 0)%nat); ((-3 * 0.7905694150420948)%Q, (1, 2, 0)%nat)]
  end.
Definition mval (e : mono) (x y z : R) : R := let '(a, b, c) := e in x ^ a * y ^ b * z ^ c.
Definition peval (p : poly) (x y z : R) : R := sumR (map (fun t => Q2R (fst t) * mval (snd t) x y z) p).
Lemma ypoly_ok l m x y z : valid l m -> get_Y l m x y z = Ok (peval (ypoly l m) x y z).
Proof.
  intros V. each_lm l m V; unfold get_Y; cbn [Z.eqb Pos.eqb]; f_equal; unfold lit, Q2R; cbn -[Rmult Rplus Rinv IZR pow];
  cbn [pow]; unfold Q2R; cbn -[Rmult Rplus Rinv IZR]; lra || field.
Qed.

(** ** Parity, the polar form, the azimuthal dependence *)
Lemma harm_parity l m x y z v : valid l m -> Y_cosines l m x y z = Ok v ->
  Y_cosines l m (- x) (- y) (- z) = Ok ((-1) ^ l * v).
Proof.
  unfold Y_cosines. intros V. rewrite !ypoly_ok by auto. intros [= <-]. f_equal.
  each_lm l m V; cbn -[Rmult Rplus Rinv IZR Q2R]; ring.
Qed.
Lemma harm_total l m x y z : valid l m -> exists v, Y_cosines l m x y z = Ok v.
Proof. intros V. unfold Y_cosines. rewrite ypoly_ok by auto. eauto. Qed.
Lemma harm_high l m x y z : (3 < l)%nat -> Y_cosines l m x y z = Err.
Proof. intros H. destruct l as [|[|[|[|l]]]]; try lia. reflexivity. Qed.
Lemma harm_polar l x : (l <= 3)%nat -> Y_polar l x = Ok (legendre l x) /\ forall y z, Y_cosines l 0 y z x = Ok (legendre l x).
Proof.
  intros H. split; [|intros y z]; unfold Y_polar, Y_cosines; (rewrite ypoly_ok by (split; lia)); f_equal;
  destruct l as [|[|[|[|l]]]]; try lia; cbn -[Rmult Rplus Rinv IZR INR]; unfold Q2R; cbn -[Rmult Rplus Rinv IZR];
  cbn [INR]; field.
Qed.
Lemma harm_azimuth l m : (l <= 3)%nat -> (0 <= m <= Z.of_nat l)%Z -> exists c c' : R -> R,
  forall xi phi, -1 <= xi <= 1 ->
  Y_angles l m xi phi = Ok (c xi * cos (IZR m * phi)) /\
  (m <> 0%Z -> Y_angles l (- m) xi phi = Ok (c' xi * sin (IZR m * phi))) /\
  Rabs (c xi - c' xi) <= / 10 ^ 14.
Proof.
  intros Hl Hm.
  assert (C2 : forall t, cos (2 * t) = cos t * cos t - sin t * sin t) by (intros; rewrite cos_2a; ring).
  assert (S2 : forall t, sin (2 * t) = 2 * sin t * cos t) by (intros; rewrite sin_2a; ring).
  assert (C3 : forall t, cos (3 * t) = cos t * (cos t * cos t - 3 * (sin t * sin t))).
  { intros t. replace (3 * t) with (2 * t + t) by ring. rewrite cos_plus, C2, S2. ring. }
  assert (S3 : forall t, sin (3 * t) = sin t * (3 * (cos t * cos t) - sin t * sin t)).
  { intros t. replace (3 * t) with (2 * t + t) by ring. rewrite sin_plus, C2, S2. ring. }
  exists (fun xi => let s := sqrt (1 - xi * xi) in
    match l, m with
    | 0%nat, _ => 1
    | 1%nat, Z0 => xi | 1%nat, _ => s
    | 2%nat, Z0 => lit 1.5 * xi * xi - lit 0.5
    | 2%nat, Zpos 1 => lit 1.732050807568877 * xi * s
    | 2%nat, _ => lit 0.8660254037844385 * s * s
    | _, Z0 => lit 2.5 * xi * xi * xi - lit 1.5 * xi
    | _, Zpos 1 => lit 0.6123724356957945 * s * (5 * xi * xi - 1)
    | _, Zpos 2 => lit 1.936491673103708 * xi * s * s
    | _, _ => lit 0.7905694150420948 * s * s * s
    end),
  (fun xi => let s := sqrt (1 - xi * xi) in
    match l, m with
    | 0%nat, _ => 1
    | 1%nat, Z0 => xi | 1%nat, _ => s
    | 2%nat, Z0 => lit 1.5 * xi * xi - lit 0.5
    | 2%nat, Zpos 1 => lit 1.732050807568877 * xi * s
    | 2%nat, _ => lit 0.8660254037844385 * s * s
    | _, Z0 => lit 2.5 * xi * xi * xi - lit 1.5 * xi
    | _, Zpos 1 => lit 0.6123724356957945 * s * (5 * xi * xi - 1)
    | _, Zpos 2 => lit 3.872983346207417 / 2 * xi * s * s
    | _, _ => lit 0.7905694150420948 * s * s * s
    end).
  intros xi phi Hx. cbv zeta. set (s := sqrt (1 - xi * xi)).
  assert (C0 : cos (0 * phi) = 1) by (rewrite Rmult_0_l; apply cos_0).
  destruct l as [|[|[|[|l]]]]; try lia;
  [ assert (m = 0)%Z by lia
  | assert (m = 0 \/ m = 1)%Z as [|] by lia
  | assert (m = 0 \/ m = 1 \/ m = 2)%Z as [|[|]] by lia
  | assert (m = 0 \/ m = 1 \/ m = 2 \/ m = 3)%Z as [|[|[|]]] by lia ]; subst m;
  (split; [|split; [intros NZ; try (exfalso; lia)|]]);
  try (match goal with |- Rabs ?e <= _ => replace e with 0 by ring; rewrite Rabs_R0; left; apply Rinv_0_lt_compat, pow_lt; lra end);
  try (unfold Y_angles, get_Y; cbn [Z.opp Z.eqb Pos.eqb]; fold s; f_equal;
  rewrite ?C0, ?Rmult_1_l, ?C2, ?S2, ?C3, ?S3; unfold lit, Q2R; cbn [Qnum Qden]; field).
  replace (lit 1.936491673103708 * xi * s * s - lit 3.872983346207417 / 2 * xi * s * s)
    with ((lit 1.936491673103708 - lit 3.872983346207417 / 2) * (xi * (s * s))) by ring.
  assert (SS : s * s = 1 - xi * xi) by (apply sqrt_sqrt; nra).
  rewrite Rabs_mult. rewrite SS.
  assert (Rabs (xi * (1 - xi * xi)) <= 1) by (apply Rabs_le; split; nra).
  assert (Rabs (lit 1.936491673103708 - lit 3.872983346207417 / 2) <= / 10 ^ 14).
  { apply Rabs_le. unfold lit, Q2R; cbn [Qnum Qden]. lra. }
  pose proof (Rabs_pos (xi * (1 - xi * xi))).
  pose proof (Rabs_pos (lit 1.936491673103708 - lit 3.872983346207417 / 2)). nra.
Qed.

(** ** The addition theorem *)
Definition hsum (l : nat) (x y z x' y' z' : R) : R :=
  sumR (map (fun m => num (Y_cosines l m x y z) * num (Y_cosines l m x' y' z')) (m_range l)).
Lemma b_mul a b A B : Rabs a <= A -> Rabs b <= B -> Rabs (a * b) <= A * B.
Proof. intros Ha Hb. rewrite Rabs_mult. apply Rmult_le_compat; auto using Rabs_pos. Qed.
Lemma b_add a b A B : Rabs a <= A -> Rabs b <= B -> Rabs (a + b) <= A + B.
Proof. intros Ha Hb. eapply Rle_trans; [apply Rabs_triang|lra]. Qed.
Lemma b_sub a b A B : Rabs a <= A -> Rabs b <= B -> Rabs (a - b) <= A + B.
Proof. intros Ha Hb. apply b_add; auto. rewrite Rabs_Ropp; auto. Qed.
Lemma b_const c A : -A <= c <= A -> Rabs c <= A.
Proof. intros; apply Rabs_le; lra. Qed.
Lemma sphere_one x y z : on_sphere x y z -> Rabs x <= 1 /\ Rabs y <= 1 /\ Rabs z <= 1.
Proof. unfold on_sphere. intros H. repeat split; apply Rabs_le; split; nra. Qed.
Ltac bnd := repeat first [eassumption | eapply b_sub | eapply b_add | eapply b_mul].
Lemma harm_addition l x y z x' y' z' : (l <= 3)%nat -> on_sphere x y z -> on_sphere x' y' z' ->
  Rabs (hsum l x y z x' y' z' - legendre l (x * x' + y * y' + z * z')) <= / 10 ^ 13.
Proof.
  intros Hl U U'. pose proof (sphere_one U) as (Bx & By & Bz). pose proof (sphere_one U') as (Bx' & By' & Bz').
  assert (T13 : 0 < / 10 ^ 13) by (apply Rinv_0_lt_compat, pow_lt; lra).
  destruct l as [|[|[|[|l]]]]; try lia; unfold hsum, legendre; cbn [m_range map seq Nat.mul Nat.add sumR fold_right];
  unfold Y_cosines; cbn [get_Y Z.sub Z.of_nat Pos.of_succ_nat Pos.succ Z.add Z.opp Z.pos_sub Pos.pred_double Z.eqb Pos.eqb num leg_pair fst snd INR];
  cbn -[Rmult Rplus Rminus Rinv Rdiv IZR Rabs lit pow INR].
  - replace (1 * 1 + 0 - 1) with 0 by ring. rewrite Rabs_R0. lra.
  - match goal with |- Rabs ?e <= _ => replace e with 0 by ring end. rewrite Rabs_R0. lra.
  - set (c := lit 1.732050807568877). set (d := lit 0.8660254037844385).
    assert (E1 : Rabs (c * c - 3) <= / 10 ^ 14).
    { apply b_const. unfold c, lit, Q2R; cbn [Qnum Qden]; split; lra. }
    assert (E2 : Rabs (d * d - 3 / 4) <= / 10 ^ 14).
    { apply b_const. unfold d, lit, Q2R; cbn [Qnum Qden]; split; lra. }
    match goal with |- Rabs ?e <= _ =>
      replace e with ((c * c - 3) * ((x * y) * (x' * y') + (z * y) * (z' * y') + (z * x) * (z' * x')) +
                      (d * d - 3 / 4) * ((x * x - y * y) * (x' * x' - y' * y'))) end.
    + eapply Rle_trans; [bnd|]. lra.
    + assert (F : lit 1.5 * z * z - lit 0.5 = 3 / 2 * z * z - 1 / 2 * (x * x + y * y + z * z)).
      { rewrite U. unfold lit, Q2R; cbn [Qnum Qden]. lra. }
      assert (F' : lit 1.5 * z' * z' - lit 0.5 = 3 / 2 * z' * z' - 1 / 2 * (x' * x' + y' * y' + z' * z')).
      { rewrite U'. unfold lit, Q2R; cbn [Qnum Qden]. lra. }
      rewrite F, F'. cbn [INR].
      transitivity (c * x * y * (c * x' * y') + c * z * y * (c * z' * y') + (3 / 2 * z * z - 1 / 2 * (x * x + y * y + z * z)) * (3 / 2 * z' * z' - 1 / 2 * (x' * x' + y' * y' + z' * z')) + c * z * x * (c * z' * x') + d * (x * x - y * y) * (d * (x' * x' - y' * y')) - (3 / 2 * (x * x' + y * y' + z * z') * (x * x' + y * y' + z * z') - 1 / 2 * (x * x + y * y + z * z) * (x' * x' + y' * y' + z' * z'))).
      * field.
      * rewrite U, U'. field.
  - set (a := lit 0.7905694150420948). set (b := lit 3.872983346207417). set (c := lit 0.6123724356957945).
    set (d := lit 1.936491673103708).
    assert (E1 : Rabs (a * a - 5 / 8) <= / 10 ^ 16) by (apply b_const; unfold a, lit, Q2R; cbn [Qnum Qden]; split; lra).
    assert (E2 : Rabs (b * b - 15) <= / 10 ^ 14) by (apply b_const; unfold b, lit, Q2R; cbn [Qnum Qden]; split; lra).
    assert (E3 : Rabs (c * c - 3 / 8) <= / 10 ^ 16) by (apply b_const; unfold c, lit, Q2R; cbn [Qnum Qden]; split; lra).
    assert (E4 : Rabs (d * d - 15 / 4) <= / 10 ^ 14) by (apply b_const; unfold d, lit, Q2R; cbn [Qnum Qden]; split; lra).
    set (A := y * (3 * x * x - y * y) * (y' * (3 * x' * x' - y' * y')) + x * (x * x - 3 * y * y) * (x' * (x' * x' - 3 * y' * y'))).
    set (B := z * x * y * (z' * x' * y')).
    set (C := (y * y' + x * x') * ((5 * z * z - 1) * (5 * z' * z' - 1))).
    set (D := z * (x * x - y * y) * (z' * (x' * x' - y' * y'))).
    assert (K1 : Rabs 1 <= 1) by (apply b_const; lra). assert (K3 : Rabs 3 <= 3) by (apply b_const; lra).
    assert (K5 : Rabs 5 <= 5) by (apply b_const; lra).
    match goal with |- Rabs ?e <= _ =>
      replace e with ((a * a - 5 / 8) * A + (b * b - 15) * B + (c * c - 3 / 8) * C + (d * d - 15 / 4) * D) end.
    + unfold A, B, C, D. eapply Rle_trans; [bnd|]. lra.
    + assert (F : lit 2.5 * z * z * z - lit 1.5 * z = 5 / 2 * z * z * z - 3 / 2 * z * (x * x + y * y + z * z)).
      { rewrite U. unfold lit, Q2R; cbn [Qnum Qden]. lra. }
      assert (F' : lit 2.5 * z' * z' * z' - lit 1.5 * z' = 5 / 2 * z' * z' * z' - 3 / 2 * z' * (x' * x' + y' * y' + z' * z')).
      { rewrite U'. unfold lit, Q2R; cbn [Qnum Qden]. lra. }
      rewrite F, F'. cbn [INR].
      set (n := x * x + y * y + z * z) in *. set (n' := x' * x' + y' * y' + z' * z') in *. set (t := x * x' + y * y' + z * z').
      change (n = 1) in U. change (n' = 1) in U'.
      assert (L3 : ((2 * (1 + 1 - 1) + 3) * t * (((2 * 0 + 3) * t * t - (0 + 1) * 1) / (0 + 2)) - (1 + 1) * t) / (1 + 2) =
                   5 / 2 * t * t * t - 3 / 2 * t * n * n') by (rewrite U, U'; field).
      assert (G1 : 5 * z * z - 1 = 5 * z * z - n) by (rewrite U; ring).
      assert (G1' : 5 * z' * z' - 1 = 5 * z' * z' - n') by (rewrite U'; ring).
      unfold C. rewrite G1, G1'.
      transitivity (a * y * (3 * x * x - y * y) * (a * y' * (3 * x' * x' - y' * y')) + b * z * x * y * (b * z' * x' * y') + c * y * (5 * z * z - n) * (c * y' * (5 * z' * z' - n')) + (5 / 2 * z * z * z - 3 / 2 * z * n) * (5 / 2 * z' * z' * z' - 3 / 2 * z' * n') + c * x * (5 * z * z - n) * (c * x' * (5 * z' * z' - n')) + d * z * (x * x - y * y) * (d * z' * (x' * x' - y' * y')) + a * x * (x * x - 3 * y * y) * (a * x' * (x' * x' - 3 * y' * y')) - (5 / 2 * t * t * t - 3 / 2 * t * n * n')).
      * unfold A, B, D, n, n', t. field.
      * replace (5 / 2 * t * t * t - 3 / 2 * t * n * n') with (5 / 2 * t * t * t - 3 / 2 * t) by (rewrite U, U'; ring). field.
Qed.

(** ** Writing a table *)
Lemma foldM_table A I (d : A) (idx : I -> nat) (f : I -> res A) (val : nat -> A) l : forall M,
  (forall i, In i l -> (idx i < length M)%nat /\ f i = Ok (val (idx i))) ->
  exists M', foldM (fun M i => do r <- f i; wr M (idx i) r) l M = Ok M' /\ length M' = length M /\
  forall k, (In k (map idx l) -> nth k M' d = val k) /\ (~ In k (map idx l) -> nth k M' d = nth k M d).
Proof.
  induction l as [|i l IH]; intros M H.
  - exists M. repeat split; auto. intros [].
  - destruct (H i (or_introl eq_refl)) as [Hi Hf]. cbn [foldM]. rewrite Hf. cbn [bind]. unfold wr at 1.
    rewrite (proj2 (Nat.ltb_lt _ _) Hi). cbn [bind].
    destruct (IH (upd M (idx i) (val (idx i)))) as (M' & E & Hlen & Hk).
    { intros j Hj. rewrite upd_length. apply H. right; auto. }
    exists M'. rewrite E. split; auto. rewrite upd_length in Hlen. split; auto. intros k. destruct (Hk k) as [K1 K2].
    destruct (in_dec Nat.eq_dec k (map idx l)) as [I1|I1].
    + split; intros; [auto|]. exfalso. apply H0. right; auto.
    + split.
      * intros [<-|I2]; [|contradiction]. rewrite K2 by auto. apply nth_upd_eq; auto.
      * intros N. rewrite K2 by auto. apply nth_upd_neq. intros Ek. apply N. left; auto.
Qed.
Lemma foldM_nested A B S (g : S -> A -> B -> res S) bs : forall as_ s,
  foldM (fun s a => foldM (fun s b => g s a b) bs s) as_ s = foldM (fun s ab => g s (fst ab) (snd ab)) (list_prod as_ bs) s.
Proof.
  assert (App : forall (l1 l2 : list (A * B)) s, foldM (fun s ab => g s (fst ab) (snd ab)) (l1 ++ l2) s =
     bind (foldM (fun s ab => g s (fst ab) (snd ab)) l1 s) (fun s => foldM (fun s ab => g s (fst ab) (snd ab)) l2 s)).
  { induction l1 as [|x l1 IH]; intros l2 s; cbn [app foldM bind]; auto. destruct (g s (fst x) (snd x)); cbn [bind]; auto. }
  assert (Map : forall a l s, foldM (fun s ab => g s (fst ab) (snd ab)) (map (fun b => (a, b)) l) s = foldM (fun s b => g s a b) l s).
  { induction l as [|b l IH]; intros s; cbn [map foldM]; auto. cbn [fst snd]. destruct (g s a b); cbn [bind]; auto. }
  induction as_ as [|a as_ IH]; intros s; cbn [list_prod foldM]; auto.
  rewrite App, Map. destruct (foldM (fun s b => g s a b) bs s); cbn [bind]; auto.
Qed.
Lemma foldM_ext2 A S (f g : S -> A -> res S) l : (forall s a, f s a = g s a) -> forall s, foldM f l s = foldM g l s.
Proof. intros H. induction l as [|a l IH]; intros s; cbn [foldM]; auto. rewrite H. destruct (g s a); cbn [bind]; auto. Qed.

(** ** The directions of a quadrature *)
Lemma cosine_ok q axis o a : well_formed q -> (axis < 3)%nat -> (o < q_noct q)%nat -> (a < q_nao q)%nat ->
  cosine q axis o a = Ok (num (cosine q axis o a)).
Proof.
  intros (Hd & Ho & _ & Hs & L0 & L1 & L2 & _) Hx Io Ia.
  assert (o < 8)%nat by (rewrite Ho in Io; destruct Hd as [E0|E0]; rewrite E0 in Io; cbn in Io; lia).
  unfold cosine, rd2, rd. rewrite Hs.
  assert (E : exists c, nth_error (match axis with 0%nat => q_mu q | 1%nat => q_eta q | _ => q_xi q end) a = Some c).
  { destruct axis as [|[|[|]]]; try lia;
    match goal with |- exists c, nth_error ?l a = Some c => destruct (nth_error l a) eqn:E; eauto; apply nth_error_None in E; lia end. }
  destruct E as [c ->].
  do 8 (destruct o as [|o]; [destruct axis as [|[|[|]]]; try lia; reflexivity|]). lia.
Qed.
Lemma cosine_num q axis o a : well_formed q -> (o < q_noct q)%nat -> (a < q_nao q)%nat -> (axis < 3)%nat ->
  num (cosine q axis o a) = IZR (octant_signs o axis) * nth a (nth axis [q_mu q; q_eta q; q_xi q] []) 0.
Proof.
  intros (Hd & Ho & _ & Hs & L0 & L1 & L2 & _) Io Ia Hx.
  assert (o < 8)%nat by (rewrite Ho in Io; destruct Hd as [E0|E0]; rewrite E0 in Io; cbn in Io; lia).
  unfold cosine, rd2, rd. rewrite Hs.
  assert (E : nth_error (match axis with 0%nat => q_mu q | 1%nat => q_eta q | _ => q_xi q end) a =
              Some (nth a (nth axis [q_mu q; q_eta q; q_xi q] []) 0)).
  { destruct axis as [|[|[|]]]; try lia; cbn [nth]; apply nth_error_nth'; lia. }
  rewrite E.
  do 8 (destruct o as [|o]; [destruct axis as [|[|[|]]]; try lia; reflexivity|]). lia.
Qed.
Lemma signs_sq o axis : IZR (octant_signs o axis) * IZR (octant_signs o axis) = 1.
Proof. unfold octant_signs. destruct axis as [|[|]]; destruct (_ || _)%bool || destruct (_ <? _)%nat; lra. Qed.
Lemma dir_unit q o a : well_formed q -> (o < q_noct q)%nat -> (a < q_nao q)%nat ->
  on_sphere (mu_of q o a) (eta_of q o a) (xi_of q o a).
Proof.
  intros W Io Ia. unfold mu_of, eta_of, xi_of. rewrite !cosine_num by (auto; lia). cbn [nth].
  destruct W as (_ & _ & _ & _ & _ & _ & _ & _ & U). specialize (U _ Ia) as [_ U]. unfold on_sphere in *.
  pose proof (signs_sq o 0). pose proof (signs_sq o 1). pose proof (signs_sq o 2).
  set (s := IZR (octant_signs o 0)) in *. set (s' := IZR (octant_signs o 1)) in *. set (s'' := IZR (octant_signs o 2)) in *.
  transitivity ((s * s) * (nth a (q_mu q) 0 * nth a (q_mu q) 0) + (s' * s') * (nth a (q_eta q) 0 * nth a (q_eta q) 0) +
    (s'' * s'') * (nth a (q_xi q) 0 * nth a (q_xi q) 0)); [ring|]. rewrite H, H0, H1, !Rmult_1_l. exact U.
Qed.
Lemma xi_flat q o a : well_formed q -> q_dim q = 2%nat -> (o < q_noct q)%nat -> (a < q_nao q)%nat ->
  sqrt (1 - mu_of q o a * mu_of q o a - eta_of q o a * eta_of q o a) = xi_of q o a.
Proof.
  intros W D Io Ia. pose proof (dir_unit W Io Ia) as U. unfold on_sphere in U.
  assert (E : 0 <= xi_of q o a).
  { unfold xi_of. rewrite cosine_num by (auto; lia). cbn [nth].
    pose proof W as (_ & Ho & _ & _ & _ & _ & _ & _ & P). specialize (P _ Ia) as [P _].
    assert (octant_signs o 2 = 1%Z). { rewrite Ho, D in Io. unfold octant_signs. cbn in Io. rewrite (proj2 (Nat.ltb_lt o 4)); auto. }
    rewrite H. lra. }
  replace (1 - mu_of q o a * mu_of q o a - eta_of q o a * eta_of q o a) with (xi_of q o a * xi_of q o a) by lra.
  apply sqrt_square; auto.
Qed.

(** ** The matrix *)
Definition weight_lm (l : nat) : R := (2 * INR l + 1) * (1 / (4 * PI)).
Definition ynum (l : nat) (m : Z) (x y z : R) : R := num (Y_cosines l m x y z).
Lemma ynum_poly l m x y z : valid l m -> ynum l m x y z = peval (ypoly l m) x y z.
Proof. intros V. unfold ynum, Y_cosines. rewrite ypoly_ok by auto. reflexivity. Qed.
Lemma valid_of dim L l m : (L <= 3)%nat -> valid_lm dim L l m -> valid l m.
Proof. intros HL (A & B & _). split; auto. lia. Qed.
Lemma m2d_ok q L ix : well_formed q -> (L <= 3)%nat -> indexer_new (q_dim q) L = Ok ix ->
  exists M, m2d_build ix q = Ok M /\ length M = q_nang q /\
  forall o a l m, (o < q_noct q)%nat -> (a < q_nao q)%nat -> valid_lm (q_dim q) L l m ->
  m2d_oalm ix q M o a l m = Ok (weight_lm l * ynum l m (mu_of q o a) (eta_of q o a) (xi_of q o a)).
Proof.
  intros W HL HI. pose proof W as (Hd & Ho & Hn & _).
  destruct (@moment_index (q_dim q) L) as (ix' & HI' & Hnm & L1 & L2 & Hi & Hlm); [lia|].
  rewrite HI in HI'. injection HI' as <-.
  set (val := fun k => map (fun i => let l := nth i (mi_l ix) 0%nat in let m := nth i (mi_m ix) 0%Z in
     weight_lm l * ynum l m (mu_of q (k / q_nao q) (k mod q_nao q)) (eta_of q (k / q_nao q) (k mod q_nao q)) (xi_of q (k / q_nao q) (k mod q_nao q)))
     (seq 0 (mi_n ix))).
  assert (Inv : forall o a, (a < q_nao q)%nat -> (Angle_Model.index q o a / q_nao q = o /\ Angle_Model.index q o a mod q_nao q = a)%nat).
  { intros o a Ia. unfold Angle_Model.index. split; [rewrite Nat.div_add, Nat.div_small by lia; lia|].
    rewrite Nat.mod_add by lia. apply Nat.mod_small; auto. }
  assert (Row : forall o a, (o < q_noct q)%nat -> (a < q_nao q)%nat -> calc_row ix q o a = Ok (val (Angle_Model.index q o a))).
  { intros o a Io Ia. unfold val. destruct (Inv o a Ia) as [-> ->]. unfold calc_row.
    assert (G : (do mu <- cosine q 0 o a; do eta <- cosine q 1 o a;
      do xi <- (if (q_dim q =? 2)%nat then Ok (sqrt (1 - mu * mu - eta * eta))%R else cosine q 2 o a);
      mapM (fun i => do l <- rd (mi_l ix) i; do m <- rd (mi_m ix) i;
                   do y <- Y_cosines l m mu eta xi; Ok ((2 * INR l + 1) * (1 / (4 * PI)) * y)%R) (seq 0 (mi_n ix))) =
      Ok (map (fun i => weight_lm (nth i (mi_l ix) 0%nat) * ynum (nth i (mi_l ix) 0%nat) (nth i (mi_m ix) 0%Z) (mu_of q o a) (eta_of q o a) (xi_of q o a)) (seq 0 (mi_n ix)))).
    { rewrite (cosine_ok (axis := 0) W), (cosine_ok (axis := 1) W) by (auto; lia). cbn [bind].
      fold (mu_of q o a) (eta_of q o a).
      assert (X : (if (q_dim q =? 2)%nat then Ok (sqrt (1 - mu_of q o a * mu_of q o a - eta_of q o a * eta_of q o a)) else cosine q 2 o a) = Ok (xi_of q o a)).
      { destruct (Nat.eqb_spec (q_dim q) 2); [rewrite xi_flat by auto; auto|]. rewrite cosine_ok by (auto; lia). reflexivity. }
      rewrite X. cbn [bind]. apply mapM_ok. intros i Hin. apply in_seq in Hin.
      destruct (Hi i) as (l & m & R1 & R2 & V & _); [lia|].
      assert (N1 : nth i (mi_l ix) 0%nat = l). { unfold rd in R1. destruct (nth_error (mi_l ix) i) eqn:E; inversion R1; subst. eapply nth_error_nth; eauto. }
      assert (N2 : nth i (mi_m ix) 0%Z = m). { unfold rd in R2. destruct (nth_error (mi_m ix) i) eqn:E; inversion R2; subst. eapply nth_error_nth; eauto. }
      rewrite R1, R2, N1, N2. cbn [bind]. unfold ynum.
      destruct (harm_total (mu_of q o a) (eta_of q o a) (xi_of q o a) (valid_of HL V)) as [y Hy]. rewrite Hy. reflexivity. }
    destruct Hd as [E|E]; rewrite E in *; exact G. }
  unfold m2d_build.
  rewrite (foldM_nested (fun M o a => do r <- calc_row ix q o a; wr M (Angle_Model.index q o a) r)).
  destruct (@foldM_table (list R) (nat * nat) [] (fun oa => Angle_Model.index q (fst oa) (snd oa)) (fun oa => calc_row ix q (fst oa) (snd oa)) val
    (list_prod (seq 0 (q_noct q)) (seq 0 (q_nao q))) (repeat (repeat 0%R (mi_n ix)) (q_nang q))) as (M & E & Hlen & Hk).
  { intros [o a] Hin. apply in_prod_iff in Hin. rewrite !in_seq in Hin. cbn [fst snd]. split; [|apply Row; lia].
    rewrite repeat_length, Hn. unfold Angle_Model.index. nia. }
  exists M. rewrite E. split; auto. rewrite repeat_length in Hlen. split; auto.
  intros o a l m Io Ia V. unfold m2d_oalm, m2d_lm, m2d_at, rd2, rd.
  assert (Ik : (Angle_Model.index q o a < q_nang q)%nat) by (rewrite Hn; unfold Angle_Model.index; nia).
  rewrite (nth_error_nth' M []) by lia.
  rewrite (proj1 (Hk _)).
  2:{ apply in_map_iff. exists (o, a). split; auto. apply in_prod; apply in_seq; lia. }
  cbn [bind]. destruct (Hlm _ _ V) as (Hj & R1 & R2). unfold val.
  rewrite (nth_error_nth' _ 0) by (rewrite map_length, seq_length; auto).
  rewrite (nth_map_seq _ 0 Hj). cbv zeta. destruct (Inv o a Ia) as [-> ->].
  assert (N1 : nth (mi_index ix l m) (mi_l ix) 0%nat = l). { unfold rd in R1. destruct (nth_error (mi_l ix) _) eqn:E'; inversion R1; subst. eapply nth_error_nth; eauto. }
  assert (N2 : nth (mi_index ix l m) (mi_m ix) 0%Z = m). { unfold rd in R2. destruct (nth_error (mi_m ix) _) eqn:E'; inversion R2; subst. eapply nth_error_nth; eauto. }
  rewrite N1, N2. reflexivity.
Qed.

(** ** The scattering kernel *)
Lemma pi_low : 3 < PI.
Proof. pose proof PI2_3_2. lra. Qed.
Lemma weight_bound l : (l <= 3)%nat -> 0 <= weight_lm l <= (2 * INR l + 1) / 12.
Proof.
  intros _. unfold weight_lm. pose proof pi_low. pose proof (pos_INR l).
  assert (0 < 1 / (4 * PI) <= / 12).
  { split; [apply Rdiv_lt_0_compat; lra|]. unfold Rdiv. rewrite Rmult_1_l. apply Rinv_le_contravar; lra. }
  split; [nra|]. unfold Rdiv. nra.
Qed.
Definition kernel_sum (ix : indexer) (q : quad) (M : list (list R)) (L o a : nat) (x y z : R) : R :=
  rsum (S L) (fun l => sumR (map (fun m => num (m2d_oalm ix q M o a l m) * num (Y_cosines l m x y z)) (m_range l))).
Lemma in_m_range l m : In m (m_range l) -> (- Z.of_nat l <= m <= Z.of_nat l)%Z.
Proof. unfold m_range. intros H. apply in_map_iff in H as (k & <- & Hk). apply in_seq in Hk. lia. Qed.
Lemma m2d_kernel q L ix M : well_formed q -> q_dim q = 3%nat -> (L <= 3)%nat -> indexer_new 3 L = Ok ix -> m2d_build ix q = Ok M ->
  forall o a x y z, (o < q_noct q)%nat -> (a < q_nao q)%nat -> on_sphere x y z ->
  Rabs (kernel_sum ix q M L o a x y z -
        rsum (S L) (fun l => (2 * INR l + 1) / (4 * PI) * legendre l (mu_of q o a * x + eta_of q o a * y + xi_of q o a * z)))
  <= 2 * / 10 ^ 13.
Proof.
  intros W D HL HI HM o a x y z Io Ia U.
  assert (HI' : indexer_new (q_dim q) L = Ok ix) by (rewrite D; auto).
  destruct (m2d_ok W HL HI') as (M' & HM' & _ & E). rewrite HM in HM'. injection HM' as <-.
  unfold kernel_sum.
  rewrite (@rsum_ext (S L) _ (fun l => weight_lm l * hsum l (mu_of q o a) (eta_of q o a) (xi_of q o a) x y z)).
  2:{ intros l Hl. unfold hsum. rewrite <- sumR_map_scal. apply sumR_map_ext. intros m Hm. apply in_m_range in Hm.
      rewrite E by (auto; rewrite D; repeat split; auto; lia). cbn [num]. unfold ynum. ring. }
  rewrite <- rsum_minus.
  rewrite (@rsum_ext (S L) _ (fun l => weight_lm l * (hsum l (mu_of q o a) (eta_of q o a) (xi_of q o a) x y z -
     legendre l (mu_of q o a * x + eta_of q o a * y + xi_of q o a * z)))).
  2:{ intros l _. unfold weight_lm. field. pose proof pi_low. lra. }
  pose proof (dir_unit W Io Ia) as U'.
  assert (T : 0 < / 10 ^ 13) by (apply Rinv_0_lt_compat, pow_lt; lra).
  assert (B : forall l, (l <= 3)%nat -> Rabs (weight_lm l * (hsum l (mu_of q o a) (eta_of q o a) (xi_of q o a) x y z -
     legendre l (mu_of q o a * x + eta_of q o a * y + xi_of q o a * z))) <= (2 * INR l + 1) / 12 * / 10 ^ 13).
  { intros l Hl. apply b_mul; [|apply harm_addition; auto]. destruct (weight_bound Hl). rewrite Rabs_pos_eq; auto. }
  set (f := fun l => _) in |- *.
  assert (G : forall n, (n <= 4)%nat -> Rabs (rsum n f) <= rsum n (fun l => (2 * INR l + 1) / 12 * / 10 ^ 13)).
  { induction n as [|n IH]; intros Hn; cbn [rsum]; [rewrite Rabs_R0; lra|].
    apply b_add; [apply IH; lia|apply B; lia]. }
  eapply Rle_trans; [apply G; lia|].
  assert (G4 : rsum (S L) (fun l => (2 * INR l + 1) / 12 * / 10 ^ 13) <= rsum 4 (fun l => (2 * INR l + 1) / 12 * / 10 ^ 13)).
  { clear - T HL. revert T. generalize (/ 10 ^ 13). intros eps T. replace 4%nat with (S L + (3 - L))%nat by lia. rewrite rsum_split.
    assert (0 <= rsum (3 - L) (fun i => (2 * INR (S L + i) + 1) / 12 * eps)); [|lra].
    apply rsum_nonneg. intros i _. pose proof (pos_INR (S L + i)). apply Rmult_le_pos; lra. }
  eapply Rle_trans; [exact G4|]. cbn [rsum INR]. lra.
Qed.

(** ** Discrete orthogonality *)
Definition even_all (e : mono) : bool := let '(a, b, c) := e in (Nat.even a && Nat.even b && Nat.even c)%bool.
Definition mean_q (e : mono) : Q :=
  let '(p, q, r) := e in
  if even_all e then (inject_Z (odd_fact (p / 2) * odd_fact (q / 2) * odd_fact (r / 2)) / inject_Z (odd_fact ((p + q + r) / 2 + 1)))%Q
  else 0%Q.
Lemma odd_fact_pos k : (0 < odd_fact k)%Z.
Proof. induction k as [|k IH]; cbn [odd_fact]; lia. Qed.
Lemma Q2R_inject z : Q2R (inject_Z z) = IZR z.
Proof. unfold Q2R, inject_Z. cbn [Qnum Qden]. field. Qed.
Lemma mean_q_ok p q r : Q2R (mean_q (p, q, r)) = sphere_mean p q r.
Proof.
  unfold mean_q, sphere_mean, even_all. destruct (_ && _)%bool.
  - rewrite Q2R_div, !Q2R_inject; auto. intros H. pose proof (odd_fact_pos ((p + q + r) / 2 + 1)).
    unfold Qeq, inject_Z in H. cbn [Qnum Qden] in H. lia.
  - unfold Q2R. cbn. lra.
Qed.
Definition emul (e1 e2 : mono) : mono := let '(a, b, c) := e1 in let '(a', b', c') := e2 in (a + a', b + b', c + c')%nat.
Definition tmul (t1 t2 : Q * mono) : Q * mono := ((fst t1 * fst t2)%Q, emul (snd t1) (snd t2)).
Definition tval (t : Q * mono) (x y z : R) : R := Q2R (fst t) * mval (snd t) x y z.
Definition pmul (p1 p2 : poly) : poly := flat_map (fun t1 => map (tmul t1) p2) p1.
Lemma tval_mul t1 t2 x y z : tval (tmul t1 t2) x y z = tval t1 x y z * tval t2 x y z.
Proof.
  destruct t1 as [c1 [[a b] c]], t2 as [c2 [[a' b'] c']]. unfold tval, tmul, emul, mval. cbn [fst snd].
  rewrite Q2R_mult, !pow_add. ring.
Qed.
Lemma peval_app p1 p2 x y z : peval (p1 ++ p2) x y z = peval p1 x y z + peval p2 x y z.
Proof. unfold peval. rewrite map_app. apply sumR_app. Qed.
Lemma peval_cons t p x y z : peval (t :: p) x y z = tval t x y z + peval p x y z.
Proof. reflexivity. Qed.
Lemma peval_tmul t p x y z : peval (map (tmul t) p) x y z = tval t x y z * peval p x y z.
Proof.
  induction p as [|u p IH]; [unfold peval; cbn; ring|]. cbn [map]. rewrite !peval_cons, IH, tval_mul. ring.
Qed.
Lemma peval_mul p1 p2 x y z : peval (pmul p1 p2) x y z = peval p1 x y z * peval p2 x y z.
Proof.
  induction p1 as [|t1 p1 IH]; cbn [pmul flat_map]; [unfold peval; cbn; ring|].
  rewrite peval_app, peval_tmul, peval_cons. fold (pmul p1 p2). rewrite IH. ring.
Qed.
Definition pint (p : poly) : Q := fold_right (fun t s => (fst t * mean_q (snd t) + s)%Q) 0%Q p.
Definition pnorm (p : poly) : Q := fold_right (fun t s => (Qabs (fst t) + s)%Q) 0%Q p.
Definition deg (e : mono) : nat := let '(a, b, c) := e in (a + b + c)%nat.
Definition flat_even (e : mono) : bool := let '(_, _, c) := e in Nat.even c.
Lemma Q2R_abs c : Q2R (Qabs c) = Rabs (Q2R c).
Proof.
  apply Qabs_case; intros H.
  - apply Qle_Rle in H. rewrite RMicromega.Q2R_0 in H. rewrite Rabs_pos_eq; auto.
  - apply Qle_Rle in H. rewrite RMicromega.Q2R_0 in H. rewrite Q2R_opp. rewrite Rabs_left1; auto.
Qed.
Lemma qsum_lin q f g c : qsum q (fun o a => c * f o a + g o a) = c * qsum q f + qsum q g.
Proof.
  unfold qsum. rewrite <- rsum_scal, <- rsum_plus. apply rsum_ext. intros o _. rewrite <- rsum_scal, <- rsum_plus.
  apply rsum_ext. intros a _. ring.
Qed.
Lemma qsum_ext q f g : (forall o a, (o < q_noct q)%nat -> (a < q_nao q)%nat -> f o a = g o a) -> qsum q f = qsum q g.
Proof. intros H. unfold qsum. apply rsum_ext. intros o Ho. apply rsum_ext. intros a Ha. rewrite H; auto. Qed.
Lemma qsum_scal q f c : qsum q (fun o a => c * f o a) = c * qsum q f.
Proof.
  unfold qsum. rewrite <- rsum_scal. apply rsum_ext. intros o _. rewrite <- rsum_scal. apply rsum_ext. intros a _. ring.
Qed.
Lemma qsum_poly q D eps p : integrates q D eps ->
  (forall t, In t p -> (deg (snd t) <= D)%nat /\ (q_dim q = 2%nat -> flat_even (snd t) = true)) ->
  Rabs (qsum q (fun o a => peval p (mu_of q o a) (eta_of q o a) (xi_of q o a)) - 4 * PI * Q2R (pint p)) <= Q2R (pnorm p) * eps.
Proof.
  intros I. induction p as [|[c e] p IH]; intros H.
  - cbn [pint pnorm fold_right]. rewrite RMicromega.Q2R_0.
    rewrite (@qsum_ext q _ (fun o a => 0 * 1)); [|intros; unfold peval; cbn; ring]. rewrite qsum_scal.
    replace (0 * qsum q (fun _ _ => 1) - 4 * PI * 0) with 0 by ring. rewrite Rabs_R0. lra.
  - cbn [pint pnorm fold_right fst snd]. rewrite !Q2R_plus, Q2R_mult, Q2R_abs.
    rewrite (@qsum_ext q _ (fun o a => Q2R c * mval e (mu_of q o a) (eta_of q o a) (xi_of q o a) + peval p (mu_of q o a) (eta_of q o a) (xi_of q o a)))
      by (intros; reflexivity).
    rewrite qsum_lin. fold (pint p) (pnorm p).
    destruct e as [[i j] k]. specialize (IH (fun t Ht => H t (or_intror Ht))). destruct (H _ (or_introl eq_refl)) as [H1 H2].
    cbn [snd deg flat_even] in H1, H2. pose proof (I i j k H1 H2) as Im. rewrite mean_q_ok. unfold mval at 1.
    match goal with |- Rabs (Q2R c * ?A + ?B - 4 * PI * (Q2R c * ?C + ?E)) <= _ =>
      replace (Q2R c * A + B - 4 * PI * (Q2R c * C + E)) with (Q2R c * (A - 4 * PI * C) + (B - 4 * PI * E)) by ring end.
    replace ((Rabs (Q2R c) + Q2R (pnorm p)) * eps) with (Rabs (Q2R c) * eps + Q2R (pnorm p) * eps) by ring.
    apply b_add; [apply b_mul; [lra|exact Im]|exact IH].
Qed.
Definition lms : list (nat * Z) := flat_map (fun l => map (fun m => (l, m)) (m_range l)) (seq 0 4).
Lemma in_lms l m : valid l m -> In (l, m) lms.
Proof. intros V. each_lm l m V; vm_compute; tauto. Qed.
Definition flat_lm (lm : nat * Z) : bool := Z.even (snd lm + Z.of_nat (fst lm)).
Definition pair_ok (a b : nat * Z) : bool :=
  let p := pmul (ypoly (fst a) (snd a)) (ypoly (fst b) (snd b)) in
  let w := inject_Z (Z.of_nat (2 * fst b + 1)) in
  let d := if ((fst a =? fst b)%nat && (snd a =? snd b)%Z)%bool then 1%Q else 0%Q in
  (Qle_bool (Qabs (w * pint p - d)) (1 # 10 ^ 14) && Qle_bool (w * pnorm p) 120 &&
   forallb (fun t => (deg (snd t) <=? fst a + fst b)%nat) p &&
   (negb (flat_lm a && flat_lm b) || forallb (fun t => flat_even (snd t)) p))%bool.
Lemma pairs_checked : forallb (fun a => forallb (pair_ok a) lms) lms = true.
Proof. vm_compute. reflexivity. Qed.
Lemma pair_facts l m l' m' : valid l m -> valid l' m' ->
  let p := pmul (ypoly l m) (ypoly l' m') in
  Rabs ((2 * INR l' + 1) * Q2R (pint p) - (if ((l =? l')%nat && (m =? m')%Z)%bool then 1 else 0)) <= / 10 ^ 14 /\
  (2 * INR l' + 1) * Q2R (pnorm p) <= 120 /\ (forall t, In t p -> (deg (snd t) <= l + l')%nat) /\
  (Z.Even (m + Z.of_nat l) -> Z.Even (m' + Z.of_nat l') -> forall t, In t p -> flat_even (snd t) = true).
Proof.
  intros V V' p. pose proof pairs_checked as C. rewrite forallb_forall in C. specialize (C _ (in_lms V)).
  rewrite forallb_forall in C. specialize (C _ (in_lms V')). unfold pair_ok in C. cbn [fst snd] in C. fold p in C.
  apply andb_true_iff in C as [C C4]. apply andb_true_iff in C as [C C3]. apply andb_true_iff in C as [C1 C2].
  assert (W : Q2R (inject_Z (Z.of_nat (2 * l' + 1))) = 2 * INR l' + 1).
  { rewrite Q2R_inject, <- INR_IZR_INZ, plus_INR, mult_INR. cbn [INR]. lra. }
  split; [|split; [|split]].
  - apply Qle_bool_iff, Qle_Rle in C1. rewrite Q2R_abs, Q2R_minus, Q2R_mult, W in C1.
    assert (T : Q2R (1 # 10 ^ 14) = / 10 ^ 14) by (unfold Q2R; cbn [Qnum Qden]; cbn; lra).
    rewrite T in C1. destruct (_ && _)%bool; [rewrite RMicromega.Q2R_1 in C1|rewrite RMicromega.Q2R_0 in C1]; exact C1.
  - apply Qle_bool_iff, Qle_Rle in C2. rewrite Q2R_mult, W in C2. replace (Q2R 120) with 120 in C2 by (unfold Q2R; cbn; lra). exact C2.
  - intros t Ht. rewrite forallb_forall in C3. apply Nat.leb_le, C3; auto.
  - intros E E' t Ht. apply Z.even_spec in E. apply Z.even_spec in E'. unfold flat_lm in C4. cbn [fst snd] in C4. rewrite E, E' in C4.
    cbn [andb negb orb] in C4. rewrite forallb_forall in C4. auto.
Qed.
Lemma m2d_orthogonal q L ix M D eps : well_formed q -> (L <= 3)%nat -> indexer_new (q_dim q) L = Ok ix -> m2d_build ix q = Ok M ->
  integrates q D eps ->
  forall l m l' m', valid_lm (q_dim q) L l m -> valid_lm (q_dim q) L l' m' -> (l + l' <= D)%nat ->
  Rabs (qsum q (fun o a => num (Y_cosines l m (mu_of q o a) (eta_of q o a) (xi_of q o a)) * num (m2d_oalm ix q M o a l' m')) -
        (if ((l =? l')%nat && (m =? m')%Z)%bool then 1 else 0)) <= / 10 ^ 14 + 10 * eps.
Proof.
  intros W HL HI HM I l m l' m' V V' HD.
  destruct (m2d_ok W HL HI) as (M' & HM' & _ & E). rewrite HM in HM'. injection HM' as <-.
  pose proof (valid_of HL V) as V1. pose proof (valid_of HL V') as V1'.
  destruct (pair_facts V1 V1') as (F1 & F2 & F3 & F4). set (p := pmul (ypoly l m) (ypoly l' m')) in *.
  rewrite (@qsum_ext q _ (fun o a => weight_lm l' * peval p (mu_of q o a) (eta_of q o a) (xi_of q o a))).
  2:{ intros o a Io Ia. rewrite E by auto. cbn [num]. unfold p. rewrite peval_mul. fold (ynum l m (mu_of q o a) (eta_of q o a) (xi_of q o a)).
      rewrite !ynum_poly by auto. ring. }
  rewrite qsum_scal.
  pose proof (@qsum_poly q D eps p I) as B.
  assert (G : forall t, In t p -> (deg (snd t) <= D)%nat /\ (q_dim q = 2%nat -> flat_even (snd t) = true)).
  { intros t Ht. split; [specialize (F3 t Ht); lia|].
    intros D2. apply F4; auto; [destruct V as (_ & _ & X)|destruct V' as (_ & _ & X)]; rewrite D2 in X; exact X. }
  specialize (B G). set (S := qsum q _) in *.
  assert (P4 : 0 < 4 * PI) by (pose proof pi_low; lra).
  replace (weight_lm l' * S - (if ((l =? l')%nat && (m =? m')%Z)%bool then 1 else 0)) with
    (((2 * INR l' + 1) * Q2R (pint p) - (if ((l =? l')%nat && (m =? m')%Z)%bool then 1 else 0)) + weight_lm l' * (S - 4 * PI * Q2R (pint p))).
  2:{ unfold weight_lm. field. lra. }
  apply b_add; [exact F1|].
  pose proof (pos_INR l').
  assert (N : 0 <= Q2R (pnorm p)).
  { clear. induction p as [|t p IH]; cbn [pnorm fold_right]; [rewrite RMicromega.Q2R_0; lra|].
    fold (pnorm p). rewrite Q2R_plus, Q2R_abs. pose proof (Rabs_pos (Q2R (fst t))). lra. }
  assert (E0 : 0 <= eps).
  { destruct (Rle_dec 0 eps); auto. exfalso. pose proof (Rabs_pos (S - 4 * PI * Q2R (pint p))).
    pose proof (I 0%nat 0%nat 0%nat ltac:(lia) ltac:(reflexivity)) as I0. pose proof (Rabs_pos (qsum q (fun o a => mu_of q o a ^ 0 * eta_of q o a ^ 0 * xi_of q o a ^ 0) - 4 * PI * sphere_mean 0 0 0)). lra. }
  rewrite Rabs_mult. rewrite (Rabs_pos_eq (weight_lm l')) by (apply weight_bound; destruct V1'; lia).
  apply Rle_trans with (weight_lm l' * (Q2R (pnorm p) * eps)).
  { apply Rmult_le_compat_l; auto. apply weight_bound; destruct V1'; lia. }
  unfold weight_lm. pose proof pi_low.
  replace ((2 * INR l' + 1) * (1 / (4 * PI)) * (Q2R (pnorm p) * eps)) with ((2 * INR l' + 1) * Q2R (pnorm p) * (/ (4 * PI)) * eps) by (field; lra).
  apply Rmult_le_compat_r; auto.
  assert (/ (4 * PI) <= / 12) by (apply Rinv_le_contravar; lra).
  assert (0 < / (4 * PI)) by (apply Rinv_0_lt_compat; lra).
  apply Rle_trans with (120 * / 12); [apply Rmult_le_compat; try lra; apply Rmult_le_pos; lra|lra].
Qed.

(** ** One dimension *)
Lemma cosine1_ok q o a : well_formed1 q -> (o < 2)%nat -> (a < q_nao q)%nat -> cosine q 0 o a = Ok (mu_of q o a).
Proof.
  intros (_ & _ & _ & Hs & L0) Io Ia. unfold mu_of, cosine, rd2, rd. rewrite Hs. rewrite (nth_error_nth' _ 0) by lia.
  destruct o as [|[|o]]; try lia; reflexivity.
Qed.
Lemma pairs1 L : lm_pairs 1 L = map (fun l => (l, 0%Z)) (seq 0 (S L)).
Proof.
  unfold lm_pairs. assert (G : forall n b, flat_map (fun l => map (pair l) (m_index 1 l)) (seq b n) = map (fun l => (l, 0%Z)) (seq b n)).
  { induction n as [|n IH]; intros b; cbn; [reflexivity|f_equal; apply IH]. }
  apply G.
Qed.
Lemma m2d1_ok q L ix : well_formed1 q -> (L <= 3)%nat -> indexer_new 1 L = Ok ix ->
  exists M, m2d_build ix q = Ok M /\ length M = q_nang q /\
  forall o a l, (o < 2)%nat -> (a < q_nao q)%nat -> (l <= L)%nat ->
  m2d_oalm ix q M o a l 0 = Ok ((2 * INR l + 1) / 2 * legendre l (mu_of q o a)).
Proof.
  intros W HL HI. pose proof W as (Hd & Ho & Hn & _ & _).
  rewrite indexer_new_ok in HI by lia.
  assert (HX : ix = {| mi_n := number_moments 1 L; mi_l := map fst (lm_pairs 1 L); mi_m := map snd (lm_pairs 1 L) |}) by congruence.
  assert (HN : mi_n ix = S L) by (rewrite HX; cbn [mi_n number_moments]; lia).
  set (val := fun k => map (fun l => (2 * INR l + 1) / 2 * legendre l (mu_of q (k / q_nao q) (k mod q_nao q))) (seq 0 (S L))).
  assert (Inv : forall o a, (a < q_nao q)%nat -> (Angle_Model.index q o a / q_nao q = o /\ Angle_Model.index q o a mod q_nao q = a)%nat).
  { intros o a Ia. unfold Angle_Model.index. split; [rewrite Nat.div_add, Nat.div_small by lia; lia|].
    rewrite Nat.mod_add by lia. apply Nat.mod_small; auto. }
  assert (Row : forall o a, (o < 2)%nat -> (a < q_nao q)%nat -> calc_row ix q o a = Ok (val (Angle_Model.index q o a))).
  { intros o a Io Ia. unfold val. destruct (Inv o a Ia) as [-> ->]. unfold calc_row. rewrite Hd.
    rewrite HN. apply mapM_ok. intros l Hin. apply in_seq in Hin.
    rewrite (cosine1_ok W) by auto. cbn [bind].
    rewrite (proj1 (@harm_polar l (mu_of q o a) ltac:(lia))). cbn [bind]. f_equal. lra. }
  unfold m2d_build. rewrite Ho.
  rewrite (foldM_nested (fun M o a => do r <- calc_row ix q o a; wr M (Angle_Model.index q o a) r)).
  destruct (@foldM_table (list R) (nat * nat) [] (fun oa => Angle_Model.index q (fst oa) (snd oa)) (fun oa => calc_row ix q (fst oa) (snd oa)) val
    (list_prod (seq 0 2) (seq 0 (q_nao q))) (repeat (repeat 0%R (mi_n ix)) (q_nang q))) as (M & E & Hlen & Hk).
  { intros [o a] Hin. apply in_prod_iff in Hin. rewrite !in_seq in Hin. cbn [fst snd]. split; [|apply Row; lia].
    rewrite repeat_length, Hn, Ho. unfold Angle_Model.index. nia. }
  exists M. rewrite E. split; auto. rewrite repeat_length in Hlen. split; auto.
  intros o a l Io Ia Hl. unfold m2d_oalm, m2d_lm, m2d_at, rd2, rd.
  assert (Ik : (Angle_Model.index q o a < q_nang q)%nat) by (rewrite Hn, Ho; unfold Angle_Model.index; nia).
  rewrite (nth_error_nth' M []) by lia.
  rewrite (proj1 (Hk _)).
  2:{ apply in_map_iff. exists (o, a). split; auto. apply in_prod; apply in_seq; lia. }
  cbn [bind].
  assert (Ei : mi_index ix l 0 = l).
  { unfold mi_index. rewrite HX. cbn [mi_l mi_m]. destruct (find_lm_spec l 0%Z 0 (lm_pairs_NoDup 1 L)) as [_ F].
    destruct F as (k & F1 & F2). { apply lm_pairs_In; [lia|]. repeat split; auto; lia. }
    rewrite F1. rewrite pairs1 in F2. rewrite nth_error_map in F2. destruct (nth_error (seq 0 (S L)) k) as [j|] eqn:Ej; [|discriminate].
    cbn in F2. injection F2 as ->. assert (k < S L)%nat by (rewrite <- (seq_length (S L) 0); apply nth_error_Some; congruence).
    apply (nth_error_nth _ _ 0%nat) in Ej. rewrite seq_nth in Ej by lia. lia. }
  rewrite Ei. unfold val.
  rewrite (nth_error_nth' _ 0) by (rewrite map_length, seq_length; lia).
  rewrite (nth_map_seq _ 0) by lia. destruct (Inv o a Ia) as [-> ->]. reflexivity.
Qed.
Lemma m2d1_orthogonal q L ix M eps : well_formed1 q -> (L <= 3)%nat -> indexer_new 1 L = Ok ix -> m2d_build ix q = Ok M ->
  integrates1 q (2 * L) eps ->
  forall l l', (l <= L)%nat -> (l' <= L)%nat ->
  Rabs (qsum q (fun o a => num (Y_polar l (mu_of q o a)) * num (m2d_oalm ix q M o a l' 0)) - (if (l =? l')%nat then 1 else 0))
    <= 60 * eps.
Proof.
  intros W HL HI HM I l l' Hl Hl'. pose proof W as (_ & Ho & _).
  destruct (m2d1_ok W HL HI) as (M' & HM' & _ & E). rewrite HM in HM'. injection HM' as <-.
  rewrite (@qsum_ext q _ (fun o a => (2 * INR l' + 1) / 2 * (legendre l (mu_of q o a) * legendre l' (mu_of q o a)))).
  2:{ intros o a Io Ia. rewrite Ho in Io. rewrite E by auto. rewrite (proj1 (@harm_polar l (mu_of q o a) ltac:(lia))). cbn [num]. ring. }
  rewrite qsum_scal. clear E HM HI.
  set (m := fun i => qsum q (fun o a => mu_of q o a ^ i)).
  assert (B : forall i, (i <= 2 * L)%nat -> Rabs (m i - (if Nat.even i then 2 / INR (i + 1) else 0)) <= eps) by exact I.
  assert (Q : forall c0 c1 c2 c3 c4 c5 c6, qsum q (fun o a => c0 * mu_of q o a ^ 0 + (c1 * mu_of q o a ^ 1 + (c2 * mu_of q o a ^ 2 +
     (c3 * mu_of q o a ^ 3 + (c4 * mu_of q o a ^ 4 + (c5 * mu_of q o a ^ 5 + c6 * mu_of q o a ^ 6)))))) =
     c0 * m 0%nat + (c1 * m 1%nat + (c2 * m 2%nat + (c3 * m 3%nat + (c4 * m 4%nat + (c5 * m 5%nat + c6 * m 6%nat)))))).
  { intros. unfold m. rewrite !qsum_lin, qsum_scal. reflexivity. }
  assert (P : exists c0 c1 c2 c3 c4 c5 c6, (forall x, legendre l x * legendre l' x = c0 * x ^ 0 + (c1 * x ^ 1 + (c2 * x ^ 2 +
     (c3 * x ^ 3 + (c4 * x ^ 4 + (c5 * x ^ 5 + c6 * x ^ 6)))))) /\
     ((2 * INR l' + 1) / 2 * (c0 * 2 + (c2 * (2 / 3) + (c4 * (2 / 5) + c6 * (2 / 7)))) = if (l =? l')%nat then 1 else 0) /\
     Rabs c0 + Rabs c1 + Rabs c2 + Rabs c3 + Rabs c4 + Rabs c5 + Rabs c6 <= 16 /\
     ((c1 = 0) \/ (1 <= 2 * L)%nat) /\ ((c2 = 0) \/ (2 <= 2 * L)%nat) /\ ((c3 = 0) \/ (3 <= 2 * L)%nat) /\
     ((c4 = 0) \/ (4 <= 2 * L)%nat) /\ ((c5 = 0) \/ (5 <= 2 * L)%nat) /\ ((c6 = 0) \/ (6 <= 2 * L)%nat)).
  { pose (cf := fun l : nat => match l with 0%nat => (1, 0, 0, 0) | 1%nat => (0, 1, 0, 0) | 2%nat => (- (1 / 2), 0, 3 / 2, 0) | _ => (0, - (3 / 2), 0, 5 / 2) end).
    assert (D : forall l, (l <= 3)%nat -> let '(a, b, c, d) := cf l in forall x, legendre l x = a + b * x + c * x ^ 2 + d * x ^ 3).
    { intros n Hn. destruct n as [|[|[|[|]]]]; try lia; intros x; unfold legendre; cbn [leg_pair fst INR]; field. }
    pose proof (D l ltac:(lia)) as D1. pose proof (D l' ltac:(lia)) as D2.
    destruct (cf l) as [[[a b] c] d] eqn:C1. destruct (cf l') as [[[a' b'] c'] d'] eqn:C2.
    exists (a * a'), (a * b' + b * a'), (a * c' + b * b' + c * a'), (a * d' + b * c' + c * b' + d * a'), (b * d' + c * c' + d * b'), (c * d' + d * c'), (d * d').
    split; [intros x; rewrite D1, D2; ring|].
    destruct l as [|[|[|[|]]]]; try lia; cbn [cf] in C1; injection C1 as <- <- <- <-;
    (destruct l' as [|[|[|[|]]]]; try lia; cbn [cf] in C2; injection C2 as <- <- <- <-;
     (split; [cbn [Nat.eqb INR]; field|]; split; [|repeat split; ((right; lia) || (left; lra))];
      unfold Rabs; repeat (destruct Rcase_abs; try (exfalso; lra)); lra)). }
  destruct P as (c0 & c1 & c2 & c3 & c4 & c5 & c6 & P0 & P1 & P2 & V1 & V2 & V3 & V4 & V5 & V6).
  rewrite (@qsum_ext q _ (fun o a => c0 * mu_of q o a ^ 0 + (c1 * mu_of q o a ^ 1 + (c2 * mu_of q o a ^ 2 +
     (c3 * mu_of q o a ^ 3 + (c4 * mu_of q o a ^ 4 + (c5 * mu_of q o a ^ 5 + c6 * mu_of q o a ^ 6))))))) by (intros; apply P0).
  rewrite Q.
  assert (T : forall i c, (c = 0 \/ (i <= 2 * L)%nat) -> Rabs (c * m i - c * (if Nat.even i then 2 / INR (i + 1) else 0)) <= Rabs c * eps).
  { intros i c [->|Hi]; [rewrite !Rmult_0_l, Rminus_0_r, Rabs_R0; lra|]. rewrite <- Rmult_minus_distr_l, Rabs_mult.
    apply Rmult_le_compat_l; [apply Rabs_pos|auto]. }
  assert (E0 : 0 <= eps). { pose proof (B 0%nat ltac:(lia)). pose proof (Rabs_pos (m 0%nat - (if Nat.even 0 then 2 / INR (0 + 1) else 0))). lra. }
  pose proof (T 0%nat c0 (or_intror (Nat.le_0_l _))) as T0. pose proof (T 1%nat c1 V1) as T1. pose proof (T 2%nat c2 V2) as T2.
  pose proof (T 3%nat c3 V3) as T3. pose proof (T 4%nat c4 V4) as T4. pose proof (T 5%nat c5 V5) as T5. pose proof (T 6%nat c6 V6) as T6.
  cbn [Nat.even Nat.add INR] in T0, T1, T2, T3, T4, T5, T6.
  rewrite <- P1.
  match goal with |- Rabs (?w * ?X - ?w' * ?Y) <= _ => change w' with w; replace (w * X - w * Y) with (w * (X - Y)) by ring;
    assert (Z : Rabs (X - Y) <= 16 * eps) end.
  { eapply Rle_trans; [|apply Rmult_le_compat_r; [exact E0|exact P2]].
    replace (c0 * m 0%nat + (c1 * m 1%nat + (c2 * m 2%nat + (c3 * m 3%nat + (c4 * m 4%nat + (c5 * m 5%nat + c6 * m 6%nat))))) -
      (c0 * 2 + (c2 * (2 / 3) + (c4 * (2 / 5) + c6 * (2 / 7))))) with
      ((c0 * m 0%nat - c0 * (2 / 1)) + (c1 * m 1%nat - c1 * 0) + (c2 * m 2%nat - c2 * (2 / (1 + 1 + 1))) + (c3 * m 3%nat - c3 * 0) +
       (c4 * m 4%nat - c4 * (2 / (1 + 1 + 1 + 1 + 1))) + (c5 * m 5%nat - c5 * 0) + (c6 * m 6%nat - c6 * (2 / (1 + 1 + 1 + 1 + 1 + 1 + 1)))) by field.
    replace ((Rabs c0 + Rabs c1 + Rabs c2 + Rabs c3 + Rabs c4 + Rabs c5 + Rabs c6) * eps) with
      (Rabs c0 * eps + Rabs c1 * eps + Rabs c2 * eps + Rabs c3 * eps + Rabs c4 * eps + Rabs c5 * eps + Rabs c6 * eps) by ring.
    repeat apply b_add; auto. }
  assert (Wb : 0 <= (2 * INR l' + 1) / 2 <= 7 / 2).
  { pose proof (pos_INR l'). assert (INR l' <= 3) by (replace 3 with (INR 3) by (cbn [INR]; lra); apply le_INR; lia). lra. }
  rewrite Rabs_mult, (Rabs_pos_eq ((2 * INR l' + 1) / 2)) by lra.
  apply Rle_trans with (7 / 2 * (16 * eps)); [apply Rmult_le_compat; try lra; apply Rabs_pos|lra].
Qed.

(** ** Concrete cases *)
Definition slab2 : quad :=
  {| q_dim := 1; q_nang := 2; q_noct := 2; q_nao := 1; q_wt := [1]; q_mu := [sqrt (1 / 3)]; q_eta := [0]; q_xi := [0];
     q_sign := octant_sign; q_inc := incident_table 1; q_out := outgoing_table 1; q_adj := false |}.
Lemma slab2_ok : well_formed1 slab2 /\ integrates1 slab2 2 0.
Proof.
  split; [repeat split|]. intros i Hi. pose proof (sqrt_sqrt (1 / 3) ltac:(lra)) as S. 
  assert (E : qsum slab2 (fun o a => mu_of slab2 o a ^ i) = sqrt (1 / 3) ^ i + (- sqrt (1 / 3)) ^ i).
  { unfold qsum, mu_of, wt_of. cbn -[sqrt pow IZR Rdiv]. rewrite ?Rmult_1_l, ?Rplus_0_l. replace (-1 * sqrt (1 / 3)) with (- sqrt (1 / 3)) by ring. reflexivity. }
  rewrite E. destruct i as [|[|[|]]]; try lia; cbn [pow Nat.even Nat.add INR].
  all: match goal with |- Rabs ?x <= 0 => replace x with 0; [rewrite Rabs_R0; lra|nra] end.
Qed.

(** ** In terms of the interface *)
Lemma over_m_range l f : over_m l f = sumR (map f (m_range l)).
Proof. unfold over_m, m_range. rewrite rsum_sumR, map_map. reflexivity. Qed.
Lemma harmonics l m : (l <= 3)%nat -> (- Z.of_nat l <= m <= Z.of_nat l)%Z ->
  (forall mu eta xi, exists v, Y_cosines l m mu eta xi = Ok v /\ Y_cosines l m (- mu) (- eta) (- xi) = Ok ((-1) ^ l * v)) /\
  (forall xi phi, Y_angles l m xi phi = Y_cosines l m (sqrt (1 - xi * xi) * cos phi) (sqrt (1 - xi * xi) * sin phi) xi).
Proof.
  intros Hl Hm. split; [|reflexivity]. intros. destruct (@harm_total l m mu eta xi (conj Hl Hm)) as [v Hv].
  exists v. split; auto. apply harm_parity; auto. split; auto.
Qed.
Lemma addition l mu eta xi mu' eta' xi' : (l <= 3)%nat -> on_sphere mu eta xi -> on_sphere mu' eta' xi' ->
  Rabs (over_m l (fun m => num (Y_cosines l m mu eta xi) * num (Y_cosines l m mu' eta' xi')) -
        legendre l (mu * mu' + eta * eta' + xi * xi')) <= / 10 ^ 13.
Proof. intros Hl U U'. rewrite over_m_range. apply (harm_addition Hl U U'). Qed.
Lemma matrix q L ix : well_formed q -> (L <= 3)%nat -> indexer_new (q_dim q) L = Ok ix ->
  exists M, m2d_build ix q = Ok M /\ length M = q_nang q /\
  forall o a l m, (o < q_noct q)%nat -> (a < q_nao q)%nat -> valid_lm (q_dim q) L l m -> exists y,
  Y_cosines l m (mu_of q o a) (eta_of q o a) (xi_of q o a) = Ok y /\ m2d_oalm ix q M o a l m = Ok ((2 * INR l + 1) / (4 * PI) * y).
Proof.
  intros W HL HI. destruct (m2d_ok W HL HI) as (M & HM & Len & E). exists M. split; auto. split; auto.
  intros o a l m Io Ia V. destruct (harm_total (mu_of q o a) (eta_of q o a) (xi_of q o a) (valid_of HL V)) as [y Hy].
  exists y. split; auto. rewrite E by auto. unfold ynum, weight_lm. rewrite Hy. cbn [num]. f_equal. field. pose proof pi_low. lra.
Qed.
Lemma kernel q L ix M : well_formed q -> q_dim q = 3%nat -> (L <= 3)%nat -> indexer_new 3 L = Ok ix -> m2d_build ix q = Ok M ->
  forall o a x y z, (o < q_noct q)%nat -> (a < q_nao q)%nat -> on_sphere x y z ->
  Rabs (rsum (S L) (fun l => over_m l (fun m => num (m2d_oalm ix q M o a l m) * num (Y_cosines l m x y z))) -
        rsum (S L) (fun l => (2 * INR l + 1) / (4 * PI) * legendre l (mu_of q o a * x + eta_of q o a * y + xi_of q o a * z)))
  <= 2 * / 10 ^ 13.
Proof.
  intros W D HL HI HM o a x y z Io Ia U. pose proof (m2d_kernel W D HL HI HM Io Ia U) as B. unfold kernel_sum in B.
  erewrite (@rsum_ext (S L)); [exact B|]. intros l _. apply over_m_range.
Qed.
