From Verif Require Import Base BaseR Util_Model Mesh_Model Mesh_Spec Mesh_Proofs Material_Model Material_Spec Matrix_Model Matrix_Spec.
From Verif Require Import Diffusion_Model Diffusion_Spec Diffusion_Proofs Orthog_Proofs.
From Coq Require Import Lra Classical.
Set Implicit Arguments. Unset Strict Implicit.
Open Scope nat_scope.

Lemma rsum_nonpos n f : (forall i, i < n -> (f i <= 0)%R) -> (rsum n f <= 0)%R.
Proof. intros H. rewrite <- (rsum_zero (n := n) (fun _ => 0%R)) by auto. apply rsum_le; auto. Qed.
Lemma rsum_below n f k : k < n -> (forall i, i < n -> (f i <= 0)%R) -> (rsum n f <= f k)%R.
Proof.
  intros Hk H. rewrite <- (@rsum_delta n k (f k) Hk). apply rsum_le. intros i Hi. destruct (Nat.eqb_spec i k) as [->|]; [lra|auto].
Qed.
Lemma rsum_above n f k : k < n -> (forall i, i < n -> (0 <= f i)%R) -> (f k <= rsum n f)%R.
Proof.
  intros Hk H. rewrite <- (@rsum_delta n k (f k) Hk). apply rsum_le. intros i Hi. destruct (Nat.eqb_spec i k) as [->|]; [lra|auto].
Qed.

Lemma decide_all (Q : nat -> Prop) N : exists b : nat -> bool, forall g, g < N -> b g = true <-> Q g.
Proof.
  induction N as [|N (b & B)]; [exists (fun _ => true); intros; lia|].
  destruct (classic (Q N)) as [H|H].
  - exists (fun g => if g =? N then true else b g). intros g Hg. destruct (Nat.eqb_spec g N) as [->|]; [tauto|]. apply B. lia.
  - exists (fun g => if g =? N then false else b g). intros g Hg. destruct (Nat.eqb_spec g N) as [->|]; [|apply B; lia].
    split; [discriminate|contradiction].
Qed.

(** ** Connectedness of a mesh *)
Section Conn.
  Variables (m : mesh) (Pr : nat -> Prop).
  Hypothesis MG : mesh_good m.
  Hypothesis UP : forall a c c', a < 3 -> adjacent m a c c' -> Pr c <-> Pr c'.

  Lemma conn_axis : forall i j k i' j' k', inside m i j k -> inside m i' j' k' -> Pr (cell m i j k) -> Pr (cell m i' j' k').
  Proof.
    assert (X : forall d i j k, inside m i j k -> inside m (i + d) j k -> Pr (cell m i j k) <-> Pr (cell m (i + d) j k)).
    { induction d as [|d IH]; intros i j k I I'; [rewrite Nat.add_0_r; tauto|].
      assert (I2 : inside m (i + d) j k) by (unfold inside in *; lia). rewrite (IH i j k I I2).
      apply (@UP 0); [lia|]. exists (i + d), j, k. split; [auto|split; [auto|]]. split; [unfold inside in *; lia|]. f_equal. lia. }
    assert (Y : forall d i j k, inside m i j k -> inside m i (j + d) k -> Pr (cell m i j k) <-> Pr (cell m i (j + d) k)).
    { induction d as [|d IH]; intros i j k I I'; [rewrite Nat.add_0_r; tauto|].
      assert (I2 : inside m i (j + d) k) by (unfold inside in *; lia). rewrite (IH i j k I I2).
      apply (@UP 1); [lia|]. exists i, (j + d), k. split; [auto|split; [auto|]]. split; [unfold inside in *; lia|]. f_equal. lia. }
    assert (Z : forall d i j k, inside m i j k -> inside m i j (k + d) -> Pr (cell m i j k) <-> Pr (cell m i j (k + d))).
    { induction d as [|d IH]; intros i j k I I'; [rewrite Nat.add_0_r; tauto|].
      assert (I2 : inside m i j (k + d)) by (unfold inside in *; lia). rewrite (IH i j k I I2).
      apply (@UP 2); [lia|]. exists i, j, (k + d). split; [auto|split; [auto|]]. split; [unfold inside in *; lia|]. f_equal. lia. }
    assert (O : forall i j k, inside m i j k -> Pr (cell m 0 0 0) <-> Pr (cell m i j k)).
    { intros i j k (I & J & K).
      rewrite (X i 0 0 0) by (unfold inside; cbn; lia). rewrite (Y j (0 + i) 0 0) by (unfold inside; cbn; lia).
      rewrite (Z k (0 + i) (0 + j) 0) by (unfold inside; cbn; lia). cbn [Nat.add]. tauto. }
    intros i j k i' j' k' I I' H. apply (O i' j' k' I'). apply (O i j k I). auto.
  Qed.
  Lemma conn_all c c' : c < ncells m -> c' < ncells m -> Pr c -> Pr c'.
  Proof.
    intros Hc Hc' H. destruct (cell_ex Hc) as (i & j & k & I & E). destruct (cell_ex Hc') as (i' & j' & k' & I' & E'). subst c c'.
    apply (conn_axis I I' H).
  Qed.
End Conn.

(** ** Positivity for coupled groups *)
Section Mm.
  Variables (m : mesh) (G : nat) (D : nat -> nat -> R) (be : nat -> R) (sg : nat -> nat -> R) (T : nat -> nat -> nat -> R).
  Hypothesis MG : mesh_good m.
  Hypothesis DP : forall g c, g < G -> c < ncells m -> (0 < D g c)%R.
  Hypothesis BE : forall s, (-1 <= be s <= 1)%R.
  (** transfers [T g gp c] into g from gp *)
  Hypothesis TP : forall g gp c, g < G -> gp < G -> c < ncells m -> (0 <= T g gp c)%R.
  Let n := ncells m.

  Definition lhs (x : nat -> nat -> R) (g c : nat) : R :=
    (leakage m (cur m (D g) be (x g)) c + (sg g c * x g c - rsum G (fun gp => T g gp c * x gp c)))%R.

  Lemma area_pos a c : c < n -> (0 < area m a c)%R.
  Proof.
    intros Hc. unfold area. assert (W0 := wid_pos MG 0 Hc). assert (W1 := wid_pos MG 1 Hc). assert (W2 := wid_pos MG 2 Hc).
    destruct a as [|[|a]]; apply Rmult_lt_0_compat; auto.
  Qed.
  Lemma vol_pos' c : c < n -> (0 < vol m c)%R.
  Proof.
    intros Hc. unfold vol. assert (W0 := wid_pos MG 0 Hc). assert (W1 := wid_pos MG 1 Hc). assert (W2 := wid_pos MG 2 Hc).
    apply Rmult_lt_0_compat; auto. apply Rmult_lt_0_compat; auto.
  Qed.

  (** Columns: more is removed from a group than is transferred out of it. *)
  Lemma positive_columns x : (forall g c, g < G -> c < n -> (rsum G (fun q => T q g c) < sg g c)%R) ->
    (forall g c, g < G -> c < n -> (0 <= lhs x g c)%R) -> forall g c, g < G -> c < n -> (0 <= x g c)%R.
  Proof.
    intros DOM HY g0 c0 Hg0 Hc0. destruct (Rle_lt_dec 0 (x g0 c0)) as [|NEG]; [auto|exfalso].
    set (z := fun g c => if Rlt_dec (x g c) 0 then 1%R else 0%R).
    assert (Z01 : forall g c, (x g c < 0 /\ z g c = 1)%R \/ (0 <= x g c /\ z g c = 0)%R).
    { intros g c. unfold z. destruct (Rlt_dec (x g c) 0); [left|right]; lra. }
    assert (S0 : (0 <= rsum G (fun g => rsum n (fun c => vol m c * z g c * lhs x g c)))%R).
    { apply rsum_nonneg. intros g Hg. apply rsum_nonneg. intros c Hc. assert (V := vol_pos' Hc). specialize (HY g c Hg Hc).
      apply Rmult_le_pos; auto. apply Rmult_le_pos; [lra|]. destruct (Z01 g c) as [[_ ->]|[_ ->]]; lra. }
    assert (LEAK : forall g, g < G -> (rsum n (fun c => vol m c * z g c * leakage m (cur m (D g) be (x g)) c) <= 0)%R).
    { intros g Hg. rewrite (green_identity MG). unfold green. apply rsum_nonpos. intros a Ha. apply rsum_nonpos. intros c Hc. fold n in Hc.
      assert (A := area_pos a Hc).
      assert (T1 : (0 <= dt1 m (D g) be c (2 * a + 1))%R) by (apply dt1_nonneg; auto; lia).
      assert (T0 : (0 <= dt1 m (D g) be c (2 * a))%R) by (apply dt1_nonneg; auto; lia).
      assert (Q1 : forall w, (w <= 0)%R -> (area m a c * dt1 m (D g) be c (2 * a + 1) * w <= 0)%R)
        by (intros w Hw; assert (0 <= area m a c * dt1 m (D g) be c (2 * a + 1))%R by (apply Rmult_le_pos; lra); nra).
      assert (Q0 : forall w, (w <= 0)%R -> (area m a c * dt1 m (D g) be c (2 * a) * w <= 0)%R)
        by (intros w Hw; assert (0 <= area m a c * dt1 m (D g) be c (2 * a))%R by (apply Rmult_le_pos; lra); nra).
      assert (XZ : (x g c * z g c <= 0)%R) by (destruct (Z01 g c) as [[? ->]|[? ->]]; lra).
      assert (E1 : ((if on_edge m c (2 * a + 1) then area m a c * dt1 m (D g) be c (2 * a + 1) * (x g c * z g c)
        else area m a c * dt1 m (D g) be c (2 * a + 1) *
          ((x g c - x g (neighbour m c (2 * a + 1))) * (z g c - z g (neighbour m c (2 * a + 1))))) <= 0)%R).
      { destruct (on_edge m c (2 * a + 1)); apply Q1; auto.
        destruct (Z01 g c) as [[? ->]|[? ->]], (Z01 g (neighbour m c (2 * a + 1))) as [[? ->]|[? ->]]; lra. }
      assert (E0 : ((if on_edge m c (2 * a) then area m a c * dt1 m (D g) be c (2 * a) * (x g c * z g c) else 0) <= 0)%R).
      { destruct (on_edge m c (2 * a)); [apply Q0; auto|lra]. }
      lra. }
    assert (REACT : forall c, c < n ->
      rsum G (fun g => z g c * (sg g c * x g c - rsum G (fun gp => T g gp c * x gp c)))%R =
      rsum G (fun gp => x gp c * (z gp c * sg gp c - rsum G (fun g => z g c * T g gp c)))%R).
    { intros c Hc.
      rewrite (@rsum_ext G (fun g => z g c * (sg g c * x g c - rsum G (fun gp => T g gp c * x gp c)))%R
        (fun g => z g c * sg g c * x g c + (-1) * rsum G (fun gp => z g c * T g gp c * x gp c))%R).
      2: { intros g Hg. cbn beta. rewrite (@rsum_ext G (fun gp => z g c * T g gp c * x gp c)%R (fun gp => z g c * (T g gp c * x gp c))%R) by (intros; ring).
           rewrite rsum_scal. ring. }
      rewrite rsum_plus, rsum_scal, (rsum_swap G G).
      rewrite (@rsum_ext G (fun gp => x gp c * (z gp c * sg gp c - rsum G (fun g => z g c * T g gp c)))%R
        (fun gp => z gp c * sg gp c * x gp c + (-1) * rsum G (fun g => z g c * T g gp c * x gp c))%R).
      - rewrite rsum_plus, rsum_scal. auto.
      - intros gp Hgp. cbn beta. rewrite (@rsum_ext G (fun g => z g c * T g gp c * x gp c)%R (fun g => x gp c * (z g c * T g gp c))%R) by (intros; ring).
        rewrite rsum_scal. ring. }
    assert (TERM : forall gp c, gp < G -> c < n -> (x gp c * (z gp c * sg gp c - rsum G (fun g => z g c * T g gp c)) <= 0)%R /\
      ((x gp c < 0)%R -> (x gp c * (z gp c * sg gp c - rsum G (fun g => z g c * T g gp c)) < 0)%R)).
    { intros gp c Hgp Hc.
      assert (LE : (rsum G (fun g => z g c * T g gp c) <= rsum G (fun q => T q gp c))%R).
      { apply rsum_le. intros q Hq. assert (TQ := @TP q gp c Hq Hgp Hc). destruct (Z01 q c) as [[_ ->]|[_ ->]]; lra. }
      assert (NN : (0 <= rsum G (fun g => z g c * T g gp c))%R).
      { apply rsum_nonneg. intros q Hq. assert (TQ := @TP q gp c Hq Hgp Hc). destruct (Z01 q c) as [[_ ->]|[_ ->]]; lra. }
      assert (DM := DOM gp c Hgp Hc). destruct (Z01 gp c) as [[X ->]|[X ->]].
      - assert (x gp c * (1 * sg gp c - rsum G (fun g => z g c * T g gp c)) < 0)%R by nra. split; auto; lra.
      - split; [nra|lra]. }
    assert (RC : forall c, c < n -> (vol m c * rsum G (fun gp => x gp c * (z gp c * sg gp c - rsum G (fun g => z g c * T g gp c))) <= 0)%R).
    { intros c Hc. assert (V := vol_pos' Hc).
      assert (rsum G (fun gp => x gp c * (z gp c * sg gp c - rsum G (fun g => z g c * T g gp c))) <= 0)%R
        by (apply rsum_nonpos; intros; apply TERM; auto). nra. }
    assert (RC0 : (vol m c0 * rsum G (fun gp => x gp c0 * (z gp c0 * sg gp c0 - rsum G (fun g => z g c0 * T g gp c0))) < 0)%R).
    { assert (V := vol_pos' Hc0).
      assert (rsum G (fun gp => x gp c0 * (z gp c0 * sg gp c0 - rsum G (fun g => z g c0 * T g gp c0))) < 0)%R; [|nra].
      eapply Rle_lt_trans; [apply (@rsum_below G _ g0 Hg0); intros; apply TERM; auto|]. apply TERM; auto. }
    assert (SPLIT : rsum G (fun g => rsum n (fun c => vol m c * z g c * lhs x g c))%R =
      (rsum G (fun g => rsum n (fun c => vol m c * z g c * leakage m (cur m (D g) be (x g)) c)) +
       rsum n (fun c => vol m c * rsum G (fun gp => x gp c * (z gp c * sg gp c - rsum G (fun g => z g c * T g gp c)))))%R).
    { rewrite (@rsum_ext n (fun c => vol m c * rsum G (fun gp => x gp c * (z gp c * sg gp c - rsum G (fun g => z g c * T g gp c))))%R
        (fun c => rsum G (fun g => vol m c * z g c * (sg g c * x g c - rsum G (fun gp => T g gp c * x gp c))))%R).
      - rewrite (rsum_swap n G). rewrite <- rsum_plus. apply rsum_ext. intros g Hg. rewrite <- rsum_plus. apply rsum_ext. intros c Hc.
        unfold lhs. ring.
      - intros c Hc. cbn beta. rewrite <- (REACT c Hc). rewrite <- rsum_scal. apply rsum_ext. intros; ring. }
    rewrite SPLIT in S0.
    assert (A1 : (rsum G (fun g => rsum n (fun c => vol m c * z g c * leakage m (cur m (D g) be (x g)) c)) <= 0)%R) by (apply rsum_nonpos; auto).
    assert (A2 := @rsum_below n _ c0 Hc0 RC). cbn beta in A2. lra.
  Qed.

  (** Rows: more is removed from a group than is transferred into it at a constant flux. *)
  Lemma positive_rows x : 0 < G -> (forall g c, g < G -> c < n -> (rsum G (fun q => T g q c) < sg g c)%R) ->
    (forall g c, g < G -> c < n -> (0 <= lhs x g c)%R) -> forall g c, g < G -> c < n -> (0 <= x g c)%R.
  Proof.
    intros G0 DOM HY g c Hg Hc. assert (N0 : 0 < n) by lia.
    destruct (@argmin (G * n) (fun i => x (i / n) (i mod n))) as (i & Hi & MI); [nia|]. cbn beta in MI.
    assert (MI' : forall g c, g < G -> c < n -> (x (i / n)%nat (i mod n)%nat <= x g c)%R).
    { intros g' c' Hg' Hc'. assert (E1 : (c' + g' * n) / n = g') by (rewrite Nat.div_add, Nat.div_small by lia; lia).
      assert (E2 : (c' + g' * n) mod n = c') by (rewrite Nat.mod_add, Nat.mod_small by lia; lia).
      assert (M := MI (c' + g' * n)). rewrite E1, E2 in M. apply M. nia. }
    set (g0 := (i / n)%nat) in *. set (c0 := (i mod n)%nat) in *.
    assert (Hg0 : g0 < G) by (apply Nat.div_lt_upper_bound; lia). assert (Hc0 : c0 < n) by (apply Nat.mod_upper_bound; lia).
    destruct (Rle_lt_dec 0 (x g0 c0)) as [P|N]; [specialize (MI' g c Hg Hc); lra|exfalso].
    assert (LK := @leakage_min m (D g0) be (x g0) c0 MG). 
    assert (LK' : (leakage m (cur m (D g0) be (x g0)) c0 <= 0)%R) by (apply LK; auto; lra).
    specialize (HY g0 c0 Hg0 Hc0). unfold lhs in HY.
    assert (RS : (rsum G (fun q => T g0 q c0) * x g0 c0 <= rsum G (fun gp => T g0 gp c0 * x gp c0))%R).
    { rewrite Rmult_comm. rewrite <- rsum_scal. apply rsum_le. intros q Hq. rewrite Rmult_comm. apply Rmult_le_compat_l; auto. }
    specialize (DOM g0 c0 Hg0 Hc0). nra.
  Qed.

  (** Where the flux vanishes: no sources, and no flux next to it. *)
  Lemma zero_spreads x g c : (forall g c, g < G -> c < n -> (0 <= x g c)%R) -> g < G -> c < n -> (0 <= lhs x g c)%R -> x g c = 0%R ->
    lhs x g c = 0%R /\ (forall a c', a < 3 -> adjacent m a c c' \/ adjacent m a c' c -> x g c' = 0%R) /\
    (forall gp, gp < G -> (0 < T g gp c)%R -> x gp c = 0%R).
  Proof.
    intros XP Hg Hc HY X0. unfold lhs in *. rewrite X0 in *.
    assert (RN : (0 <= rsum G (fun gp => T g gp c * x gp c))%R) by (apply rsum_nonneg; intros; apply Rmult_le_pos; auto).
    set (tm := fun leak => (if on_edge m c leak then 0 else - dt1 m (D g) be c leak / hw m c (leak / 2) * x g (neighbour m c leak))%R).
    assert (LE : leakage m (cur m (D g) be (x g)) c = rsum 6 tm).
    { rewrite <- (@faces_leakage m (D g) be MG (x g) c Hc). rewrite X0. unfold tm. ring. }
    assert (TN : forall leak, leak < 6 -> (tm leak <= 0)%R).
    { intros leak Hl. unfold tm. destruct (on_edge m c leak) eqn:E; [lra|].
      assert (T0 : (0 <= dt1 m (D g) be c leak)%R) by (apply dt1_nonneg; auto).
      assert (H0 : (0 < hw m c (leak / 2))%R) by (rewrite hw_wid by auto; apply wid_pos; auto).
      assert (XN := XP g _ Hg (neighbour_lt Hl Hc E)).
      unfold Rdiv. assert (0 < / hw m c (leak / 2))%R by (apply Rinv_0_lt_compat; auto).
      assert (0 <= dt1 m (D g) be c leak * / hw m c (leak / 2))%R by (apply Rmult_le_pos; lra). nra. }
    rewrite LE in *. assert (SN := rsum_nonpos TN).
    assert (Z6 : rsum 6 tm = 0%R) by lra. assert (ZG : rsum G (fun gp => T g gp c * x gp c)%R = 0%R) by lra.
    split; [lra|]. split.
    - intros a c' Ha AD.
      assert (NB : exists leak, leak < 6 /\ on_edge m c leak = false /\ neighbour m c leak = c').
      { destruct AD as [AD|AD]; [exists (2 * a + 1)|exists (2 * a)]; (split; [lia|]).
        - apply (adjacent_up Ha AD).
        - apply (adjacent_down Ha AD). }
      destruct NB as (leak & Hl & E & EN).
      assert (B := @rsum_below 6 tm leak Hl TN). rewrite Z6 in B. assert (B' := TN leak Hl). assert (B0 : tm leak = 0%R) by lra.
      unfold tm in B0. rewrite E, EN in B0.
      assert (T0 : (0 < dt1 m (D g) be c leak)%R).
      { unfold dt1. rewrite E. assert (Hn := neighbour_lt Hl Hc E). rewrite !hw_wid by auto. unfold dtilde_inner.
        assert (P := DP Hg Hc). assert (P' := DP Hg Hn). assert (W := wid_pos MG (leak / 2) Hc). assert (W' := wid_pos MG (leak / 2) Hn).
        apply Rdiv_lt_0_compat; [apply Rmult_lt_0_compat; lra|]. apply Rplus_lt_0_compat; apply Rmult_lt_0_compat; auto. }
      assert (H0 : (0 < hw m c (leak / 2))%R) by (rewrite hw_wid by auto; apply wid_pos; auto).
      apply Rmult_integral in B0 as [B0|B0]; [exfalso|auto].
      unfold Rdiv in B0. apply Rmult_integral in B0 as [B0|B0]; [lra|]. apply Rinv_neq_0_compat in B0; auto. lra.
    - intros gp Hgp TG.
      assert (B := @rsum_above G (fun gp => T g gp c * x gp c)%R gp Hgp). cbn beta in B. rewrite ZG in B.
      assert (0 <= x gp c)%R by auto. assert (T g gp c * x gp c <= 0)%R by (apply B; intros; apply Rmult_le_pos; auto). nra.
  Qed.
  Lemma zero_group x g c : (forall g c, g < G -> c < n -> (0 <= x g c)%R) -> (forall g c, g < G -> c < n -> (0 <= lhs x g c)%R) ->
    g < G -> c < n -> x g c = 0%R -> forall c', c' < n -> x g c' = 0%R.
  Proof.
    intros XP YP Hg Hc H c' Hc'. refine (@conn_all m (fun c => x g c = 0%R) _ c c' Hc Hc' H).
    intros a d d' Ha AD. destruct (adjacent_lt AD) as [L L']. split; intros E.
    - destruct (@zero_spreads x g d XP Hg L (YP _ _ Hg L) E) as (_ & Z & _). apply (Z a d' Ha). auto.
    - destruct (@zero_spreads x g d' XP Hg L' (YP _ _ Hg L') E) as (_ & Z & _). apply (Z a d Ha). auto.
  Qed.

  (** ** Linearity, uniqueness, existence *)
  Lemma cur_lin a b d (x y z : nat -> R) c s : (forall c, z c = a * x c + b * y c)%R -> cur m d be z c s = (a * cur m d be x c s + b * cur m d be y c s)%R.
  Proof. intros E. unfold cur. rewrite !E. destruct (on_edge m c s); ring. Qed.
  Lemma lhs_lin a b x y z : (forall g c, z g c = a * x g c + b * y g c)%R -> forall g c, lhs z g c = (a * lhs x g c + b * lhs y g c)%R.
  Proof.
    intros E g c. unfold lhs, leakage. cbn [rsum]. rewrite !(@cur_lin a b (D g) (x g) (y g) (z g)) by auto. rewrite E.
    rewrite (@rsum_ext G (fun gp => T g gp c * z gp c)%R (fun gp => a * (T g gp c * x gp c) + b * (T g gp c * y gp c))%R) by (intros; rewrite E; ring).
    rewrite rsum_plus, !rsum_scal. unfold Rdiv. ring.
  Qed.
  Lemma lhs_ext x y g c : (forall g c, g < G -> c < n -> x g c = y g c) -> g < G -> c < n -> lhs x g c = lhs y g c.
  Proof.
    intros E Hg Hc. unfold lhs. rewrite E by auto.
    rewrite (@rsum_ext G (fun gp => T g gp c * x gp c)%R (fun gp => T g gp c * y gp c)%R) by (intros; rewrite E; auto).
    f_equal. unfold leakage. apply rsum_ext. intros a Ha. f_equal.
    assert (CE : forall s, s < 6 -> cur m (D g) be (x g) c s = cur m (D g) be (y g) c s).
    { intros s Hs. unfold cur. destruct (on_edge m c s) eqn:ED; rewrite ?E; auto. apply neighbour_lt; auto. }
    rewrite !CE by lia. auto.
  Qed.
  Lemma lhs_zero x g c : (forall g c, g < G -> c < n -> x g c = 0%R) -> g < G -> c < n -> lhs x g c = 0%R.
  Proof.
    intros E Hg Hc. rewrite (@lhs_ext x (fun _ _ => 0%R) g c) by auto.
    rewrite (@lhs_lin 0 0 (fun _ _ => 0%R) (fun _ _ => 0%R) (fun _ _ => 0%R)); [ring|intros; ring].
  Qed.
  Lemma lhs_sum N (v : nat -> R) (e : nat -> nat -> nat -> R) g c : g < G -> c < n ->
    lhs (fun g c => rsum N (fun j => v j * e j g c)%R) g c = rsum N (fun j => v j * lhs (e j) g c)%R.
  Proof.
    intros Hg Hc. induction N as [|N IH].
    - cbn [rsum]. apply lhs_zero; auto.
    - cbn [rsum]. rewrite <- IH.
      rewrite (@lhs_lin 1 (v N) (fun g c => rsum N (fun j => v j * e j g c)%R) (e N)); [ring|]. intros; ring.
  Qed.

  Hypothesis POS : forall x, (forall g c, g < G -> c < n -> (0 <= lhs x g c)%R) -> forall g c, g < G -> c < n -> (0 <= x g c)%R.

  Lemma lhs_mono x y : (forall g c, g < G -> c < n -> (lhs x g c <= lhs y g c)%R) -> forall g c, g < G -> c < n -> (x g c <= y g c)%R.
  Proof.
    intros H g c Hg Hc. assert (0 <= y g c - x g c)%R; [|lra].
    apply (POS (x := fun g c => (y g c - x g c)%R)); auto. intros g' c' Hg' Hc'.
    rewrite (@lhs_lin 1 (-1) y x) by (intros; ring). specialize (H g' c' Hg' Hc'). lra.
  Qed.
  Lemma lhs_inj x y : (forall g c, g < G -> c < n -> lhs x g c = lhs y g c) -> forall g c, g < G -> c < n -> x g c = y g c.
  Proof. intros H g c Hg Hc. apply Rle_antisym; apply lhs_mono; auto; intros; rewrite H by auto; lra. Qed.

  Lemma lhs_onto (y : nat -> nat -> R) : exists x, forall g c, g < G -> c < n -> lhs x g c = y g c.
  Proof.
    destruct (Nat.eq_dec n 0) as [Z|NZ]; [exists (fun _ _ => 0%R); intros; lia|].
    set (N := G * n). set (e := fun j g c => if j =? c + g * n then 1%R else 0%R).
    set (A := fun j i => if j <? N then lhs (e j) (i / n) (i mod n) else y (i / n) (i mod n)).
    destruct (@dependent N (S N) A) as (v & (j & Hj & Nz) & E); [lia|].
    assert (E' : forall g c, g < G -> c < n -> (lhs (fun g c => rsum N (fun j => v j * e j g c)) g c + v N * y g c = 0)%R).
    { intros g c Hg Hc. rewrite lhs_sum by auto.
      assert (E1 : (c + g * n) / n = g) by (rewrite Nat.div_add, Nat.div_small by lia; lia).
      assert (E2 : (c + g * n) mod n = c) by (rewrite Nat.mod_add, Nat.mod_small by lia; lia).
      assert (L : c + g * n < N) by (unfold N; nia).
      specialize (E _ L). cbn [rsum] in E. rewrite <- E. f_equal.
      - apply rsum_ext. intros k Hk. unfold A. rewrite (proj2 (Nat.ltb_lt k N)) by auto. rewrite E1, E2. auto.
      - unfold A. rewrite (proj2 (Nat.ltb_ge N N)) by lia. rewrite E1, E2. auto. }
    assert (EV : forall g c, g < G -> c < n -> rsum N (fun j => v j * e j g c)%R = v (c + g * n)).
    { intros g c Hg Hc. assert (L : c + g * n < N) by (unfold N; nia). unfold e.
      rewrite (@rsum_ext N _ (fun j => if j =? c + g * n then v (c + g * n) else 0%R)).
      - apply rsum_delta. auto.
      - intros k Hk. cbn beta. destruct (Nat.eqb_spec k (c + g * n)) as [->|]; ring. }
    destruct (Req_EM_T (v N) 0) as [V0|VN].
    - exfalso.
      assert (Z : forall g c, g < G -> c < n -> v (c + g * n) = 0%R).
      { intros g c Hg Hc. rewrite <- EV by auto.
        apply (@lhs_inj (fun g c => rsum N (fun j => v j * e j g c)%R) (fun _ _ => 0%R)); auto.
        intros g' c' Hg' Hc'. rewrite (@lhs_zero (fun _ _ => 0%R)) by auto. specialize (E' g' c' Hg' Hc'). rewrite V0 in E'. lra. }
      destruct (Nat.eq_dec j N) as [->|NJ]; [auto|]. apply Nz.
      assert (JG : j / n < G) by (apply Nat.div_lt_upper_bound; unfold N in *; nia).
      assert (JC : j mod n < n) by (apply Nat.mod_upper_bound; lia).
      specialize (Z _ _ JG JC). rewrite (Nat.div_mod_eq j n). rewrite <- Z. f_equal. lia.
    - exists (fun g c => (- / v N * rsum N (fun j => v j * e j g c))%R). intros g c Hg Hc.
      rewrite (@lhs_lin (- / v N) 0 (fun g c => rsum N (fun j => v j * e j g c)%R) (fun _ _ => 0%R)) by (intros; ring).
      specialize (E' g c Hg Hc). rewrite (@lhs_zero (fun _ _ => 0%R)) by auto.
      replace (lhs (fun g c => rsum N (fun j => v j * e j g c)%R) g c) with (- (v N * y g c))%R by lra. field. auto.
  Qed.

  (** ** Which groups have flux *)
  Section Reach.
    Variables (x : nat -> nat -> R).
    Hypothesis YP : forall g c, g < G -> c < n -> (0 <= lhs x g c)%R.
    Inductive fed : nat -> Prop :=
    | fed_source g c : g < G -> c < n -> (0 < lhs x g c)%R -> fed g
    | fed_transfer g gp c : g < G -> gp < G -> c < n -> (0 < T g gp c)%R -> fed gp -> fed g.
    Lemma fed_pos g : fed g -> forall c, c < n -> (0 < x g c)%R.
    Proof.
      assert (XP := POS YP).
      assert (STEP : forall g c, g < G -> c < n -> ((0 < lhs x g c)%R \/ exists gp, gp < G /\ (0 < T g gp c)%R /\ (0 < x gp c)%R) ->
        forall c', c' < n -> (0 < x g c')%R).
      { intros g' c Hg Hc H c' Hc'. destruct (XP g' c' Hg Hc') as [P|Z]; [auto|exfalso]. symmetry in Z.
        assert (Z0 := zero_group XP YP Hg Hc' Z Hc).
        destruct (zero_spreads XP Hg Hc (YP Hg Hc) Z0) as (A & _ & B). destruct H as [H|(gp & Hgp & TG & X)]; [lra|].
        specialize (B gp Hgp TG). lra. }
      induction 1 as [g c Hg Hc Y|g gp c Hg Hgp Hc TG F IH]; intros c' Hc'; apply (STEP g c); auto. right. exists gp. auto.
    Qed.
    Lemma unfed_zero g : g < G -> ~ fed g -> forall c, c < n -> x g c = 0%R.
    Proof.
      intros Hg NF c Hc. assert (XP := POS YP).
      destruct (decide_all fed G) as (b & B).
      set (z := fun g c => if b g then 0%R else (- x g c)%R).
      assert (ZP : (0 <= z g c)%R).
      { apply POS; auto. intros g' c' Hg' Hc'. destruct (b g') eqn:F.
        - assert (Z1 : forall c, z g' c = 0%R) by (intros; unfold z; rewrite F; auto).
          assert (E : lhs z g' c' = (- rsum G (fun gp => T g' gp c' * z gp c'))%R).
          { unfold lhs. rewrite Z1.
            assert (L0 : leakage m (cur m (D g') be (z g')) c' = 0%R).
            { unfold leakage. cbn [rsum]. rewrite !(@cur_lin 0 0 (D g') (x g') (x g') (z g')) by (intros; rewrite Z1; ring). unfold Rdiv. ring. }
            rewrite L0. ring. }
          rewrite E. assert (rsum G (fun gp => T g' gp c' * z gp c') <= 0)%R; [|lra]. apply rsum_nonpos. intros gp Hgp.
          assert (TQ := @TP g' gp c' Hg' Hgp Hc'). assert (XQ := XP gp c' Hgp Hc').
          unfold z. destruct (b gp); nra.
        - assert (NF' : ~ fed g') by (intros Q; apply (B g' Hg') in Q; congruence).
          assert (Z1 : forall c, z g' c = (- x g' c)%R) by (intros; unfold z; rewrite F; auto).
          assert (E : lhs z g' c' = (- lhs x g' c')%R).
          { unfold lhs. rewrite Z1.
            assert (L0 : leakage m (cur m (D g') be (z g')) c' = (- leakage m (cur m (D g') be (x g')) c')%R).
            { unfold leakage. cbn [rsum]. rewrite !(@cur_lin (-1) 0 (D g') (x g') (x g') (z g')) by (intros; rewrite Z1; ring). unfold Rdiv. ring. }
            assert (R0 : rsum G (fun gp => T g' gp c' * z gp c')%R = (-1 * rsum G (fun gp => T g' gp c' * x gp c'))%R).
            { rewrite <- rsum_scal. apply rsum_ext. intros gp Hgp. unfold z. destruct (b gp) eqn:FG; [|ring].
              assert (TQ := @TP g' gp c' Hg' Hgp Hc'). destruct TQ as [TQ|TQ]; [|rewrite <- TQ; ring].
              exfalso. apply NF'. eapply fed_transfer; eauto. apply B; auto. }
            rewrite L0, R0. ring. }
          rewrite E. assert (Y := YP Hg' Hc'). destruct Y as [Y|Y]; [exfalso; apply NF'; eapply fed_source; eauto|]. lra. }
      assert (XG := XP g c Hg Hc). unfold z in ZP. destruct (b g) eqn:F; [|lra]. apply B in F; auto. contradiction.
    Qed.
  End Reach.
End Mm.
