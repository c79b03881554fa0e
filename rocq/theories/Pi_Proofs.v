(** * Pi_Proofs *)
From Verif Require Import Base BaseR Loop Util_Model Angle_Model Boundary_Model Boundary_Spec Mesh_Model Material_Model Material_Spec
  Source_Model Source_Spec Source_Proofs Cell_Spec Sweep_Model Sweep_Spec Iter_Model Iter_Spec Pi_Spec Iter_Proofs Power_Proofs.
Set Implicit Arguments. Unset Strict Implicit.
Open Scope nat_scope.

Arguments ms_ready {nc Inv mg} _ [t].
Arguments ms_solve {nc Inv mg} _ [t].
Arguments ms_fission {nc Inv mg} _ [t q].

Lemma nth_map A B (f : A -> B) l i d d' : i < length l -> nth i (map f l) d' = f (nth i l d).
Proof. intros H. rewrite nth_indep with (d' := f d) by (rewrite map_length; auto). apply map_nth. Qed.

(** ** Norms *)
Lemma fold_abs (l : list R) v : fold_left (fun v a => v + Rabs a)%R l v = (v + sumR (map Rabs l))%R.
Proof. apply (@fold_left_Rplus _ Rabs). Qed.
Lemma fold_dist (l : list (R * R)) v : fold_left (fun v p => v + Rabs (fst p - snd p))%R l v =
  (v + sumR (map (fun p => Rabs (fst p - snd p)) l))%R.
Proof. apply (@fold_left_Rplus _ (fun p => Rabs (fst p - snd p))). Qed.
Lemma norm_size f : norm f L1 = Ok (size f).
Proof.
  cbn [norm]. f_equal. rewrite fold_abs, Rplus_0_l, sumR_nth, map_length. unfold size, at_. apply rsum_ext. intros i Hi.
  rewrite nth_indep with (d' := Rabs 0) by (rewrite map_length; auto). apply map_nth.
Qed.
Lemma norm_distance f f' : length f = length f' -> norm_residual f f' L1 = Ok (distance f f').
Proof.
  intros L. cbn [norm_residual]. f_equal. rewrite fold_dist, Rplus_0_l, sumR_nth, map_length, combine_length, <- L, Nat.min_id.
  unfold distance, at_. apply rsum_ext. intros i Hi.
  rewrite nth_map with (d := (0, 0)%R) by (rewrite combine_length; lia). rewrite combine_nth by auto. reflexivity.
Qed.
Lemma relaxed_ok omega f f' : length f = length f' ->
  (if Req_EM_T omega 1 then f else map (fun p => (omega * fst p + (1 - omega) * snd p)%R) (combine f f')) = relaxed omega f f'.
Proof.
  intros L. unfold relaxed. destruct (Req_EM_T omega 1) as [->|N].
  - apply list_ext_nth with (d := 0%R); [rewrite map_length, seq_length; auto|]. intros i Hi. rewrite nth_map_seq by auto. unfold at_. ring.
  - apply list_ext_nth with (d := 0%R); [rewrite !map_length, combine_length, seq_length; lia|].
    rewrite map_length, combine_length, <- L, Nat.min_id. intros i Hi. rewrite nth_map_seq by auto.
    rewrite nth_map with (d := (0, 0)%R) by (rewrite combine_length; lia). rewrite combine_nth by auto. reflexivity.
Qed.
Lemma relaxed_length omega f f' : length (relaxed omega f f') = length f.
Proof. unfold relaxed. rewrite map_length, seq_length. auto. Qed.
Lemma relaxed_one f f' : relaxed 1 f f' = f.
Proof.
  unfold relaxed. apply list_ext_nth with (d := 0%R); [rewrite map_length, seq_length; auto|]. rewrite map_length, seq_length.
  intros i Hi. rewrite nth_map_seq by auto. unfold at_. ring.
Qed.
Lemma size_nonneg f : (0 <= size f)%R.
Proof. apply rsum_nonneg. intros. apply Rabs_pos. Qed.

(** ** The initial density *)
Lemma initialize_ok x : problem (fsrc x) -> length (dens x) = cells (fsrc x) ->
  let flat := map (fun c => rsum (ng (mat (fsrc x))) (fun g => nsf (mat (fsrc x)) g (mat_of (fsrc x) c))) (seq 0 (cells (fsrc x))) in
  fis_initialize x = Ok (with_dens x (map (fun v => v / size flat)%R flat)).
Proof.
  intros P HL flat. set (y := fsrc x) in *. unfold fis_initialize. cbv zeta. fold y.
  set (v := fun c => rsum (ng (mat y)) (fun g => nsf (mat y) g (mat_of y c))) in *.
  set (body := fun c d => do d0 <- wr d c 0%R; for_ 0 (ng (mat y)) d0 (fun g d1 =>
     do w <- nsf_at y c g; do z <- rd d1 c; wr d1 c (z + w)%R)).
  destruct (@for_inv _ (fun n d => length d = cells y /\ forall c, c < n -> c < cells y -> nth c d 0%R = v c)
    0 (cells y) (dens x) body) as (d & E & L & D).
  - lia.
  - split; auto. intros; lia.
  - intros c d Hc [L D]. unfold body. unfold wr at 1. rewrite L, (proj2 (Nat.ltb_lt c _)) by lia. cbn [bind].
    destruct (@for_inv _ (fun n d' => length d' = cells y /\ (forall c', c' <> c -> nth c' d' 0%R = nth c' d 0%R) /\
       nth c d' 0%R = rsum n (fun g => nsf (mat y) g (mat_of y c))) 0 (ng (mat y)) (upd d c 0%R)
       (fun g d1 => do w <- nsf_at y c g; do z <- rd d1 c; wr d1 c (z + w)%R)) as (d' & E' & L' & D1 & D2).
    + lia.
    + rewrite upd_length. split; auto. split; [intros; apply nth_upd_neq; auto|]. rewrite nth_upd_eq by lia. reflexivity.
    + intros g d' Hg (L' & D1 & D2). rewrite nsf_at_ok by (auto; lia). cbn [bind].
      rewrite (@rd_ok _ d' c 0%R) by lia. cbn [bind]. unfold wr. rewrite L', (proj2 (Nat.ltb_lt c _)) by lia.
      eexists. split; [reflexivity|]. rewrite upd_length. split; auto. split.
      * intros c' Hc'. rewrite nth_upd_neq by auto. auto.
      * rewrite nth_upd_eq by lia. rewrite D2. reflexivity.
    + exists d'. split; auto. split; auto. intros c' Hc' Hc''. destruct (Nat.eq_dec c' c) as [->|Ne]; auto.
      rewrite D1 by auto. apply D; lia.
  - first [rewrite E | unfold body in E; rewrite E]. cbn [bind]. f_equal.
    assert (ED : d = flat).
    { apply list_ext_nth with (d := 0%R); [unfold flat; rewrite map_length, seq_length; auto|]. intros i Hi. unfold flat. rewrite nth_map_seq by lia. apply D; lia. }
    rewrite ED. pose proof (norm_size flat) as N. cbn [norm] in N. injection N as N. rewrite N.
    f_equal. apply map_ext. intros a. unfold Rdiv. ring.
Qed.

Section Pi.
Variables (nc : nat) (Inv : tstate -> Prop) (mg : tstate -> res tstate).
Hypothesis (MS : mg_solver nc Inv mg).

Lemma put_density t q : density (put_fission t q) = dens q. Proof. reflexivity. Qed.
Lemma inv_density t : Inv t -> length (density t) = nc.
Proof. intros I. destruct (ms_ready MS I) as (_ & _ & q & E & _ & L & _). unfold density. rewrite E. auto. Qed.

(** One pass through the loop body. *)
Lemma outer_ok k t : Inv t -> exists q q1 t1 q2 q3, pi_fission t = Ok q /\ dens q = density t /\ fis_setup_outer q (1 / k)%R = Ok q1 /\
  mg (put_fission t q1) = Ok t1 /\ pi_fission t1 = Ok q2 /\ fis_update q2 = Ok q3 /\ Inv (put_fission t1 q3) /\
  outer nc mg k t (put_fission t q1) t1 (put_fission t1 q3).
Proof.
  intros I. destruct (ms_ready MS I) as (P & EC & q & EF & E1 & E2 & E3 & E4).
  destruct (@fis_outer_ok q (1 / k)%R) as (q1 & O1 & O2 & O3 & O4 & O5 & O6); rewrite ?E1, ?EC; auto; [lia|].
  assert (SH : shared_fission nc (ssrc (t_x t)) q1).
  { split; [congruence|]. split; [congruence|]. rewrite E1 in O5, O6. split; auto. intros g Hg. rewrite <- EC. apply O6; auto. }
  assert (I1 : Inv (put_fission t q1)) by (apply (ms_fission MS); auto).
  destruct (ms_solve MS I1) as (t1 & M1 & I2).
  destruct (ms_ready MS I2) as (P' & EC' & q2 & EF' & E1' & E2' & E3' & E4').
  destruct (@fis_update_ok q2) as (q3 & U1 & U2 & U3 & U4 & U5 & U6); rewrite ?E1', ?EC'; auto; [lia|].
  exists q, q1, t1, q2, q3. unfold pi_fission. rewrite EF, EF'. repeat (split; [auto; fail|]).
  split; [unfold density; rewrite EF; auto|]. split; auto. split; auto. split; auto. split; auto.
  split.
  - apply (ms_fission MS); auto. split; [congruence|]. split; [congruence|]. rewrite U3. auto.
  - constructor.
    + exists q1. split; auto. split; auto. split; [unfold density; rewrite EF; auto|]. intros g c Hg Hc.
      rewrite E1 in O6. destruct (O6 g Hg) as (_ & O7). rewrite O7 by (rewrite EC; auto). unfold density, spectrum, at_. rewrite EF. auto.
    + auto.
    + exists q3. split; auto. rewrite put_density. apply list_ext_nth with (d := 0%R); [rewrite map_length, seq_length; congruence|].
      rewrite U5, E2'. intros c Hc. rewrite nth_map_seq by auto. rewrite U6 by (rewrite E1', EC'; auto). rewrite E1'. reflexivity.
Qed.

Lemma loop_step omega tol n t k e : Inv t -> exists t' s t1, Inv t' /\ outer nc mg k t s t1 t' /\
  let fd := relaxed omega (density t') (density t) in let k' := (k * size fd / size (density t))%R in let d := distance fd (density t) in
  pi_loop mg omega tol (S n) t k e = if Rlt_dec d tol then Ok (t', k', Some d) else pi_loop mg omega tol n t' k' (Some d).
Proof.
  intros I. destruct (outer_ok k I) as (q & q1 & t1 & q2 & q3 & A1 & A2 & A3 & A4 & A5 & A6 & A7 & A8).
  exists (put_fission t1 q3), (put_fission t q1), t1. split; auto. split; auto. cbv zeta.
  cbn [pi_loop]. rewrite A1. cbn [bind]. rewrite A3. cbn [bind]. rewrite A4. cbn [bind]. rewrite A5. cbn [bind]. rewrite A6. cbn [bind].
  pose proof (inv_density I) as L1. pose proof (inv_density A7) as L2. rewrite put_density in *. rewrite A2.
  rewrite relaxed_ok by congruence. rewrite !norm_size. cbn [bind]. rewrite norm_distance by (rewrite relaxed_length; congruence). cbn [bind]. reflexivity.
Qed.

Lemma pi_loop_ok omega tol : forall n t k e, Inv t -> 0 < n -> exists t' k' d m Z K, pi_loop mg omega tol n t k e = Ok (t', k', Some d) /\
  Z 0 = t /\ K 0 = k /\ Z m = t' /\ K m = k' /\ 0 < m <= n /\ (forall i, i <= m -> Inv (Z i)) /\
  (forall i, i < m -> exists s t1, outer nc mg (K i) (Z i) s t1 (Z (S i))) /\
  (forall i, i < m -> K (S i) = (K i * size (relaxed omega (density (Z (S i))) (density (Z i))) / size (density (Z i)))%R) /\
  (forall i, S i < m -> (tol <= distance (relaxed omega (density (Z (S i))) (density (Z i))) (density (Z i)))%R) /\
  (m < n -> (distance (relaxed omega (density (Z m)) (density (Z (m - 1)%nat))) (density (Z (m - 1)%nat)) < tol)%R).
Proof.
  induction n as [|n IH]; intros t k e I Hn; [lia|].
  destruct (@loop_step omega tol n t k e I) as (t' & s & t1 & I' & OU & E). cbv zeta in E. rewrite E. clear E.
  set (fd := relaxed omega (density t') (density t)) in *. set (k' := (k * size fd / size (density t))%R). set (d := distance fd (density t)).
  assert (ONE : exists Z K, Z 0 = t /\ K 0 = k /\ Z 1 = t' /\ K 1 = k' /\ (forall i, i <= 1 -> Inv (Z i)) /\
    (forall i, i < 1 -> exists s t1, outer nc mg (K i) (Z i) s t1 (Z (S i))) /\
    (forall i, i < 1 -> K (S i) = (K i * size (relaxed omega (density (Z (S i))) (density (Z i))) / size (density (Z i)))%R)).
  { exists (fun i => match i with 0 => t | _ => t' end), (fun i => match i with 0 => k | _ => k' end). cbn. do 4 (split; [auto; fail|]).
    split; [intros [|i] Hi; auto|]. split; [intros i Hi; replace i with 0 by lia; eauto|]. intros i Hi. replace i with 0 by lia. reflexivity. }
  destruct (Rlt_dec d tol) as [Lt|Ge].
  - destruct ONE as (Z & K & Z0 & K0 & Z1 & K1 & O1 & O2 & O3).
    exists t', k', d, 1, Z, K. do 5 (split; [auto; fail|]). split; [lia|]. do 3 (split; [auto; fail|]). split; [intros; lia|].
    intros _. cbn [Nat.sub]. rewrite Z0, Z1. auto.
  - destruct n as [|n].
    + destruct ONE as (Z & K & Z0 & K0 & Z1 & K1 & O1 & O2 & O3).
      exists t', k', d, 1, Z, K. split; [reflexivity|]. do 4 (split; [auto; fail|]). split; [lia|]. do 3 (split; [auto; fail|]). split; intros; lia.
    + destruct (IH t' k' (Some d) I' ltac:(lia)) as (t2 & k2 & d2 & m & Z & K & E & Z0 & K0 & Zm & Km & Hm & J1 & J2 & J3 & J4 & J5).
      exists t2, k2, d2, (S m), (fun i => match i with 0 => t | S i => Z i end), (fun i => match i with 0 => k | S i => K i end).
      split; [exact E|]. do 4 (split; [auto; fail|]). split; [lia|].
      split; [intros [|i] Hi; auto; apply J1; lia|].
      split; [intros [|i] Hi; [rewrite Z0; eauto|apply J2; lia]|].
      split; [intros [|i] Hi; [rewrite Z0, K0; reflexivity|apply J3; lia]|].
      split; [intros [|i] Hi; [rewrite Z0; fold fd; fold d; lra|apply J4; lia]|].
      intros Hm'. replace (S m - 1) with (S (m - 1)) by lia. apply J5. lia.
Qed.

Theorem pi_ok omega tol max t : Inv t -> 0 < max -> exists t' keff n Z k, pi_solve mg omega tol max t = Ok (t', keff) /\
  pi_history nc mg omega tol max t t' keff n Z k /\ forall i, i <= n -> Inv (Z i).
Proof.
  intros I Hm. destruct (ms_ready MS I) as (P & EC & q & EF & E1 & E2 & E3 & E4).
  unfold pi_solve, pi_fission. rewrite EF. cbn [bind]. rewrite initialize_ok by (rewrite E1; auto; congruence). cbn [bind].
  set (q1 := with_dens q _). assert (SH : shared_fission nc (ssrc (t_x t)) q1).
  { unfold q1. split; [exact E1|]. cbn. split; [rewrite !map_length, seq_length, E1; auto|]. auto. }
  assert (I1 : Inv (put_fission t q1)) by (apply (ms_fission MS); auto).
  destruct (@pi_loop_ok omega tol max (put_fission t q1) 1%R None I1 Hm) as (t' & k' & d & n & Z & K & E & Z0 & K0 & Zm & Km & Hn & J1 & J2 & J3 & J4 & J5).
  rewrite E. cbn [bind]. exists t', k', n, Z, K. split; auto. split; auto. constructor; auto.
  split; auto. rewrite Z0. exists q1. split; auto. rewrite put_density. unfold q1. cbn [dens with_dens]. rewrite E1. reflexivity.
Qed.

(** No iteration: the error that is tested afterwards was never set. *)
Theorem pi_none omega tol t : Inv t -> pi_solve mg omega tol 0 t = UB.
Proof.
  intros I. destruct (ms_ready MS I) as (P & EC & q & EF & E1 & E2 & E3 & E4).
  unfold pi_solve, pi_fission. rewrite EF. cbn [bind]. rewrite initialize_ok by (rewrite E1; auto; congruence). reflexivity.
Qed.

(** ** Without relaxation *)
Lemma unit_keff tol max t t' keff n Z k : pi_history nc mg 1 tol max t t' keff n Z k -> forall i, i < n ->
  k (S i) = (k i * size (density (Z (S i))) / size (density (Z i)))%R.
Proof. intros H i Hi. rewrite (ph_keff _ _ _ _ _ _ _ _ _ _ _ H i Hi), relaxed_one. auto. Qed.
Theorem pi_ratio tol max t t' keff n Z k : pi_history nc mg 1 tol max t t' keff n Z k ->
  (forall i, i < n -> size (density (Z i)) <> 0%R) ->
  (keff * size (density (Z 0%nat)) = size (density t'))%R /\ (keff * size (density (Z (n - 1)%nat)) = k (n - 1)%nat * size (density t'))%R.
Proof.
  intros H NZ. pose proof H as [ (_ & K0) (EZ & EK) Hn _ _ _ _ ].
  assert (A : forall i, i <= n -> (k i * size (density (Z 0%nat)) = size (density (Z i)))%R).
  { induction i; intros Hi; [rewrite K0; ring|]. rewrite (unit_keff H) by lia. specialize (IHi ltac:(lia)). specialize (NZ i Hi).
    replace (k i * size (density (Z (S i))) / size (density (Z i)) * size (density (Z 0%nat)))%R
      with ((k i * size (density (Z 0%nat))) * size (density (Z (S i))) / size (density (Z i)))%R by (unfold Rdiv; ring).
    rewrite IHi. field. auto. }
  split; [rewrite <- EK, <- EZ; apply A; auto|].
  pose proof (unit_keff H (i := n - 1) ltac:(lia)) as B. replace (S (n - 1)) with n in B by lia.
  rewrite <- EK, <- EZ, B. field. apply NZ. lia.
Qed.
(** The initial density has size one. *)
Lemma size_scaled f v : size (map (fun a => a * v)%R f) = (size f * Rabs v)%R.
Proof.
  unfold size. rewrite map_length, <- rsum_scal_r. apply rsum_ext. intros i Hi. unfold at_.
  rewrite nth_map with (d := 0%R) by auto. apply Rabs_mult.
Qed.
Lemma initial_size t t0 : initial t t0 -> (exists c g, c < cells (ssrc (t_x t)) /\ g < ng (mat (ssrc (t_x t))) /\
    nsf (mat (ssrc (t_x t))) g (mat_of (ssrc (t_x t)) c) <> 0%R) -> (forall g k, 0 <= nsf (mat (ssrc (t_x t))) g k)%R -> size (density t0) = 1%R.
Proof.
  intros (q & _ & ->) (c & g & Hc & Hg & N) NN. set (x := ssrc (t_x t)) in *.
  set (flat := map (fun c => rsum (ng (mat x)) (fun g => nsf (mat x) g (mat_of x c))) (seq 0 (cells x))).
  assert (SP : (0 < size flat)%R).
  { assert (LF : length flat = cells x) by (unfold flat; rewrite map_length, seq_length; auto).
    apply Rlt_le_trans with (Rabs (at_ flat c)).
    - unfold at_, flat. rewrite nth_map_seq by auto. apply Rlt_le_trans with (rsum (ng (mat x)) (fun g => nsf (mat x) g (mat_of x c))); [|apply Rle_abs].
      apply Rlt_le_trans with (nsf (mat x) g (mat_of x c)); [specialize (NN g (mat_of x c)); lra|].
      apply (@term_le (ng (mat x)) (fun g => nsf (mat x) g (mat_of x c))); auto. intros g' _. apply NN.
    - unfold size. rewrite LF. apply (@term_le (cells x) (fun c => Rabs (at_ flat c))); auto. intros c' _. apply Rabs_pos. }
  unfold Rdiv. rewrite size_scaled, Rabs_pos_eq by (apply Rlt_le, Rinv_0_lt_compat; auto). field. lra.
Qed.

(** ** With a fission operator *)
Section Operator.
Variable (a : nat -> nat -> R).
Hypothesis (AA : acts_as nc Inv mg a).

Lemma density_step k t s t1 t' : Inv t -> Inv t' -> outer nc mg k t s t1 t' -> density t' = map (fun v => 1 / k * v)%R (times nc a (density t)).
Proof.
  intros I I' OU. apply list_ext_nth with (d := 0%R); [unfold times; rewrite !map_length, seq_length; apply inv_density; auto|].
  rewrite (inv_density I'). intros c Hc. unfold times. rewrite map_map, nth_map_seq by auto. apply (AA I OU Hc).
Qed.
Lemma size_map v f : size (map (fun a => v * a)%R f) = (Rabs v * size f)%R.
Proof.
  unfold size. rewrite map_length, <- rsum_scal. apply rsum_ext. intros i Hi. unfold at_.
  rewrite nth_map with (d := 0%R) by auto. apply Rabs_mult.
Qed.
(** Every eigenvalue is the ratio of production after and before. *)
Theorem pi_production tol max t t' keff n Z k : pi_history nc mg 1 tol max t t' keff n Z k -> (forall i, i <= n -> Inv (Z i)) ->
  (forall i, i < n -> size (times nc a (density (Z i))) <> 0%R /\ size (density (Z i)) <> 0%R) ->
  forall i, i < n -> (0 < k i)%R /\ k (S i) = (size (times nc a (density (Z i))) / size (density (Z i)))%R.
Proof.
  intros H II NZ. pose proof H as [ (_ & K0) _ _ ST _ _ _ ].
  assert (A : forall i, i < n -> (0 < k i)%R -> k (S i) = (size (times nc a (density (Z i))) / size (density (Z i)))%R /\ (0 < k (S i))%R).
  { intros i Hi Pi. destruct (ST i Hi) as (s & t1 & OU). rewrite (unit_keff H) by auto.
    rewrite (density_step (II i ltac:(lia)) (II (S i) ltac:(lia)) OU), size_map.
    destruct (NZ i Hi) as (N1 & N2). pose proof (size_nonneg (times nc a (density (Z i)))). pose proof (size_nonneg (density (Z i))).
    assert (0 < 1 / k i)%R by (apply Rdiv_lt_0_compat; lra). rewrite Rabs_pos_eq by lra.
    assert (E : (k i * (1 / k i * size (times nc a (density (Z i)))) / size (density (Z i)) = size (times nc a (density (Z i))) / size (density (Z i)))%R) by (field; lra).
    rewrite E. split; auto. apply Rdiv_lt_0_compat; lra. }
  assert (B : forall i, i <= n -> (0 < k i)%R).
  { induction i; intros Hi; [rewrite K0; lra|]. apply A; auto. apply IHi. lia. }
  intros i Hi. split; [apply B; lia|]. apply A; auto. apply B. lia.
Qed.
(** An eigenvector is kept, and its eigenvalue is found at once. *)
Theorem pi_fixed tol max t t' keff n Z k l : pi_history nc mg 1 tol max t t' keff n Z k -> (forall i, i <= n -> Inv (Z i)) ->
  times nc a (density (Z 0%nat)) = map (fun v => l * v)%R (density (Z 0%nat)) -> (0 < l)%R -> size (density (Z 0%nat)) <> 0%R ->
  keff = l /\ density t' = map (fun v => l * v)%R (density (Z 0%nat)) /\ ((0 < tol)%R -> n <= 2).
Proof.
  intros H II EV Hl NZ. pose proof H as [ (_ & K0) (EZ & EK) Hn ST KE GO SP ].
  set (f := density (Z 0%nat)) in *.
  assert (EL : times nc a (map (fun v => l * v)%R f) = map (fun v => l * v)%R (map (fun v => l * v)%R f)).
  { rewrite <- EV at 1. rewrite <- EV at 1. unfold times at 1 3. rewrite map_map. apply map_ext_in. intros c Hc. apply in_seq in Hc.
    rewrite <- rsum_scal. rewrite EV. apply rsum_ext. intros j Hj. unfold at_.
    assert (Lf : length f = nc) by (apply inv_density; apply II; lia).
    rewrite nth_map with (d := 0%R) by lia. ring. }
  assert (A : forall i, i < n -> k (S i) = l /\ density (Z (S i)) = map (fun v => l * v)%R f).
  { induction i; intros Hi.
    - destruct (ST 0 Hi) as (s & t1 & OU). pose proof (density_step (II 0 ltac:(lia)) (II 1 ltac:(lia)) OU) as D. fold f in D. rewrite K0, EV in D.
      assert (D' : density (Z 1) = map (fun v => l * v)%R f).
      { rewrite D, map_map. apply map_ext. intros v. field. }
      split; auto. rewrite (unit_keff H) by auto. rewrite D', size_map, K0. fold f. rewrite Rabs_pos_eq by lra. field. auto.
    - destruct (IHi ltac:(lia)) as (KI & DI). destruct (ST (S i) Hi) as (s & t1 & OU).
      pose proof (density_step (II (S i) ltac:(lia)) (II (S (S i)) ltac:(lia)) OU) as D. rewrite KI, DI, EL in D.
      assert (D' : density (Z (S (S i))) = map (fun v => l * v)%R f).
      { rewrite D, !map_map. apply map_ext. intros v. field. lra. }
      split; auto. rewrite (unit_keff H) by auto. rewrite D', DI, KI.
      assert (size (map (fun v => l * v)%R f) <> 0%R) by (rewrite size_map, Rabs_pos_eq by lra; nra). field. auto. }
  replace n with (S (n - 1)) in EZ, EK by lia. destruct (A (n - 1) ltac:(lia)) as (A1 & A2).
  split; [congruence|]. split; [rewrite <- EZ; auto|]. intros Ht.
  destruct (le_lt_dec n 2) as [|G]; auto. exfalso. specialize (GO 1 G). rewrite relaxed_one in GO.
  destruct (A 0 ltac:(lia)) as (_ & D1). destruct (A 1 ltac:(lia)) as (_ & D2). rewrite D1, D2 in GO. unfold distance in GO.
  rewrite (@rsum_zero (length (map (fun v => l * v)%R f))) in GO; [lra|]. intros c Hc. rewrite Rminus_diag_eq by auto. apply Rabs_R0.
Qed.
(** When it stops early the density is an eigenvector up to the tolerance. *)
Theorem pi_residual tol max t t' keff n Z k : pi_history nc mg 1 tol max t t' keff n Z k -> (forall i, i <= n -> Inv (Z i)) ->
  (forall i, i < n -> size (times nc a (density (Z i))) <> 0%R /\ size (density (Z i)) <> 0%R) -> n < max ->
  (distance (times nc a (density (Z (n - 1)%nat))) (map (fun v => k (n - 1)%nat * v)%R (density (Z (n - 1)%nat))) < k (n - 1)%nat * tol)%R.
Proof.
  intros H II NZ Hn. pose proof H as [ (_ & K0) (EZ & EK) Hn' ST _ _ SP ]. specialize (SP Hn). rewrite relaxed_one in SP.
  destruct (@pi_production tol max t t' keff n Z k H II NZ (n - 1)%nat ltac:(lia)) as (KP & _).
  destruct (ST (n - 1) ltac:(lia)) as (s & t1 & OU). replace (S (n - 1)) with n in OU by lia.
  rewrite (density_step (II (n - 1) ltac:(lia)) (II n ltac:(lia)) OU) in SP.
  apply Rmult_lt_compat_l with (r := k (n - 1)%nat) in SP; auto. eapply Rle_lt_trans; [|exact SP]. right.
  assert (L : length (density (Z (n - 1)%nat)) = nc) by (apply inv_density; apply II; lia).
  unfold distance. rewrite map_length, <- rsum_scal. apply rsum_ext. intros c Hc.
  match goal with |- _ = (?x * Rabs ?y)%R => replace (x * Rabs y)%R with (Rabs (x * y)) by (rewrite Rabs_mult, (Rabs_pos_eq x); lra) end. f_equal. unfold times in Hc. rewrite map_length, seq_length in Hc. unfold at_ at 2 3 4.
  rewrite nth_map with (d := 0%R) by lia. rewrite nth_map with (d := 0%R) by (unfold times; rewrite map_length, seq_length; auto).
  fold (at_ (times nc a (density (Z (n - 1)%nat))) c). field. lra.
Qed.
End Operator.
End Pi.
