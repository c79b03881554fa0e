From Verif Require Import Base BaseR Util_Model Mesh_Model Mesh_Spec Mesh_Proofs Material_Model Material_Spec Matrix_Model Matrix_Spec Matrix_Proofs.
From Verif Require Import Vector_Model Vector_Proofs Diffusion_Model Diffusion_Spec Diffusion_Proofs Dsolve_Model Dsolve_Spec Dsolve_Proofs Dsolve_Proofs2 Dsolve_Proofs3.
From Verif Require Import Dpos_Spec Dpos_Proofs Dpos_Proofs2 Cpow_Model Cpow_Spec Cpow_Proofs Cpow_Proofs2 Ediff_Model Ediff_Spec.
From Coq Require Import Lra Classical.
Set Implicit Arguments. Unset Strict Implicit.
Open Scope nat_scope.

Lemma choose_all A (Q : nat -> A -> Prop) (a0 : A) N : (forall i, i < N -> exists a, Q i a) -> exists f, forall i, i < N -> Q i (f i).
Proof.
  induction N as [|N IH]; intros H.
  - exists (fun _ => a0). lia.
  - destruct IH as (f & F). { intros; apply H; lia. } destruct (H N) as (a & A1); [lia|].
    exists (fun i => if i =? N then a else f i). intros i Hi. destruct (Nat.eqb_spec i N) as [->|NE]; [auto|]. apply F. lia.
Qed.
Lemma bound_all N (f : nat -> R) : exists M, (0 < M)%R /\ forall i, i < N -> (f i <= M)%R.
Proof.
  induction N as [|N (M & P & H)]; [exists 1%R; split; [lra|lia]|]. exists (Rmax M (f N)). split.
  - eapply Rlt_le_trans; [exact P|apply Rmax_l].
  - intros i Hi. destruct (Nat.eq_dec i N) as [->|NE]; [apply Rmax_r|]. eapply Rle_trans; [apply H; lia|apply Rmax_l].
Qed.
Lemma least_all N (Q : nat -> Prop) (f : nat -> R) : (exists i, i < N /\ Q i) -> exists j, j < N /\ Q j /\ forall i, i < N -> Q i -> (f j <= f i)%R.
Proof.
  induction N as [|N IH]; intros (i & Hi & QI); [lia|].
  destruct (classic (exists i, i < N /\ Q i)) as [EX|NX].
  - destruct (IH EX) as (j & Hj & QJ & LE). destruct (classic (Q N)) as [QN|NQ].
    + destruct (Rle_dec (f j) (f N)) as [L|L].
      * exists j. split; [lia|]. split; [auto|]. intros k Hk QK. destruct (Nat.eq_dec k N); [subst; auto|]. apply LE; auto. lia.
      * exists N. split; [lia|]. split; [auto|]. intros k Hk QK. destruct (Nat.eq_dec k N); [subst; lra|].
        assert (f j <= f k)%R by (apply LE; auto; lia). lra.
    + exists j. split; [lia|]. split; [auto|]. intros k Hk QK. destruct (Nat.eq_dec k N); [subst; contradiction|]. apply LE; auto. lia.
  - exists i. assert (i = N) by (destruct (Nat.eq_dec i N); auto; exfalso; apply NX; exists i; split; [lia|auto]). subst i.
    split; [lia|]. split; [auto|]. intros k Hk QK. destruct (Nat.eq_dec k N); [subst; lra|]. exfalso. apply NX. exists k. split; [lia|auto].
Qed.

(** ** Eigenvectors of mixing matrices *)
Lemma mixing_unique n T e u d l w w' : mixing n T e u d -> (0 < l)%R -> eigenpair n T l w -> eigenpair n T l w' ->
  forall i, i < n -> nth i w 0%R = nth i w' 0%R.
Proof.
  intros (D & E0 & U0 & B & _) L (LW & WN & WS & WE) (LW' & WN' & WS' & WE').
  assert (NZ : exists i, i < n /\ (0 < nth i w' 0)%R).
  { apply NNPP. intros NX. assert (size1 n w' = 0%R); [|lra]. apply rsum_zero. intros i Hi.
    assert (nth i w' 0 = 0)%R; [|rewrite H; apply Rabs_R0]. destruct (WN' i Hi); auto. exfalso. apply NX. exists i. auto. }
  destruct (@least_all n (fun i => (0 < nth i w' 0)%R) (fun i => (nth i w 0 / nth i w' 0)%R) NZ) as (c & Hc & PC & LE).
  set (t := (nth c w 0 / nth c w' 0)%R) in *.
  set (z := fun i => (nth i w 0 - t * nth i w' 0)%R).
  assert (ZN : forall i, i < n -> (0 <= z i)%R).
  { intros i Hi. unfold z. destruct (WN' i Hi) as [P|P].
    - assert (H := LE i Hi P). apply (Rmult_le_compat_r (nth i w' 0%R)) in H; [|lra].
      replace (nth i w 0 / nth i w' 0 * nth i w' 0)%R with (nth i w 0%R) in H by (field; lra). lra.
    - rewrite <- P. specialize (WN i Hi). lra. }
  assert (ZE : forall i, i < n -> rsum n (fun j => T i j * z j)%R = (l * z i)%R).
  { intros i Hi. unfold z. specialize (WE i Hi). specialize (WE' i Hi). unfold image in WE, WE'.
    rewrite (@rsum_ext n _ (fun j => T i j * nth j w 0 + - t * (T i j * nth j w' 0))%R) by (intros; ring).
    rewrite rsum_plus, rsum_scal, WE, WE'. ring. }
  assert (ZC : z c = 0%R) by (unfold z, t; field; lra).
  assert (UZ : rsum n (fun j => u j * z j)%R = 0%R).
  { assert (SN : (0 <= rsum n (fun j => u j * z j))%R) by (apply rsum_nonneg; intros; apply Rmult_le_pos; auto).
    assert (EC : (0 < e c)%R).
    { destruct (E0 c Hc) as [P|P]; auto. exfalso. assert (nth c w' 0 = 0)%R; [|lra].
      assert (H : image n T w' c = 0%R).
      { apply rsum_zero. intros j Hj. assert (T c j = 0)%R; [|rewrite H; ring]. destruct (B c j Hc Hj). rewrite <- P in *. lra. }
      rewrite WE' in H by auto. apply Rmult_integral in H. destruct H; lra. }
    assert (LB : (d * e c * rsum n (fun j => u j * z j) <= rsum n (fun j => T c j * z j))%R).
    { rewrite <- rsum_scal. apply rsum_le. intros j Hj. destruct (B c j Hc Hj) as (B1 & _).
      replace (d * e c * (u j * z j))%R with (d * (e c * u j) * z j)%R by ring. apply Rmult_le_compat_r; auto. }
    rewrite ZE, ZC, Rmult_0_r in LB by auto. assert (0 < d * e c)%R by (apply Rmult_lt_0_compat; lra). nra. }
  assert (Z : forall i, i < n -> z i = 0%R).
  { intros i Hi. assert (UB : (rsum n (fun j => T i j * z j) <= e i * rsum n (fun j => u j * z j))%R).
    { rewrite <- rsum_scal. apply rsum_le. intros j Hj. destruct (B i j Hi Hj) as (_ & B1).
      replace (e i * (u j * z j))%R with (e i * u j * z j)%R by ring. apply Rmult_le_compat_r; auto. }
    rewrite ZE, UZ, Rmult_0_r in UB by auto. specialize (ZN i Hi). nra. }
  assert (TE : t = 1%R).
  { unfold size1 in WS, WS'. rewrite (@rsum_ext n _ (fun i => t * Rabs (nth i w' 0))%R) in WS.
    - rewrite rsum_scal, WS' in WS. lra.
    - intros i Hi. specialize (Z i Hi). unfold z in Z. rewrite !Rabs_pos_eq by auto. lra. }
  intros i Hi. specialize (Z i Hi). unfold z in Z. rewrite TE in Z. lra.
Qed.

Section E.
  Variable P : dprob.
  Hypothesis PK : prob_ok P.
  Hypothesis AB : absorbing P 1.
  Let m := q_mesh P.
  Let n := ncells m.
  Let x := q_mat P.
  Let G := ng x.
  Let be := albedo (dim m) (q_bc P) (q_zero P).
  Let D (g c : nat) := dc x g (mt m c).
  Let L := lhs m G D be (fun g c => st x g (mt m c)) (xfer P 1).
  Variable srt : list triplet -> list triplet.
  Hypothesis SRT : is_sort srt.

  Lemma keffs_one : keffs_ok P [1%R].
  Proof. right. intros k [H|[]]. auto. Qed.
  Lemma source_call q : call_ok P (source_of P q).
  Proof. split; split; auto. Qed.
  Lemma feed_source q g c : feed P (source_of P q) g c = q g c.
  Proof.
    unfold feed. assert (V : vsource P (source_of P q) c g = q g c) by (unfold vsource, source_of; cbn; ring). rewrite V.
    rewrite rsum_zero; [ring|]. intros a Ha. apply rsum_zero. intros dir Hd. destruct (on_edge _ _ _); auto.
    unfold bterm, source_of. cbn [i_in]. rewrite face_zero by auto. unfold Rdiv. ring.
  Qed.

  (** Solutions of the equations are what the solver returns. *)
  Lemma solves_returned q phi : (forall g c, g < G -> c < n -> L phi g c = q g c) -> returned P (source_of P q) 1 phi.
  Proof.
    intros H. destruct (returned_exists PK AB SRT keffs_one (source_call q)) as (psi & R).
    assert (S1 := returned_solves PK R).
    assert (EQ : forall g c, g < G -> c < n -> phi g c = psi g c).
    { apply (lhs_inj (pos PK AB)). intros g c Hg Hc. fold L. rewrite H by auto. symmetry. fold m x G D be L in S1. rewrite S1 by auto. apply feed_source. }
    destruct R as (srt' & lin & calls & s & r & A1 & A2 & A3 & A4 & A5 & A6 & A7 & A8). exists srt', lin, calls, s, r.
    repeat (split; [assumption|]). intros g c Hg Hc. rewrite EQ by auto. auto.
  Qed.
  Lemma returned_source q phi : returned P (source_of P q) 1 phi -> forall g c, g < G -> c < n -> L phi g c = q g c.
  Proof. intros R g c Hg Hc. assert (S1 := returned_solves PK R Hg Hc). fold m x G D be L in S1. rewrite S1. apply feed_source. Qed.

  (** ** Vectors and fluxes *)
  Definition vec_of (y : nat -> nat -> R) : list R := map (fun j => y (j / n)%nat (j mod n)%nat) (seq 0 (d_size P)).
  Lemma vec_of_length y : length (vec_of y) = d_size P.
  Proof. unfold vec_of. rewrite map_length, seq_length. auto. Qed.
  Lemma size_eq : d_size P = G * n. Proof. unfold d_size. fold m n x G. lia. Qed.
  Lemma row_lt g c : g < G -> c < n -> c + g * n < d_size P.
  Proof. intros. rewrite size_eq. nia. Qed.
  Lemma row_div g c : c < n -> ((c + g * n) / n)%nat = g /\ ((c + g * n) mod n)%nat = c.
  Proof. intros Hc. rewrite Nat.div_add, Nat.div_small, Nat.mod_add, Nat.mod_small by lia. auto. Qed.
  Lemma split_row j : j < d_size P -> (j / n)%nat < G /\ (j mod n)%nat < n /\ j = (j mod n)%nat + (j / n)%nat * n.
  Proof.
    rewrite size_eq. intros Hj. assert (N0 : n <> 0) by nia. split; [apply Nat.div_lt_upper_bound; [auto|lia]|].
    split; [apply Nat.mod_upper_bound; auto|]. rewrite (Nat.div_mod_eq j n) at 1. lia.
  Qed.
  Lemma part_vec y g c : g < G -> c < n -> part n (vec_of y) g c = y g c.
  Proof. intros Hg Hc. unfold part, vec_of. rewrite nth_map_seq by (apply row_lt; auto). destruct (row_div g Hc) as (-> & ->). auto. Qed.
  Lemma nth_part v j : j < d_size P -> nth j v 0%R = part n v (j / n)%nat (j mod n)%nat.
  Proof. intros Hj. unfold part. destruct (split_row Hj) as (_ & _ & E). rewrite <- E. auto. Qed.
  Lemma same_parts v w : length v = d_size P -> length w = d_size P -> (forall g c, g < G -> c < n -> part n v g c = part n w g c) -> v = w.
  Proof.
    intros LV LW H. apply (nth_ext _ _ 0%R 0%R); [congruence|]. intros j Hj. rewrite LV in Hj. rewrite !nth_part by auto.
    destruct (split_row Hj) as (A & B & _). apply H; auto.
  Qed.
  Lemma rsum_rows f : rsum (d_size P) f = rsum G (fun g => rsum n (fun c => f (c + g * n)%nat)).
  Proof. unfold d_size. fold m n x G. apply rsum_prod2. Qed.

  (** ** The linear systems *)
  Variable s : dstate.
  Hypothesis NEW : d_new srt P = Ok s.
  Lemma loss_mul : forall v, length v = d_size P -> exists y, multiply (s_M s) v = Ok y /\ length y = d_size P /\
    forall g c, g < G -> c < n -> part n y g c = L (part n v) g c.
  Proof.
    destruct (full_builds PK SRT 1) as (C & B & H).
    assert (EC : s_M s = C). { unfold d_new in NEW. unfold full_loss in B. rewrite B in NEW. cbn in NEW. inversion NEW. auto. }
    rewrite EC. intros v LV. destruct (H v LV) as (y & M & LY & Y). exists y. split; [auto|]. split; [auto|]. intros g c Hg Hc.
    rewrite Y by auto. symmetry. apply L_reactions; auto.
  Qed.
  Lemma loss_solvable b : length b = d_size P -> exists v, length v = d_size P /\ multiply (s_M s) v = Ok b /\
    forall v', length v' = d_size P -> multiply (s_M s) v' = Ok b -> v' = v.
  Proof.
    intros LB. destruct (lhs_onto (pos PK AB) (part n b)) as (y & Y). exists (vec_of y). split; [apply vec_of_length|].
    destruct (loss_mul (vec_of_length y)) as (z & M & LZ & Z).
    assert (z = b).
    { apply same_parts; auto. intros g c Hg Hc. rewrite Z, <- Y by auto. apply lhs_ext; auto. intros; apply part_vec; auto. }
    subst z. split; [auto|]. intros v' LV' M'. apply same_parts; [auto|apply vec_of_length|].
    destruct (loss_mul LV') as (z & MZ & _ & Z'). assert (z = b) by congruence. subst z.
    apply (lhs_inj (pos PK AB)). intros g c Hg Hc. fold m x G be D in Hg, Hc |- *. fold L. rewrite <- Z, <- Z' by auto. auto.
  Qed.
  (** There is a solver for the matrix: its inverse. *)
  Lemma solver_exists : exists lin, solver_for lin (s_M s) (d_size P).
  Proof.
    set (N := d_size P). set (unit := fun j => map (fun i => if i =? j then 1%R else 0%R) (seq 0 N)).
    assert (LU : forall j, length (unit j) = N) by (intros; unfold unit; rewrite map_length, seq_length; auto).
    destruct (@choose_all _ (fun j v => length v = N /\ multiply (s_M s) v = Ok (unit j)) [] N) as (inv & IV).
    { intros j Hj. destruct (loss_solvable (LU j)) as (v & A & B & _). eauto. }
    exists (fun _ b _ => Ok (map (fun i => rsum N (fun j => nth i (inv j) 0 * nth j b 0)%R) (seq 0 N))).
    intros b x0 LB _. eexists. split; [reflexivity|]. set (w := map _ _).
    assert (LW : length w = N) by (unfold w; rewrite map_length, seq_length; auto). split; [auto|].
    destruct (loss_mul LW) as (y & M & LY & Y). rewrite M. f_equal. apply same_parts; auto.
    intros g c Hg Hc. rewrite Y by auto.
    assert (E : L (part n w) g c = L (fun g c => rsum N (fun j => nth j b 0 * part n (inv j) g c)%R) g c).
    { apply lhs_ext; auto. intros g' c' Hg' Hc'. unfold part at 1, w. rewrite nth_map_seq by (apply row_lt; auto). apply rsum_ext. intros; unfold part; ring. }
    rewrite E. unfold L. rewrite (@lhs_sum m G D be (fun g c => st x g (mt m c)) (xfer P 1) N (fun j => nth j b 0%R) (fun j => part n (inv j)) g c); auto. fold L.
    rewrite (@rsum_ext N _ (fun j => if j =? (c + g * n)%nat then nth j b 0 else 0)%R).
    - rewrite (@rsum_ext N _ (fun j => if j =? (c + g * n)%nat then nth (c + g * n)%nat b 0 else 0)%R).
      + rewrite rsum_delta by (apply row_lt; auto). reflexivity.
      + intros j Hj. destruct (Nat.eqb_spec j (c + g * n)); [subst; auto|auto].
    - intros j Hj. destruct (IV j Hj) as (LI & MI). destruct (loss_mul LI) as (z & MZ & _ & Z). assert (z = unit j) by congruence. subst z.
      rewrite <- Z by auto. unfold part, unit. rewrite nth_map_seq by (apply row_lt; auto). rewrite Nat.eqb_sym. destruct (j =? c + g * n); ring.
  Qed.
End E.
