(** * Statements about whole constructors, and counterexamples *)
From Verif Require Import Base BaseR Loop Vector_Model Vector_Spec Vector_Proofs Orthog_Model Orthog_Spec Orthog_Proofs
  Orthog_Legendre Orthog_Discrete Orthog_Contin Orthog_Gs.
From Coq Require Import Lra.
Set Implicit Arguments. Unset Strict Implicit.
Open Scope R_scope.

(** ** C52 *)
Lemma compute_a_inverts b : shaped b ->
  orthogonal (ob_size b) (S (ob_order b)) (wgt (ob_w b)) (col (ob_basis b)) ->
  exists b', compute_a b = Ok b' /\ ob_order b' = ob_order b /\ ob_size b' = ob_size b /\ ob_w b' = ob_w b /\
    (forall l, (l <= ob_order b)%nat -> exists s, 0 < s /\ forall i, col (ob_basis b') l i = s * col (ob_basis b) l i) /\
    (ob_orthonormal b = true -> orthonormal (ob_size b) (S (ob_order b)) (wgt (ob_w b)) (col (ob_basis b'))) /\
    round_trip b' /\ projects b' /\ (ob_size b = S (ob_order b) -> complete b').
Proof.
  intros Sh O. destruct (compute_a_normed Sh O) as (b' & E & Nb & Eo & Es & Ew & On & _ & Sc).
  exists b'. do 5 (split; auto). split; [intros H; apply On; auto|].
  split; [apply normed_round_trip; auto|]. split; [apply normed_projects; auto|].
  intros H. apply normed_complete; auto. congruence.
Qed.

(** ** C54 *)
Lemma DLP_legendre p : op_w p = [] -> (op_order p < op_size p)%nat -> (2 <= op_size p)%nat -> (Z.of_nat (op_size p) <= 32767)%Z ->
  exists b, DLP p = Ok b /\
    (forall l, (l <= op_order p)%nat -> discrete_legendre (op_size p) l (col (ob_basis b) l)) /\
    (op_orthonormal p = false -> forall l, (l <= op_order p)%nat -> col (ob_basis b) l 0 = 1) /\
    (op_orthonormal p = true -> orthonormal (op_size p) (S (op_order p)) (fun _ => 1) (col (ob_basis b)) /\
       forall l, (l <= op_order p)%nat -> 0 < col (ob_basis b) l 0).
Proof.
  intros Hw H1 H2 H3. destruct (DLP_ok Hw H1 H3) as (b & E & _ & _ & _ & _ & On & Sc). exists b. split; auto.
  split; [|split].
  - intros l Hl. destruct (Sc l Hl) as (s & Hs & _ & V). apply (@DL_legendre (op_size p) H2 s); auto; [lia|lra].
  - intros Ho l Hl. destruct (Sc l Hl) as (s & Hs & H & V). rewrite V, H, DL_0 by (auto; lia). ring.
  - intros Ho. split; auto. intros l Hl. destruct (Sc l Hl) as (s & Hs & H & V). rewrite V, DL_0 by lia. lra.
Qed.
Lemma DCP_legendre p : op_w p = [] -> (op_order p < op_size p)%nat -> (2 <= op_size p)%nat ->
  exists b, DCP p = Ok b /\
    (forall l, (l <= op_order p)%nat -> discrete_legendre (op_size p) l (col (ob_basis b) l)) /\
    (op_orthonormal p = true -> orthonormal (op_size p) (S (op_order p)) (fun _ => 1) (col (ob_basis b))).
Proof.
  intros Hw H1 H2. destruct (DCP_ok Hw H1) as (b & E & _ & _ & _ & _ & On & Sc). exists b. split; auto.
  split; auto.
  intros l Hl. destruct (Sc l Hl) as (s & Hs & V). apply (@DL_legendre (op_size p) H2 s); auto. lia.
Qed.
Lemma CLP_legendre : is_legendre LP /\ forall p, sized p ->
  exists b, CLP p = Ok b /\ forall l i, (l <= op_order p)%nat -> (i < op_size p)%nat ->
    col (ob_basis b) l i = LP l (2 * (at_ (op_x p) i - op_lower p) / (op_upper p - op_lower p) - 1).
Proof.
  split; [apply LP_is_legendre|].
  intros p (H1 & H2 & H3). unfold CLP. rewrite points_ok by auto. cbn [bind].
  rewrite weights_ok by (auto; rewrite map_length, seq_length; auto). cbn [bind].
  eexists. split; [reflexivity|]. intros l i Hl Hi. cbn [ob_basis]. rewrite on_points_col by auto. reflexivity.
Qed.

(** The columns of ChebyshevU that are not rescaled. *)
Lemma ChebyshevU_cols p : sized p -> op_orthonormal p = false ->
  exists b, ChebyshevU p = Ok b /\ forall l i, (l <= op_order p)%nat -> (i < op_size p)%nat ->
    col (ob_basis b) l i = cheby_u ((if op_even_only p then 2 else 1) * l)
       (2 * (at_ (op_x p) i - op_lower p) / (op_upper p - op_lower p) - 1).
Proof.
  intros (H1 & H2 & H3) Ho. unfold ChebyshevU. rewrite points_ok by auto. cbn [bind].
  rewrite weights_ok by (auto; rewrite map_length, seq_length; auto). cbn [bind].
  set (w := map _ (seq 0 (op_size p))) at 1. set (cols := on_points _ _ _).
  set (b0 := mk_obasis (op_order p) (op_size p) (op_orthonormal p) (Some w) cols None).
  destruct (on_points_shape (fun l => cheby_u ((if op_even_only p then 2 else 1) * l)) (op_order p)
    (fun i => scaled p (nth i (op_x p) 0)) (op_size p)) as (S1 & S2).
  destruct (@compute_a_ok b0) as (b & a & E & _ & _ & _ & _ & _ & _ & _ & V & _).
  { split; [exact S1|]. split; [exact S2|]. intros w' Ew. injection Ew as <-. unfold w. rewrite map_length, seq_length. auto. }
  exists b. split; [exact E|]. intros l i Hl Hi. rewrite V by exact Hl. cbn [ob_orthonormal b0]. rewrite Ho.
  cbn [ob_basis b0]. unfold cols. rewrite on_points_col by auto. reflexivity.
Qed.
Lemma ChebyshevU_ok p : sized p -> op_orthonormal p = false ->
  exists b, ChebyshevU p = Ok b /\ forall l i th, (l <= op_order p)%nat -> (i < op_size p)%nat ->
    let d := ((if op_even_only p then 2 else 1) * l)%nat in (d <= 8)%nat ->
    2 * (at_ (op_x p) i - op_lower p) / (op_upper p - op_lower p) - 1 = cos th ->
    cheb_value d (col (ob_basis b) l i) th.
Proof.
  intros Hs Ho. destruct (ChebyshevU_cols Hs Ho) as (b & E & V). exists b. split; auto.
  intros l i th Hl Hi d Hd Hc. rewrite V, Hc by auto. apply cheby_u_ok. exact Hd.
Qed.

(** One point in the middle of [-1,1]. *)
Definition mid_par (order : nat) : oparams := mk_oparams order 1 false false [0] [2] [] (-1) 1 0 [].
Lemma ChebyshevU_wrong order : (8 < order)%nat ->
  exists p b, op_order p = order /\ sized p /\ op_orthonormal p = false /\ op_even_only p = false /\ ChebyshevU p = Ok b /\
    exists i th, (i < op_size p)%nat /\ 2 * (at_ (op_x p) i - op_lower p) / (op_upper p - op_lower p) - 1 = cos th /\
      ~ cheb_value order (col (ob_basis b) order i) th.
Proof.
  intros H. exists (mid_par order).
  assert (Hs : sized (mid_par order)) by (split; [cbn; lia|]; split; [cbn; lia|cbn; lra]).
  destruct (@ChebyshevU_cols (mid_par order) Hs eq_refl) as (b & E & V).
  exists b. split; auto. split; auto. split; auto. split; auto. split; auto.
  exists 0%nat, (PI / 2). split; [cbn; lia|].
  assert (Ec : 2 * (at_ (op_x (mid_par order)) 0 - op_lower (mid_par order)) / (op_upper (mid_par order) - op_lower (mid_par order)) - 1 = cos (PI / 2)).
  { rewrite cos_PI2. cbn. field. }
  split; [exact Ec|]. rewrite V by (cbn; lia). rewrite Ec. cbn [op_even_only mid_par].
  replace (1 * order)%nat with order by lia. apply cheby_u_wrong_mid. auto.
Qed.

(** ** C53 *)
Lemma transformed_orthonormal p orig : op_w p = [] -> (op_size p <= length (op_x p))%nat ->
  length (ob_basis orig) = S (op_order p) -> (forall c, In c (ob_basis orig) -> length c = op_size p) ->
  independent (op_size p) (S (op_order p)) (trans_input (op_size p) (op_option p =? 1)%nat (at_ (op_x p)) (col (ob_basis orig))) ->
  exists b, TransformedBasis p orig = Ok b /\
    orthonormal (op_size p) (S (op_order p)) (fun _ => 1) (col (ob_basis b)) /\
    (forall k, (k <= S (op_order p))%nat -> forall f, in_span (op_size p) k (col (ob_basis b)) f <->
      in_span (op_size p) k (trans_input (op_size p) (op_option p =? 1)%nat (at_ (op_x p)) (col (ob_basis orig))) f) /\
    ob_order b = op_order p /\ ob_size b = op_size p /\ round_trip b /\ projects b.
Proof.
  intros Hw Lx L1 L2 Ind. destruct (TransformedBasis_ok Hw Lx L1 L2 Ind) as (b & E & Nb & Eo & Es & _ & On & Sp).
  exists b. split; [exact E|]. split; [exact On|]. split; [exact Sp|]. split; auto. split; auto.
  split; [apply normed_round_trip|apply normed_projects]; auto.
Qed.
(** The zeroth vector is nowhere zero and the basis transformed is DLP, DCT or DCP. *)
Lemma transformed_discrete p q (mk : oparams -> res obasis) : In mk [DLP; DCT; DCP] ->
  op_w p = [] -> (op_size p <= length (op_x p))%nat -> (forall i, (i < op_size p)%nat -> 0 < at_ (op_x p) i) ->
  op_w q = [] -> op_size q = op_size p -> op_order q = op_order p -> (op_order p < op_size p)%nat -> (2 <= op_size p)%nat ->
  (Z.of_nat (op_size p) <= 32767)%Z ->
  exists o b, mk q = Ok o /\ TransformedBasis p o = Ok b /\
    orthonormal (op_size p) (S (op_order p)) (fun _ => 1) (col (ob_basis b)) /\
    in_span (op_size p) 1 (col (ob_basis b)) (at_ (op_x p)) /\ round_trip b /\ projects b.
Proof.
  intros Hmk Hw Lx Px Hwq Esq Eoq H1 H2 H3.
  assert (G : exists o s0, mk q = Ok o /\ normed o /\ ob_order o = op_order p /\ ob_size o = op_size p /\ ob_w o = None /\ s0 <> 0 /\
     forall i, (i < op_size p)%nat -> col (ob_basis o) 0 i = s0).
  { rewrite <- Esq, <- Eoq in *. cbn [In] in Hmk. destruct Hmk as [<-|[<-|[<-|[]]]].
    - destruct (DLP_ok Hwq H1 H3) as (o & E & N & A & B & C & _ & Sc). destruct (Sc 0%nat ltac:(lia)) as (s & Hs & _ & V).
      exists o, s. do 5 (split; auto). split; [lra|]. intros i Hi. rewrite V by auto. unfold DL, dlj. rewrite dl_0. ring.
    - destruct (DCT_ok Hwq H1) as (o & E & N & A & B & C & _ & Sc). destruct (Sc 0%nat ltac:(lia)) as (s & Hs & _ & V).
      exists o, s. do 5 (split; auto). split; [lra|]. intros i Hi. rewrite V by auto. unfold DC. cbn [INR]. rewrite Rmult_0_r, cos_0. ring.
    - destruct (DCP_ok Hwq H1) as (o & E & N & A & B & C & _ & Sc). destruct (Sc 0%nat ltac:(lia)) as (s & Hs & V).
      exists o, s. do 5 (split; auto). split; [lra|]. intros i Hi. rewrite V by auto. unfold DL, dlj. rewrite dl_0. ring. }
  destruct G as (o & s0 & E & ((L1 & L2 & _) & O & _) & A & B & C & S0 & V0).
  rewrite A, B, C in *. 
  destruct (@TransformedBasis_ok p o) as (b & Eb & Nb & Eo & Es & Ew & On & Sp); auto.
  { apply trans_independent with (s0 := s0); auto. }
  exists o, b. split; auto. split; auto. split; auto. split.
  - apply Sp; [lia|]. apply (@span_ext (op_size p) 1 _ (fun i => / s0 *
      trans_input (op_size p) (op_option p =? 1)%nat (at_ (op_x p)) (col (ob_basis o)) 0 i)).
    + intros i Hi. cbn [trans_input]. rewrite V0 by auto. field. auto.
    + apply span_scal, span_mem. lia.
  - split; [apply normed_round_trip|apply normed_projects]; auto.
Qed.

(** With weights the result is orthonormal in neither inner product. *)
Definition wt_par : oparams := mk_oparams 1 2 true false [1; 1] [] [1; 2] 0 1 0 [].
Definition wt_orig : obasis := mk_obasis 1 2 false None [[1; 1]; [1; -1]] None.
Lemma transformed_weights : exists p orig b,
  (op_size p <= length (op_x p))%nat /\ length (ob_basis orig) = S (op_order p) /\ (forall c, In c (ob_basis orig) -> length c = op_size p) /\
  independent (op_size p) (S (op_order p)) (trans_input (op_size p) (op_option p =? 1)%nat (at_ (op_x p)) (col (ob_basis orig))) /\
  TransformedBasis p orig = Ok b /\ ob_w b = Some [1; 2] /\
  ~ orthonormal (op_size p) (S (op_order p)) (fun _ => 1) (col (ob_basis b)) /\
  ~ orthonormal (op_size p) (S (op_order p)) (wgt (ob_w b)) (col (ob_basis b)) /\ ~ round_trip b.
Proof.
  exists wt_par, wt_orig.
  assert (Ind : independent 2 2 (trans_input 2 false (at_ [1; 1]) (col [[1; 1]; [1; -1]]))).
  { apply trans_independent with (s0 := 1).
    - split.
      + intros l k Hl Hk Ne. assert ((l = 0 /\ k = 1) \/ (l = 1 /\ k = 0))%nat as [(-> & ->)|(-> & ->)] by lia; unfold wdot, wgt, col; cbn; ring.
      + intros l Hl. assert (l = 0 \/ l = 1)%nat as [-> | ->] by lia; unfold wdot, wgt, col; cbn; lra.
    - intros i Hi. assert (i = 0 \/ i = 1)%nat as [-> | ->] by lia; reflexivity.
    - intros i Hi. assert (i = 0 \/ i = 1)%nat as [-> | ->] by lia; cbn; lra. }
  destruct (@gram_schmidt_ok 2 1 false [1; 1] [[1; 1]; [1; -1]]) as (cols & Eg & C1 & C2 & C3 & C4); auto.
  { intros c [<-|[<-|[]]]; reflexivity. }
  set (b0 := mk_obasis 1 2 true (Some [1; 2]) cols None).
  destruct (@compute_a_ok b0) as (b & a & E & Sh & Eo & Es & Ew & _ & Ea & La & V & Va).
  { split; [exact C1|]. split; [exact C2|]. intros w Hw. injection Hw as <-. reflexivity. }
  exists b. split; [cbn; lia|]. split; [reflexivity|]. split; [intros c [<-|[<-|[]]]; reflexivity|]. split; [exact Ind|].
  split.
  { unfold TransformedBasis, base_weights. cbn [op_w wt_par op_size seq mapM rd nth_error bind op_x op_order op_option wt_orig ob_basis].
    change (0 =? 1)%nat with false. rewrite Eg. cbn [bind]. exact E. }
  split; [exact Ew|].
  cbn [op_size op_order wt_par]. rewrite Ew. cbn [ob_order ob_size ob_w ob_orthonormal ob_basis b0] in V, Va, Eo, Es, Ew, La |- *.
  set (A := col cols 0 0). set (B := col cols 0 1). set (C := col cols 1 0). set (D := col cols 1 1).
  assert (P0 : A * A + B * B = 1) by (pose proof (C3 0%nat 0%nat ltac:(lia) ltac:(lia)) as G; unfold dot in G; cbn in G; fold A B in G; lra).
  assert (P1 : C * C + D * D = 1) by (pose proof (C3 1%nat 1%nat ltac:(lia) ltac:(lia)) as G; unfold dot in G; cbn in G; fold C D in G; lra).
  assert (P2 : A * C + B * D = 0) by (pose proof (C3 0%nat 1%nat ltac:(lia) ltac:(lia)) as G; unfold dot in G; cbn in G; fold A B C D in G; lra).
  assert (AB : B = A).
  { destruct (proj1 (C4 1%nat ltac:(lia) (col cols 0)) (@span_mem 2 1 (col cols) 0 ltac:(lia))) as (c & Hc).
    pose proof (Hc 0%nat ltac:(lia)) as G0. pose proof (Hc 1%nat ltac:(lia)) as G1.
    unfold combo, trans_input in G0, G1. fold A in G0. fold B in G1. rewrite G0, G1. unfold col. cbn. ring. }
  rewrite AB in P0, P2.
  assert (A2 : A * A = / 2) by lra.
  assert (A0 : A <> 0) by (intros Z; rewrite Z in A2; lra).
  assert (D0 : D = - C). { apply (Rmult_eq_reg_l A); auto. lra. }
  rewrite D0 in P1.
  assert (C20 : C * C = / 2) by lra.
  assert (C0 : C <> 0) by (intros Z; rewrite Z in C20; lra).
  assert (Q0 : bdot b0 (col cols 0) (col cols 0) = 3 / 2).
  { unfold bdot, wdot, wgt. cbn [b0 ob_size ob_w rsum nth]. fold A B. rewrite AB.
    replace (0 + 1 * A * A + 2 * A * A) with (3 * (A * A)) by ring. rewrite A2. field. }
  assert (Q1 : bdot b0 (col cols 1) (col cols 1) = 3 / 2).
  { unfold bdot, wdot, wgt. cbn [b0 ob_size ob_w rsum nth]. fold C D. rewrite D0.
    replace (0 + 1 * C * C + 2 * - C * - C) with (3 * (C * C)) by ring. rewrite C20. field. }
  set (s := sqrt (1 / (3 / 2))).
  assert (Hs : s * s = 2 / 3) by (unfold s; rewrite sqrt_def by lra; field).
  assert (V0 : forall i, col (ob_basis b) 0 i = col cols 0 i * s) by (intros i; rewrite V, Q0 by lia; reflexivity).
  assert (V1 : forall i, col (ob_basis b) 1 i = col cols 1 i * s) by (intros i; rewrite V, Q1 by lia; reflexivity).
  assert (W : wdot 2 (wgt (Some [1; 2])) (col (ob_basis b) 0) (col (ob_basis b) 1) = - (2 / 3) * (A * C)).
  { unfold wdot, wgt. cbn [rsum nth]. rewrite !V0, !V1. fold A B C D. rewrite AB, D0.
    replace (0 + 1 * (A * s) * (C * s) + 2 * (A * s) * (- C * s)) with (- (s * s) * (A * C)) by ring. rewrite Hs. reflexivity. }
  assert (AC : A * C <> 0) by (apply Rmult_integral_contrapositive; auto).
  split; [|split].
  - intros O. specialize (O 0%nat 0%nat ltac:(lia) ltac:(lia)). unfold wdot in O. cbn [rsum Nat.eqb] in O. rewrite !V0 in O. fold A B in O.
    rewrite AB in O. replace (0 + 1 * (A * s) * (A * s) + 1 * (A * s) * (A * s)) with (2 * (s * s) * (A * A)) in O by ring.
    rewrite Hs, A2 in O. lra.
  - intros O. specialize (O 0%nat 1%nat ltac:(lia) ltac:(lia)). rewrite W in O. cbn [Nat.eqb] in O.
    apply AC. lra.
  - intros Rt. destruct (Rt [1; 0] [0; 0] [0; 0]) as (f & Ei & Et); try (rewrite ?Eo, ?Es; reflexivity).
    rewrite (@inverse_ok b a [1; 0] [0; 0]) in Ei; auto; rewrite ?Eo, ?Es; auto. injection Ei as <-.
    rewrite transform_ok in Et; auto; rewrite ?vec_length, ?Eo; auto. rewrite Eo in Et.
    assert (G : forall u v : list R, Ok u = Ok v -> nth 1 u 0 = nth 1 v 0) by (intros u v H; injection H as ->; reflexivity).
    apply G in Et. rewrite vec_nth in Et by lia. cbn [nth] in Et.
    apply AC. enough (- (2 / 3) * (A * C) = 0) by lra. rewrite <- W, <- Et. unfold bdot. rewrite Es, Ew.
    apply wdot_ext; auto. intros i Hi. unfold at_ at 1. rewrite vec_nth by auto. unfold combo. cbn [rsum].
    rewrite !Va by lia. cbn [at_ nth]. ring.
Qed.

(** ** C84 *)
Lemma discrete_round_trip (mk : oparams -> res obasis) p : In mk [DLP; DCT; DCP] ->
  op_w p = [] -> (op_order p < op_size p)%nat -> (Z.of_nat (op_size p) <= 32767)%Z ->
  exists b, mk p = Ok b /\ ob_order b = op_order p /\ ob_size b = op_size p /\ round_trip b /\ projects b /\
    (op_size p = S (op_order p) -> complete b).
Proof.
  intros Hmk Hw H1 H3.
  assert (G : exists b, mk p = Ok b /\ normed b /\ ob_order b = op_order p /\ ob_size b = op_size p).
  { cbn [In] in Hmk. destruct Hmk as [<-|[<-|[<-|[]]]].
    - destruct (DLP_ok Hw H1 H3) as (o & E & N & A & B & _). eauto.
    - destruct (DCT_ok Hw H1) as (o & E & N & A & B & _). eauto.
    - destruct (DCP_ok Hw H1) as (o & E & N & A & B & _). eauto. }
  destruct G as (b & E & N & A & B). exists b. do 3 (split; auto).
  split; [apply normed_round_trip; auto|]. split; [apply normed_projects; auto|].
  intros H. apply normed_complete; auto. congruence.
Qed.
Lemma jacobi_round_trip p : sized p -> (op_order p < 8)%nat ->
  exact_rule (op_size p) (op_x p) (op_qw p) (op_lower p) (op_upper p) (2 * op_order p + 1) ->
  exists b, Jacobi01 p = Ok b /\ ob_order b = op_order p /\ ob_size b = op_size p /\ round_trip b /\ projects b.
Proof.
  intros Hs Ho Ex. destruct (Jacobi01_ok Hs Ho Ex) as (b & E & A & B & N). exists b. do 3 (split; auto).
  split; [apply normed_round_trip|apply normed_projects]; auto.
Qed.
Lemma clp_scaled p : sized p ->
  exact_rule (op_size p) (op_x p) (op_qw p) (op_lower p) (op_upper p) (2 * op_order p) ->
  exists b, CLP p = Ok b /\ ob_order b = op_order p /\ ob_size b = op_size p /\
    (forall c f0 c0, length c = S (op_order p) -> length c0 = S (op_order p) -> length f0 = op_size p ->
      exists f, inverse b c f0 = Ok f /\
        transform b f c0 = Ok (map (fun v => (op_upper p - op_lower p) / 2 * v) c)) /\
    (op_upper p - op_lower p = 2 -> round_trip b /\ projects b).
Proof.
  intros Hs Ex. destruct (CLP_factor Hs Ex) as (b & E & F). exists b. split; auto.
  destruct (CLP_ok Hs Ex) as (b' & E' & _ & Eo & Es & _). rewrite E in E'. injection E' as <-.
  do 2 (split; auto). split.
  - intros c f0 c0 L1 L2 L3. destruct (F c f0 c0 L1 L2 L3) as (f & Ei & Et). exists f. split; auto. rewrite Et. f_equal.
    symmetry. apply vec_iff; [rewrite map_length; auto|]. intros i Hi.
    set (g := fun v => (op_upper p - op_lower p) / 2 * v). rewrite (nth_indep _ 0 (g 0)) by (rewrite map_length; lia).
    rewrite map_nth. reflexivity.
  - intros H2. destruct (CLP_normed Hs H2 Ex) as (b' & E' & _ & _ & N). rewrite E in E'. injection E' as <-.
    split; [apply normed_round_trip|apply normed_projects]; auto.
Qed.

(** Quadrature rules used as cases. *)
Lemma antideriv F G f a b : (forall x, derivable_pt_lim F x (f x)) -> (forall x, derivable_pt_lim G x (f x)) ->
  F b - F a = G b - G a.
Proof.
  intros HF HG.
  assert (D : forall x, derivable_pt_lim (F - G)%F x 0).
  { intros x. replace 0 with (f x - f x) by ring. apply derivable_pt_lim_minus; auto. }
  assert (Pr : derivable (F - G)%F) by (intros x; exists 0; apply D).
  pose proof (@null_derivative_1 (F - G)%F Pr) as N.
  assert (C : constant (F - G)%F).
  { apply N. intros x. apply derive_pt_eq_0. apply D. }
  specialize (C b a). unfold minus_fct in C. lra.
Qed.
Lemma deriv_cubic c0 c1 c2 c3 x :
  derivable_pt_lim (fun x => c0 * x + c1 / 2 * x ^ 2 + c2 / 3 * x ^ 3 + c3 / 4 * x ^ 4) x (c0 + c1 * x + c2 * x ^ 2 + c3 * x ^ 3).
Proof.
  assert (M : forall c n, derivable_pt_lim (fun x => c * x ^ n) x (c * (INR n * x ^ pred n))).
  { intros c n. apply (derivable_pt_lim_scal (fun x => x ^ n)). apply derivable_pt_lim_pow. }
  replace (c0 + c1 * x + c2 * x ^ 2 + c3 * x ^ 3) with
    (c0 * (INR 1 * x ^ 0) + c1 / 2 * (INR 2 * x ^ 1) + c2 / 3 * (INR 3 * x ^ 2) + c3 / 4 * (INR 4 * x ^ 3)) by (cbn; field).
  apply (@derivable_pt_lim_plus (fun x => c0 * x + c1 / 2 * x ^ 2 + c2 / 3 * x ^ 3)).
  apply (@derivable_pt_lim_plus (fun x => c0 * x + c1 / 2 * x ^ 2)).
  apply (@derivable_pt_lim_plus (fun x => c0 * x)).
  - pose proof (M c0 1%nat) as H. intros eps He. destruct (H eps He) as (d & Hd). exists d. intros h Hh Hl.
    specialize (Hd h Hh Hl). replace (c0 * (x + h) - c0 * x) with (c0 * (x + h) ^ 1 - c0 * x ^ 1) by ring. exact Hd.
  - apply M.
  - apply M.
  - apply M.
Qed.
(** Two-point Gauss-Legendre rule. *)
Lemma gauss2_exact : exact_rule 2 [- sqrt (/ 3); sqrt (/ 3)] [1; 1] (-1) 1 3.
Proof.
  intros f F (c & Hc) HF.
  rewrite (@antideriv F (fun x => c 0%nat * x + c 1%nat / 2 * x ^ 2 + c 2%nat / 3 * x ^ 3 + c 3%nat / 4 * x ^ 4) f).
  - cbn [rsum nth]. rewrite !Hc. cbn [rsum]. set (s := sqrt (/ 3)). assert (Hs : s ^ 2 = / 3) by (cbn; rewrite Rmult_1_r; apply sqrt_def; lra).
    transitivity (2 * c 0%nat + 2 * c 2%nat * s ^ 2); [ring|]. rewrite Hs. field.
  - exact HF.
  - intros x. rewrite Hc. cbn [rsum]. replace (0 + c 0%nat * x ^ 0 + c 1%nat * x ^ 1 + c 2%nat * x ^ 2 + c 3%nat * x ^ 3) with
      (c 0%nat + c 1%nat * x + c 2%nat * x ^ 2 + c 3%nat * x ^ 3) by ring. apply deriv_cubic.
Qed.
(** Midpoint rule on [0,1]. *)
Lemma midpoint_exact : exact_rule 1 [/ 2] [1] 0 1 1.
Proof.
  intros f F (c & Hc) HF.
  rewrite (@antideriv F (fun x => c 0%nat * x + c 1%nat / 2 * x ^ 2 + 0 / 3 * x ^ 3 + 0 / 4 * x ^ 4) f).
  - cbn [rsum nth]. rewrite !Hc. cbn [rsum]. field.
  - exact HF.
  - intros x. rewrite Hc. cbn [rsum]. replace (0 + c 0%nat * x ^ 0 + c 1%nat * x ^ 1) with
      (c 0%nat + c 1%nat * x + 0 * x ^ 2 + 0 * x ^ 3) by ring. apply deriv_cubic.
Qed.

(** The three ways a basis fails to round-trip. *)
Lemma exact_mono n xs ws lo hi D D' : (D' <= D)%nat -> exact_rule n xs ws lo hi D -> exact_rule n xs ws lo hi D'.
Proof. intros H E f F P. apply E. apply (@poly_mono D'); auto. Qed.
Lemma clp_interval : exists p b, sized p /\
  (forall D, (D <= 2 * op_order p)%nat -> exact_rule (op_size p) (op_x p) (op_qw p) (op_lower p) (op_upper p) D) /\
  CLP p = Ok b /\ ~ round_trip b.
Proof.
  exists (mk_oparams 0 1 false false [/ 2] [1] [] 0 1 0 []).
  assert (Hs : sized (mk_oparams 0 1 false false [/ 2] [1] [] 0 1 0 [])) by (split; [cbn; lia|]; split; [cbn; lia|cbn; lra]).
  assert (Ex : forall D, (D <= 0)%nat -> exact_rule 1 [/ 2] [1] 0 1 D) by (intros D HD; apply (@exact_mono 1 [/ 2] [1] 0 1 1); [lia|apply midpoint_exact]).
  destruct (@clp_scaled _ Hs) as (b & E & Eo & Es & F & _); [apply Ex; cbn; lia|].
  exists b. split; auto. split; [intros D HD; apply Ex; exact HD|]. split; auto.
  intros Rt. rewrite <- Eo, <- Es in F. destruct (F [1] [0] [0]) as (f & Ei & Et); rewrite ?Eo, ?Es; auto.
  destruct (Rt [1] [0] [0]) as (f' & Ei' & Et'); rewrite ?Eo, ?Es; auto.
  rewrite Ei in Ei'. injection Ei' as <-. rewrite Et in Et'. cbn in Et'.
  assert (G : forall u v : R, Ok [u] = Ok [v] -> u = v) by (intros u v H; injection H as ->; reflexivity).
  apply G in Et'. lra.
Qed.
Lemma dlp_weights : exists p b, (op_order p < op_size p)%nat /\ length (op_w p) = op_size p /\ (forall w, In w (op_w p) -> 0 < w) /\
  DLP p = Ok b /\ ~ round_trip b.
Proof.
  exists (mk_oparams 1 2 false false [] [] [1; 2] 0 1 0 []).
  set (b0 := mk_obasis 1 2 false (Some [1; 2]) [[1; 1]; [1; -1]] None).
  destruct (@compute_a_ok b0) as (b & a & E & Sh & Eo & Es & Ew & _ & Ea & La & V & Va).
  { split; [reflexivity|]. split; [intros c [<-|[<-|[]]]; reflexivity|]. intros w Hw. injection Hw as <-. reflexivity. }
  exists b. split; [cbn; lia|]. split; [reflexivity|]. split; [intros w [<-|[<-|[]]]; lra|]. split.
  { unfold DLP, discrete, base_weights. cbn [op_w op_size op_order op_orthonormal seq mapM rd nth_error bind].
    replace (dlp_columns 2 1) with (Ok (A := list (list R)) [[1; 1]; [1; -1]]); [exact E|].
    unfold dlp_columns. cbn. replace ((1 - 2 * 0) / 1) with 1 by field. replace ((1 - 2 * 1) / 1) with (-1) by field. reflexivity. }
  cbn [ob_order ob_size ob_w ob_orthonormal ob_basis b0] in V, Va, Eo, Es, Ew, La.
  intros Rt. destruct (Rt [1; 0] [0; 0] [0; 0]) as (f & Ei & Et); try (rewrite ?Eo, ?Es; reflexivity).
  rewrite (@inverse_ok b a [1; 0] [0; 0]) in Ei; auto; rewrite ?Eo, ?Es; auto. injection Ei as <-.
  rewrite transform_ok in Et; auto; rewrite ?vec_length, ?Eo; auto. rewrite Eo in Et.
  assert (G : forall u v : list R, Ok u = Ok v -> nth 1 u 0 = nth 1 v 0) by (intros u v H; injection H as ->; reflexivity).
  apply G in Et. rewrite vec_nth in Et by lia. cbn [nth] in Et.
  unfold bdot, wdot in Et. rewrite Es, Ew in Et. cbn [rsum wgt nth] in Et. unfold at_ in Et. rewrite !vec_nth in Et by lia.
  unfold combo in Et. cbn [rsum nth] in Et. rewrite !V in Et by lia. change (nth 0 a 0) with (at_ a 0) in Et. change (nth 1 a 0) with (at_ a 1) in Et.
  rewrite !Va in Et by lia. unfold bdot, wdot, col in Et. cbn in Et. lra.
Qed.
Lemma ddf_inverse p : op_w p = [] -> op_size p = S (op_order p) ->
  exists b, DDF p = Ok b /\ forall c f, inverse b c f = UB.
Proof.
  intros Hw H. unfold DDF, base_weights. rewrite Hw, H. cbn [bind]. rewrite (proj2 (Nat.eqb_eq _ _)) by lia.
  eexists. split; [reflexivity|]. intros. reflexivity.
Qed.

(** ** C85 *)
(** fold is one entry of transform. *)
Lemma fold_entry b l f c0 : shaped b -> (l <= ob_order b)%nat -> length f = ob_size b -> length c0 = S (ob_order b) ->
  exists c, transform b f c0 = Ok c /\ fold_ b l f = Ok (at_ c l).
Proof.
  intros Sh Hl Lf Lc. rewrite transform_ok by auto. eexists. split; [reflexivity|].
  destruct Sh as (S1 & S2 & S3). unfold fold_.
  rewrite times_opt_ok by (intros w Ew; rewrite Lf; apply S3; auto). cbn [bind].
  rewrite (@rd_nth _ (ob_basis b) l []) by lia. cbn [bind].
  assert (Ll : length (nth l (ob_basis b) []) = ob_size b) by (apply S2, nth_In; lia).
  rewrite firstn_all2 by lia. rewrite vdot_ok by (rewrite vec_length; lia). f_equal.
  unfold at_. rewrite vec_nth by lia. rewrite Ll. apply rsum_ext. intros i Hi. unfold cmp. rewrite vec_nth by lia.
  change (nth i (nth l (ob_basis b) []) 0) with (col (ob_basis b) l i). unfold at_. ring.
Qed.
Lemma overloads b c f0 c0 : round_trip b -> length c = S (ob_order b) -> length c0 = S (ob_order b) -> length f0 = ob_size b ->
  exists f, inverse_std b c f0 = Ok (c, f) /\ inverse b c f0 = Ok f /\
    transform_std b f c0 = Ok (f, c) /\ transform_sp b f c0 = Ok (f, c) /\ transform b f c0 = Ok c.
Proof.
  intros Rt L1 L2 L3. destruct (Rt c f0 c0 L1 L2 L3) as (f & Ei & Et). exists f.
  unfold inverse_std, transform_std, transform_sp. rewrite Ei, Et. cbn [bind]. auto.
Qed.
(** unfold never gives an entry of inverse unless it happens to be zero. *)
Lemma unfold_useless b a row c : shaped b -> ob_a b = Some a -> length a = S (ob_order b) -> length c = S (ob_order b) ->
  (row < ob_size b)%nat ->
  unfold_ b row c = (if Rle_lt_dec (col (ob_basis b) 0 row) (-1) then Err
                     else if Rlt_le_dec (col (ob_basis b) 0 row) 1 then Ok 0 else UB).
Proof.
  intros (S1 & S2 & S3) Ea La Lc Hr. unfold unfold_, times_opt. rewrite Ea. unfold vmul. rewrite vzip_ok by lia. cbn [bind].
  rewrite (proj2 (Nat.eqb_neq _ _)) by lia. rewrite (@rd_nth _ (ob_basis b) 0 []) by lia. cbn [bind].
  assert (L0 : length (nth 0 (ob_basis b) []) = ob_size b) by (apply S2, nth_In; lia).
  rewrite (@rd_nth _ (nth 0 (ob_basis b) []) row 0) by lia. reflexivity.
Qed.
Definition one_basis : obasis := mk_obasis 0 1 false None [[1]] (Some [1]).
Definition half_basis : obasis := mk_obasis 0 1 false None [[/ 2]] (Some [4]).
Lemma one_basis_inverse v w : inverse one_basis [v] [w] = Ok [v].
Proof.
  rewrite (@inverse_ok one_basis [1]); auto.
  - unfold combo. cbn. f_equal. f_equal. ring.
  - split; [reflexivity|]. split; [intros c [<-|[]]; reflexivity|]. discriminate.
Qed.
Lemma half_basis_inverse v w : inverse half_basis [v] [w] = Ok [2 * v].
Proof.
  rewrite (@inverse_ok half_basis [4]); auto.
  - unfold combo. cbn. f_equal. f_equal. field.
  - split; [reflexivity|]. split; [intros c [<-|[]]; reflexivity|]. discriminate.
Qed.
Lemma unfold_wrong :
  (exists b row c, shaped b /\ round_trip b /\ (row < ob_size b)%nat /\ length c = S (ob_order b) /\
     unfold_ b row c = UB) /\
  (exists b row c f0 f, shaped b /\ round_trip b /\ (row < ob_size b)%nat /\ inverse b c f0 = Ok f /\
     unfold_ b row c <> Ok (at_ f row) /\ unfold_ b row c = Ok 0).
Proof.
  assert (R1 : forall b a x, b = mk_obasis 0 1 false None [[x]] (Some [a]) -> a * (x * x) = 1 -> shaped b /\ round_trip b).
  { intros b a x -> H. assert (Sh : shaped (mk_obasis 0 1 false None [[x]] (Some [a]))).
    { split; [reflexivity|]. split; [intros c [<-|[]]; reflexivity|]. discriminate. }
    split; auto. apply normed_round_trip. split; auto.
    assert (Pos : 0 < x * x) by (destruct (Rle_0_sqr x) as [P|P]; unfold Rsqr in P; auto; rewrite <- P in H; lra).
    split.
    - split.
      + intros l k Hl Hk. cbn in Hl, Hk. lia.
      + intros l Hl. cbn in Hl. assert (l = 0)%nat by lia. subst. unfold wdot, wgt, col. cbn. lra.
    - exists [a]. split; auto. split; auto. intros l Hl. cbn in Hl. assert (l = 0)%nat by lia. subst.
      unfold bdot, wdot, wgt, col, at_. cbn. lra. }
  split.
  - exists one_basis, 0%nat, [3]. destruct (R1 one_basis 1 1) as (A & B); auto; [ring|].
    do 2 (split; auto). split; [cbn; lia|]. split; auto.
    rewrite (@unfold_useless one_basis [1]); auto. unfold col. cbn.
    destruct (Rle_lt_dec 1 (-1)); [lra|]. destruct (Rlt_le_dec 1 1); [lra|]. reflexivity.
  - exists half_basis, 0%nat, [3], [0], [2 * 3]. destruct (R1 half_basis 4 (/ 2)) as (A & B); auto; [field|].
    do 2 (split; auto). split; [cbn; lia|]. split; [apply half_basis_inverse|].
    assert (E : unfold_ half_basis 0 [3] = Ok 0).
    { rewrite (@unfold_useless half_basis [4]); auto. unfold col. cbn.
      destruct (Rle_lt_dec (/ 2) (-1)); [lra|]. destruct (Rlt_le_dec (/ 2) 1); [|lra]. reflexivity. }
    split; auto. rewrite E. unfold at_. cbn [nth]. intros H. injection H as H. lra.
Qed.
(** The shared-pointer overload of inverse writes to its input. *)
Lemma inverse_swapped : exists b x y, round_trip b /\ length x = S (ob_order b) /\ length y = ob_size b /\
  (exists f, inverse_std b x y = Ok (x, f)) /\ inverse_std b x y <> inverse_sp b x y /\
  exists x', inverse_sp b x y = Ok (x', y) /\ x' <> x.
Proof.
  exists one_basis, [3], [5].
  assert (I : inverse_std one_basis [3] [5] = Ok ([3], [3])) by (unfold inverse_std; rewrite one_basis_inverse; reflexivity).
  assert (J : inverse_sp one_basis [3] [5] = Ok ([5], [5])) by (unfold inverse_sp; rewrite one_basis_inverse; reflexivity).
  split.
  { intros c f0 c0 L1 L2 L3. destruct c as [|v [|]]; try discriminate. destruct c0 as [|v0 [|]]; try discriminate.
    destruct f0 as [|w [|]]; try discriminate. exists [v]. split; [apply one_basis_inverse|].
    rewrite transform_ok; auto; [|split; [reflexivity|]; split; [intros c [<-|[]]; reflexivity|]; discriminate].
    unfold bdot, wdot, wgt, col, at_. cbn. f_equal. f_equal. ring. }
  do 2 (split; auto). split; [exists [3]; exact I|]. split.
  - rewrite I, J. intros H. assert (G : forall u v u' v' : R, Ok ([u], [v]) = Ok ([u'], [v']) -> u = u') by (intros u v u' v' E; injection E; auto).
    apply G in H. lra.
  - exists [5]. split; [exact J|]. intros H. assert (G : forall u v : R, [u] = [v] -> u = v) by (intros u v E; injection E; auto).
    apply G in H. lra.
Qed.
