From Verif Require Import Base BaseR Material_Model Material_Spec.
Set Implicit Arguments. Unset Strict Implicit.
Open Scope nat_scope.

Lemma positive_iff x : positive x = true <-> (0 < x)%R.
Proof. unfold positive. destruct (Rlt_dec 0 x); split; intros; auto; discriminate. Qed.

(** The nested folds, as one invariant rule. *)
Lemma fold_min (f : nat -> bool) l : forall lo,
  let r := fold_left (fun lo gp => if f gp then Nat.min gp lo else lo) l lo in
  r <= lo /\ (forall gp, In gp l -> f gp = true -> r <= gp) /\ (r = lo \/ (In r l /\ f r = true)).
Proof.
  induction l as [|a l IH]; intros lo; simpl; [split; auto; split; [tauto|auto]|].
  specialize (IH (if f a then Nat.min a lo else lo)). cbv zeta in IH. destruct IH as (A & B & C).
  set (r := fold_left _ l _) in *. destruct (f a) eqn:E.
  - split; [lia|]. split.
    + intros gp [->|H] Hf; [lia|auto].
    + destruct C as [C|[C1 C2]]; [|tauto]. destruct (Nat.min_dec a lo) as [M|M]; rewrite M in C.
      * right. rewrite C. auto.
      * auto.
  - split; auto. split; [|tauto]. intros gp [->|H] Hf; [congruence|auto].
Qed.

Lemma fold_max (f : nat -> bool) l : forall up,
  let r := fold_left (fun up gp => if f gp then Nat.max gp up else up) l up in
  up <= r /\ (forall gp, In gp l -> f gp = true -> gp <= r) /\ (r = up \/ (In r l /\ f r = true)).
Proof.
  induction l as [|a l IH]; intros lo; simpl; [split; auto; split; [tauto|auto]|].
  specialize (IH (if f a then Nat.max a lo else lo)). cbv zeta in IH. destruct IH as (A & B & C).
  set (r := fold_left _ l _) in *. destruct (f a) eqn:E.
  - split; [lia|]. split.
    + intros gp [->|H] Hf; [lia|auto].
    + destruct C as [C|[C1 C2]]; [|tauto]. destruct (Nat.max_dec a lo) as [M|M]; rewrite M in C.
      * right. rewrite C. auto.
      * auto.
  - split; auto. split; [|tauto]. intros gp [->|H] Hf; [congruence|auto].
Qed.

Lemma row_lower_spec n nmat g s :
  let r := row_lower n nmat g s in
  r <= g /\ (forall gp k, gp < g -> k < nmat -> (0 < s gp k)%R -> r <= gp) /\
  (r = g \/ exists k, k < nmat /\ r < g /\ (0 < s r k)%R).
Proof.
  unfold row_lower.
  assert (G : forall l lo,
    let r := fold_left (fun lo m => fold_left (fun lo gp => if positive (s gp m) then Nat.min gp lo else lo) (seq 0 g) lo) l lo in
    r <= lo /\ (forall gp k, gp < g -> In k l -> (0 < s gp k)%R -> r <= gp) /\
    (r = lo \/ exists k, In k l /\ r < g /\ (0 < s r k)%R)).
  { induction l as [|m l IH]; intros lo; simpl; [split; auto; split; [tauto|auto]|].
    assert (M := fold_min (fun gp => positive (s gp m)) (seq 0 g) lo). cbv zeta in M.
    set (q := fold_left _ (seq 0 g) lo) in *. destruct M as (M1 & M2 & M3).
    specialize (IH q). cbv zeta in IH. destruct IH as (A & B & C). set (r := fold_left _ l q) in *.
    split; [lia|]. split.
    - intros gp k Hg [->|Hk] Hs; [|eauto].
      assert (q <= gp) by (apply M2; [apply in_seq; lia|apply positive_iff; auto]). lia.
    - destruct C as [C|(k & C1 & C2)].
      + destruct M3 as [M3|[M3 M4]]; [left; congruence|].
        right. exists m. rewrite C. apply in_seq in M3. split; auto. split; [lia|]. apply positive_iff. auto.
      + right. exists k. auto. }
  specialize (G (seq 0 nmat) g). cbv zeta in *. destruct G as (A & B & C). split; auto. split.
  - intros gp k H1 H2. apply B; auto. apply in_seq. lia.
  - destruct C as [C|(k & C1 & C2)]; auto. right. exists k. apply in_seq in C1. split; [lia|auto].
Qed.

Lemma row_upper_spec n nmat g s :
  let r := row_upper n nmat g s in
  g <= r /\ (forall gp k, gp < n -> k < nmat -> (0 < s gp k)%R -> gp <= r) /\
  (r = g \/ exists k, k < nmat /\ r < n /\ (0 < s r k)%R).
Proof.
  unfold row_upper.
  assert (G : forall l lo,
    let r := fold_left (fun up m => fold_left (fun up gp => if positive (s gp m) then Nat.max gp up else up) (seq 0 n) up) l lo in
    lo <= r /\ (forall gp k, gp < n -> In k l -> (0 < s gp k)%R -> gp <= r) /\
    (r = lo \/ exists k, In k l /\ r < n /\ (0 < s r k)%R)).
  { induction l as [|m l IH]; intros lo; simpl; [split; auto; split; [tauto|auto]|].
    assert (M := fold_max (fun gp => positive (s gp m)) (seq 0 n) lo). cbv zeta in M.
    set (q := fold_left _ (seq 0 n) lo) in *. destruct M as (M1 & M2 & M3).
    specialize (IH q). cbv zeta in IH. destruct IH as (A & B & C). set (r := fold_left _ l q) in *.
    split; [lia|]. split.
    - intros gp k Hg [->|Hk] Hs; [|eauto].
      assert (gp <= q) by (apply M2; [apply in_seq; lia|apply positive_iff; auto]). lia.
    - destruct C as [C|(k & C1 & C2)].
      + destruct M3 as [M3|[M3 M4]]; [left; congruence|].
        right. exists m. rewrite C. apply in_seq in M3. split; auto. split; [lia|]. apply positive_iff. auto.
      + right. exists k. auto. }
  specialize (G (seq 0 nmat) g). cbv zeta in *. destruct G as (A & B & C). split; auto. split.
  - intros gp k H1 H2. apply B; auto. apply in_seq. lia.
  - destruct C as [C|(k & C1 & C2)]; auto. right. exists k. apply in_seq in C1. split; [lia|auto].
Qed.

(** ** C20: from any state whatsoever *)
Lemma finalize_bounds x : bounds_complete (finalize x) /\ bounds_attained (finalize x).
Proof.
  unfold bounds_complete, bounds_attained, transfer, lower, upper. cbn [finalize b0 b1 b2 b3 ng nm ss].
  split.
  - intros g gp Hg Hgp (k & Hk & Hp).
    assert (L := row_lower_spec (ng x) (nm x) g (fun gp k => ss x g gp k)).
    assert (U := row_upper_spec (ng x) (nm x) g (fun gp k => ss x g gp k)).
    assert (L' := row_lower_spec (ng x) (nm x) gp (fun g k => ss x g gp k)).
    assert (U' := row_upper_spec (ng x) (nm x) gp (fun g k => ss x g gp k)).
    cbv zeta in *. destruct L as (L1 & L2 & _), U as (U1 & U2 & _), L' as (L3 & L4 & _), U' as (U3 & U4 & _).
    split; split.
    + destruct (Nat.lt_ge_cases gp g); [eapply L2; eauto|lia].
    + eapply U2; eauto.
    + destruct (Nat.lt_ge_cases g gp); [eapply L4; eauto|lia].
    + eapply U4; eauto.
  - intros g Hg.
    assert (L := row_lower_spec (ng x) (nm x) g (fun gp k => ss x g gp k)).
    assert (U := row_upper_spec (ng x) (nm x) g (fun gp k => ss x g gp k)).
    assert (L' := row_lower_spec (ng x) (nm x) g (fun gp k => ss x gp g k)).
    assert (U' := row_upper_spec (ng x) (nm x) g (fun gp k => ss x gp g k)).
    cbv zeta in *. destruct L as (L1 & _ & L2), U as (U1 & _ & U2), L' as (L3 & _ & L4), U' as (U3 & _ & U4).
    repeat split; auto.
    + destruct U2 as [->|(k & A & B & C)]; auto.
    + destruct U4 as [->|(k & A & B & C)]; auto.
    + destruct L2 as [->|(k & A & B & C)]; eauto.
    + destruct U2 as [->|(k & A & B & C)]; eauto.
    + destruct U4 as [->|(k & A & B & C)]; eauto.
    + destruct L4 as [->|(k & A & B & C)]; eauto.
Qed.

(** ** C23 *)
Lemma first_up_spec b d n : forall g,
  let r := first_up b g n d in
  (g <= r < g + n /\ r < b r /\ forall h, g <= h < r -> b h <= h) \/
  (r = d /\ forall h, g <= h < g + n -> b h <= h).
Proof.
  induction n as [|n IH]; intros g; simpl; [right; split; auto; intros; lia|].
  destruct (Nat.ltb_spec g (b g)) as [H|H].
  - left. split; [lia|]. split; auto. intros; lia.
  - specialize (IH (S g)). cbv zeta in IH. destruct IH as [(A & B & C)|(A & B)].
    + left. split; [lia|]. split; auto. intros h Hh. destruct (Nat.eq_dec h g) as [->|]; auto. apply C. lia.
    + right. split; auto. intros h Hh. destruct (Nat.eq_dec h g) as [->|]; auto. apply B. lia.
Qed.
Lemma last_down_spec b d n :
  let r := last_down b n d in
  (r < n /\ b r < r /\ forall h, r < h < n -> h <= b h) \/
  (r = d /\ forall h, h < n -> h <= b h).
Proof.
  induction n as [|n IH]; simpl; [right; split; auto; intros; lia|].
  destruct (Nat.ltb_spec (b n) n) as [H|H].
  - left. split; [lia|]. split; auto. intros; lia.
  - cbv zeta in IH. destruct IH as [(A & B & C)|(A & B)].
    + left. split; [lia|]. split; auto. intros h Hh. destruct (Nat.eq_dec h n) as [->|]; auto. apply C. lia.
    + right. split; auto. intros h Hh. destruct (Nat.eq_dec h n) as [->|]; auto. apply B. lia.
Qed.

Lemma up_bound x g : g < ng x -> (g < b1 (finalize x) g <-> upscatters_into (finalize x) g).
Proof.
  intros Hg. destruct (finalize_bounds x) as [BC BA]. specialize (BA g Hg).
  destruct BA as (_ & _ & U & _ & _ & T & _). unfold upper in *.
  split.
  - intros H. destruct T as [T|T]; [lia|]. exists (b1 (finalize x) g). auto.
  - intros (gp & H1 & H2). destruct (BC g gp Hg ltac:(apply H1) H2) as [[_ Y] _]. unfold upper in Y. lia.
Qed.
Lemma down_bound x g : g < ng x -> (b3 (finalize x) g < g <-> upscatters_from (finalize x) g).
Proof.
  intros Hg. destruct (finalize_bounds x) as [BC BA]. specialize (BA g Hg).
  destruct BA as (_ & _ & _ & _ & _ & _ & _ & T). unfold upper in *.
  split.
  - intros H. destruct T as [T|T]; [lia|]. exists (b3 (finalize x) g). auto.
  - intros (gp & H1 & H2). assert (gp < ng x) by lia.
    destruct (BC gp g H Hg H2) as [_ [Y _]]. unfold upper in Y. lia.
Qed.

Lemma cutoff_from x : cut0 x = ng x \/ (exists g, g < ng x /\ upscatters_into (finalize x) g) ->
  cutoff_ok (finalize x) (upscatter_cutoff (finalize x) false).
Proof.
  intros H. unfold upscatter_cutoff.
  assert (E : cut0 (finalize x) = first_up (b1 (finalize x)) 0 (ng x) (cut0 x)) by reflexivity. rewrite E.
  assert (N : ng (finalize x) = ng x) by reflexivity.
  destruct (first_up_spec (b1 (finalize x)) (cut0 x) (ng x) 0) as [(A & B & C)|(A & B)].
  - split; [rewrite N; lia|]. split.
    + intros g Hg. rewrite <- up_bound by lia. specialize (C g). lia.
    + intros _. apply up_bound; auto. lia.
  - assert (NU : forall g, g < ng x -> ~ upscatters_into (finalize x) g).
    { intros g Hg. rewrite <- up_bound by lia. specialize (B g). lia. }
    destruct H as [H|(g & Hg & H)]; [|exfalso; eapply NU; eauto].
    rewrite A, H. split; [rewrite N; lia|]. split; [auto|]. rewrite N. lia.
Qed.
Lemma adjoint_cutoff_from x : cut1 x = 0 \/ (exists g, g < ng x /\ upscatters_from (finalize x) g) ->
  adjoint_cutoff_ok (finalize x) (upscatter_cutoff (finalize x) true).
Proof.
  intros H. unfold upscatter_cutoff.
  assert (E : cut1 (finalize x) = last_down (b3 (finalize x)) (ng x) (cut1 x)) by reflexivity. rewrite E.
  assert (N : ng (finalize x) = ng x) by reflexivity.
  destruct (last_down_spec (b3 (finalize x)) (cut1 x) (ng x)) as [(A & B & C)|(A & B)].
  - split.
    + rewrite N. intros g Hg. rewrite <- down_bound by lia. specialize (C g). lia.
    + intros _. split; [rewrite N; lia|]. apply down_bound; auto.
  - assert (NU : forall g, g < ng x -> ~ upscatters_from (finalize x) g).
    { intros g Hg. rewrite <- down_bound by lia. specialize (B g). lia. }
    destruct H as [H|(g & Hg & H)]; [|exfalso; eapply NU; eauto].
    rewrite A, H. split; [|lia]. rewrite N. intros g Hg. apply NU. lia.
Qed.

Lemma plain_keeps l : forallb plain l = true -> forall x,
  let y := run_ops x l in
  ng y = ng x /\ nm y = nm x /\ cut0 y = cut0 x /\ cut1 y = cut1 x /\ ds0 y = ds0 x /\ ds1 y = ds1 x /\ fin y = fin x.
Proof.
  induction l as [|o l IH]; intros H x; [repeat split|].
  cbv zeta. change (run_ops x (o :: l)) with (run_ops (step x o) l).
  simpl in H. apply andb_true_iff in H. destruct H as [Ho Hl]. specialize (IH Hl (step x o)). cbv zeta in IH.
  destruct IH as (A & B & C & D & E & F & G). rewrite A, B, C, D, E, F, G.
  destruct o; try discriminate; repeat split.
Qed.

Lemma fresh_finalized nmat ngrp l : forallb plain l = true ->
  let x := finalize (run_ops (material_new nmat ngrp) l) in
  cutoff_ok x (upscatter_cutoff x false) /\ adjoint_cutoff_ok x (upscatter_cutoff x true) /\
  (downscatter x false = true <-> forall g, g < ngrp -> ~ upscatters_into x g).
Proof.
  intros H x. destruct (@plain_keeps l H (material_new nmat ngrp)) as (A & B & C & D & E & F & G).
  assert (CO : cutoff_ok x (upscatter_cutoff x false)) by (apply cutoff_from; left; rewrite C, A; reflexivity).
  split; auto. split; [apply adjoint_cutoff_from; left; rewrite D; reflexivity|].
  assert (DS : downscatter x false = if cut0 x =? ng x then true else ds0 (run_ops (material_new nmat ngrp) l)) by reflexivity.
  rewrite E in DS. cbn [ds0 material_new] in DS. rewrite DS.
  assert (N : ng x = ngrp) by (unfold x; cbn [finalize ng]; rewrite A; reflexivity).
  destruct CO as (CL & C1 & C2). unfold upscatter_cutoff in *.
  destruct (Nat.eqb_spec (cut0 x) (ng x)) as [Q|Q]; split; auto.
  - intros _. intros g Hg. apply C1. lia.
  - discriminate.
  - intros HN. exfalso. eapply HN; [|apply C2]; lia.
Qed.

(** ** C21 *)
(** The transfer from group 1 into group 0 is removed, yet the cutoff stays. *)
Definition hist_up := [SetS 0 0 1 1%R; Finalize; SetS 0 0 1 0%R; Finalize].
Definition hist_up_fresh := [SetS 0 0 1 1%R; SetS 0 0 1 0%R; Finalize].
(** A transfer is added after a finalize without any. *)
Definition hist_down := [Finalize; SetS 0 0 1 1%R; Finalize].
Definition hist_down_fresh := [SetS 0 0 1 1%R; Finalize].

Lemma positive_one : positive 1 = true.
Proof. apply positive_iff. lra. Qed.
Lemma positive_zero : positive 0 = false.
Proof. unfold positive. destruct (Rlt_dec 0 0); auto. lra. Qed.

Ltac crunch := cbn -[positive]; rewrite ?positive_one, ?positive_zero; cbn -[positive];
  rewrite ?positive_one, ?positive_zero; cbn -[positive].

Lemma refinalize_cutoff :
  same_sections (run_ops (material_new 1 2) hist_up) (run_ops (material_new 1 2) hist_up_fresh) /\
  upscatter_cutoff (run_ops (material_new 1 2) hist_up) false = 0 /\
  upscatter_cutoff (run_ops (material_new 1 2) hist_up_fresh) false = 2.
Proof.
  split; [repeat split|].
  split; unfold hist_up, hist_up_fresh, run_ops, upscatter_cutoff; repeat crunch; reflexivity.
Qed.
Lemma refinalize_flag :
  same_sections (run_ops (material_new 1 2) hist_down) (run_ops (material_new 1 2) hist_down_fresh) /\
  upscatters_into (run_ops (material_new 1 2) hist_down) 0 /\
  downscatter (run_ops (material_new 1 2) hist_down) false = true /\
  downscatter (run_ops (material_new 1 2) hist_down_fresh) false = false.
Proof.
  split; [repeat split|].
  split.
  { exists 1. split; [simpl; lia|]. exists 0. split; [simpl; lia|]. simpl. unfold set3. simpl. lra. }
  split; unfold hist_down, hist_down_fresh, run_ops, downscatter; repeat crunch; reflexivity.
Qed.

(** What does hold for any two histories. *)
Lemma fold_left_ext A B (f g : A -> B -> A) l : (forall a b, f a b = g a b) ->
  forall a, fold_left f l a = fold_left g l a.
Proof. intros H. induction l as [|b l IH]; intros a; simpl; auto. rewrite H. apply IH. Qed.
Lemma row_lower_ext n k g s t : (forall a b, s a b = t a b) -> row_lower n k g s = row_lower n k g t.
Proof.
  intros H. unfold row_lower. apply fold_left_ext. intros a b. apply fold_left_ext. intros. rewrite H. reflexivity.
Qed.
Lemma row_upper_ext n k g s t : (forall a b, s a b = t a b) -> row_upper n k g s = row_upper n k g t.
Proof.
  intros H. unfold row_upper. apply fold_left_ext. intros a b. apply fold_left_ext. intros. rewrite H. reflexivity.
Qed.

Lemma refinalize_bounds x y : same_sections x y ->
  (forall g tran, lower (finalize x) g tran = lower (finalize y) g tran /\
                  upper (finalize x) g tran = upper (finalize y) g tran) /\
  (forall g k, nsf (finalize x) g k = nsf (finalize y) g k) /\
  ((exists g, g < ng x /\ upscatters_into (finalize x) g) ->
     upscatter_cutoff (finalize x) false = upscatter_cutoff (finalize y) false).
Proof.
  intros (N & M & S & V).
  assert (BB : forall g tran, lower (finalize x) g tran = lower (finalize y) g tran /\
                  upper (finalize x) g tran = upper (finalize y) g tran).
  { intros g tran. unfold lower, upper. cbn [finalize b0 b1 b2 b3]. rewrite N, M.
    destruct tran; split; try apply row_lower_ext; try apply row_upper_ext; intros; apply S. }
  split; auto. split.
  - intros g k. cbn [finalize nsf]. destruct (V g k) as [-> ->]. reflexivity.
  - intros H. 
    assert (TR : forall g gp, transfer (finalize x) g gp <-> transfer (finalize y) g gp).
    { intros g gp. unfold transfer. cbn [finalize nm ss]. rewrite M.
      split; intros (k & A & B); exists k; [rewrite <- S|rewrite S]; auto. }
    assert (UI : forall g, upscatters_into (finalize x) g <-> upscatters_into (finalize y) g).
    { intros g. unfold upscatters_into. cbn [finalize ng]. rewrite N.
      split; intros (gp & A & B); exists gp; [rewrite <- TR|rewrite TR]; auto. }
    assert (CX := @cutoff_from x (or_intror H)).
    assert (CY : cutoff_ok (finalize y) (upscatter_cutoff (finalize y) false)).
    { apply cutoff_from. right. destruct H as (g & A & B). exists g. rewrite <- N, <- UI. auto. }
    destruct CX as (X1 & X2 & X3), CY as (Y1 & Y2 & Y3). cbn [finalize ng] in X1, Y1.
    set (cx := upscatter_cutoff (finalize x) false) in *. set (cy := upscatter_cutoff (finalize y) false) in *.
    destruct (Nat.lt_trichotomy cx cy) as [L|[L|L]]; auto; exfalso.
    + apply (Y2 cx L). apply UI. apply X3. cbn [finalize ng]. lia.
    + apply (X2 cy L). apply UI. apply Y3. cbn [finalize ng]. lia.
Qed.

(** ** C22 *)
Lemma sigma_a_balance x g k :
  (sa (compute_sigma_a x) g k + rsum (ng x) (fun gp => ss (compute_sigma_a x) gp g k) = st (compute_sigma_a x) g k)%R.
Proof.
  cbn [compute_sigma_a sa ss st]. generalize (st x g k) as v. generalize (ng x) as n.
  induction n as [|n IH]; intros v; [simpl; ring|].
  rewrite seq_S, fold_left_app. cbn [fold_left rsum]. rewrite <- (IH v) at 2. simpl. ring.
Qed.
Lemma diff_coef_inverse x g k : st x g k <> 0%R ->
  (3 * dc (compute_diff_coef x) g k * st (compute_diff_coef x) g k = 1)%R.
Proof. intros H. cbn [compute_diff_coef dc st]. field. auto. Qed.

(** ** C71 *)
Lemma set_downscatter_both : exists x, downscatter x false = false /\ 
  downscatter (set_downscatter x true true) false = true.
Proof. exists (material_new 1 2). split; reflexivity. Qed.
Lemma set_downscatter_self x v tran : fin x = false ->
  downscatter (set_downscatter x v tran) tran = v /\
  (tran = false -> downscatter (set_downscatter x v tran) true = downscatter x true).
Proof.
  intros H. unfold set_downscatter. rewrite H. unfold downscatter. simpl. destruct tran; split; auto; discriminate.
Qed.
