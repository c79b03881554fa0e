From Verif Require Import Base BaseR Loop Mesh_Model Mesh_Spec.
Set Implicit Arguments. Unset Strict Implicit.
Open Scope nat_scope.

Lemma fill_block_spec N (F : nat -> Z -> Prop) D a i1 w j1 h nx src f :
  (forall x y, x < w -> y < h ->
     x + y * w < length src /\ i1 + x + (j1 + y) * nx < N /\
     F (i1 + x + (j1 + y) * nx) (f (nth (x + y * w) src 0%Z))) ->
  holds N F D a ->
  exists a', fill_block i1 (i1 + w) j1 (j1 + h) nx src f a = Ok a' /\
    holds N F (fun c => D c \/ exists x y, x < w /\ y < h /\ c = i1 + x + (j1 + y) * nx) a'.
Proof.
  intros HF Ha. unfold fill_block.
  match goal with |- context [for_ j1 (j1 + h) _ ?b] => set (body := b) end.
  destruct (@for_holds_st Z nat N F (fun jj c => exists x, x < w /\ c = i1 + x + jj * nx)
              (fun jj => (jj - j1) * w) D j1 (j1 + h) a body) as (a' & E & H); auto; [lia| |].
  - intros jj D1 a1 Hj Ha1. unfold body.
    match goal with |- context [for_ i1 (i1 + w) _ ?b] => set (bodyi := b) end.
    destruct (@for_holds_st Z nat N F (fun ii c => c = ii + jj * nx)
              (fun ii => (jj - j1) * w + (ii - i1)) D1 i1 (i1 + w) a1 bodyi) as (a2 & E2 & H2); auto; [lia| |].
    + intros ii D2 a2 Hi Ha2. unfold bodyi. cbn [fst snd].
      destruct (HF (ii - i1) (jj - j1)) as (A & B & C); try lia.
      replace ((jj - j1) * w + (ii - i1)) with (ii - i1 + (jj - j1) * w) by lia.
      rewrite (rd_ok src 0%Z A). cbn [bind].
      replace (i1 + (ii - i1)) with ii in * by lia. replace (j1 + (jj - j1)) with jj in * by lia.
      destruct (holds_wr Ha2 B C) as (a3 & E3 & H3). rewrite E3. cbn [bind]. exists a3.
      split; auto. do 2 f_equal. lia.
    + replace ((jj - j1) * w + (i1 - i1)) with ((jj - j1) * w) in E2 by lia.
      replace ((jj - j1) * w + (i1 + w - i1)) with ((S jj - j1) * w) in E2 by nia.
      exists a2. split; auto. eapply holds_weaken; [exact H2|].
      intros c _ [HD|(x & Hx & ->)]; auto. right. exists (i1 + x). split; auto. lia.
  - replace ((j1 - j1) * w) with 0 in E by lia. rewrite E. cbn [bind fst]. exists a'. split; auto.
    eapply holds_weaken; [exact H|].
    intros c _ [HD|(x & y & Hx & Hy & ->)]; auto. right. exists (j1 + y). split; [lia|]. exists x. auto.
Qed.

Lemma tile_inj n p I J x y I' J' x' y' : I < n -> x < p -> y < p -> I' < n -> x' < p -> y' < p ->
  tile_cell n p I J x y = tile_cell n p I' J' x' y' -> I = I' /\ J = J' /\ x = x' /\ y = y'.
Proof.
  intros HI Hx Hy HI' Hx' Hy' E. unfold tile_cell in E.
  destruct (@idx2_inj (I * p + x) (J * p + y) (I' * p + x') (J' * p + y') (p * n)) as [A B]; auto; try nia.
  rewrite (Nat.add_comm (I * p)), (Nat.add_comm (I' * p)) in A.
  rewrite (Nat.add_comm (J * p)), (Nat.add_comm (J' * p)) in B.
  apply idx2_inj in A; auto. apply idx2_inj in B; auto. tauto.
Qed.

Lemma tile_lt n p I J x y : I < n -> J < n -> x < p -> y < p -> tile_cell n p I J x y < p * n * (p * n).
Proof. intros. unfold tile_cell. apply idx2_lt; nia. Qed.

(** All writes of one tile, as a step of [holds]. *)
Definition tileF n p (val : nat -> nat -> nat -> Z) (c : nat) (v : Z) : Prop :=
  forall I J x y, I < n -> J < n -> x < p -> y < p -> c = tile_cell n p I J x y -> v = val I J (x + y * p).

Definition done n p i j (c : nat) : Prop :=
  exists I J x y, I < n /\ x < p /\ y < p /\ (J < j \/ (J = j /\ I < i)) /\ c = tile_cell n p I J x y.

Lemma fill_tile n p val i j src f a : i < n -> j < n -> length src = p * p ->
  (forall q, q < p * p -> f (nth q src 0%Z) = val i j q) ->
  holds (p * n * (p * n)) (tileF n p val) (done n p i j) a ->
  exists a', fill_block (i * p) (i * p + p) (j * p) (j * p + p) (p * n) src f a = Ok a' /\
    holds (p * n * (p * n)) (tileF n p val) (done n p (S i) j) a'.
Proof.
  intros Hi Hj HL Hf Ha.
  destruct (@fill_block_spec (p * n * (p * n)) (tileF n p val) (done n p i j) a (i * p) p (j * p) p (p * n) src f)
    as (a' & E & H); auto.
  - intros x y Hx Hy. assert (L := tile_lt Hi Hj Hx Hy). unfold tile_cell in L.
    assert (x + y * p < p * p) by (apply idx2_lt; auto).
    split; [lia|]. split; auto.
    intros I J x' y' HI HJ Hx' Hy' Ec.
    change (i * p + x + (j * p + y) * (p * n)) with (tile_cell n p i j x y) in Ec.
    destruct (tile_inj Hi Hx Hy HI Hx' Hy' Ec) as (<- & <- & <- & <-). apply Hf; auto.
  - exists a'. split; auto. eapply holds_weaken; [exact H|].
    intros c _ (I & J & x & y & HI & Hx & Hy & HJ & ->).
    destruct HJ as [HJ|[-> HJ]]; [left; exists I, J, x, y; auto 10|].
    destruct (Nat.eq_dec I i) as [->|Ne].
    + right. exists x, y. auto.
    + left. exists I, j, x, y. repeat split; auto. right. split; auto. lia.
Qed.

Lemma done_row n p j (a : list Z) F : holds (p * n * (p * n)) F (done n p n j) a ->
  holds (p * n * (p * n)) F (done n p 0 (S j)) a.
Proof.
  intros H. eapply holds_weaken; [exact H|].
  intros c _ (I & J & x & y & HI & Hx & Hy & HJ & ->). exists I, J, x, y. repeat split; auto.
  destruct HJ as [HJ|[-> HJ]]; [|lia]. destruct (Nat.eq_dec J j); auto. left. lia.
Qed.

Lemma done_all n p val a : holds (p * n * (p * n)) (tileF n p val) (done n p 0 n) a -> tiled n p a val.
Proof.
  intros [L H]. split; auto. intros I J x y HI HJ Hx Hy.
  destruct (H (tile_cell n p I J x y)) as (v & Ev & Fv).
  - apply tile_lt; auto.
  - exists I, J, x, y. auto 10.
  - rewrite (nth_error_nth _ _ _ Ev). apply Fv; auto.
Qed.

Open Scope R_scope.
Lemma row_edges_spec ed p dy (W : nat -> R) (j1 : nat) :
  (j1 + p < length ed)%nat -> length dy = p ->
  (forall y, (y < p)%nat -> nth y dy 0 = W (j1 + y)%nat) ->
  nth 0 ed 0 = 0 -> (forall t, (t < j1)%nat -> nth (t + 1) ed 0 = nth t ed 0 + W t) ->
  exists ed', row_edges ed j1 (j1 + p) dy = Ok ed' /\ length ed' = length ed /\ nth 0 ed' 0 = 0 /\
    forall t, (t < j1 + p)%nat -> nth (t + 1) ed' 0 = nth t ed' 0 + W t.
Proof.
  intros HL HD HW H0 HI. unfold row_edges.
  destruct (@for_inv _ (fun n e => length e = length ed /\ nth 0 e 0 = 0 /\
      forall t, (t < n)%nat -> nth (t + 1) e 0 = nth t e 0 + W t) j1 (j1 + p)%nat ed
      (fun jj edges => do e <- rd edges jj; do w <- rd dy (jj - j1); wr edges (jj + 1) (e + w))) as (e & E & P); auto; [lia| |].
  - intros i s Hi (L & Z0 & P). rewrite (rd0 (l := s) (n := i)), (rd0 (l := dy) (n := i - j1)) by lia. cbn [bind].
    unfold wr. rewrite (proj2 (Nat.ltb_lt (i + 1) (length s))) by lia. eexists. split; [reflexivity|].
    split; [rewrite upd_length; auto|]. split; [rewrite nth_upd_neq by lia; auto|].
    intros t Ht. rewrite (@nth_upd_neq R s (i + 1) t) by lia.
    destruct (Nat.eq_dec t i) as [->|Ne].
    + rewrite nth_upd_eq by lia. rewrite HW by lia. f_equal. f_equal. lia.
    + rewrite nth_upd_neq by lia. apply P. lia.
  - exists e. destruct P as (A & B & C). auto.
Qed.
Open Scope nat_scope.

Definition dpin : pin := Build_pin 0 0 [] [] [].
Definition pin_at (pins : list pin) (pmap : list nat) (k : nat) : pin := nth (nth k pmap 0) pins dpin.

Lemma assembly_tiling n p pins pmap :
  pins <> [] -> Forall (pin_ok p) pins -> length pmap = n * n ->
  Forall (fun q => q < length pins) pmap ->
  exists A, assembly_finalize n n pins pmap = Ok A /\ a_nx A = p * n /\
    tiled n p (a_mat A) (fun I J c => nth c (pmat (pin_at pins pmap (I + J * n))) 0%Z) /\
    tiled n p (a_reg A) (fun I J c => nth c (preg (pin_at pins pmap (I + J * n))) 0%Z) /\
    tiled n p (a_pin A) (fun I J _ => Z.of_nat (I + J * n)) /\
    edges_of n p (a_edges A) (fun J => pdy (pin_at pins pmap (J * n))).
Proof.
  intros Hne HP HL HM. unfold assembly_finalize.
  assert (Hlen : 0 < length pins) by (destruct pins; [tauto|simpl; lia]).
  rewrite (rd_ok pins dpin Hlen). cbn [bind].
  assert (PK : forall q, q < length pins -> pin_ok p (nth q pins dpin)).
  { intros q Hq. rewrite Forall_forall in HP. apply HP. apply nth_In. auto. }
  assert (P0 := PK 0 Hlen). set (p0 := nth 0 pins dpin) in *.
  assert (CHK : forallb (fun q => (pnx p0 =? pnx q) && (pny p0 =? pny q)) pins = true).
  { apply forallb_forall. intros q Hq. rewrite Forall_forall in HP. specialize (HP q Hq).
    destruct P0 as (A & B & _). destruct HP as (A' & B' & _). rewrite A, B, A', B', Nat.eqb_refl. auto. }
  rewrite CHK. cbn [negb]. rewrite HL, Nat.eqb_refl. cbn [negb].
  rewrite Nat.sqrt_square. destruct P0 as (X0 & Y0 & _). rewrite X0, Y0.
  assert (AT : forall k, k < n * n -> rd pmap k = Ok (nth k pmap 0) /\
             rd pins (nth k pmap 0) = Ok (pin_at pins pmap k) /\ pin_ok p (pin_at pins pmap k)).
  { intros k Hk. rewrite (rd_ok pmap 0) by lia. split; auto.
    assert (nth k pmap 0 < length pins) by (rewrite Forall_forall in HM; apply HM; apply nth_In; lia).
    split; [apply rd_ok; auto|]. apply PK. auto. }
  set (N := p * n * (p * n)).
  set (vm := fun I J c => nth c (pmat (pin_at pins pmap (I + J * n))) 0%Z).
  set (vr := fun I J c => nth c (preg (pin_at pins pmap (I + J * n))) 0%Z).
  set (vp := fun I J (_ : nat) => Z.of_nat (I + J * n)).
  set (W := fun t => nth (t mod p) (pdy (pin_at pins pmap (t / p * n))) 0%R).
  match goal with |- context [for_ 0 n ?s ?b] => set (body := b) end.
  set (Inv := fun j (s : list R * (list Z * list Z * list Z * (nat * (nat * nat)))) =>
    exists ed mt rg pn, s = (ed, ((mt, rg, pn), (j * n, (0, j * p)))) /\
      holds N (tileF n p vm) (done n p 0 j) mt /\ holds N (tileF n p vr) (done n p 0 j) rg /\
      holds N (tileF n p vp) (done n p 0 j) pn /\
      length ed = p * n + 1 /\ nth 0 ed 0%R = 0%R /\
      (forall t, t < j * p -> nth (t + 1) ed 0%R = (nth t ed 0 + W t)%R)).
  destruct (@for_inv _ Inv 0 n (repeat 0%R (p * n + 1), ((repeat 0%Z N, repeat 0%Z N, repeat 0%Z N), (0, (0, 0)))) body)
    as (s & E & ed & mt & rg & pn & -> & Hm & Hr & Hp & Le & Z0 & He).
  - lia.
  - exists (repeat 0%R (p * n + 1)), (repeat 0%Z N), (repeat 0%Z N), (repeat 0%Z N).
    split; auto.
    assert (H0 : forall (F : nat -> Z -> Prop), holds N F (done n p 0 0) (repeat 0%Z N)).
    { intros F. split; [apply repeat_length|]. intros c _ (I & J & x & y & _ & _ & _ & HJ & _). lia. }
    split; [apply H0|]. split; [apply H0|]. split; [apply H0|]. split; [apply repeat_length|].
    split; [destruct (p * n + 1); reflexivity|]. intros; lia.
  - intros j s Hj (ed & mt & rg & pn & -> & Hm & Hr & Hp & Le & Z0 & He). unfold body.
    assert (K : j * n < n * n) by nia. destruct (AT _ K) as (R1 & R2 & PO).
    rewrite R1. cbn [bind]. rewrite R2. cbn [bind].
    destruct PO as (_ & _ & Ld & _).
    destruct (@row_edges_spec ed p (pdy (pin_at pins pmap (j * n))) W (j * p)) as (ed' & Ee & Le' & Z0' & He'); auto.
    { rewrite Le. nia. }
    { intros y Hy. unfold W. rewrite Nat.add_comm. destruct (@idx2 y j p Hy) as [-> ->]. auto. }
    rewrite Ee. cbn [bind].
    set (InvI := fun i (s : list Z * list Z * list Z * (nat * (nat * nat))) =>
      exists mt rg pn, s = ((mt, rg, pn), (i + j * n, (i * p, j * p))) /\
        holds N (tileF n p vm) (done n p i j) mt /\ holds N (tileF n p vr) (done n p i j) rg /\
        holds N (tileF n p vp) (done n p i j) pn).
    match goal with |- context [for_ 0 n ?s ?b] => set (bodyi := b) end.
    destruct (@for_inv _ InvI 0 n ((mt, rg, pn), (j * n, (0, j * p))) bodyi)
      as (s & E & mt' & rg' & pn' & -> & Hm' & Hr' & Hp').
    + lia.
    + exists mt, rg, pn. auto.
    + intros i s Hi (mt1 & rg1 & pn1 & -> & Hm1 & Hr1 & Hp1). unfold bodyi.
      assert (K' : i + j * n < n * n) by (apply idx2_lt; lia). destruct (AT _ K') as (Q1 & Q2 & QO).
      rewrite Q1. cbn [bind]. rewrite Q2. cbn [bind].
      destruct QO as (_ & _ & _ & LM & LRg).
      destruct (@fill_tile n p vm i j (pmat (pin_at pins pmap (i + j * n))) (fun v => v) mt1) as (mt2 & E2 & Hm2);
        auto; try lia.
      rewrite E2. cbn [bind].
      destruct (@fill_tile n p vr i j (preg (pin_at pins pmap (i + j * n))) (fun v => v) rg1) as (rg2 & E3 & Hr2);
        auto; try lia.
      rewrite E3. cbn [bind].
      destruct (@fill_tile n p vp i j (preg (pin_at pins pmap (i + j * n))) (fun _ => Z.of_nat (i + j * n)) pn1) as (pn2 & E4 & Hp2);
        auto; try lia.
      rewrite E4. cbn [bind]. eexists. split; [reflexivity|]. exists mt2, rg2, pn2. split; auto.
      do 2 f_equal; [lia|]. f_equal. lia.
    + rewrite E. cbn [bind]. eexists. split; [reflexivity|].
      exists ed', mt', rg', pn'. split; [do 3 f_equal; try lia; f_equal; lia|].
      split; [apply done_row; auto|]. split; [apply done_row; auto|]. split; [apply done_row; auto|].
      split; [lia|]. split; auto. intros t Ht. apply He'. lia.
  - rewrite E. cbn [bind]. eexists. split; [reflexivity|]. cbn [a_nx a_mat a_reg a_pin a_edges].
    split; auto. split; [apply done_all; auto|]. split; [apply done_all; auto|]. split; [apply done_all; auto|].
    split; [auto|]. split; auto. intros J y HJ Hy. rewrite He by nia. f_equal. unfold W.
    rewrite (Nat.add_comm (J * p)). destruct (@idx2 y J p Hy) as [-> ->]. auto.
Qed.

Definition dapart : apart := Build_apart 0 0 [] [] [] [].
Definition part_at (parts : list apart) (amap : list nat) (k : nat) : apart := nth (nth k amap 0) parts dapart.

Lemma core_tiling n p adim parts amap :
  parts <> [] -> Forall (apart_ok p) parts -> length amap = n * n ->
  Forall (fun q => q < length parts) amap ->
  exists A, core_finalize n adim parts amap = Ok A /\ k_nx A = p * n /\
    tiled n p (k_mat A) (fun I J c => nth c (amat (part_at parts amap (I + J * n))) 0%Z) /\
    tiled n p (k_reg A) (fun I J c => nth c (areg (part_at parts amap (I + J * n))) 0%Z) /\
    tiled n p (k_pin A) (fun I J c => (nth c (apin (part_at parts amap (I + J * n))) 0 +
                                      Z.of_nat ((I + J * n) * (adim * adim)))%Z) /\
    tiled n p (k_ass A) (fun I J _ => Z.of_nat (I + J * n)) /\
    edges_of n p (k_edges A) (fun J => ady (part_at parts amap (J * n))).
Proof.
  intros Hne HP HL HM. unfold core_finalize.
  assert (Hlen : 0 < length parts) by (destruct parts; [tauto|simpl; lia]).
  rewrite HL, Nat.eqb_refl. cbn [negb].
  rewrite (rd_ok parts dapart Hlen). cbn [bind].
  assert (PK : forall q, q < length parts -> apart_ok p (nth q parts dapart)).
  { intros q Hq. rewrite Forall_forall in HP. apply HP. apply nth_In. auto. }
  assert (P0 := PK 0 Hlen). set (p0 := nth 0 parts dapart) in *.
  rewrite Nat.sqrt_square. destruct P0 as (X0 & Y0 & _). rewrite X0, Y0.
  assert (AT : forall k, k < n * n -> rd amap k = Ok (nth k amap 0) /\
             rd parts (nth k amap 0) = Ok (part_at parts amap k) /\ apart_ok p (part_at parts amap k)).
  { intros k Hk. rewrite (rd_ok amap 0) by lia. split; auto.
    assert (nth k amap 0 < length parts) by (rewrite Forall_forall in HM; apply HM; apply nth_In; lia).
    split; [apply rd_ok; auto|]. apply PK. auto. }
  set (N := p * n * (p * n)).
  set (vm := fun I J c => nth c (amat (part_at parts amap (I + J * n))) 0%Z).
  set (vr := fun I J c => nth c (areg (part_at parts amap (I + J * n))) 0%Z).
  set (vp := fun I J c => (nth c (apin (part_at parts amap (I + J * n))) 0 + Z.of_nat ((I + J * n) * (adim * adim)))%Z).
  set (vs := fun I J (_ : nat) => Z.of_nat (I + J * n)).
  set (W := fun t => nth (t mod p) (ady (part_at parts amap (t / p * n))) 0%R).
  match goal with |- context [for_ 0 n ?s ?b] => set (body := b) end.
  set (Inv := fun j (s : list R * (list Z * list Z * list Z * list Z * (nat * (nat * nat)))) =>
    exists ed mt rg pn sn, s = (ed, ((mt, rg, pn, sn), (j * n, (0, j * p)))) /\
      holds N (tileF n p vm) (done n p 0 j) mt /\ holds N (tileF n p vr) (done n p 0 j) rg /\
      holds N (tileF n p vp) (done n p 0 j) pn /\ holds N (tileF n p vs) (done n p 0 j) sn /\
      length ed = p * n + 1 /\ nth 0 ed 0%R = 0%R /\
      (forall t, t < j * p -> nth (t + 1) ed 0%R = (nth t ed 0 + W t)%R)).
  destruct (@for_inv _ Inv 0 n (repeat 0%R (p * n + 1), ((repeat 0%Z N, repeat 0%Z N, repeat 0%Z N, repeat 0%Z N), (0, (0, 0)))) body)
    as (s & E & ed & mt & rg & pn & sn & -> & Hm & Hr & Hp & Hs & Le & Z0 & He).
  - lia.
  - exists (repeat 0%R (p * n + 1)), (repeat 0%Z N), (repeat 0%Z N), (repeat 0%Z N), (repeat 0%Z N).
    split; auto.
    assert (H0 : forall (F : nat -> Z -> Prop), holds N F (done n p 0 0) (repeat 0%Z N)).
    { intros F. split; [apply repeat_length|]. intros c _ (I & J & x & y & _ & _ & _ & HJ & _). lia. }
    split; [apply H0|]. split; [apply H0|]. split; [apply H0|]. split; [apply H0|]. split; [apply repeat_length|].
    split; [destruct (p * n + 1); reflexivity|]. intros; lia.
  - intros j s Hj (ed & mt & rg & pn & sn & -> & Hm & Hr & Hp & Hs & Le & Z0 & He). unfold body.
    assert (K : j * n < n * n) by nia. destruct (AT _ K) as (R1 & R2 & PO).
    rewrite R1. cbn [bind]. rewrite R2. cbn [bind].
    destruct PO as (_ & _ & Ld & _).
    destruct (@row_edges_spec ed p (ady (part_at parts amap (j * n))) W (j * p)) as (ed' & Ee & Le' & Z0' & He'); auto.
    { rewrite Le. nia. }
    { intros y Hy. unfold W. rewrite Nat.add_comm. destruct (@idx2 y j p Hy) as [-> ->]. auto. }
    rewrite Ee. cbn [bind].
    set (InvI := fun i (s : list Z * list Z * list Z * list Z * (nat * (nat * nat))) =>
      exists mt rg pn sn, s = ((mt, rg, pn, sn), (i + j * n, (i * p, j * p))) /\
        holds N (tileF n p vm) (done n p i j) mt /\ holds N (tileF n p vr) (done n p i j) rg /\
        holds N (tileF n p vp) (done n p i j) pn /\ holds N (tileF n p vs) (done n p i j) sn).
    match goal with |- context [for_ 0 n ?s ?b] => set (bodyi := b) end.
    destruct (@for_inv _ InvI 0 n ((mt, rg, pn, sn), (j * n, (0, j * p))) bodyi)
      as (s & E & mt' & rg' & pn' & sn' & -> & Hm' & Hr' & Hp' & Hs').
    + lia.
    + exists mt, rg, pn, sn. auto.
    + intros i s Hi (mt1 & rg1 & pn1 & sn1 & -> & Hm1 & Hr1 & Hp1 & Hs1). unfold bodyi.
      assert (K' : i + j * n < n * n) by (apply idx2_lt; lia). destruct (AT _ K') as (Q1 & Q2 & QO).
      rewrite Q1. cbn [bind]. rewrite Q2. cbn [bind].
      destruct QO as (_ & _ & _ & LM & LRg & LP).
      destruct (@fill_tile n p vm i j (amat (part_at parts amap (i + j * n))) (fun v => v) mt1) as (mt2 & E2 & Hm2);
        auto; try lia.
      rewrite E2. cbn [bind].
      destruct (@fill_tile n p vr i j (areg (part_at parts amap (i + j * n))) (fun v => v) rg1) as (rg2 & E3 & Hr2);
        auto; try lia.
      rewrite E3. cbn [bind].
      destruct (@fill_tile n p vp i j (apin (part_at parts amap (i + j * n))) (fun v => (v + Z.of_nat ((i + j * n) * (adim * adim)))%Z) pn1) as (pn2 & E4 & Hp2);
        auto; try lia.
      rewrite E4. cbn [bind].
      destruct (@fill_tile n p vs i j (apin (part_at parts amap (i + j * n))) (fun _ => Z.of_nat (i + j * n)) sn1) as (sn2 & E5 & Hs2);
        auto; try lia.
      rewrite E5. cbn [bind]. eexists. split; [reflexivity|]. exists mt2, rg2, pn2, sn2. split; auto.
      do 2 f_equal; [lia|]. f_equal. lia.
    + rewrite E. cbn [bind]. eexists. split; [reflexivity|].
      exists ed', mt', rg', pn', sn'. split; [do 3 f_equal; try lia; f_equal; lia|].
      split; [apply done_row; auto|]. split; [apply done_row; auto|]. split; [apply done_row; auto|].
      split; [apply done_row; auto|].
      split; [lia|]. split; auto. intros t Ht. apply He'. lia.
  - rewrite E. cbn [bind]. eexists. split; [reflexivity|]. cbn [k_nx k_mat k_reg k_pin k_ass k_edges].
    split; auto. split; [apply done_all; auto|]. split; [apply done_all; auto|]. split; [apply done_all; auto|].
    split; [apply done_all; auto|].
    split; [auto|]. split; auto. intros J y HJ Hy. rewrite He by nia. f_equal. unfold W.
    rewrite (Nat.add_comm (J * p)). destruct (@idx2 y J p Hy) as [-> ->]. auto.
Qed.

(** A rectangular assembly is silently laid out as a square one. *)
Definition pin1 (m : Z) : pin := Build_pin 1 1 [1%R] [m] [0%Z].
Lemma assembly_rectangular : exists A, assembly_finalize 4 1 [pin1 0; pin1 1] [0; 1; 0; 1] = Ok A /\
  a_nx A = 2 /\ a_mat A = [0; 1; 0; 1]%Z /\ length (a_edges A) = 3.
Proof. eexists. split; [reflexivity|]. repeat split. Qed.
(** A pin with more y than x cells overruns the map. *)
Lemma assembly_tall_pin :
  assembly_finalize 1 1 [Build_pin 1 2 [1%R; 1%R] [0; 0]%Z [0; 0]%Z] [0] = UB.
Proof. reflexivity. Qed.
