(** * Sweep_Proofs: one angle *)
From Coquelicot Require Import Coquelicot.
From Verif Require Import Base BaseR Loop Mesh_Model Mesh_Proofs Angle_Model Angle_Spec Boundary_Model Boundary_Spec
  Cell_Model Cell_Spec Cell_Proofs Sweep_Model Sweep_Spec.
Open Scope nat_scope.
Set Implicit Arguments. Unset Strict Implicit.
Local Notation idx := Mesh_Model.index.

(** ** Order of visit along one axis *)
Definition rank (pos : bool) (n i : nat) : nat := if pos then i else n - 1 - i.
Definition frank (pos : bool) (n f : nat) : nat := if pos then f else n - f.
Lemma rank_lt pos n i : i < n -> rank pos n i < n.
Proof. unfold rank. destruct pos; lia. Qed.
Lemma rank_inv pos n i : i < n -> rank pos n (rank pos n i) = i.
Proof. unfold rank. destruct pos; lia. Qed.
Lemma rank_eq pos n i i' : i < n -> i' < n -> (i =? rank pos n i') = (rank pos n i =? i').
Proof.
  intros H H'. destruct (Nat.eqb_spec i (rank pos n i')) as [->|N]; symmetry.
  - rewrite rank_inv by auto. apply Nat.eqb_refl.
  - apply Nat.eqb_neq. intros E. apply N. rewrite <- E, rank_inv; auto.
Qed.
Lemma frank_from pos n i : i < n -> frank pos n (from pos i) = rank pos n i.
Proof. unfold frank, from, rank. destruct pos; lia. Qed.
Lemma frank_to pos n i : i < n -> frank pos n (to pos i) = S (rank pos n i).
Proof. unfold frank, to, rank. destruct pos; lia. Qed.
Lemma frank_entry pos n : frank pos n (entry pos n) = 0.
Proof. unfold frank, entry. destruct pos; lia. Qed.
Lemma frank_leave pos n : frank pos n (leave pos n) = n.
Proof. unfold frank, leave. destruct pos; lia. Qed.

Lemma space_range_ok o axis n : o < 8 -> axis < 3 ->
  space_range o axis n = if positive o axis then (0, 1)%Z else (Z.of_nat n - 1, -1)%Z.
Proof.
  intros Ho Ha. do 8 (destruct o as [|o]; [do 3 (destruct axis as [|axis]; [reflexivity|]); lia|]). lia.
Qed.

(** The running index. *)
Definition at_index (pos : bool) (n ii : nat) (i : Z) : Prop := ii < n -> i = Z.of_nat (rank pos n ii).
Lemma at_start (pos : bool) n i0 di : (i0, di) = (if pos then (0, 1) else (Z.of_nat n - 1, -1))%Z ->
  at_index pos n 0 i0.
Proof. unfold at_index, rank. destruct pos; intros E H; injection E as -> ->; lia. Qed.
Lemma at_next (pos : bool) n i0 di ii i : (i0, di) = (if pos then (0, 1) else (Z.of_nat n - 1, -1))%Z ->
  ii < n -> at_index pos n ii i -> at_index pos n (S ii) (i + di)%Z.
Proof. unfold at_index, rank. destruct pos; intros E H1 H2 H3; injection E as -> ->; specialize (H2 H1); lia. Qed.
Lemma at_start_u (pos : bool) n i0 di : (i0, di) = (if pos then (0, 1) else (Z.of_nat n - 1, -1))%Z ->
  (Z.of_nat n < 2 ^ 32)%Z -> at_index pos n 0 (u32 i0).
Proof.
  intros E Hn H. pose proof (at_start E H) as A. unfold u32. rewrite A.
  apply Z.mod_small. pose proof (rank_lt pos H). lia.
Qed.
Lemma at_next_u (pos : bool) n i0 di ii i : (i0, di) = (if pos then (0, 1) else (Z.of_nat n - 1, -1))%Z ->
  (Z.of_nat n < 2 ^ 32)%Z -> ii < n -> at_index pos n ii i -> at_index pos n (S ii) (u32 (i + u32 di)).
Proof.
  intros E Hn H1 H2 H3. pose proof (at_next E H1 H2 H3) as A. rewrite <- A.
  unfold u32. rewrite Zplus_mod_idemp_r. apply Z.mod_small. rewrite A. pose proof (rank_lt pos H3). lia.
Qed.

(** ** Arrays *)
Definition tab (n : nat) (l : list R) (f : nat -> R) : Prop := length l = n /\ forall i, i < n -> nth i l 0%R = f i.
Definition tab2 (n m : nat) (l : list (list R)) (f : nat -> nat -> R) : Prop :=
  length l = n /\ forall i, i < n -> tab m (nth i l []) (f i).
Definition tab3 (nx ny nz : nat) (l : list R) (f : nat -> nat -> nat -> R) : Prop :=
  length l = nx * ny * nz /\
  forall i j k, i < nx -> j < ny -> k < nz -> nth (idx nx ny i j k) l 0%R = f i j k.

Lemma tab_self l : tab (length l) l (at_ l).
Proof. split; auto. Qed.
Lemma tab_ext n l f g : tab n l f -> (forall i, i < n -> f i = g i) -> tab n l g.
Proof. intros [H1 H2] E. split; auto. intros i Hi. rewrite H2; auto. Qed.
Lemma tab2_ext n m l f g : tab2 n m l f -> (forall i j, i < n -> j < m -> f i j = g i j) -> tab2 n m l g.
Proof. intros [H1 H2] E. split; auto. intros i Hi. eapply tab_ext; eauto. Qed.
Lemma tab3_ext nx ny nz l f g : tab3 nx ny nz l f ->
  (forall i j k, i < nx -> j < ny -> k < nz -> f i j k = g i j k) -> tab3 nx ny nz l g.
Proof. intros [H1 H2] E. split; auto. intros. rewrite H2; auto. Qed.
Lemma tab2_self n m l : rect n m l -> tab2 n m l (at2 l).
Proof.
  intros [H1 H2]. split; auto. intros i Hi. split; [|auto].
  rewrite Forall_forall in H2. apply H2, nth_In. lia.
Qed.
Lemma tab3_self nx ny nz l : length l = nx * ny * nz -> tab3 nx ny nz l (fun i j k => at_ l (idx nx ny i j k)).
Proof. intros H. split; auto. Qed.

Lemma rdz_nat A (l : list A) i d : i < length l -> rdz l (Z.of_nat i) = Ok (nth i l d).
Proof.
  intros H. unfold rdz. rewrite (proj2 (Z.ltb_ge _ _)) by lia. rewrite Nat2Z.id. apply rd_ok. auto.
Qed.
Lemma wrz_nat A (l : list A) i x : i < length l -> wrz l (Z.of_nat i) x = Ok (upd l i x).
Proof.
  intros H. unfold wrz, wr. rewrite (proj2 (Z.ltb_ge _ _)) by lia. rewrite Nat2Z.id.
  rewrite (proj2 (Nat.ltb_lt _ _)); auto.
Qed.
Lemma tab_rd n l f i : tab n l f -> i < n -> rdz l (Z.of_nat i) = Ok (f i).
Proof. intros [H1 H2] H. rewrite rdz_nat with (d := 0%R) by lia. rewrite H2; auto. Qed.
Lemma tab_wr n l f i x : tab n l f -> i < n ->
  exists l', wrz l (Z.of_nat i) x = Ok l' /\ tab n l' (fun c => if c =? i then x else f c).
Proof.
  intros [H1 H2] H. exists (upd l i x). rewrite wrz_nat by lia. split; auto. split; [rewrite upd_length; auto|].
  intros c Hc. destruct (Nat.eqb_spec c i) as [->|N].
  - apply nth_upd_eq. lia.
  - rewrite nth_upd_neq; auto.
Qed.
Lemma tab2_rd n m l f i j : tab2 n m l f -> i < n -> j < m -> rdz2 l (Z.of_nat i) (Z.of_nat j) = Ok (f i j).
Proof.
  intros [H1 H2] Hi Hj. unfold rdz2. rewrite rdz_nat with (d := []) by lia. simpl.
  eapply tab_rd; eauto.
Qed.
Lemma tab2_wr n m l f i j x : tab2 n m l f -> i < n -> j < m ->
  exists l', wrz2 l (Z.of_nat i) (Z.of_nat j) x = Ok l' /\
  tab2 n m l' (fun c e => if (c =? i) && (e =? j) then x else f c e).
Proof.
  intros [H1 H2] Hi Hj. unfold wrz2. rewrite rdz_nat with (d := []) by lia. simpl.
  destruct (tab_wr x (H2 i Hi) Hj) as (r & Er & Hr). rewrite Er. simpl.
  rewrite wrz_nat by lia. eexists. split; [reflexivity|]. split; [rewrite upd_length; auto|].
  intros c Hc. destruct (Nat.eqb_spec c i) as [->|N].
  - rewrite nth_upd_eq by lia. auto.
  - rewrite nth_upd_neq by auto. simpl. apply H2. auto.
Qed.
Lemma idx_inj nx ny nz i j k i' j' k' : i < nx -> j < ny -> k < nz -> i' < nx -> j' < ny -> k' < nz ->
  idx nx ny i j k = idx nx ny i' j' k' -> i = i' /\ j = j' /\ k = k'.
Proof.
  intros H1 H2 H3 H4 H5 H6 E.
  destruct (index_inv H1 H2 H3) as (A & B & C).
  destruct (index_inv H4 H5 H6) as (A' & B' & C'). rewrite E in A, B, C. lia.
Qed.
Lemma tab3_wr nx ny nz l f i j k x : tab3 nx ny nz l f -> i < nx -> j < ny -> k < nz ->
  exists l', wrz l (Z.of_nat (idx nx ny i j k)) x = Ok l' /\
  tab3 nx ny nz l' (fun a b c => if (c =? k) && ((b =? j) && (a =? i)) then x else f a b c).
Proof.
  intros [H1 H2] Hi Hj Hk. pose proof (index_lt Hi Hj Hk) as HL.
  rewrite wrz_nat by lia. eexists. split; [reflexivity|]. split; [rewrite upd_length; auto|].
  intros a b c Ha Hb Hc.
  destruct ((c =? k) && ((b =? j) && (a =? i))) eqn:E.
  - apply andb_prop in E as [E1 E]. apply andb_prop in E as [E2 E3]. apply Nat.eqb_eq in E1, E2, E3. subst.
    apply nth_upd_eq. lia.
  - rewrite nth_upd_neq; auto. intros EI. destruct (@idx_inj nx ny nz i j k a b c) as (-> & -> & ->); auto.
    rewrite !Nat.eqb_refl in E. discriminate.
Qed.
Lemma tab3_rd nx ny nz l f i j k : tab3 nx ny nz l f -> i < nx -> j < ny -> k < nz ->
  rdz l (Z.of_nat (idx nx ny i j k)) = Ok (f i j k).
Proof.
  intros [H1 H2] Hi Hj Hk. pose proof (index_lt Hi Hj Hk). rewrite rdz_nat with (d := 0%R) by lia. rewrite H2; auto.
Qed.
Lemma cellz_nat G i j k : cellz G (Z.of_nat i) (Z.of_nat j) (Z.of_nat k) = Z.of_nat (idx (g_nx G) (g_ny G) i j k).
Proof. unfold cellz, idx. rewrite !Nat2Z.inj_add, !Nat2Z.inj_mul. ring. Qed.

(** ** Depositing *)
Lemma deposit_ok nx ny nz w keep pc phi psi fp fs i j k :
  tab3 nx ny nz phi fp -> (keep = true -> tab3 nx ny nz psi fs) -> i < nx -> j < ny -> k < nz ->
  exists phi' psi', deposit w keep (Z.of_nat (idx nx ny i j k)) pc phi psi = Ok (phi', psi') /\
  tab3 nx ny nz phi' (fun a b c => if (c =? k) && ((b =? j) && (a =? i)) then (fp i j k + w * pc)%R else fp a b c) /\
  (keep = true -> tab3 nx ny nz psi' (fun a b c => if (c =? k) && ((b =? j) && (a =? i)) then pc else fs a b c)) /\
  (keep = false -> psi' = psi).
Proof.
  intros Hp Hs Hi Hj Hk. unfold deposit. rewrite (tab3_rd Hp Hi Hj Hk). simpl.
  destruct (tab3_wr (fp i j k + w * pc)%R Hp Hi Hj Hk) as (phi' & E & T). rewrite E. simpl.
  destruct keep.
  - destruct (tab3_wr pc (Hs eq_refl) Hi Hj Hk) as (psi' & E' & T'). rewrite E'. simpl.
    exists phi', psi'. repeat split; auto; try apply T; try apply T'; discriminate.
  - exists phi', psi. repeat split; auto; try apply T; discriminate.
Qed.

(** Cells already visited, in ranks. *)
Definition done3 (kk jj ii z y x : nat) : bool := (z <? kk) || ((z =? kk) && ((y <? jj) || ((y =? jj) && (x <? ii)))).
Lemma done3_step kk jj ii z y x :
  done3 kk jj (S ii) z y x = ((z =? kk) && ((y =? jj) && (x =? ii))) || done3 kk jj ii z y x.
Proof.
  unfold done3. apply Bool.eq_iff_eq_true. rewrite !orb_true_iff, !andb_true_iff, !orb_true_iff, !andb_true_iff,
    !Nat.ltb_lt, !Nat.eqb_eq. lia.
Qed.
Lemma done3_row kk jj n z y x : x < n -> done3 kk jj n z y x = done3 kk (S jj) 0 z y x.
Proof.
  intros H. unfold done3. apply Bool.eq_iff_eq_true. rewrite !orb_true_iff, !andb_true_iff, !orb_true_iff, !andb_true_iff,
    !Nat.ltb_lt, !Nat.eqb_eq. lia.
Qed.
Lemma done3_plane kk n z y x : y < n -> done3 kk n 0 z y x = done3 (S kk) 0 0 z y x.
Proof.
  intros H. unfold done3. apply Bool.eq_iff_eq_true. rewrite !orb_true_iff, !andb_true_iff, !orb_true_iff, !andb_true_iff,
    !Nat.ltb_lt, !Nat.eqb_eq. lia.
Qed.

(** ** Three dimensions *)
Section S3.
Variables (nx ny nz : nat) (px py pz : bool).
Variable C : nat -> nat -> nat -> R -> R -> R -> R * (R * R * R).
Variables (x0 y0 z0 : nat -> nat -> R).
Let cr (kk jj ii : nat) := C (rank px nx ii) (rank py ny jj) (rank pz nz kk).
Definition o1 (r : R * (R * R * R)) := fst (fst (snd r)).
Definition o2 (r : R * (R * R * R)) := snd (fst (snd r)).
Definition o3 (r : R * (R * R * R)) := snd (snd r).
Fixpoint xl (kk jj : nat) (yr zr : nat -> R) (ii : nat) : R :=
  match ii with
  | 0 => x0 (rank pz nz kk) (rank py ny jj)
  | S n => o1 (cr kk jj n (xl kk jj yr zr n) (yr n) (zr n))
  end.
Fixpoint yp (kk : nat) (zp : nat -> nat -> R) (jj : nat) : nat -> R :=
  match jj with
  | 0 => fun ii => y0 (rank pz nz kk) (rank px nx ii)
  | S n => fun ii => o2 (cr kk n ii (xl kk n (yp kk zp n) (zp n) ii) (yp kk zp n ii) (zp n ii))
  end.
Fixpoint zp (kk : nat) : nat -> nat -> R :=
  match kk with
  | 0 => fun jj ii => z0 (rank py ny jj) (rank px nx ii)
  | S n => fun jj ii => o3 (cr n jj ii (xl n jj (yp n (zp n) jj) (zp n jj) ii) (yp n (zp n) jj ii) (zp n jj ii))
  end.
Definition fx kk jj ii := xl kk jj (yp kk (zp kk) jj) (zp kk jj) ii.
Definition fy kk jj ii := yp kk (zp kk) jj ii.
Definition fz kk jj ii := zp kk jj ii.
Definition fc kk jj ii := cr kk jj ii (fx kk jj ii) (fy kk jj ii) (fz kk jj ii).
Lemma fx0 kk jj : fx kk jj 0 = x0 (rank pz nz kk) (rank py ny jj). Proof. reflexivity. Qed.
Lemma fxS kk jj ii : fx kk jj (S ii) = o1 (fc kk jj ii). Proof. reflexivity. Qed.
Lemma fy0 kk ii : fy kk 0 ii = y0 (rank pz nz kk) (rank px nx ii). Proof. reflexivity. Qed.
Lemma fyS kk jj ii : fy kk (S jj) ii = o2 (fc kk jj ii). Proof. reflexivity. Qed.
Lemma fz0 jj ii : fz 0 jj ii = z0 (rank py ny jj) (rank px nx ii). Proof. reflexivity. Qed.
Lemma fzS kk jj ii : fz (S kk) jj ii = o3 (fc kk jj ii). Proof. reflexivity. Qed.
End S3.

Ltac bcase :=
  repeat (match goal with
  | |- context [?a <? ?b] => destruct (Nat.ltb_spec a b)
  | |- context [?a =? ?b] => destruct (Nat.eqb_spec a b)
  end; try (exfalso; lia); cbn [andb orb]); try reflexivity.

Section L3.
Variables (G : grid) (d : dir) (keep : bool) (o : nat) (src : list R).
Variables (yz0 xz0 xy0 : list (list R)) (phi0 psi0 : list R).
Hypothesis Ho : o < 8.
Hypothesis HG : grid_ok 3 G.
Let nx := g_nx G. Let ny := g_ny G. Let nz := g_nz G.
Hypothesis Hsrc : length src = nx * ny * nz.
Hypothesis Hyz : rect nz ny yz0.
Hypothesis Hxz : rect nz nx xz0.
Hypothesis Hxy : rect ny nx xy0.
Hypothesis Hphi : length phi0 = nx * ny * nz.
Hypothesis Hpsi : keep = true -> length psi0 = nx * ny * nz.
Let px := positive o 0. Let py := positive o 1. Let pz := positive o 2.
Let C (i j k : nat) := dd3 (at_ (g_sig G) (idx nx ny i j k)) (d_mu d) (d_eta d) (d_xi d)
  (at_ (g_dx G) i) (at_ (g_dy G) j) (at_ (g_dz G) k) (at_ src (idx nx ny i j k)).
Let FX := fx nx ny nz px py pz C (at2 yz0) (at2 xz0) (at2 xy0).
Let FY := fy nx ny nz px py pz C (at2 yz0) (at2 xz0) (at2 xy0).
Let FZ := fz nx ny nz px py pz C (at2 yz0) (at2 xz0) (at2 xy0).
Let FC := fc nx ny nz px py pz C (at2 yz0) (at2 xz0) (at2 xy0).
Let rx := rank px nx. Let ry := rank py ny. Let rz := rank pz nz.


Definition Iyz kk jj l := tab2 nz ny l (fun k j =>
  FX (rz k) (ry j) (if (rz k <? kk) || ((rz k =? kk) && (ry j <? jj)) then nx else 0)).
Definition Ixz kk jj ii l := tab2 nz nx l (fun k i =>
  FY (rz k) (if rz k <? kk then ny else if rz k =? kk then (if rx i <? ii then S jj else jj) else 0) (rx i)).
Definition Ixy kk jj ii l := tab2 ny nx l (fun j i =>
  FZ (if (ry j <? jj) || ((ry j =? jj) && (rx i <? ii)) then S kk else kk) (ry j) (rx i)).
Definition Iphi kk jj ii l := tab3 nx ny nz l (fun i j k =>
  at_ phi0 (idx nx ny i j k) + if done3 kk jj ii (rz k) (ry j) (rx i) then d_w d * fst (FC (rz k) (ry j) (rx i)) else 0)%R.
Definition Ipsi kk jj ii l := (keep = true -> tab3 nx ny nz l (fun i j k =>
  if done3 kk jj ii (rz k) (ry j) (rx i) then fst (FC (rz k) (ry j) (rx i)) else at_ psi0 (idx nx ny i j k))) /\
  (keep = false -> l = psi0).

Lemma inv_init : Iyz 0 0 yz0 /\ Ixz 0 0 0 xz0 /\ Ixy 0 0 0 xy0 /\ Iphi 0 0 0 phi0 /\ Ipsi 0 0 0 psi0.
Proof.
  unfold Iyz, Ixz, Ixy, Iphi, Ipsi. repeat split.
  - apply Hyz.
  - apply (tab2_self Hyz); auto.
  - intros j Hj. rewrite (proj2 (proj2 (tab2_self Hyz) i H) j Hj).
    bcase; unfold FX; rewrite fx0; unfold rz, ry; rewrite !rank_inv; auto.
  - apply Hxz.
  - apply (tab2_self Hxz); auto.
  - intros j Hj. rewrite (proj2 (proj2 (tab2_self Hxz) i H) j Hj).
    bcase; unfold FY; rewrite fy0; unfold rz, rx; rewrite !rank_inv; auto.
  - apply Hxy.
  - apply (tab2_self Hxy); auto.
  - intros j Hj. rewrite (proj2 (proj2 (tab2_self Hxy) i H) j Hj).
    bcase; unfold FZ; rewrite fz0; unfold ry, rx; rewrite !rank_inv; auto.
  - auto.
  - intros. unfold done3. bcase; unfold at_; lra.
  - apply Hpsi; auto.
  - intros. unfold done3. bcase.
Qed.

Lemma inv_row kk jj yz xz xy phi psi : kk < nz -> jj < ny ->
  Ixz kk jj nx xz /\ Ixy kk jj nx xy /\ Iphi kk jj nx phi /\ Ipsi kk jj nx psi -> Iyz kk (S jj) yz ->
  Iyz kk (S jj) yz /\ Ixz kk (S jj) 0 xz /\ Ixy kk (S jj) 0 xy /\ Iphi kk (S jj) 0 phi /\ Ipsi kk (S jj) 0 psi.
Proof.
  intros Hk Hj (H2 & H3 & H4 & H5 & H6) H1. unfold Iyz, Ixz, Ixy, Iphi, Ipsi in *.
  split; [auto|]. split; [|split; [|split; [|split]]].
  - eapply tab2_ext; [apply H2|]. intros k i Hk' Hi. pose proof (rank_lt px Hi). fold rx in H. cbv beta. bcase.
  - eapply tab2_ext; [apply H3|]. intros j i Hj' Hi. pose proof (rank_lt px Hi). fold rx in H. cbv beta. bcase.
  - eapply tab3_ext; [apply H4|]. intros i j k Hi Hj' Hk'. pose proof (rank_lt px Hi). fold rx in H. cbv beta.
    rewrite done3_row; auto.
  - intros Hkp. eapply tab3_ext; [apply H5; auto|]. intros i j k Hi Hj' Hk'. pose proof (rank_lt px Hi). fold rx in H. cbv beta.
    rewrite done3_row; auto.
  - auto.
Qed.

Lemma inv_plane kk yz xz xy phi psi : kk < nz ->
  Iyz kk ny yz /\ Ixz kk ny 0 xz /\ Ixy kk ny 0 xy /\ Iphi kk ny 0 phi /\ Ipsi kk ny 0 psi ->
  Iyz (S kk) 0 yz /\ Ixz (S kk) 0 0 xz /\ Ixy (S kk) 0 0 xy /\ Iphi (S kk) 0 0 phi /\ Ipsi (S kk) 0 0 psi.
Proof.
  intros Hk (H1 & H2 & H3 & H4 & H5 & H6). unfold Iyz, Ixz, Ixy, Iphi, Ipsi in *.
  split; [|split; [|split; [|split; [|split]]]].
  - eapply tab2_ext; [apply H1|]. intros k j Hk' Hj. pose proof (rank_lt py Hj). fold ry in H. cbv beta. bcase.
  - eapply tab2_ext; [apply H2|]. intros k i Hk' Hi. cbv beta. bcase.
  - eapply tab2_ext; [apply H3|]. intros j i Hj' Hi. pose proof (rank_lt py Hj'). fold ry in H. cbv beta. bcase.
  - eapply tab3_ext; [apply H4|]. intros i j k Hi Hj' Hk'. pose proof (rank_lt py Hj'). fold ry in H. cbv beta.
    rewrite done3_plane; auto.
  - intros Hkp. eapply tab3_ext; [apply H5; auto|]. intros i j k Hi Hj' Hk'. pose proof (rank_lt py Hj'). fold ry in H. cbv beta.
    rewrite done3_plane; auto.
  - auto.
Qed.

Lemma inv_cell kk jj ii xz xy phi psi : kk < nz -> jj < ny -> ii < nx ->
  Ixz kk jj ii xz -> Ixy kk jj ii xy -> Iphi kk jj ii phi -> Ipsi kk jj ii psi ->
  rdz2 xz (Z.of_nat (rz kk)) (Z.of_nat (rx ii)) = Ok (FY kk jj ii) /\
  rdz2 xy (Z.of_nat (ry jj)) (Z.of_nat (rx ii)) = Ok (FZ kk jj ii) /\
  exists xz' xy' phi' psi',
    solve3 G d keep src (Z.of_nat (rx ii)) (Z.of_nat (ry jj)) (Z.of_nat (rz kk)) (FX kk jj ii) (FY kk jj ii) (FZ kk jj ii) phi psi
      = Ok (FX kk jj (S ii), FY kk (S jj) ii, FZ (S kk) jj ii, phi', psi') /\
    wrz2 xz (Z.of_nat (rz kk)) (Z.of_nat (rx ii)) (FY kk (S jj) ii) = Ok xz' /\
    wrz2 xy (Z.of_nat (ry jj)) (Z.of_nat (rx ii)) (FZ (S kk) jj ii) = Ok xy' /\
    Ixz kk jj (S ii) xz' /\ Ixy kk jj (S ii) xy' /\ Iphi kk jj (S ii) phi' /\ Ipsi kk jj (S ii) psi'.
Proof.
  intros Hk Hj Hi H2 H3 H4 (H5 & H6).
  pose proof (rank_lt pz Hk) as Rk. pose proof (rank_lt py Hj) as Rj. pose proof (rank_lt px Hi) as Ri.
  fold rz in Rk. fold ry in Rj. fold rx in Ri.
  assert (Vk : rz (rz kk) = kk) by (apply rank_inv; auto).
  assert (Vj : ry (ry jj) = jj) by (apply rank_inv; auto).
  assert (Vi : rx (rx ii) = ii) by (apply rank_inv; auto).
  split; [|split].
  - rewrite (tab2_rd H2 Rk Ri). rewrite Vk, Vi. bcase.
  - rewrite (tab2_rd H3 Rj Ri). rewrite Vj, Vi. bcase.
  - destruct HG as (G1 & _ & G2 & G3 & _ & G4). destruct (G2 ltac:(lia)) as [G2a _]. destruct (G3 ltac:(lia)) as [G3a _].
    simpl in G4. fold nx in G1, G4. fold ny in G2a, G4. fold nz in G3a, G4.
    assert (Ec : C (rx ii) (ry jj) (rz kk) (FX kk jj ii) (FY kk jj ii) (FZ kk jj ii) = FC kk jj ii) by reflexivity.
    destruct (@deposit_ok nx ny nz (d_w d) keep (fst (FC kk jj ii)) phi psi _ _ (rx ii) (ry jj) (rz kk) H4 H5 Ri Rj Rk)
      as (phi' & psi' & ED & T1 & T2 & T3).
    destruct (tab2_wr (FY kk (S jj) ii) H2 Rk Ri) as (xz' & W2 & T4).
    destruct (tab2_wr (FZ (S kk) jj ii) H3 Rj Ri) as (xy' & W3 & T5).
    exists xz', xy', phi', psi'. split; [|split; [auto|split; [auto|split; [|split; [|split]]]]].
    + unfold solve3. rewrite cellz_nat. fold nx ny.
      rewrite (@rdz_nat _ (g_dx G) (rx ii) 0%R) by lia. rewrite (@rdz_nat _ (g_dy G) (ry jj) 0%R) by lia.
      rewrite (@rdz_nat _ (g_dz G) (rz kk) 0%R) by lia. cbn [bind].
      pose proof (index_lt Ri Rj Rk) as L.
      rewrite (@rdz_nat _ (g_sig G) _ 0%R) by lia. rewrite (@rdz_nat _ src _ 0%R) by lia. cbn [bind].
      unfold C, at_ in Ec. rewrite Ec. unfold FX, FY, FZ. rewrite fxS, fyS, fzS. fold FC.
      destruct (FC kk jj ii) as [pc [[a b] c]] eqn:EF. cbn [fst] in ED. rewrite ED. reflexivity.
    + eapply tab2_ext; [apply T4|]. intros k i Hk' Hi'. cbv beta.
      unfold rz at 1, rx at 1. rewrite !rank_eq by auto. fold rz rx.
      destruct (Nat.eqb_spec (rz k) kk) as [E|N], (Nat.eqb_spec (rx i) ii) as [E'|N']; cbn [andb]; bcase; congruence.
    + eapply tab2_ext; [apply T5|]. intros j i Hj' Hi'. cbv beta.
      unfold ry at 1, rx at 1. rewrite !rank_eq by auto. fold ry rx.
      destruct (Nat.eqb_spec (ry j) jj) as [E|N], (Nat.eqb_spec (rx i) ii) as [E'|N']; cbn [andb]; bcase; congruence.
    + eapply tab3_ext; [apply T1|]. intros i j k Hi' Hj' Hk'. cbv beta.
      unfold rx at 1, ry at 1, rz at 1. rewrite !rank_eq by auto. fold rx ry rz. rewrite done3_step.
      destruct ((rz k =? kk) && ((ry j =? jj) && (rx i =? ii))) eqn:E; cbn [orb]; auto.
      apply andb_prop in E as [E1 E]. apply andb_prop in E as [E2 E3]. apply Nat.eqb_eq in E1, E2, E3.
      rewrite E1, E2, E3, Vk, Vj, Vi. rewrite <- E1, <- E2, <- E3. unfold rx, ry, rz. rewrite !rank_inv by auto. fold rx ry rz.
      rewrite E1, E2, E3. unfold done3. rewrite !Nat.ltb_irrefl, !Nat.eqb_refl. cbn [orb andb]. lra.
    + split; auto. intros Hkp. eapply tab3_ext; [apply T2; auto|]. intros i j k Hi' Hj' Hk'. cbv beta.
      unfold rx at 1, ry at 1, rz at 1. rewrite !rank_eq by auto. fold rx ry rz. rewrite done3_step.
      destruct ((rz k =? kk) && ((ry j =? jj) && (rx i =? ii))) eqn:E; cbn [orb]; auto.
      apply andb_prop in E as [E1 E]. apply andb_prop in E as [E2 E3]. apply Nat.eqb_eq in E1, E2, E3.
      rewrite E1, E2, E3. auto.
    + intros Hkp. rewrite T3; auto.
Qed.

Lemma row3 kk jj i0 di j k x yz xz xy phi psi : kk < nz -> jj < ny ->
  (i0, di) = space_range o 0 nx -> j = Z.of_nat (ry jj) -> k = Z.of_nat (rz kk) -> x = FX kk jj 0 ->
  Iyz kk jj yz -> Ixz kk jj 0 xz -> Ixy kk jj 0 xy -> Iphi kk jj 0 phi -> Ipsi kk jj 0 psi ->
  exists i xz' xy' phi' psi',
  for_ 0 nx (u32 i0, x, xz, xy, phi, psi) (fun _ st =>
        let '(i, x, xz, xy, phi, psi) := st in
        do y <- rdz2 xz k i; do z <- rdz2 xy j i;
        do r <- solve3 G d keep src i j k x y z phi psi;
        let '(x, y, z, phi, psi) := r in
        do xz <- wrz2 xz k i y; do xy <- wrz2 xy j i z;
        Ok (u32 (i + u32 di), x, xz, xy, phi, psi)) = Ok (i, FX kk jj nx, xz', xy', phi', psi') /\
  Ixz kk jj nx xz' /\ Ixy kk jj nx xy' /\ Iphi kk jj nx phi' /\ Ipsi kk jj nx psi'.
Proof.
  intros Hk Hj Hsr -> -> -> I1 I2 I3 I4 I5.
  rewrite space_range_ok in Hsr by (auto; lia). fold px in Hsr.
  assert (Hn : (Z.of_nat nx < 2 ^ 32)%Z) by apply HG.
  destruct (@for_inv _ (fun ii st => let '(i, x, xz, xy, phi, psi) := st in
     at_index px nx ii i /\ x = FX kk jj ii /\ Ixz kk jj ii xz /\ Ixy kk jj ii xy /\ Iphi kk jj ii phi /\ Ipsi kk jj ii psi)
     0 nx (u32 i0, FX kk jj 0, xz, xy, phi, psi)
     (fun _ st =>
        let '(i, x, xz, xy, phi, psi) := st in
        do y <- rdz2 xz (Z.of_nat (rz kk)) i; do z <- rdz2 xy (Z.of_nat (ry jj)) i;
        do r <- solve3 G d keep src i (Z.of_nat (ry jj)) (Z.of_nat (rz kk)) x y z phi psi;
        let '(x, y, z, phi, psi) := r in
        do xz <- wrz2 xz (Z.of_nat (rz kk)) i y; do xy <- wrz2 xy (Z.of_nat (ry jj)) i z;
        Ok (u32 (i + u32 di), x, xz, xy, phi, psi))) as (st & E & P).
  - lia.
  - split; [|auto]. eapply at_start_u; eauto.
  - intros ii [[[[[i x] xz1] xy1] phi1] psi1] [_ Hi] (A & -> & J2 & J3 & J4 & J5).
    pose proof (A Hi) as EA. fold rx in EA. subst i.
    destruct (@inv_cell kk jj ii xz1 xy1 phi1 psi1 Hk Hj Hi J2 J3 J4 J5) as (R1 & R2 & xz' & xy' & phi' & psi' & S1 & W1 & W2 & K).
    rewrite R1, R2. cbn [bind]. rewrite S1. cbn [bind]. rewrite W1, W2. cbn [bind].
    eexists. split; [reflexivity|]. split; [|split; [auto|apply K]].
    eapply at_next_u; eauto.
  - destruct st as [[[[[i x] xz1] xy1] phi1] psi1]. destruct P as (_ & -> & P).
    exists i, xz1, xy1, phi1, psi1. split; auto.
Qed.

Lemma plane3 kk j0 dj k yz xz xy phi psi : kk < nz ->
  (j0, dj) = space_range o 1 ny -> k = Z.of_nat (rz kk) ->
  Iyz kk 0 yz /\ Ixz kk 0 0 xz /\ Ixy kk 0 0 xy /\ Iphi kk 0 0 phi /\ Ipsi kk 0 0 psi ->
  exists j yz' xz' xy' phi' psi',
  for_ 0 ny (j0, yz, xz, xy, phi, psi) (fun _ st =>
      let '(j, yz, xz, xy, phi, psi) := st in
      do x <- rdz2 yz k j;
      let (i0, di) := space_range o 0 nx in
      do st <- for_ 0 nx (u32 i0, x, xz, xy, phi, psi) (fun _ st =>
        let '(i, x, xz, xy, phi, psi) := st in
        do y <- rdz2 xz k i; do z <- rdz2 xy j i;
        do r <- solve3 G d keep src i j k x y z phi psi;
        let '(x, y, z, phi, psi) := r in
        do xz <- wrz2 xz k i y; do xy <- wrz2 xy j i z;
        Ok (u32 (i + u32 di), x, xz, xy, phi, psi));
      let '(_, x, xz, xy, phi, psi) := st in
      do yz <- wrz2 yz k j x;
      Ok ((j + dj)%Z, yz, xz, xy, phi, psi)) = Ok (j, yz', xz', xy', phi', psi') /\
  Iyz kk ny yz' /\ Ixz kk ny 0 xz' /\ Ixy kk ny 0 xy' /\ Iphi kk ny 0 phi' /\ Ipsi kk ny 0 psi'.
Proof.
  intros Hk Hsr -> I0.
  rewrite space_range_ok in Hsr by (auto; lia). fold py in Hsr.
  destruct (@for_inv _ (fun jj st => let '(j, yz, xz, xy, phi, psi) := st in
     at_index py ny jj j /\ Iyz kk jj yz /\ Ixz kk jj 0 xz /\ Ixy kk jj 0 xy /\ Iphi kk jj 0 phi /\ Ipsi kk jj 0 psi)
     0 ny (j0, yz, xz, xy, phi, psi)
     (fun _ st =>
      let '(j, yz, xz, xy, phi, psi) := st in
      do x <- rdz2 yz (Z.of_nat (rz kk)) j;
      let (i0, di) := space_range o 0 nx in
      do st <- for_ 0 nx (u32 i0, x, xz, xy, phi, psi) (fun _ st =>
        let '(i, x, xz, xy, phi, psi) := st in
        do y <- rdz2 xz (Z.of_nat (rz kk)) i; do z <- rdz2 xy j i;
        do r <- solve3 G d keep src i j (Z.of_nat (rz kk)) x y z phi psi;
        let '(x, y, z, phi, psi) := r in
        do xz <- wrz2 xz (Z.of_nat (rz kk)) i y; do xy <- wrz2 xy j i z;
        Ok (u32 (i + u32 di), x, xz, xy, phi, psi));
      let '(_, x, xz, xy, phi, psi) := st in
      do yz <- wrz2 yz (Z.of_nat (rz kk)) j x;
      Ok ((j + dj)%Z, yz, xz, xy, phi, psi))) as (st & E & P).
  - lia.
  - split; [|auto]. eapply at_start; eauto.
  - intros jj [[[[[j yz1] xz1] xy1] phi1] psi1] [_ Hj] (A & J1 & J2 & J3 & J4 & J5).
    pose proof (A Hj) as EA. fold ry in EA. subst j.
    pose proof (rank_lt pz Hk) as Rk. pose proof (rank_lt py Hj) as Rj. fold rz in Rk. fold ry in Rj.
    assert (Vk : rz (rz kk) = kk) by (apply rank_inv; auto).
    assert (Vj : ry (ry jj) = jj) by (apply rank_inv; auto).
    rewrite (tab2_rd J1 Rk Rj). cbn [bind]. rewrite Vk, Vj.
    rewrite Nat.ltb_irrefl, Nat.eqb_refl, Nat.ltb_irrefl. cbn [orb andb].
    destruct (space_range o 0 nx) as [i0 di] eqn:ES.
    destruct (@row3 kk jj i0 di _ _ _ yz1 xz1 xy1 phi1 psi1 Hk Hj (eq_sym ES) eq_refl eq_refl eq_refl J1 J2 J3 J4 J5)
      as (i & xz' & xy' & phi' & psi' & ER & K).
    rewrite ER. cbn [bind].
    destruct (tab2_wr (FX kk jj nx) J1 Rk Rj) as (yz' & W & T). rewrite W. cbn [bind].
    eexists. split; [reflexivity|]. split; [eapply at_next; eauto|].
    eapply inv_row; eauto.
    eapply tab2_ext; [apply T|]. intros k' j' Hk' Hj'. cbv beta.
    unfold rz at 1, ry at 1. rewrite !rank_eq by auto. fold rz ry.
    destruct (Nat.eqb_spec (rz k') kk) as [Ek|N], (Nat.eqb_spec (ry j') jj) as [E'|N']; cbn [andb]; bcase; congruence.
  - destruct st as [[[[[j yz1] xz1] xy1] phi1] psi1]. destruct P as (_ & P).
    exists j, yz1, xz1, xy1, phi1, psi1. split; auto.
Qed.

Lemma sweep3_run : exists yz xz xy phi psi,
  sweep3 G d keep o src yz0 xz0 xy0 phi0 psi0 = Ok (yz, xz, xy, phi, psi) /\
  tab2 nz ny yz (fun k j => FX (rz k) (ry j) nx) /\
  tab2 nz nx xz (fun k i => FY (rz k) ny (rx i)) /\
  tab2 ny nx xy (fun j i => FZ nz (ry j) (rx i)) /\
  tab3 nx ny nz phi (fun i j k => at_ phi0 (idx nx ny i j k) + d_w d * fst (FC (rz k) (ry j) (rx i)))%R /\
  (keep = true -> tab3 nx ny nz psi (fun i j k => fst (FC (rz k) (ry j) (rx i)))) /\
  (keep = false -> psi = psi0).
Proof.
  unfold sweep3. fold nx ny nz.
  destruct (space_range o 2 nz) as [k0 dk] eqn:Hsr. destruct (space_range o 1 ny) as [j0 dj] eqn:Hsy.
  destruct (space_range o 0 nx) as [i0 di] eqn:Hsx.
  pose proof Hsr as Hsr'. rewrite space_range_ok in Hsr' by (auto; lia). fold pz in Hsr'. symmetry in Hsr'.
  destruct (@for_inv _ (fun kk st => let '(k, yz, xz, xy, phi, psi) := st in
     at_index pz nz kk k /\ Iyz kk 0 yz /\ Ixz kk 0 0 xz /\ Ixy kk 0 0 xy /\ Iphi kk 0 0 phi /\ Ipsi kk 0 0 psi)
     0 nz (k0, yz0, xz0, xy0, phi0, psi0)
     (fun _ st =>
        let '(k, yz, xz, xy, phi, psi) := st in
        do st <- for_ 0 ny (j0, yz, xz, xy, phi, psi) (fun _ st =>
          let '(j, yz, xz, xy, phi, psi) := st in
          do x <- rdz2 yz k j;
          do st <- for_ 0 nx (u32 i0, x, xz, xy, phi, psi) (fun _ st =>
            let '(i, x, xz, xy, phi, psi) := st in
            do y <- rdz2 xz k i; do z <- rdz2 xy j i;
            do r <- solve3 G d keep src i j k x y z phi psi;
            let '(x, y, z, phi, psi) := r in
            do xz <- wrz2 xz k i y; do xy <- wrz2 xy j i z;
            Ok (u32 (i + u32 di), x, xz, xy, phi, psi));
          let '(_, x, xz, xy, phi, psi) := st in
          do yz <- wrz2 yz k j x;
          Ok ((j + dj)%Z, yz, xz, xy, phi, psi));
        let '(_, yz, xz, xy, phi, psi) := st in
        Ok ((k + dk)%Z, yz, xz, xy, phi, psi))) as (st & E & P).
  - lia.
  - split; [|apply inv_init]. eapply at_start; eauto.
  - intros kk [[[[[k yz1] xz1] xy1] phi1] psi1] [_ Hk] (A & J).
    pose proof (A Hk) as EA. fold rz in EA. subst k.
    destruct (@plane3 kk j0 dj _ yz1 xz1 xy1 phi1 psi1 Hk (eq_sym Hsy) eq_refl J) as (j & yz' & xz' & xy' & phi' & psi' & EP & K).
    rewrite Hsx in EP. rewrite EP. cbn [bind].
    eexists. split; [reflexivity|]. split; [eapply at_next; eauto|]. apply inv_plane; auto.
  - destruct st as [[[[[k yz1] xz1] xy1] phi1] psi1]. rewrite E. cbn [bind].
    destruct P as (_ & J1 & J2 & J3 & J4 & J5 & J6).
    exists yz1, xz1, xy1, phi1, psi1. split; [auto|]. split; [|split; [|split; [|split; [|split; [|auto]]]]].
    + eapply tab2_ext; [apply J1|]. intros k' j' Hk' Hj'. pose proof (rank_lt pz Hk') as Rk. fold rz in Rk. cbv beta. bcase.
    + eapply tab2_ext; [apply J2|]. intros k' j' Hk' Hj'. pose proof (rank_lt pz Hk') as Rk. fold rz in Rk. cbv beta. bcase.
    + eapply tab2_ext; [apply J3|]. intros k' j' Hk' Hj'. cbv beta. bcase.
    + eapply tab3_ext; [apply J4|]. intros i' j' k' Hi' Hj' Hk'. pose proof (rank_lt pz Hk') as Rk. fold rz in Rk. cbv beta.
      unfold done3. rewrite (proj2 (Nat.ltb_lt _ _) Rk). auto.
    + intros Hkp. eapply tab3_ext; [apply J5; auto|]. intros i' j' k' Hi' Hj' Hk'. pose proof (rank_lt pz Hk') as Rk. fold rz in Rk. cbv beta.
      unfold done3. rewrite (proj2 (Nat.ltb_lt _ _) Rk). auto.
Qed.
End L3.

(** ** Two dimensions *)
Section S2.
Variables (nx ny : nat) (px py : bool).
Variable C : nat -> nat -> R -> R -> R * (R * R).
Variables (v0 h0 : nat -> R).
Let cr (jj ii : nat) := C (rank px nx ii) (rank py ny jj).
Fixpoint vl (jj : nat) (hr : nat -> R) (ii : nat) : R :=
  match ii with 0 => v0 (rank py ny jj) | S n => fst (snd (cr jj n (vl jj hr n) (hr n))) end.
Fixpoint hp (jj : nat) : nat -> R :=
  match jj with
  | 0 => fun ii => h0 (rank px nx ii)
  | S n => fun ii => snd (snd (cr n ii (vl n (hp n) ii) (hp n ii)))
  end.
Definition fv jj ii := vl jj (hp jj) ii.
Definition fh jj ii := hp jj ii.
Definition fc2 jj ii := cr jj ii (fv jj ii) (fh jj ii).
Lemma fv0 jj : fv jj 0 = v0 (rank py ny jj). Proof. reflexivity. Qed.
Lemma fvS jj ii : fv jj (S ii) = fst (snd (fc2 jj ii)). Proof. reflexivity. Qed.
Lemma fh0 ii : fh 0 ii = h0 (rank px nx ii). Proof. reflexivity. Qed.
Lemma fhS jj ii : fh (S jj) ii = snd (snd (fc2 jj ii)). Proof. reflexivity. Qed.
End S2.

Section L2.
Variables (E : scheme2) (G : grid) (d : dir) (keep : bool) (o : nat) (src : list R).
Variables (pv0 ph0 phi0 psi0 : list R).
Hypothesis Ho : o < 8.
Hypothesis HG : grid_ok 2 G.
Let nx := g_nx G. Let ny := g_ny G.
Hypothesis Hsrc : length src = nx * ny * 1.
Hypothesis Hpv : length pv0 = ny.
Hypothesis Hph : length ph0 = nx.
Hypothesis Hphi : length phi0 = nx * ny * 1.
Hypothesis Hpsi : keep = true -> length psi0 = nx * ny * 1.
Let px := positive o 0. Let py := positive o 1.
Let C (i j : nat) := cell2 E (at_ (g_sig G) (idx nx ny i j 0)) (d_mu d) (d_eta d)
  (at_ (g_dx G) i) (at_ (g_dy G) j) (at_ src (idx nx ny i j 0)).
Let FV := fv nx ny px py C (at_ pv0) (at_ ph0).
Let FH := fh nx ny px py C (at_ pv0) (at_ ph0).
Let FC := fc2 nx ny px py C (at_ pv0) (at_ ph0).
Let rx := rank px nx. Let ry := rank py ny.

Definition Jv jj l := tab ny l (fun j => FV (ry j) (if ry j <? jj then nx else 0)).
Definition Jh jj ii l := tab nx l (fun i => FH (if rx i <? ii then S jj else jj) (rx i)).
Definition Jphi jj ii l := tab3 nx ny 1 l (fun i j k =>
  at_ phi0 (idx nx ny i j k) + if done3 0 jj ii k (ry j) (rx i) then d_w d * fst (FC (ry j) (rx i)) else 0)%R.
Definition Jpsi jj ii l := (keep = true -> tab3 nx ny 1 l (fun i j k =>
  if done3 0 jj ii k (ry j) (rx i) then fst (FC (ry j) (rx i)) else at_ psi0 (idx nx ny i j k))) /\
  (keep = false -> l = psi0).

Lemma inv2_init : Jv 0 pv0 /\ Jh 0 0 ph0 /\ Jphi 0 0 phi0 /\ Jpsi 0 0 psi0.
Proof.
  unfold Jv, Jh, Jphi, Jpsi. repeat split; auto.
  - intros j Hj. bcase. unfold FV. rewrite fv0. unfold ry. rewrite rank_inv; auto.
  - intros i Hi. bcase. unfold FH. rewrite fh0. unfold rx. rewrite rank_inv; auto.
  - intros. unfold done3. bcase; unfold at_; lra.
  - intros. unfold done3. bcase.
Qed.

Lemma inv2_row jj ph phi psi : jj < ny -> Jh jj nx ph /\ Jphi jj nx phi /\ Jpsi jj nx psi ->
  Jh (S jj) 0 ph /\ Jphi (S jj) 0 phi /\ Jpsi (S jj) 0 psi.
Proof.
  intros Hj (H2 & H4 & H5 & H6). unfold Jh, Jphi, Jpsi in *. split; [|split; [|split]].
  - eapply tab_ext; [apply H2|]. intros i Hi. pose proof (rank_lt px Hi). fold rx in H. cbv beta. bcase.
  - eapply tab3_ext; [apply H4|]. intros i j k Hi Hj' Hk'. pose proof (rank_lt px Hi). fold rx in H. cbv beta.
    rewrite done3_row; auto.
  - intros Hkp. eapply tab3_ext; [apply H5; auto|]. intros i j k Hi Hj' Hk'. pose proof (rank_lt px Hi). fold rx in H. cbv beta.
    rewrite done3_row; auto.
  - auto.
Qed.

Lemma inv2_cell jj ii ph phi psi : jj < ny -> ii < nx ->
  Jh jj ii ph -> Jphi jj ii phi -> Jpsi jj ii psi ->
  rdz ph (Z.of_nat (rx ii)) = Ok (FH jj ii) /\
  exists ph' phi' psi',
    solve2 E G d keep src (Z.of_nat (rx ii)) (Z.of_nat (ry jj)) (FV jj ii) (FH jj ii) phi psi
      = Ok (FV jj (S ii), FH (S jj) ii, phi', psi') /\
    wrz ph (Z.of_nat (rx ii)) (FH (S jj) ii) = Ok ph' /\
    Jh jj (S ii) ph' /\ Jphi jj (S ii) phi' /\ Jpsi jj (S ii) psi'.
Proof.
  intros Hj Hi H2 H4 (H5 & H6).
  pose proof (rank_lt py Hj) as Rj. pose proof (rank_lt px Hi) as Ri.
  fold ry in Rj. fold rx in Ri.
  assert (Vj : ry (ry jj) = jj) by (apply rank_inv; auto).
  assert (Vi : rx (rx ii) = ii) by (apply rank_inv; auto).
  split.
  - rewrite (tab_rd H2 Ri). rewrite Vi. bcase.
  - destruct HG as (G1 & _ & G2 & _ & _ & G4). destruct (G2 ltac:(lia)) as [G2a _].
    simpl in G4. fold nx in G1, G4. fold ny in G2a, G4.
    assert (Ec : C (rx ii) (ry jj) (FV jj ii) (FH jj ii) = FC jj ii) by reflexivity.
    destruct (@deposit_ok nx ny 1 (d_w d) keep (fst (FC jj ii)) phi psi _ _ (rx ii) (ry jj) 0 H4 H5 Ri Rj ltac:(lia))
      as (phi' & psi' & ED & T1 & T2 & T3).
    destruct (tab_wr (FH (S jj) ii) H2 Ri) as (ph' & W2 & T4).
    exists ph', phi', psi'. split; [|split; [auto|split; [|split]]].
    + unfold solve2. replace 0%Z with (Z.of_nat 0) by reflexivity. rewrite cellz_nat. fold nx ny.
      rewrite (@rdz_nat _ (g_dx G) (rx ii) 0%R) by lia. rewrite (@rdz_nat _ (g_dy G) (ry jj) 0%R) by lia. cbn [bind].
      pose proof (index_lt Ri Rj (Nat.lt_0_1)) as L.
      rewrite (@rdz_nat _ (g_sig G) _ 0%R) by lia. rewrite (@rdz_nat _ src _ 0%R) by lia. cbn [bind].
      unfold C, at_ in Ec. rewrite Ec. unfold FV, FH. rewrite fvS, fhS. fold FC.
      destruct (FC jj ii) as [pc [a b]] eqn:EF. cbn [fst] in ED. rewrite ED. reflexivity.
    + eapply tab_ext; [apply T4|]. intros i Hi'. cbv beta.
      unfold rx at 1. rewrite !rank_eq by auto. fold rx.
      destruct (Nat.eqb_spec (rx i) ii) as [E'|N']; bcase; congruence.
    + eapply tab3_ext; [apply T1|]. intros i j k Hi' Hj' Hk'. cbv beta.
      unfold rx at 1, ry at 1. rewrite !rank_eq by auto. fold rx ry. rewrite done3_step.
      destruct ((k =? 0) && ((ry j =? jj) && (rx i =? ii))) eqn:EB; cbn [orb]; auto.
      apply andb_prop in EB as [E1 EB]. apply andb_prop in EB as [E2 E3]. apply Nat.eqb_eq in E1, E2, E3.
      rewrite E1, E2, E3, Vj, Vi. rewrite <- E2, <- E3. unfold rx, ry. rewrite !rank_inv by auto. fold rx ry.
      rewrite E2, E3. unfold done3. rewrite !Nat.ltb_irrefl, !Nat.eqb_refl. cbn [orb andb]. lra.
    + split; auto.
      * intros Hkp. eapply tab3_ext; [apply T2; auto|]. intros i j k Hi' Hj' Hk'. cbv beta.
        unfold rx at 1, ry at 1. rewrite !rank_eq by auto. fold rx ry. rewrite done3_step.
        destruct ((k =? 0) && ((ry j =? jj) && (rx i =? ii))) eqn:EB; cbn [orb]; auto.
        apply andb_prop in EB as [E1 EB]. apply andb_prop in EB as [E2 E3]. apply Nat.eqb_eq in E1, E2, E3.
        rewrite E2, E3. auto.
      * intros Hkp. rewrite T3; auto.
Qed.

Lemma row2 jj i0 di j v ph phi psi : jj < ny ->
  (i0, di) = space_range o 0 nx -> j = Z.of_nat (ry jj) -> v = FV jj 0 ->
  Jh jj 0 ph -> Jphi jj 0 phi -> Jpsi jj 0 psi ->
  exists i ph' phi' psi',
  for_ 0 nx (i0, v, ph, phi, psi) (fun _ st =>
      let '(i, v, ph, phi, psi) := st in
      do h <- rdz ph i;
      do r <- solve2 E G d keep src i j v h phi psi;
      let '(v, h, phi, psi) := r in
      do ph <- wrz ph i h;
      Ok ((i + di)%Z, v, ph, phi, psi)) = Ok (i, FV jj nx, ph', phi', psi') /\
  Jh jj nx ph' /\ Jphi jj nx phi' /\ Jpsi jj nx psi'.
Proof.
  intros Hj Hsr -> -> I2 I4 I5.
  rewrite space_range_ok in Hsr by (auto; lia). fold px in Hsr.
  destruct (@for_inv _ (fun ii st => let '(i, v, ph, phi, psi) := st in
     at_index px nx ii i /\ v = FV jj ii /\ Jh jj ii ph /\ Jphi jj ii phi /\ Jpsi jj ii psi)
     0 nx (i0, FV jj 0, ph, phi, psi)
     (fun _ st =>
      let '(i, v, ph, phi, psi) := st in
      do h <- rdz ph i;
      do r <- solve2 E G d keep src i (Z.of_nat (ry jj)) v h phi psi;
      let '(v, h, phi, psi) := r in
      do ph <- wrz ph i h;
      Ok ((i + di)%Z, v, ph, phi, psi))) as (st & EE & P).
  - lia.
  - split; [|auto]. eapply at_start; eauto.
  - intros ii [[[[i v] ph1] phi1] psi1] [_ Hi] (A & -> & J2 & J4 & J5).
    pose proof (A Hi) as EA. fold rx in EA. subst i.
    destruct (@inv2_cell jj ii ph1 phi1 psi1 Hj Hi J2 J4 J5) as (R1 & ph' & phi' & psi' & S1 & W1 & K).
    rewrite R1. cbn [bind]. rewrite S1. cbn [bind]. rewrite W1. cbn [bind].
    eexists. split; [reflexivity|]. split; [|split; [auto|apply K]].
    eapply at_next; eauto.
  - destruct st as [[[[i v] ph1] phi1] psi1]. destruct P as (_ & -> & P).
    exists i, ph1, phi1, psi1. split; auto.
Qed.

Lemma sweep2_run : exists pv ph phi psi,
  sweep2 E G d keep o src pv0 ph0 phi0 psi0 = Ok (pv, ph, phi, psi) /\
  tab ny pv (fun j => FV (ry j) nx) /\
  tab nx ph (fun i => FH ny (rx i)) /\
  tab3 nx ny 1 phi (fun i j k => at_ phi0 (idx nx ny i j k) + d_w d * fst (FC (ry j) (rx i)))%R /\
  (keep = true -> tab3 nx ny 1 psi (fun i j k => fst (FC (ry j) (rx i)))) /\
  (keep = false -> psi = psi0).
Proof.
  unfold sweep2. fold nx ny.
  destruct (space_range o 1 ny) as [j0 dj] eqn:Hsy.
  pose proof Hsy as Hsr'. rewrite space_range_ok in Hsr' by (auto; lia). fold py in Hsr'. symmetry in Hsr'.
  destruct (@for_inv _ (fun jj st => let '(j, pv, ph, phi, psi) := st in
     at_index py ny jj j /\ Jv jj pv /\ Jh jj 0 ph /\ Jphi jj 0 phi /\ Jpsi jj 0 psi)
     0 ny (j0, pv0, ph0, phi0, psi0)
     (fun _ st =>
        let '(j, pv, ph, phi, psi) := st in
        do v <- rdz pv j;
        let (i0, di) := space_range o 0 nx in
        do st <- for_ 0 nx (i0, v, ph, phi, psi) (fun _ st =>
          let '(i, v, ph, phi, psi) := st in
          do h <- rdz ph i;
          do r <- solve2 E G d keep src i j v h phi psi;
          let '(v, h, phi, psi) := r in
          do ph <- wrz ph i h;
          Ok ((i + di)%Z, v, ph, phi, psi));
        let '(_, v, ph, phi, psi) := st in
        do pv <- wrz pv j v;
        Ok ((j + dj)%Z, pv, ph, phi, psi))) as (st & EE & P).
  - lia.
  - split; [|apply inv2_init]. eapply at_start; eauto.
  - intros jj [[[[j pv1] ph1] phi1] psi1] [_ Hj] (A & J1 & J2 & J4 & J5).
    pose proof (A Hj) as EA. fold ry in EA. subst j.
    pose proof (rank_lt py Hj) as Rj. fold ry in Rj.
    assert (Vj : ry (ry jj) = jj) by (apply rank_inv; auto).
    rewrite (tab_rd J1 Rj). cbn [bind]. rewrite Vj, Nat.ltb_irrefl.
    destruct (space_range o 0 nx) as [i0 di] eqn:ES.
    destruct (@row2 jj i0 di _ _ ph1 phi1 psi1 Hj (eq_sym ES) eq_refl eq_refl J2 J4 J5)
      as (i & ph' & phi' & psi' & ER & K).
    rewrite ER. cbn [bind].
    destruct (tab_wr (FV jj nx) J1 Rj) as (pv' & W & T). rewrite W. cbn [bind].
    eexists. split; [reflexivity|]. split; [eapply at_next; eauto|]. split; [|apply inv2_row; auto].
    eapply tab_ext; [apply T|]. intros j' Hj'. cbv beta.
    unfold ry at 1. rewrite !rank_eq by auto. fold ry.
    destruct (Nat.eqb_spec (ry j') jj) as [E'|N']; bcase; congruence.
  - destruct st as [[[[j pv1] ph1] phi1] psi1]. rewrite EE. cbn [bind].
    destruct P as (_ & J1 & J2 & J4 & J5 & J6).
    exists pv1, ph1, phi1, psi1. split; [auto|]. split; [|split; [|split; [|split; [|auto]]]].
    + eapply tab_ext; [apply J1|]. intros j' Hj'. pose proof (rank_lt py Hj') as Rk. fold ry in Rk. cbv beta. bcase.
    + eapply tab_ext; [apply J2|]. intros i' Hi'. cbv beta. bcase.
    + eapply tab3_ext; [apply J4|]. intros i' j' k' Hi' Hj' Hk'. pose proof (rank_lt py Hj') as Rk. fold ry in Rk. cbv beta.
      unfold done3. rewrite (proj2 (Nat.ltb_lt _ _) Rk). bcase.
    + intros Hkp. eapply tab3_ext; [apply J5; auto|]. intros i' j' k' Hi' Hj' Hk'. pose proof (rank_lt py Hj') as Rk. fold ry in Rk. cbv beta.
      unfold done3. rewrite (proj2 (Nat.ltb_lt _ _) Rk). bcase.
Qed.
End L2.

(** ** One dimension *)
Section S1.
Variables (nx : nat) (px : bool) (C : nat -> R -> R * R) (v0 : R).
Fixpoint fw (ii : nat) : R := match ii with 0 => v0 | S n => snd (C (rank px nx n) (fw n)) end.
Definition fc1 ii := C (rank px nx ii) (fw ii).
Lemma fwS ii : fw (S ii) = snd (fc1 ii). Proof. reflexivity. Qed.
End S1.

Section L1.
Variables (E : scheme1) (G : grid) (d : dir) (keep : bool) (o : nat) (src : list R).
Variables (pin : R) (phi0 psi0 : list R).
Hypothesis Ho : o < 8.
Hypothesis HG : grid_ok 1 G.
Let nx := g_nx G.
Hypothesis Hsrc : length src = nx * 1 * 1.
Hypothesis Hphi : length phi0 = nx * 1 * 1.
Hypothesis Hpsi : keep = true -> length psi0 = nx * 1 * 1.
Let px := positive o 0.
Let C (i : nat) := cell1 E (at_ (g_sig G) i) (d_mu d) (at_ (g_dx G) i) (at_ src i).
Let FW := fw nx px C pin.
Let FC := fc1 nx px C pin.
Let rx := rank px nx.

Definition Kphi ii l := tab3 nx 1 1 l (fun i j k =>
  at_ phi0 (idx nx 1 i j k) + if done3 0 0 ii k j (rx i) then d_w d * fst (FC (rx i)) else 0)%R.
Definition Kpsi ii l := (keep = true -> tab3 nx 1 1 l (fun i j k =>
  if done3 0 0 ii k j (rx i) then fst (FC (rx i)) else at_ psi0 (idx nx 1 i j k))) /\
  (keep = false -> l = psi0).

Lemma inv1_cell ii phi psi : ii < nx -> Kphi ii phi -> Kpsi ii psi ->
  exists phi' psi',
    solve1 E G d keep src (Z.of_nat (rx ii)) (FW ii) phi psi = Ok (FW (S ii), phi', psi') /\
    Kphi (S ii) phi' /\ Kpsi (S ii) psi'.
Proof.
  intros Hi H4 (H5 & H6).
  pose proof (rank_lt px Hi) as Ri. fold rx in Ri.
  assert (Vi : rx (rx ii) = ii) by (apply rank_inv; auto).
  destruct HG as (G1 & _ & _ & _ & _ & G4). simpl in G4. fold nx in G1, G4.
  assert (Ec : C (rx ii) (FW ii) = FC ii) by reflexivity.
  destruct (@deposit_ok nx 1 1 (d_w d) keep (fst (FC ii)) phi psi _ _ (rx ii) 0 0 H4 H5 Ri ltac:(lia) ltac:(lia))
    as (phi' & psi' & ED & T1 & T2 & T3).
  replace (idx nx 1 (rx ii) 0 0) with (rx ii) in ED by (unfold idx; lia).
  exists phi', psi'. split; [|split].
  - unfold solve1.
    rewrite (@rdz_nat _ (g_dx G) (rx ii) 0%R) by lia.
    rewrite (@rdz_nat _ (g_sig G) _ 0%R) by lia. rewrite (@rdz_nat _ src _ 0%R) by lia. cbn [bind].
    unfold C, at_ in Ec. rewrite Ec. unfold FW. rewrite fwS. fold FC.
    destruct (FC ii) as [pc a] eqn:EF. cbn [fst] in ED. rewrite ED. reflexivity.
  - eapply tab3_ext; [apply T1|]. intros i j k Hi' Hj' Hk'. cbv beta.
    unfold rx at 1. rewrite !rank_eq by auto. fold rx. rewrite done3_step.
    destruct ((k =? 0) && ((j =? 0) && (rx i =? ii))) eqn:EB; cbn [orb]; auto.
    apply andb_prop in EB as [E1 EB]. apply andb_prop in EB as [E2 E3]. apply Nat.eqb_eq in E1, E2, E3.
    rewrite E1, E2, E3, Vi. rewrite <- E3. unfold rx. rewrite !rank_inv by auto. fold rx.
    rewrite E3. unfold done3. rewrite !Nat.ltb_irrefl, !Nat.eqb_refl. cbn [orb andb]. lra.
  - split; auto.
    + intros Hkp. eapply tab3_ext; [apply T2; auto|]. intros i j k Hi' Hj' Hk'. cbv beta.
      unfold rx at 1. rewrite !rank_eq by auto. fold rx. rewrite done3_step.
      destruct ((k =? 0) && ((j =? 0) && (rx i =? ii))) eqn:EB; cbn [orb]; auto.
      apply andb_prop in EB as [E1 EB]. apply andb_prop in EB as [E2 E3]. apply Nat.eqb_eq in E1, E2, E3.
      rewrite E3. auto.
    + intros Hkp. rewrite T3; auto.
Qed.

Lemma sweep1_run : exists phi psi,
  sweep1 E G d keep o src pin phi0 psi0 = Ok (FW nx, phi, psi) /\
  tab3 nx 1 1 phi (fun i j k => at_ phi0 (idx nx 1 i j k) + d_w d * fst (FC (rx i)))%R /\
  (keep = true -> tab3 nx 1 1 psi (fun i j k => fst (FC (rx i)))) /\
  (keep = false -> psi = psi0).
Proof.
  unfold sweep1. fold nx.
  destruct (space_range o 0 nx) as [i0 di] eqn:Hsx.
  rewrite space_range_ok in Hsx by (auto; lia). fold px in Hsx. symmetry in Hsx.
  destruct (@for_inv _ (fun ii st => let '(i, v, phi, psi) := st in
     at_index px nx ii i /\ v = FW ii /\ Kphi ii phi /\ Kpsi ii psi)
     0 nx (i0, pin, phi0, psi0)
     (fun _ st =>
      let '(i, po, phi, psi) := st in
      do r <- solve1 E G d keep src i po phi psi;
      let '(po, phi, psi) := r in Ok ((i + di)%Z, po, phi, psi))) as (st & EE & P).
  - lia.
  - split; [eapply at_start; eauto|]. split; [reflexivity|]. unfold Kphi, Kpsi. repeat split; auto.
    + intros. unfold done3. bcase; unfold at_; lra.
    + intros. unfold done3. bcase.
  - intros ii [[[i v] phi1] psi1] [_ Hi] (A & -> & J4 & J5).
    pose proof (A Hi) as EA. fold rx in EA. subst i.
    destruct (@inv1_cell ii phi1 psi1 Hi J4 J5) as (phi' & psi' & S1 & K).
    rewrite S1. cbn [bind].
    eexists. split; [reflexivity|]. split; [|split; [auto|apply K]].
    eapply at_next; eauto.
  - destruct st as [[[i v] phi1] psi1]. rewrite EE. cbn [bind]. destruct P as (_ & -> & J4 & J5 & J6).
    exists phi1, psi1. split; [auto|]. split; [|split; [|auto]].
    + eapply tab3_ext; [apply J4|]. intros i' j' k' Hi' Hj' Hk'. pose proof (rank_lt px Hi') as Rk. fold rx in Rk. cbv beta.
      unfold done3. rewrite (proj2 (Nat.ltb_lt _ _) Rk). bcase.
    + intros Hkp. eapply tab3_ext; [apply J5; auto|]. intros i' j' k' Hi' Hj' Hk'. pose proof (rank_lt px Hi') as Rk. fold rx in Rk. cbv beta.
      unfold done3. rewrite (proj2 (Nat.ltb_lt _ _) Rk). bcase.
Qed.
End L1.

(** ** The sweeps solve the discretised equations *)
Lemma Forall_at (P : R -> Prop) l i : Forall P l -> i < length l -> P (at_ l i).
Proof. intros H Hi. rewrite Forall_forall in H. apply H, nth_In. auto. Qed.
Lemma rank_from_face pos n (F : nat -> R) i : i < n ->
  F (frank pos n (from pos i)) = F (rank pos n i) /\ F (frank pos n (to pos i)) = F (S (rank pos n i)).
Proof. intros H. rewrite frank_from, frank_to; auto. Qed.

(** A function of cells given per coordinate. *)
Definition by_cell (nx ny : nat) (f : nat -> nat -> nat -> R) (c : nat) : R :=
  f (cell_to_i nx c) (cell_to_j nx ny c) (cell_to_k nx ny c).
Lemma by_cell_idx nx ny nz f i j k : i < nx -> j < ny -> k < nz -> by_cell nx ny f (idx nx ny i j k) = f i j k.
Proof. intros H1 H2 H3. unfold by_cell. destruct (index_inv H1 H2 H3) as (-> & -> & ->). auto. Qed.
Lemma tab3_adds nx ny nz w f phi phi' :
  tab3 nx ny nz phi' (fun i j k => at_ phi (idx nx ny i j k) + w * f i j k)%R ->
  adds (nx * ny * nz) w (by_cell nx ny f) phi phi'.
Proof.
  intros [H1 H2]. split; auto. intros c Hc.
  destruct (index_total Hc) as (Hi & Hj & Hk & E). rewrite <- E at 1. unfold at_ at 1.
  rewrite H2 by auto. rewrite E. reflexivity.
Qed.
Lemma tab3_stores nx ny nz keep f psi0 psi :
  (keep = true -> tab3 nx ny nz psi (fun i j k => f i j k)) -> (keep = false -> psi = psi0) ->
  stores (nx * ny * nz) keep (by_cell nx ny f) psi0 psi.
Proof.
  intros H1 H2. unfold stores. destruct keep; auto.
  destruct (H1 eq_refl) as [L H]. split; auto. intros c Hc.
  destruct (index_total Hc) as (Hi & Hj & Hk & E). rewrite <- E at 1. unfold at_.
  rewrite H by auto. reflexivity.
Qed.

Lemma cell1_obeys E s mu dx q pin pc po : (0 < mu)%R -> (0 < dx)%R -> (if strict1 E then 0 < s else 0 <= s)%R ->
  cell1 E s mu dx q pin = (pc, po) -> obeys1 E s mu dx q pin pc po.
Proof.
  intros Hm Hd Hs EQ. pose proof (div_pos' Hm Hd). destruct E; simpl in *.
  - apply dd1_balance; auto; [lra|]. unfold Rdiv in *. lra.
  - apply sd1_balance; auto; lra.
  - intros f Hf. apply (@sc1_exact s mu dx q pin pc po f); auto.
Qed.
Lemma traced_short sigma q mu eta d f1 f2 L : (0 < sigma -> 0 < eta -> 0 < L -> L / eta <= d / mu ->
  is_RInt (traced sigma q mu eta d f1 f2) 0 L
    (L * (q / sigma + (f2 - q / sigma) * ((1 - exp (- (sigma * (L / eta)))) / (sigma * (L / eta))))))%R.
Proof.
  intros Hs He HL Hle. assert (Hk : (sigma / eta <> 0)%R) by (apply Rgt_not_eq, div_pos'; auto).
  eapply is_RInt_ext; [|evar_last; [apply (@int_exp_const (q / sigma) f2 (sigma / eta) L Hk)|]].
  - intros y [Hy0 Hy1]. rewrite Rmin_left in Hy0 by lra. rewrite Rmax_right in Hy1 by lra. unfold traced.
    destruct (Rle_dec (y / eta) (d / mu)) as [H|H].
    + unfold attenuated. replace (sigma / eta * y)%R with (sigma * (y / eta))%R by (field; lra). reflexivity.
    + exfalso. apply H. apply Rle_trans with (L / eta)%R; auto. apply frac_le; auto. lra.
  - replace (sigma / eta * L)%R with (sigma * (L / eta))%R by (field; lra). field. lra.
Qed.
Lemma traced_long sigma q mu eta d f1 f2 L : (0 < sigma -> 0 < eta -> 0 < mu -> 0 < d -> d / mu <= L / eta ->
  is_RInt (traced sigma q mu eta d f1 f2) 0 L
    (q / sigma * L + (f2 - q / sigma) * (d / mu * eta) * ((1 - exp (- (sigma * (d / mu)))) / (sigma * (d / mu)))
      + (L - d / mu * eta) * ((f1 - q / sigma) * exp (- (sigma * (d / mu))))))%R.
Proof.
  intros Hs He Hm Hd Hle. set (c := (d / mu * eta)%R).
  assert (Hc : (0 < c)%R) by (apply Rmult_lt_0_compat; auto; apply div_pos'; auto).
  assert (Ec : (c / eta = d / mu)%R) by (unfold c; field; lra).
  assert (HcL : (c <= L)%R).
  { apply Rmult_le_compat_r with (r := eta) in Hle; [|lra]. replace (L / eta * eta)%R with L in Hle by (field; lra). exact Hle. }
  pose proof (@traced_short sigma q mu eta d f1 f2 c Hs He Hc (Req_le _ _ Ec)) as H1.
  assert (H2 : is_RInt (traced sigma q mu eta d f1 f2) c L (scal (L - c)%R (attenuated sigma q f1 (d / mu)))).
  { eapply is_RInt_ext; [|apply (@is_RInt_const R_NormedModule)]. intros y [Hy0 _]. rewrite Rmin_left in Hy0 by auto.
    unfold traced. destruct (Rle_dec (y / eta) (d / mu)) as [H|H]; auto. exfalso.
    assert (c / eta < y / eta)%R; [|lra]. apply Rmult_lt_compat_r; auto. apply Rinv_0_lt_compat. auto. }
  evar_last; [apply (is_RInt_Chasles _ _ _ _ _ _ H1 H2)|].
  unfold plus, scal, mult; simpl. unfold mult; simpl. rewrite Ec. unfold attenuated.
  assert (0 < d / mu)%R by (apply div_pos'; auto). fold c. field. repeat split; lra.
Qed.
Lemma cell2_obeys E s mu eta dx dy q pv ph pc ov oh : (0 < mu)%R -> (0 < eta)%R -> (0 < dx)%R -> (0 < dy)%R ->
  (if strict2 E then 0 < s else 0 <= s)%R ->
  cell2 E s mu eta dx dy q pv ph = (pc, (ov, oh)) -> obeys2 E s mu eta dx dy q pv ph pc ov oh.
Proof.
  intros Hm He Hd Hy Hs EQ. pose proof (div_pos' Hm Hd). pose proof (div_pos' He Hy). destruct E; simpl in *; unfold obeys2.
  - apply dd2_balance; auto; unfold Rdiv in *; lra.
  - apply sd2_balance; auto; lra.
  - split; [apply sc2_balance; auto; lra|]. unfold sc2 in EQ. cbv zeta in EQ.
    pose proof (div_pos' Hd Hm) as Ha. pose proof (div_pos' Hy He) as Hb.
    replace (s * (dx / mu) / (s * (dy / eta)))%R with ((dx / mu) / (dy / eta))%R in EQ by (field; repeat split; lra).
    destruct (Rle_dec ((dx / mu) / (dy / eta)) 1) as [L|L].
    + assert (L' : (dx / mu <= dy / eta)%R).
      { apply Rmult_le_compat_r with (r := (dy / eta)%R) in L; [|lra].
        replace (dx / mu / (dy / eta) * (dy / eta))%R with (dx / mu)%R in L by (field; repeat split; lra). lra. }
      injection EQ as <- <- <-. split.
      * evar_last; [apply traced_long; auto|]. field. repeat split; lra.
      * evar_last; [apply traced_short; auto|]. field. repeat split; lra.
    + assert (L' : (dy / eta <= dx / mu)%R).
      { destruct (Rle_dec (dy / eta) (dx / mu)) as [Q|Q]; auto. exfalso. apply L.
        apply Rmult_le_reg_r with (dy / eta)%R; auto.
        replace (dx / mu / (dy / eta) * (dy / eta))%R with (dx / mu)%R by (field; repeat split; lra). lra. }
      injection EQ as <- <- <-. split.
      * evar_last; [apply traced_short; auto|]. field. repeat split; lra.
      * evar_last; [apply traced_long; auto|]. field. repeat split; lra.
Qed.
Lemma cell3_obeys s mu eta xi dx dy dz q p1 p2 p3 pc a b c : (0 < mu)%R -> (0 < eta)%R -> (0 < xi)%R ->
  (0 < dx)%R -> (0 < dy)%R -> (0 < dz)%R -> (0 <= s)%R ->
  dd3 s mu eta xi dx dy dz q p1 p2 p3 = (pc, (a, b, c)) -> obeys3 s mu eta xi dx dy dz q p1 p2 p3 pc a b c.
Proof.
  intros Hm He Hx Hd Hy Hz Hs EQ. pose proof (div_pos' Hm Hd). pose proof (div_pos' He Hy). pose proof (div_pos' Hx Hz).
  apply dd3_balance; auto; unfold Rdiv in *; lra.
Qed.

Lemma sweep1_solves E G d keep o src pin : o < 2 -> grid_ok 1 G -> sig_ok (strict1 E) G -> dir_ok 1 d ->
  length src = cells_of 1 G ->
  exists pout pc, solves1 E G d (positive o 0) src pin pout pc /\
  forall phi psi, length phi = cells_of 1 G -> (keep = true -> length psi = cells_of 1 G) ->
  exists phi' psi', sweep1 E G d keep o src pin phi psi = Ok (pout, phi', psi') /\
    adds (cells_of 1 G) (d_w d) pc phi phi' /\ stores (cells_of 1 G) keep pc psi psi'.
Proof.
  intros Ho HG HS HD Hsrc. change (cells_of 1 G) with (g_nx G * 1 * 1) in *.
  set (C := fun i => cell1 E (at_ (g_sig G) i) (d_mu d) (at_ (g_dx G) i) (at_ src i)).
  set (px := positive o 0). set (nx := g_nx G) in *.
  exists (fw nx px C pin nx), (by_cell nx 1 (fun i _ _ => fst (fc1 nx px C pin (rank px nx i)))).
  split.
  - exists (fun f => fw nx px C pin (frank px nx f)). fold nx. rewrite frank_entry, frank_leave.
    split; [reflexivity|]. split; [reflexivity|]. intros i Hi.
    rewrite frank_from, frank_to by auto.
    replace (by_cell _ _ _ i) with (fst (fc1 nx px C pin (rank px nx i)))
      by (replace i with (idx nx 1 i 0 0) at 2 by (unfold idx; lia); rewrite (@by_cell_idx nx 1 1); auto).
    rewrite fwS. destruct HG as (G1 & G2 & _ & _ & _ & G4). simpl in G4.
    apply cell1_obeys.
    + apply HD.
    + apply (Forall_at G2). lia.
    + apply (Forall_at HS). unfold nx in Hi. lia.
    + rewrite <- surjective_pairing. unfold fc1, C. rewrite rank_inv by auto. reflexivity.
  - intros phi psi Hphi Hpsi.
    destruct (@sweep1_run E G d keep o src pin phi psi ltac:(lia) HG Hsrc Hphi Hpsi) as (phi' & psi' & ER & T1 & T2 & T3).
    exists phi', psi'. split; [exact ER|]. split.
    + apply (@tab3_adds nx 1 1 (d_w d) (fun i _ _ => fst (fc1 nx px C pin (rank px nx i)))). exact T1.
    + apply (@tab3_stores nx 1 1 keep (fun i _ _ => fst (fc1 nx px C pin (rank px nx i)))); auto.
Qed.

Lemma sweep2_solves E G d keep o src vin hin : o < 4 -> grid_ok 2 G -> sig_ok (strict2 E) G -> dir_ok 2 d ->
  length src = cells_of 2 G -> length vin = g_ny G -> length hin = g_nx G ->
  exists vout hout pc, length vout = g_ny G /\ length hout = g_nx G /\
  solves2 E G d (positive o 0) (positive o 1) src vin hin vout hout
    (fun i j => pc (idx (g_nx G) (g_ny G) i j 0)) /\
  forall phi psi, length phi = cells_of 2 G -> (keep = true -> length psi = cells_of 2 G) ->
  exists phi' psi', sweep2 E G d keep o src vin hin phi psi = Ok (vout, hout, phi', psi') /\
    adds (cells_of 2 G) (d_w d) pc phi phi' /\ stores (cells_of 2 G) keep pc psi psi'.
Proof.
  intros Ho HG HS HD Hsrc Hv Hh. change (cells_of 2 G) with (g_nx G * g_ny G * 1) in *.
  set (nx := g_nx G) in *. set (ny := g_ny G) in *.
  set (C := fun i j => cell2 E (at_ (g_sig G) (idx nx ny i j 0)) (d_mu d) (d_eta d)
    (at_ (g_dx G) i) (at_ (g_dy G) j) (at_ src (idx nx ny i j 0))).
  set (px := positive o 0). set (py := positive o 1).
  set (FV := fv nx ny px py C (at_ vin) (at_ hin)). set (FH := fh nx ny px py C (at_ vin) (at_ hin)).
  set (FC := fc2 nx ny px py C (at_ vin) (at_ hin)).
  assert (RUN : forall phi psi, length phi = nx * ny * 1 -> (keep = true -> length psi = nx * ny * 1) ->
    exists phi' psi',
      sweep2 E G d keep o src vin hin phi psi =
        Ok (map (fun j => FV (rank py ny j) nx) (seq 0 ny), map (fun i => FH ny (rank px nx i)) (seq 0 nx), phi', psi') /\
      adds (nx * ny * 1) (d_w d) (by_cell nx ny (fun i j _ => fst (FC (rank py ny j) (rank px nx i)))) phi phi' /\
      stores (nx * ny * 1) keep (by_cell nx ny (fun i j _ => fst (FC (rank py ny j) (rank px nx i)))) psi psi').
  { intros phi psi Hphi Hpsi.
    destruct (@sweep2_run E G d keep o src vin hin phi psi ltac:(lia) HG Hsrc Hv Hh Hphi Hpsi)
      as (pv & ph & phi' & psi' & ER & T1 & T2 & T3 & T4 & T5).
    exists phi', psi'. split; [|split].
    - rewrite ER. f_equal. f_equal. f_equal. f_equal.
      + apply (@list_ext_nth _ 0%R); [rewrite map_length, seq_length; apply T1|].
        intros n Hn. rewrite (proj1 T1) in Hn. rewrite (proj2 T1) by auto. rewrite nth_map_seq; auto.
      + apply (@list_ext_nth _ 0%R); [rewrite map_length, seq_length; apply T2|].
        intros n Hn. rewrite (proj1 T2) in Hn. rewrite (proj2 T2) by auto. rewrite nth_map_seq; auto.
    - apply (@tab3_adds nx ny 1 (d_w d) (fun i j _ => fst (FC (rank py ny j) (rank px nx i)))). exact T3.
    - apply (@tab3_stores nx ny 1 keep (fun i j _ => fst (FC (rank py ny j) (rank px nx i)))); auto. }
  eexists _, _, _. split; [|split; [|split; [|exact RUN]]]; try (rewrite map_length, seq_length; reflexivity).
  exists (fun f j => FV (rank py ny j) (frank px nx f)), (fun i f => FH (frank py ny f) (rank px nx i)).
  fold nx ny. split; [|split].
  - intros j Hj. rewrite frank_entry, frank_leave. unfold at_ at 2. rewrite nth_map_seq by auto. split; auto.
    unfold FV. rewrite fv0, rank_inv; auto.
  - intros i Hi. rewrite frank_entry, frank_leave. unfold at_ at 2. rewrite nth_map_seq by auto. split; auto.
    unfold FH. rewrite fh0, rank_inv; auto.
  - intros i j Hi Hj c. rewrite !frank_from, !frank_to by auto.
    rewrite (@by_cell_idx nx ny 1) by auto.
    destruct HG as (G1 & G2 & G3 & _ & _ & G4). simpl in G4. destruct (G3 ltac:(lia)) as [G3a G3b].
    pose proof (index_lt Hi Hj Nat.lt_0_1) as HL. destruct HD as (D1 & D2 & _).
    apply cell2_obeys; auto.
    + apply (Forall_at G2). unfold nx in Hi. lia.
    + apply (Forall_at G3b). unfold ny in Hj. lia.
    + apply (Forall_at HS). unfold c. unfold nx, ny in *. lia.
    + unfold FV, FH. rewrite fvS, fhS. fold FV FH FC. rewrite <- !surjective_pairing. unfold FC, fc2. fold FV FH.
      unfold C. rewrite !rank_inv by auto. reflexivity.
Qed.

Lemma rect_tab2 n m l f : tab2 n m l f -> l = map (fun i => map (fun j => f i j) (seq 0 m)) (seq 0 n).
Proof.
  intros [H1 H2]. apply (@list_ext_nth _ []); [rewrite map_length, seq_length; auto|].
  intros i Hi. rewrite nth_map_seq by lia. destruct (H2 i ltac:(lia)) as [L H].
  apply (@list_ext_nth _ 0%R); [rewrite map_length, seq_length; auto|].
  intros j Hj. rewrite nth_map_seq by lia. apply H. lia.
Qed.
Lemma at2_map n m (f : nat -> nat -> R) i j : i < n -> j < m ->
  at2 (map (fun i => map (fun j => f i j) (seq 0 m)) (seq 0 n)) i j = f i j.
Proof. intros Hi Hj. unfold at2. rewrite nth_map_seq by auto. rewrite nth_map_seq; auto. Qed.
Lemma rect_map n m (f : nat -> nat -> R) : rect n m (map (fun i => map (fun j => f i j) (seq 0 m)) (seq 0 n)).
Proof.
  split; [rewrite map_length, seq_length; auto|]. apply Forall_forall. intros r Hr. apply in_map_iff in Hr as (i & <- & _).
  rewrite map_length, seq_length. auto.
Qed.

Lemma sweep3_solves G d keep o src yz xz xy : o < 8 -> grid_ok 3 G -> sig_ok false G -> dir_ok 3 d ->
  length src = cells_of 3 G -> rect (g_nz G) (g_ny G) yz -> rect (g_nz G) (g_nx G) xz -> rect (g_ny G) (g_nx G) xy ->
  exists yz' xz' xy' pc, rect (g_nz G) (g_ny G) yz' /\ rect (g_nz G) (g_nx G) xz' /\ rect (g_ny G) (g_nx G) xy' /\
  solves3 G d (positive o 0) (positive o 1) (positive o 2) src yz xz xy yz' xz' xy'
    (fun i j k => pc (idx (g_nx G) (g_ny G) i j k)) /\
  forall phi psi, length phi = cells_of 3 G -> (keep = true -> length psi = cells_of 3 G) ->
  exists phi' psi', sweep3 G d keep o src yz xz xy phi psi = Ok (yz', xz', xy', phi', psi') /\
    adds (cells_of 3 G) (d_w d) pc phi phi' /\ stores (cells_of 3 G) keep pc psi psi'.
Proof.
  intros Ho HG HS HD Hsrc Hyz Hxz Hxy. change (cells_of 3 G) with (g_nx G * g_ny G * g_nz G) in *.
  set (nx := g_nx G) in *. set (ny := g_ny G) in *. set (nz := g_nz G) in *.
  set (C := fun i j k => dd3 (at_ (g_sig G) (idx nx ny i j k)) (d_mu d) (d_eta d) (d_xi d)
    (at_ (g_dx G) i) (at_ (g_dy G) j) (at_ (g_dz G) k) (at_ src (idx nx ny i j k))).
  set (px := positive o 0). set (py := positive o 1). set (pz := positive o 2).
  set (FX := fx nx ny nz px py pz C (at2 yz) (at2 xz) (at2 xy)).
  set (FY := fy nx ny nz px py pz C (at2 yz) (at2 xz) (at2 xy)).
  set (FZ := fz nx ny nz px py pz C (at2 yz) (at2 xz) (at2 xy)).
  set (FC := fc nx ny nz px py pz C (at2 yz) (at2 xz) (at2 xy)).
  set (PC := fun i j k => fst (FC (rank pz nz k) (rank py ny j) (rank px nx i))).
  assert (RUN : forall phi psi, length phi = nx * ny * nz -> (keep = true -> length psi = nx * ny * nz) ->
    exists phi' psi',
      sweep3 G d keep o src yz xz xy phi psi =
        Ok (map (fun k => map (fun j => FX (rank pz nz k) (rank py ny j) nx) (seq 0 ny)) (seq 0 nz),
            map (fun k => map (fun i => FY (rank pz nz k) ny (rank px nx i)) (seq 0 nx)) (seq 0 nz),
            map (fun j => map (fun i => FZ nz (rank py ny j) (rank px nx i)) (seq 0 nx)) (seq 0 ny), phi', psi') /\
      adds (nx * ny * nz) (d_w d) (by_cell nx ny PC) phi phi' /\
      stores (nx * ny * nz) keep (by_cell nx ny PC) psi psi').
  { intros phi psi Hphi Hpsi.
    destruct (@sweep3_run G d keep o src yz xz xy phi psi Ho HG Hsrc Hyz Hxz Hxy Hphi Hpsi)
      as (a & b & c & phi' & psi' & ER & T1 & T2 & T3 & T4 & T5 & T6).
    exists phi', psi'. split; [|split].
    - rewrite ER. rewrite (rect_tab2 T1), (rect_tab2 T2), (rect_tab2 T3). reflexivity.
    - apply tab3_adds. exact T4.
    - apply tab3_stores; auto. }
  eexists _, _, _, _. split; [|split; [|split; [|split; [|exact RUN]]]]; try apply rect_map.
  exists (fun f j k => FX (rank pz nz k) (rank py ny j) (frank px nx f)),
    (fun i f k => FY (rank pz nz k) (frank py ny f) (rank px nx i)),
    (fun i j f => FZ (frank pz nz f) (rank py ny j) (rank px nx i)).
  fold nx ny nz. split; [|split; [|split]].
  - intros j k Hj Hk. rewrite frank_entry, frank_leave, at2_map by auto. split; auto.
    unfold FX. rewrite fx0, !rank_inv; auto.
  - intros i k Hi Hk. rewrite frank_entry, frank_leave, at2_map by auto. split; auto.
    unfold FY. rewrite fy0, !rank_inv; auto.
  - intros i j Hi Hj. rewrite frank_entry, frank_leave, at2_map by auto. split; auto.
    unfold FZ. rewrite fz0, !rank_inv; auto.
  - intros i j k Hi Hj Hk c. rewrite !frank_from, !frank_to by auto.
    rewrite (@by_cell_idx nx ny nz) by auto.
    destruct HG as (G1 & G2 & G3 & G5 & _ & G4). simpl in G4. destruct (G3 ltac:(lia)) as [G3a G3b]. destruct (G5 ltac:(lia)) as [G5a G5b].
    pose proof (index_lt Hi Hj Hk) as HL. destruct HD as (D1 & D2 & D3).
    apply cell3_obeys; auto.
    + apply (Forall_at G2). unfold nx in Hi. lia.
    + apply (Forall_at G3b). unfold ny in Hj. lia.
    + apply (Forall_at G5b). unfold nz in Hk. lia.
    + apply (Forall_at HS). unfold c. unfold nx, ny, nz in *. lia.
    + unfold FX, FY, FZ. rewrite fxS, fyS, fzS. fold FX FY FZ FC. unfold PC.
      rewrite (surjective_pairing (FC (rank pz nz k) (rank py ny j) (rank px nx i))).
      unfold o1, o2, o3. destruct (FC (rank pz nz k) (rank py ny j) (rank px nx i)) as [p [[a b] e]] eqn:EF.
      cbn [fst snd]. rewrite <- EF. unfold FC, fc. fold FX FY FZ. unfold C. rewrite !rank_inv by auto. reflexivity.
Qed.
