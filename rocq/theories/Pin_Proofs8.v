From Verif Require Import Base BaseR Loop Mesh_Model Mesh_Spec Csg_Model Csg_Spec Csg_Proofs Pin_Model Pin_Spec Pin_Proofs Pin_Proofs6 Pin_Proofs7.
Set Implicit Arguments. Unset Strict Implicit.
Open Scope nat_scope.

(** ** Where the regions are wrong *)
Definition gen_pin (x y z r : R) (dv : nat) (c : point) : pincell :=
  {| pc_pitch := P3 x y z; pc_mat := [0; 1]%Z; pc_div := dv; pc_radii := [r]; pc_center := c |}.
Lemma gen_made x y z r dv c : (0 < x)%R -> (0 < y)%R -> (0 < r)%R -> dv < 4 -> made (gen_pin x y z r dv c).
Proof.
  intros Hx Hy Hr Hd. exists (P3 x y z), [0; 1]%Z, [r], dv, c. unfold pincell_new. cbn [px py]. destruct (Rlt_dec 0 x); [|lra].
  cbn [length Nat.eqb Nat.add]. rewrite (proj2 (Nat.ltb_lt dv 4) Hd). cbn [andb radii_ok increasing]. destruct (Rlt_dec 0 r); [|lra]. destruct (Rle_dec y 0); [lra|reflexivity].
Qed.

(** A cell with height: the pin goes through floor and ceiling. *)
Theorem pin_through_ceiling : exists P rs p, made P /\ centred P /\ pin_inside P /\ create_pin_cell P = Ok rs /\ ~ in_pin_cell P p /\ geo_find rs p = Ok (Some 0).
Proof.
  set (P := gen_pin 2 2 1 (/ 2) 0 (P3 0 0 0)). assert (HM : made P) by (apply gen_made; lra || lia). assert (HC : centred P) by (split; reflexivity).
  exists P, (pin_list P), (P3 1 1 5). split; auto. split; auto. split; [intros r [<-|[]]; cbn; lra|]. split; [apply pin_run; auto|].
  split; [intros (_ & _ & H); cbn in H; lra|]. unfold geo_find, pin_list. cbn [P gen_pin pc_radii length pc_div sectors nth Nat.add seq flat_map map app geo_find_from].
  rewrite pin_contains by (cbn; lia). replace (forallb _ _) with true; [reflexivity|]. symmetry. apply (nodes_true HM HC); [cbn; lia|cbn; lia|].
  split; [|split; [exact I|cbn; discriminate]]. split; [cbn; lia|]. split; [|intros; lia]. intros _. unfold off_axis. cbn [px py pc_pitch pc_center P gen_pin pc_radii nth].
  apply sq_lt; [nra|lra|]. nra.
Qed.
(** A pin larger than its cell: it covers points of the neighbouring cells. *)
Theorem pin_over_edge : exists P rs p, made P /\ centred P /\ flat P /\ create_pin_cell P = Ok rs /\ ~ in_pin_cell P p /\ geo_find rs p = Ok (Some 0).
Proof.
  set (P := gen_pin 1 1 0 1 0 (P3 0 0 0)). assert (HM : made P) by (apply gen_made; lra || lia). assert (HC : centred P) by (split; reflexivity).
  exists P, (pin_list P), (P3 (5 / 4) (/ 2) 0). split; auto. split; auto. split; [unfold flat; cbn; lra|]. split; [apply pin_run; auto|].
  split; [intros (H & _); cbn in H; lra|]. unfold geo_find, pin_list. cbn [P gen_pin pc_radii length pc_div sectors nth Nat.add seq flat_map map app geo_find_from].
  rewrite pin_contains by (cbn; lia). replace (forallb _ _) with true; [reflexivity|]. symmetry. apply (nodes_true HM HC); [cbn; lia|cbn; lia|].
  split; [|split; [exact I|cbn; discriminate]]. split; [cbn; lia|]. split; [|intros; lia]. intros _. unfold off_axis. cbn [px py pc_pitch pc_center P gen_pin pc_radii nth].
  apply sq_lt; [nra|lra|]. nra.
Qed.
(** An off-centre pin in eighths: the dividing planes do not meet on its axis, and regions overlap. *)
Theorem offset_overlap : exists P rs p i j ri rj, made P /\ pin_inside P /\ flat P /\ create_pin_cell P = Ok rs /\ in_pin_cell P p /\
  nth_error rs i = Some ri /\ nth_error rs j = Some rj /\ i <> j /\ region_contains ri p = Ok true /\ region_contains rj p = Ok true.
Proof.
  set (P := gen_pin 4 4 0 1 3 (P3 (/ 2) 0 0)). assert (HM : made P) by (apply gen_made; lra || lia).
  exists P, (pin_list P), (P3 (7 / 4) (19 / 10) 0), 4, 6. eexists. eexists. split; auto. split; [intros r [<-|[]]; cbn; lra|]. split; [unfold flat; cbn; lra|]. split; [apply pin_run; auto|].
  split; [unfold in_pin_cell; cbn; lra|]. split; [reflexivity|]. split; [reflexivity|]. split; [discriminate|].
  rewrite !pin_contains by (cbn; lia). split; f_equal; unfold pin_nodes, partitions, cylinders; cbn [P gen_pin pc_radii pc_pitch pc_center pc_div px py map nth_error length Nat.eqb Nat.ltb Nat.leb orb app];
    (rewrite sector4 by lia); cbn [app forallb negb]; rewrite !andb_true_iff, !side_iff; unfold qf, plane, cylinderZ; cbn; lra.
Qed.

(** ** Assemblies *)
Lemma only_app_l l1 l2 p i : only_region l1 p i -> no_region l2 p -> only_region (l1 ++ l2) p i.
Proof.
  intros [L H] N. split; [rewrite app_length; lia|]. intros j r Hj. destruct (Nat.lt_ge_cases j (length l1)) as [D|D].
  - rewrite nth_error_app1 in Hj by auto. auto.
  - rewrite nth_error_app2 in Hj by auto. rewrite (N r) by (eapply nth_error_In; eauto). symmetry. f_equal. apply Nat.eqb_neq. lia.
Qed.
Lemma only_app_r l1 l2 p i : no_region l1 p -> only_region l2 p i -> only_region (l1 ++ l2) p (length l1 + i).
Proof.
  intros N [L H]. split; [rewrite app_length; lia|]. intros j r Hj. destruct (Nat.lt_ge_cases j (length l1)) as [D|D].
  - rewrite nth_error_app1 in Hj by auto. rewrite (N r) by (eapply nth_error_In; eauto). symmetry. f_equal. apply Nat.eqb_neq. lia.
  - rewrite nth_error_app2 in Hj by auto. rewrite (H _ _ Hj). f_equal. destruct (Nat.eqb_spec (j - length l1) i), (Nat.eqb_spec j (length l1 + i)); auto; lia.
Qed.
Lemma none_concat ls p : (forall l, In l ls -> no_region l p) -> no_region (concat ls) p.
Proof. intros H r Hr. apply in_concat in Hr. destruct Hr as (l & A & B). eapply H; eauto. Qed.
Lemma only_concat ls p : forall b l i, nth_error ls b = Some l -> only_region l p i ->
  (forall b' l', b' <> b -> nth_error ls b' = Some l' -> no_region l' p) ->
  exists j, only_region (concat ls) p j /\ nth_error (concat ls) j = nth_error l i.
Proof.
  induction ls as [|h ls IH]; intros b l i E O N; [destruct b; discriminate|]. cbn [concat]. destruct b as [|b].
  - cbn in E. injection E as ->. exists i. split.
    + apply only_app_l; auto. apply none_concat. intros l' H. apply In_nth_error in H. destruct H as [b' H]. apply (N (S b')); auto.
    + apply nth_error_app1. destruct O; auto.
  - destruct (IH b l i E O) as (j & O' & E'). { intros b' l' D H. apply (N (S b')); auto. } exists (length h + j). split.
    + apply only_app_r; auto. apply (N 0); auto.
    + rewrite nth_error_app2 by lia. replace (length h + j - length h) with j by lia. auto.
Qed.
Definition moved (r : region) (o : point) : region :=
  match rnode r with
  | None => r
  | Some n => {| rnode := Some (Trans n o); rmin := psub (rmin r) o; rmax := psub (rmax r) o; rmat := rmat r |}
  end.
Lemma moved_contains r o p b : region_contains r (psub p o) = Ok b -> region_contains (moved r o) p = Ok b.
Proof.
  intros H. assert (E : translated_region r o = Ok (moved r o)) by (unfold translated_region, moved, region_contains in *; destruct (rnode r); [auto|discriminate]).
  replace p with (padd (psub p o) o) by (apply point_eq; cbn; ring). eapply translated_contains; eauto.
Qed.
Lemma moved_run rs o : (forall r p, In r rs -> exists b, region_contains r p = Ok b) -> mapM (fun r => translated_region r o) rs = Ok (map (fun r => moved r o) rs).
Proof. intros H. apply mapM_ok. intros r Hr. destruct (H r (P3 0 0 0) Hr) as [b Hb]. unfold translated_region, moved, region_contains in *. destruct (rnode r); [auto|discriminate]. Qed.
Lemma moved_only rs o p i : only_region rs (psub p o) i -> only_region (map (fun r => moved r o) rs) p i.
Proof.
  intros [L H]. split; [rewrite map_length; auto|]. intros j r Hj. rewrite nth_error_map in Hj. destruct (nth_error rs j) as [r0|] eqn:E; [|discriminate]. injection Hj as <-.
  apply moved_contains. auto.
Qed.
Lemma moved_none rs o p : no_region rs (psub p o) -> no_region (map (fun r => moved r o) rs) p.
Proof. intros H r Hr. apply in_map_iff in Hr. destruct Hr as (r0 & <- & Hr). apply moved_contains. auto. Qed.
Lemma moved_mat r o : rmat (moved r o) = rmat r.
Proof. unfold moved. destruct (rnode r); auto. Qed.

Section Assembly.
Context (nx ny : nat) (pins : list pincell) (pmap : list nat) (P0 : pincell)
  (H0 : nth_error pins 0 = Some P0) (LP : length pmap = nx * ny) (BP : forall k, In k pmap -> k < length pins)
  (HP : forall P, In P pins -> made P /\ centred P /\ pin_inside P /\ flat P /\ same_pitch P P0).
Let d0 := P0.
Let pin i j := nth (nth (i + j * nx) pmap 0) pins P0.
Let org i j := P3 (px (pc_pitch P0) * INR i) (py (pc_pitch P0) * INR j) 0.
Let block i j := map (fun r => moved r (org i j)) (pin_list (pin i j)).

Lemma pin_in i j : i < nx -> j < ny -> i + j * nx < length pmap /\ nth (i + j * nx) pmap 0 < length pins /\ In (pin i j) pins.
Proof.
  intros Hi Hj. assert (B : i + j * nx < length pmap) by (rewrite LP; nia). split; auto.
  assert (C : nth (i + j * nx) pmap 0 < length pins) by (apply BP, nth_In; auto). split; auto. apply nth_In; auto.
Qed.
Lemma assembly_run : create_assembly nx ny pins pmap = Ok (concat (map (fun i => concat (map (fun j => block i j) (seq 0 ny))) (seq 0 nx))).
Proof.
  unfold create_assembly. rewrite (@mapM_ok _ _ _ pin_list) by (intros P HIn; apply pin_run; apply HP; auto). cbn [bind].
  assert (L0 : 0 < length pins) by (apply nth_error_Some; congruence). rewrite (@rd_ok _ _ _ P0) by auto. cbn [bind].
  assert (E0 : nth 0 pins P0 = P0) by (apply nth_error_nth; auto). rewrite E0.
  rewrite (@mapM_ok _ _ _ (fun i => concat (map (fun j => block i j) (seq 0 ny)))); [reflexivity|].
  intros i Hi. apply in_seq in Hi. rewrite (@mapM_ok _ _ _ (fun j => block i j)); [reflexivity|].
  intros j Hj. apply in_seq in Hj. destruct (@pin_in i j) as (A & B & C); [lia|lia|].
  rewrite (@rd_ok _ _ _ 0) by auto. cbn [bind]. rewrite (@rd_ok _ _ _ (pin_list P0)) by (rewrite map_length; auto). cbn [bind]. rewrite map_nth.
  apply moved_run. apply pin_total. apply HP. auto.
Qed.
Lemma nth_seq_map A (f : nat -> A) n b l : nth_error (map f (seq 0 n)) b = Some l -> b < n /\ l = f b.
Proof.
  intros H. rewrite nth_error_map in H. destruct (nth_error (seq 0 n) b) as [k|] eqn:E; [|discriminate].
  assert (b < n) by (rewrite <- (seq_length n 0); apply nth_error_Some; congruence). split; auto.
  apply nth_error_nth with (d := 0) in E. rewrite seq_nth in E by auto. cbn in *. congruence.
Qed.
Lemma nth_seq_map' A (f : nat -> A) n b : b < n -> nth_error (map f (seq 0 n)) b = Some (f b).
Proof. intros H. apply map_nth_error. rewrite nth_error_nth' with (d := 0) by (rewrite seq_length; auto). rewrite seq_nth; auto. Qed.

Lemma outside_block i j p : i < nx -> j < ny -> ~ in_pin_cell (pin i j) (psub p (org i j)) -> no_region (block i j) p.
Proof.
  intros Hi Hj H. destruct (pin_in Hi Hj) as (_ & _ & C). destruct (HP C) as (HM & HC & HI & HF & _). apply moved_none.
  destruct (pin_partition HM HC) as (rs & E & _ & _ & F). rewrite (pin_run HM) in E. injection E as <-. apply F; auto.
Qed.
(** A point lies in one place. *)
Lemma place_unique i j i' j' p : i < nx -> j < ny -> i' < nx -> j' < ny ->
  in_pin_cell (pin i j) (psub p (org i j)) -> in_pin_cell (pin i' j') (psub p (org i' j')) -> i = i' /\ j = j'.
Proof.
  intros Hi Hj Hi' Hj' (A & B & _) (A' & B' & _). destruct (pin_in Hi Hj) as (_ & _ & C). destruct (pin_in Hi' Hj') as (_ & _ & C').
  destruct (HP C) as (HM & _ & _ & _ & S1 & S2). destruct (HP C') as (_ & _ & _ & _ & S1' & S2'). destruct (made_ok HM) as (X0 & Y0 & _).
  rewrite S1 in A, X0. rewrite S2 in B, Y0. rewrite S1' in A'. rewrite S2' in B'. unfold org in A, B, A', B'. cbn [psub px py] in A, B, A', B'. set (a := px (pc_pitch P0)) in *. set (b := py (pc_pitch P0)) in *.
  assert (T : forall s t k l, (0 < s)%R -> (0 <= t - s * INR k < s)%R -> (0 <= t - s * INR l < s)%R -> k <= l -> k = l).
  { intros s t k l Hs H1 H2 Hl. destruct (Nat.eq_dec k l) as [->|D]; auto. exfalso. assert (INR k + 1 <= INR l)%R by (rewrite <- S_INR; apply le_INR; lia). nra. }
  split; [destruct (Nat.le_ge_cases i i')|destruct (Nat.le_ge_cases j j')]; [|symmetry| |symmetry]; solve [exact (T _ _ _ _ X0 A A' H)|exact (T _ _ _ _ X0 A' A H)|exact (T _ _ _ _ Y0 B B' H)|exact (T _ _ _ _ Y0 B' B H)].
Qed.

Theorem assembly_partition : exists rs, create_assembly nx ny pins pmap = Ok rs /\
  (forall i j p, i < nx -> j < ny ->
     let P := nth (nth (i + j * nx) pmap 0) pins P0 in
     let q := psub p (P3 (px (pc_pitch P0) * INR i) (py (pc_pitch P0) * INR j) 0) in
     in_pin_cell P q -> exists c r k a, only_region rs p c /\ geo_find rs p = Ok (Some c) /\ nth_error rs c = Some r /\
       in_ring P (px q) (py q) k /\ in_sector (pc_div P) a (rel_x P q) (rel_y P q) /\ rmat r = nth k (pc_mat P) 0%Z) /\
  (forall p, (forall i j, i < nx -> j < ny -> ~ (px (pc_pitch P0) * INR i <= px p < px (pc_pitch P0) * INR (S i) /\ py (pc_pitch P0) * INR j <= py p < py (pc_pitch P0) * INR (S j))%R) ->
     no_region rs p /\ geo_find rs p = Ok None).
Proof.
  eexists. split; [apply assembly_run|]. split.
  - intros i j p Hi Hj P q Hq. destruct (pin_in Hi Hj) as (_ & _ & C). destruct (HP C) as (HM & HC & HI & HF & _).
    destruct (pin_partition HM HC) as (rs & E & _ & F & _). rewrite (pin_run HM) in E. injection E as <-. change (pin i j) with P in *.
    destruct (F q Hq) as (k & a & HK & Ha & HA & O & _ & r & Er & Mr). apply moved_only in O.
    destruct (@only_concat (map (fun j => block i j) (seq 0 ny)) p j (block i j) _ (@nth_seq_map' _ (fun j => block i j) ny j Hj) O) as (c1 & O1 & E1).
    { intros j' l D H. apply nth_seq_map in H. destruct H as [Hj' ->]. apply outside_block; auto. intros Q. apply D. destruct (@place_unique i j i j' p); auto. }
    destruct (@only_concat (map (fun i => concat (map (fun j => block i j) (seq 0 ny))) (seq 0 nx)) p i _ _ (@nth_seq_map' _ (fun i => concat (map (fun j => block i j) (seq 0 ny))) nx i Hi) O1) as (c2 & O2 & E2).
    { intros i' l D H. apply nth_seq_map in H. destruct H as [Hi' ->]. apply none_concat. intros l Hl. apply in_map_iff in Hl. destruct Hl as (j' & <- & Hj'). apply in_seq in Hj'.
      apply outside_block; [auto|lia|]. intros Q. apply D. destruct (@place_unique i j i' j' p); auto; lia. }
    exists c2, (moved r (org i j)), k, a. split; auto. split; [apply only_found; auto|]. split; [rewrite E2, E1; exact (@map_nth_error _ _ (fun r => moved r (org i j)) _ _ _ Er)|]. rewrite moved_mat. auto.
  - intros p H. assert (N : no_region (concat (map (fun i => concat (map (fun j => block i j) (seq 0 ny))) (seq 0 nx))) p).
    { apply none_concat. intros l Hl. apply in_map_iff in Hl. destruct Hl as (i & <- & Hi). apply in_seq in Hi.
      apply none_concat. intros l Hl. apply in_map_iff in Hl. destruct Hl as (j & <- & Hj). apply in_seq in Hj. apply outside_block; [lia|lia|].
      intros (A & B & _). destruct (@pin_in i j) as (_ & _ & C); [lia|lia|]. destruct (HP C) as (_ & _ & _ & _ & S1 & S2). rewrite S1 in A. rewrite S2 in B. apply (H i j); [lia|lia|].
      rewrite !S_INR. unfold org in A, B. cbn [psub px py] in A, B. lra. }
    split; auto. apply none_found; auto.
Qed.
End Assembly.
