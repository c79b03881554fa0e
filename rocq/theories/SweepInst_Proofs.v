(** * SweepInst_Proofs: the 1-D, 2-D and 3-D kernels; octant order; threads
    sharing the scalar flux. *)
From Verif Require Import Base BaseR Loop Mesh_Model Mesh_Proofs Angle_Model Angle_Spec Angle_Proofs Boundary_Model
  Boundary_Spec Boundary_Proofs Cell_Model Cell_Spec Cell_Proofs Sweep_Model Sweep_Spec Sweep_Proofs SweepBalance_Proofs
  SweepAll_Proofs.
Open Scope nat_scope.
Set Implicit Arguments. Unset Strict Implicit.

(** ** Kernels *)
Lemma dir_at dim nq ds a : dirs_ok dim nq ds -> a < nq ->
  exists d, rd ds a = Ok d /\ nth_error ds a = Some d /\ dir_ok dim d /\ weight ds a = d_w d.
Proof.
  intros (L & F) Ha. destruct (nth_error ds a) as [d|] eqn:E.
  2:{ apply nth_error_None in E. lia. }
  exists d. unfold rd. rewrite E. split; auto. split; auto. split.
  - apply nth_error_In in E. rewrite Forall_forall in F. auto.
  - unfold weight. rewrite (nth_error_nth _ _ _ E). auto.
Qed.
Lemma len1 A (l : list A) : length l = 1 -> exists x, l = [x].
Proof. destruct l as [|x [|y l]]; cbn; try discriminate. eauto. Qed.

Lemma kernel1_good E G ds keep src nq : grid_ok 1 G -> sig_ok (strict1 E) G -> dirs_ok 1 nq ds -> src_ok 1 nq G src ->
  good_kernel (kernel1 E G ds keep src) (solution1 E G ds src) (weight ds) (cells_of 1 G) keep (g_nx G) (g_ny G) (g_nz G) 1 nq.
Proof.
  intros HG HS HD HSrc o a ins Ho Ha Sh. unfold shape_ok in Sh. cbn in Sh.
  destruct ins as [|[|[|x [|]] [|]] [|]]; try discriminate.
  destruct (dir_at HD Ha) as (d & Ed & En & Dd & Wd).
  destruct (@sweep1_solves E G d keep o (src o a) x) as (y & pc & SO & RUN); auto.
  exists [[[y]]], pc. split; [reflexivity|]. split; [exists d, x, y; auto|].
  intros phi psi Hp Hq. destruct (RUN phi psi Hp Hq) as (phi' & psi' & E' & A & B).
  exists phi', psi'. unfold kernel1. rewrite Ed. cbn [bind]. rewrite E'. cbn [bind]. rewrite Wd. auto.
Qed.
Lemma kernel2_good E G ds keep src nq : grid_ok 2 G -> sig_ok (strict2 E) G -> dirs_ok 2 nq ds -> src_ok 2 nq G src ->
  good_kernel (kernel2 E G ds keep src) (solution2 E G ds src) (weight ds) (cells_of 2 G) keep (g_nx G) (g_ny G) (g_nz G) 2 nq.
Proof.
  intros HG HS HD HSrc o a ins Ho Ha Sh. unfold shape_ok in Sh. cbn in Sh.
  destruct ins as [|[|v [|]] [|[|h [|]] [|]]]; try discriminate. cbn in Sh. inversion Sh as [[Hv Hh]].
  destruct (dir_at HD Ha) as (d & Ed & En & Dd & Wd).
  destruct (@sweep2_solves E G d keep o (src o a) v h) as (v' & h' & pc & Lv & Lh & SO & RUN); auto.
  exists [[v']; [h']], pc. split; [unfold shape_ok; cbn; rewrite Lv, Lh; auto|]. split; [exists d, v, h, v', h'; auto|].
  intros phi psi Hp Hq. destruct (RUN phi psi Hp Hq) as (phi' & psi' & E' & A & B).
  exists phi', psi'. unfold kernel2. rewrite Ed. cbn [bind]. rewrite E'. cbn [bind]. rewrite Wd. auto.
Qed.
Lemma rect_shape n m l : map (@length R) l = repeat m n <-> rect n m l.
Proof.
  unfold rect. split.
  - intros H. split; [apply (f_equal (@length _)) in H; rewrite map_length, repeat_length in H; auto|].
    apply Forall_forall. intros r Hr. assert (In (length r) (repeat m n)) by (rewrite <- H; apply in_map; auto).
    apply repeat_spec in H0. auto.
  - intros (<- & F). induction l as [|r l IH]; cbn; auto. inversion F; subst. rewrite IH; auto.
Qed.
Lemma kernel3_good G ds keep src nq : grid_ok 3 G -> sig_ok false G -> dirs_ok 3 nq ds -> src_ok 3 nq G src ->
  good_kernel (kernel3 G ds keep src) (solution3 G ds src) (weight ds) (cells_of 3 G) keep (g_nx G) (g_ny G) (g_nz G) 3 nq.
Proof.
  intros HG HS HD HSrc o a ins Ho Ha Sh. unfold shape_ok in Sh. cbn [seq map face_rows face_cols Nat.mul Nat.add Nat.ltb Nat.leb] in Sh.
  destruct ins as [|x [|y [|z [|]]]]; try discriminate. cbn [map] in Sh. inversion Sh as [[Hx Hy Hz]].
  destruct (dir_at HD Ha) as (d & Ed & En & Dd & Wd).
  destruct (@sweep3_solves G d keep o (src o a) x y z) as (x' & y' & z' & pc & Lx & Ly & Lz & SO & RUN);
    try (apply rect_shape); auto.
  exists [x'; y'; z'], pc. split.
  { unfold shape_ok. cbn [seq map face_rows face_cols Nat.mul Nat.add Nat.ltb Nat.leb]. apply rect_shape in Lx, Ly, Lz. rewrite Lx, Ly, Lz. auto. }
  split; [exists d, x, y, z, x', y', z'; auto|].
  intros phi psi Hp Hq. destruct (RUN phi psi Hp Hq) as (phi' & psi' & E' & A & B).
  exists phi', psi'. unfold kernel3. rewrite Ed. cbn [bind]. rewrite E'. cbn [bind]. rewrite Wd. auto.
Qed.

(** ** Full sweeps *)
Lemma swept_mono (R1 R2 : relation) W n keep upd g ord b psi b' phi' psi' :
  (forall o a i u p, R1 o a i u p -> R2 o a i u p) ->
  swept R1 W n keep upd g ord b psi b' phi' psi' -> swept R2 W n keep upd g ord b psi b' phi' psi'.
Proof.
  intros H [A B (P & C1 & C2) D E F]. constructor; auto. exists P. split; auto.
  intros o a Ho Ha. destruct (C1 o a Ho Ha). auto.
Qed.
Section Full.
Variables (G : grid) (ds : list dir) (keep upd : bool) (src : nat -> nat -> list R) (g : nat) (ord : list nat) (b : bsn)
  (phi : list R) (psi : nat -> nat -> list R).
Let dim := q_dim (b_q b).
Let nq := q_nao (b_q b).
Let problem := sweep_problem G ds keep src g ord b phi psi.
Lemma problem_setting : problem -> setting g (g_nx G) (g_ny G) (g_nz G) dim nq b /\ good_ord dim ord.
Proof.
  intros (H1 & H2 & H3 & H4 & H5 & H6 & H7 & H8 & H9 & H10). split.
  - unfold setting, dim, nq. repeat split; auto; apply H4.
  - unfold good_ord. destruct H4 as (_ & E & _). unfold dim. rewrite <- E. auto.
Qed.
Let full_sweep (K : kernel) (Sol : relation) := full_sweep G ds keep upd g ord b phi psi K Sol.
Lemma full_any K Sol : problem ->
  good_kernel K Sol (weight ds) (cells_of dim G) keep (g_nx G) (g_ny G) (g_nz G) dim nq -> full_sweep K Sol.
Proof.
  intros PR GK. destruct (problem_setting PR) as (ST & GO).
  destruct PR as (H1 & H2 & H3 & H4 & H5 & H6 & H7 & H8 & H9 & H10).
  destruct (@sweep_swept K Sol (weight ds) (cells_of dim G) keep upd g (g_nx G) (g_ny G) (g_nz G) dim nq ord b phi psi)
    as (b' & phi' & psi' & E & SW); auto.
  exists b', phi', psi'. split; auto. eapply swept_mono; [|exact SW]. intros o a i u p (X & _). exact X.
Qed.
Lemma full1 E : dim = 1 -> problem -> sig_ok (strict1 E) G -> full_sweep (kernel1 E G ds keep src) (solution1 E G ds src).
Proof.
  intros D PR HS. apply full_any; auto. unfold problem, sweep_problem in PR. cbv zeta in PR. fold dim nq in PR. destruct PR as (H1 & H2 & H3 & _). rewrite D in *. apply kernel1_good; auto.
Qed.
Lemma full2 E : dim = 2 -> problem -> sig_ok (strict2 E) G -> full_sweep (kernel2 E G ds keep src) (solution2 E G ds src).
Proof.
  intros D PR HS. apply full_any; auto. unfold problem, sweep_problem in PR. cbv zeta in PR. fold dim nq in PR. destruct PR as (H1 & H2 & H3 & _). rewrite D in *. apply kernel2_good; auto.
Qed.
Lemma full3 : dim = 3 -> problem -> sig_ok false G -> full_sweep (kernel3 G ds keep src) (solution3 G ds src).
Proof.
  intros D PR HS. apply full_any; auto. unfold problem, sweep_problem in PR. cbv zeta in PR. fold dim nq in PR. destruct PR as (H1 & H2 & H3 & _). rewrite D in *. apply kernel3_good; auto.
Qed.
Lemma threads2 E T sched fin : dim = 2 -> problem -> sig_ok (strict2 E) G -> fair T nq sched -> Permutation fin (seq 0 T) ->
  exists b1 phi' psi1 b2 psi2,
  sweep (kernel2 E G ds keep src) upd g ord (b, phi, psi) = Ok (b1, phi', psi1) /\
  sweep_par (kernel2 E G ds keep src) upd g ord sched fin (b, phi, psi) = Ok (b2, phi', psi2) /\
  (forall o a, o < q_noct (b_q b) -> a < q_nao (b_q b) -> psi1 o a = psi2 o a) /\ same_setup b1 b2 /\
  (forall s o a g', valid b s o a g' -> flux b1 s o a g' = flux b2 s o a g').
Proof.
  intros D PR HS FA PF. destruct (problem_setting PR) as (ST & GO).
  destruct PR as (H1 & H2 & H3 & H4 & H5 & H6 & H7 & H8 & H9 & H10).
  fold dim nq in H1, H2, H3, H9, H10. destruct H4 as (_ & -> & _). fold dim nq.
  apply (@par_serial (kernel2 E G ds keep src) (solution2 E G ds src) (weight ds) (cells_of dim G) keep upd g
    (g_nx G) (g_ny G) (g_nz G) dim nq ord b phi psi T sched fin); auto.
  rewrite D in *. apply kernel2_good; auto.
Qed.
End Full.

Theorem full_sweep1 E G ds keep upd src g ord b phi psi : q_dim (b_q b) = 1 ->
  sweep_problem G ds keep src g ord b phi psi -> sig_ok (strict1 E) G ->
  full_sweep G ds keep upd g ord b phi psi (kernel1 E G ds keep src) (solution1 E G ds src).
Proof. intros. apply full1; auto. Qed.
Theorem full_sweep2 E G ds keep upd src g ord b phi psi : q_dim (b_q b) = 2 ->
  sweep_problem G ds keep src g ord b phi psi -> sig_ok (strict2 E) G ->
  full_sweep G ds keep upd g ord b phi psi (kernel2 E G ds keep src) (solution2 E G ds src).
Proof. intros. apply full2; auto. Qed.
Theorem full_sweep3 G ds keep upd src g ord b phi psi : q_dim (b_q b) = 3 ->
  sweep_problem G ds keep src g ord b phi psi -> sig_ok false G ->
  full_sweep G ds keep upd g ord b phi psi (kernel3 G ds keep src) (solution3 G ds src).
Proof. intros. apply full3; auto. Qed.
Theorem threads_serial2 E G ds keep upd src g ord b phi psi T sched fin : q_dim (b_q b) = 2 ->
  sweep_problem G ds keep src g ord b phi psi -> sig_ok (strict2 E) G ->
  fair T (q_nao (b_q b)) sched -> Permutation fin (seq 0 T) ->
  exists b1 phi' psi1 b2 psi2,
  sweep (kernel2 E G ds keep src) upd g ord (b, phi, psi) = Ok (b1, phi', psi1) /\
  sweep_par (kernel2 E G ds keep src) upd g ord sched fin (b, phi, psi) = Ok (b2, phi', psi2) /\
  (forall o a, o < q_noct (b_q b) -> a < q_nao (b_q b) -> psi1 o a = psi2 o a) /\ same_setup b1 b2 /\
  (forall s o a g', valid b s o a g' -> flux b1 s o a g' = flux b2 s o a g').
Proof. intros. eapply threads2; eauto. Qed.

(** ** Octant order *)
Definition canon (dim : nat) : quad :=
  {| q_dim := dim; q_noct := 2 ^ dim; q_nao := 0; q_nang := 0; q_mu := []; q_eta := []; q_xi := []; q_wt := []; q_adj := false;
     q_sign := []; q_inc := incident_table dim; q_out := outgoing_table dim |}.
Lemma order_canon q refl refl' : sn_quad q -> (forall s, s < 2 * q_dim q -> refl s = refl' s) ->
  octant_order q refl None = octant_order (canon (q_dim q)) refl' None.
Proof.
  intros (Hd & Hn & _ & Hi & _) H. unfold octant_order. cbn [canon q_noct q_dim]. rewrite Hn. f_equal.
  replace (existsb refl (seq 0 (2 * q_dim q))) with (existsb refl' (seq 0 (2 * q_dim q))).
  2:{ assert (X : forall l, (forall s, In s l -> s < 2 * q_dim q) -> existsb refl' l = existsb refl l).
      { induction l as [|s l IH]; intros Hl; cbn; auto. rewrite H by (apply Hl; cbn; auto). rewrite IH; auto. intros; apply Hl; cbn; auto. }
      apply X. intros s Hs. apply in_seq in Hs. lia. }
  replace (vacuum_counts q refl) with (vacuum_counts (canon (q_dim q)) refl'); auto.
  unfold vacuum_counts. cbn [canon q_noct q_dim]. rewrite Hn.
  apply (@foldM_ext_inv _ _ (fun _ => True)); auto. intros s c Hs _. apply in_seq in Hs. rewrite H by lia.
  destruct (refl' s); auto. apply (@foldM_ext_inv _ _ (fun _ => True)); auto. intros i c' _ _.
  unfold incident_octant. cbn [canon q_inc]. rewrite Hi. auto.
Qed.
Fixpoint bools (n : nat) : list (list bool) :=
  match n with 0 => [[]] | S n => flat_map (fun l => [true :: l; false :: l]) (bools n) end.
Lemma bools_all l : In l (bools (length l)).
Proof.
  induction l as [|x l IH]; cbn; auto. apply in_flat_map. exists l. split; auto. destruct x; cbn; auto.
Qed.
Fixpoint distinct (l : list nat) : bool :=
  match l with [] => true | x :: l => negb (existsb (Nat.eqb x) l) && distinct l end.
Fixpoint descending (f : nat -> nat) (l : list nat) : bool :=
  match l with x :: (y :: _) as t => (f y <=? f x) && descending f t | _ => true end.
Definition order_good (dim : nat) (refl : nat -> bool) (ord : list nat) : bool :=
  (length ord =? 2 ^ dim) && distinct ord && forallb (fun o => o <? 2 ^ dim) ord && descending (open_sides dim refl) ord.
Definition check_order (dim : nat) : bool :=
  forallb (fun l => match octant_order (canon dim) (fun s => nth s l false) None with
                    | Ok ord => order_good dim (fun s => nth s l false) ord | _ => false end) (bools (2 * dim)).
Lemma check_order_ok dim : 0 < dim < 4 -> check_order dim = true.
Proof. intros H. destruct dim as [|[|[|[|d]]]]; try lia; vm_compute; reflexivity. Qed.
Lemma distinct_NoDup l : distinct l = true -> NoDup l.
Proof.
  induction l as [|x l IH]; cbn; intros H; constructor; apply andb_true_iff in H; destruct H as (H1 & H2); auto.
  intros Hin. apply negb_true_iff in H1. assert (existsb (Nat.eqb x) l = true).
  { apply existsb_exists. exists x. split; auto. apply Nat.eqb_refl. } congruence.
Qed.
Lemma descending_split f l : descending f l = true -> forall l1 l2 l3 x y, l = l1 ++ x :: l2 ++ y :: l3 -> f y <= f x.
Proof.
  assert (A : forall l x, descending f (x :: l) = true -> forall y, In y l -> f y <= f x).
  { intros l0. induction l0 as [|z l0 IH]; intros x H y Hy; [destruct Hy|]. cbn [descending] in H. apply andb_true_iff in H.
    destruct H as (H1 & H2). apply Nat.leb_le in H1. destruct Hy as [<-|Hy]; auto. specialize (IH z H2 y Hy). lia. }
  assert (B : forall l1 r, descending f (l1 ++ r) = true -> descending f r = true).
  { induction l1 as [|z l1 IH]; intros r H; auto. apply IH. cbn [app] in H. destruct (l1 ++ r) as [|w t]; auto.
    cbn [descending] in H. apply andb_true_iff in H. apply H. }
  intros H l1 l2 l3 x y ->. apply B in H. eapply A; [exact H|]. rewrite in_app_iff. cbn; auto.
Qed.
Lemma open_sides_ext dim refl refl' o : (forall s, s < 2 * dim -> refl s = refl' s) -> open_sides dim refl o = open_sides dim refl' o.
Proof.
  intros H. unfold open_sides. f_equal. apply filter_ext_in. intros s Hs. apply in_seq in Hs. rewrite H by lia. auto.
Qed.
Theorem order_default q refl : sn_quad q -> exists ord, octant_order q refl None = Ok ord /\
  Permutation ord (seq 0 (q_noct q)) /\
  (forall o o', precedes ord o o' -> open_sides (q_dim q) refl o' <= open_sides (q_dim q) refl o).
Proof.
  intros Q. pose proof Q as (Hd & Hn & _). set (dim := q_dim q) in *.
  set (l := map refl (seq 0 (2 * dim))).
  assert (Hl : forall s, s < 2 * dim -> refl s = nth s l false).
  { intros s Hs. unfold l. rewrite nth_map_seq by auto. auto. }
  pose proof (check_order_ok Hd) as C. unfold check_order in C. rewrite forallb_forall in C.
  assert (Hin : In l (bools (2 * dim))).
  { pose proof (bools_all l) as X. unfold l in X at 2. rewrite map_length, seq_length in X. auto. }
  specialize (C _ Hin). rewrite (@order_canon q refl (fun s => nth s l false)) by auto. fold dim.
  destruct (octant_order (canon dim) (fun s => nth s l false) None) as [ord| |]; try discriminate.
  exists ord. split; auto. unfold order_good in C. rewrite !andb_true_iff in C. destruct C as (((C1 & C2) & C3) & C4).
  apply Nat.eqb_eq in C1. apply distinct_NoDup in C2. rewrite forallb_forall in C3. rewrite Hn. split.
  - apply NoDup_Permutation_bis; auto.
    + rewrite seq_length. lia.
    + intros o Ho. apply C3 in Ho. apply Nat.ltb_lt in Ho. apply in_seq. lia.
  - intros o o' (l1 & l2 & E & Hx). apply in_split in Hx. destruct Hx as (m1 & m2 & ->).
    rewrite !(@open_sides_ext dim refl (fun s => nth s l false)) by auto.
    eapply descending_split; [exact C4|]. rewrite E, <- app_assoc. reflexivity.
Qed.
(** A user order of the right length is taken as it is. *)
Lemma order_user q refl oo : sn_quad q -> length oo = q_noct q -> octant_order q refl (Some oo) = Ok oo.
Proof.
  intros Q L. destruct (order_default refl Q) as (ord & E & _). unfold octant_order in *.
  destruct (if existsb refl _ then _ else _); try discriminate. cbn [bind] in *. rewrite L, Nat.eqb_refl. auto.
Qed.
Lemma order_user_bad q refl oo : sn_quad q -> length oo <> q_noct q -> octant_order q refl (Some oo) = Err.
Proof.
  intros Q L. destruct (order_default refl Q) as (ord & E & _). unfold octant_order in *.
  destruct (if existsb refl _ then _ else _); try discriminate. cbn [bind] in *.
  destruct (Nat.eqb_spec (length oo) (q_noct q)); congruence.
Qed.

(** ** Shared scalar flux *)
Lemma exec_thread t l : forall phi reg c,
  exec (thread t l) phi reg c = (phi c + sumR (map (fun cx => if fst cx =? c then snd cx else 0%R) l))%R.
Proof.
  induction l as [|[c' x] l IH]; intros phi reg c; cbn [thread flat_map map].
  - cbn. lra.
  - rewrite sumR_cons. cbn [fst snd cell_add app exec]. unfold thread in IH. rewrite IH. unfold put1. rewrite Nat.eqb_refl.
    rewrite (Nat.eqb_sym c c'). destruct (Nat.eqb_spec c' c); subst; lra.
Qed.
Lemma exec_app e1 e2 : forall phi reg, exists reg', forall c, exec (e1 ++ e2) phi reg c = exec e2 (exec e1 phi reg) reg' c.
Proof.
  induction e1 as [|e e1 IH]; intros phi reg; cbn [app exec].
  - exists reg. auto.
  - destruct e; apply IH.
Qed.
Definition G1 : grid := {| g_nx := 1; g_ny := 1; g_nz := 1; g_dx := [1%R]; g_dy := []; g_dz := []; g_sig := [1%R] |}.
Definition d1 : dir := {| d_mu := 1; d_eta := 0; d_xi := 0; d_w := 1 |}.
Lemma contributions_1 : exists x, contributions DD_1 G1 d1 0 [2%R] 0 = Ok [(0, x)] /\ (x = 2 / 3)%R.
Proof.
  destruct (@sweep1_solves DD_1 G1 d1 true 0 [2%R] 0) as (po & pc & SO & RUN).
  - lia.
  - cbn. repeat split; try lia; repeat constructor; lra.
  - cbn. repeat constructor. lra.
  - unfold dir_ok. cbn. repeat split; try lra; intros; try lia; lra.
  - reflexivity.
  - destruct (RUN (repeat 0%R 1) (repeat 0%R 1)) as (phi' & psi' & E & A & B); try reflexivity.
    cbn [stores] in B. destruct B as (LB & B). specialize (B 0 ltac:(cbn; lia)).
    destruct psi' as [|p [|]]; try discriminate. unfold at_ in B. cbn in B.
    unfold contributions. cbn [g_nx G1]. rewrite E. cbn [bind].
    exists (1 * p)%R. split; [reflexivity|].
    destruct SO as (X & X0 & X1 & H). specialize (H 0 ltac:(cbn; lia)). cbn in X0, H. unfold obeys1 in H.
    rewrite B. cbn in H. rewrite X0 in H.
    unfold balanced1, diamond, leak in H. unfold at_ in H. cbn in H. lra.
Qed.
Theorem shared_race : exists l es, contributions DD_1 G1 d1 0 [2%R] 0 = Ok l /\
  interleave (thread 0 l) (thread 1 l) es /\
  exec es (fun _ => 0%R) (fun _ => 0%R) 0 <> exec (thread 0 l ++ thread 1 l) (fun _ => 0%R) (fun _ => 0%R) 0.
Proof.
  destruct contributions_1 as (x & E & X).
  exists [(0, x)], [Load 0 0; Load 1 0; Store 0 0 x; Store 1 0 x]. split; auto. split.
  - cbn. apply il_l, il_r, il_l, il_r, il_nil.
  - cbn. unfold put1. cbn. lra.
Qed.
