(** * PiLinear_Proofs: a problem whose only source is fission has a linear
    fission operator. *)
From Verif Require Import Base BaseR Loop Util_Model Angle_Model Angle_Spec Boundary_Model Boundary_Spec Mesh_Model Mesh_Proofs
  Material_Model Material_Spec Source_Model Source_Spec Source_Proofs Cell_Model Cell_Spec Sweep_Model Sweep_Spec Sweep_Proofs
  SweepAll_Proofs SweepLinear_Proofs Iter_Model Iter_Spec Pi_Spec Iter_Proofs IterConv_Proofs Gs_Proofs Pi_Proofs.
Set Implicit Arguments. Unset Strict Implicit.
Open Scope R_scope.
Local Notation idx := Mesh_Model.index.

(** ** Superposition along one direction *)
Definition no_face (f : face) : Prop := Forall (Forall (fun v => v = 0)) f.
Lemma at_zero (l : list R) i : Forall (fun v => v = 0) l -> at_ l i = 0.
Proof.
  intros F. unfold at_. destruct (le_lt_dec (length l) i) as [H|H]; [apply nth_overflow; auto|].
  rewrite Forall_forall in F. apply F. apply nth_In. auto.
Qed.
Lemma at2_zero (f : face) i j : no_face f -> at2 f i j = 0.
Proof.
  intros F. unfold at2. destruct (le_lt_dec (length f) i) as [H|H]; [rewrite (nth_overflow f) by auto; destruct j; auto|].
  unfold no_face in F. rewrite Forall_forall in F. apply (at_zero j (F _ (nth_In f [] H))).
Qed.

Lemma outs_length E G ds s o a ins outs p : equation E G ds s o a ins outs p -> length outs = eq_dim E.
Proof.
  destruct E as [e|e|]; cbn [equation eq_dim].
  - intros (d & x & y & _ & _ & -> & _). reflexivity.
  - intros (d & v & h & v1 & h1 & _ & _ & -> & _). reflexivity.
  - intros (d & x & y & z & x1 & y1 & z1 & _ & _ & -> & _). reflexivity.
Qed.

Section Eqn.
Variables (E : eqn) (G : grid) (ds : list dir) (nq : nat).
Hypotheses (HG : grid_ok (eq_dim E) G) (HS : sig_ok (eq_strict E) G) (HD : dirs_ok (eq_dim E) nq ds).
Local Notation n := (cells_of (eq_dim E) G).

Lemma equation_lin al be s s' s'' o a ins outs outs' p p' : Forall no_face ins ->
  equation E G ds s o a ins outs p -> equation E G ds s' o a ins outs' p' ->
  (forall c, (c < n)%nat -> at_ (s'' o a) c = al * at_ (s o a) c + be * at_ (s' o a) c) ->
  exists outs'', equation E G ds s'' o a ins outs'' (fun c => al * p c + be * p' c).
Proof.
  intros Z EQ EQ' HQ. pose proof (@dir_at E ds nq HD) as DA. destruct E as [e|e|]; cbn [equation eq_dim eq_strict] in *.
  - destruct EQ as (d & x & y & Hd & -> & -> & S1), EQ' as (d' & x' & y' & Hd' & Hx & -> & S2).
    rewrite Hd in Hd'. injection Hd' as <-. injection Hx as <-. specialize (DA a d Hd).
    inversion_clear Z as [|? ? Z1 _]. inversion_clear Z1 as [|? ? Z2 _]. inversion_clear Z2 as [|? ? Z3 _]. subst x.
    exists [[[al * y + be * y']]], d, 0, (al * y + be * y'). do 3 (split; auto).
    pose proof (@solves1_lin al be e G d _ _ _ _ _ _ _ _ _ (s'' o a) HG HS DA S1 S2) as L.
    replace (al * 0 + be * 0) with 0 in L by ring. apply L. intros i Hi. apply HQ. unfold cells_of. cbn. lia.
  - destruct EQ as (d & v & h & v1 & h1 & Hd & -> & -> & S1), EQ' as (d' & v' & h' & v1' & h1' & Hd' & Hx & -> & S2).
    rewrite Hd in Hd'. injection Hd' as <-. injection Hx as <- <-.
    inversion_clear Z as [|? ? Z1 Z2]. inversion_clear Z2 as [|? ? Z3 _]. inversion_clear Z1 as [|? ? Z4 _]. inversion_clear Z3 as [|? ? Z5 _].
    exists [[map (fun c => al * at_ v1 c + be * at_ v1' c) (seq 0 (g_ny G))]; [map (fun c => al * at_ h1 c + be * at_ h1' c) (seq 0 (g_nx G))]],
      d, v, h, (map (fun c => al * at_ v1 c + be * at_ v1' c) (seq 0 (g_ny G))), (map (fun c => al * at_ h1 c + be * at_ h1' c) (seq 0 (g_nx G))).
    do 3 (split; auto). eapply (@solves2_lin al be e G d); [exact S1|exact S2| | |].
    + intros i j Hi Hj c. apply HQ. unfold c, cells_of. cbn. pose proof (index_lt Hi Hj Nat.lt_0_1). lia.
    + intros j Hj. rewrite at_tab by auto. rewrite (at_zero j Z4). split; [ring|auto].
    + intros j Hj. rewrite at_tab by auto. rewrite (at_zero j Z5). split; [ring|auto].
  - destruct EQ as (d & x & y & z & x1 & y1 & z1 & Hd & -> & -> & S1), EQ' as (d' & x' & y' & z' & x1' & y1' & z1' & Hd' & Hx & -> & S2).
    rewrite Hd in Hd'. injection Hd' as <-. injection Hx as <- <- <-.
    inversion_clear Z as [|? ? Z1 Z2]. inversion_clear Z2 as [|? ? Z3 Z4]. inversion_clear Z4 as [|? ? Z5 _].
    set (mix := fun (f f' : list (list R)) r c => map (fun k => map (fun j => al * at2 f k j + be * at2 f' k j) (seq 0 c)) (seq 0 r)).
    assert (MX : forall f f' r c k j, (k < r)%nat -> (j < c)%nat -> at2 (mix f f' r c) k j = al * at2 f k j + be * at2 f' k j).
    { intros f f' r c k j Hk Hj. unfold mix. unfold at2 at 1. rewrite nth_map_seq by auto. rewrite nth_map_seq by auto. auto. }
    exists [mix x1 x1' (g_nz G) (g_ny G); mix y1 y1' (g_nz G) (g_nx G); mix z1 z1' (g_ny G) (g_nx G)], d, x, y, z, (mix x1 x1' (g_nz G) (g_ny G)), (mix y1 y1' (g_nz G) (g_nx G)), (mix z1 z1' (g_ny G) (g_nx G)).
    do 3 (split; auto). eapply (@solves3_lin al be G d); [exact S1|exact S2| | | |].
    + intros i j k Hi Hj Hk c. apply HQ. unfold c, cells_of. cbn. pose proof (index_lt Hi Hj Hk). lia.
    + intros j k Hj Hk. rewrite MX by auto. rewrite !(at2_zero _ _ Z1). split; [ring|auto].
    + intros j k Hj Hk. rewrite MX by auto. rewrite !(at2_zero _ _ Z3). split; [ring|auto].
    + intros j k Hj Hk. rewrite MX by auto. rewrite !(at2_zero _ _ Z5). split; [ring|auto].
Qed.
End Eqn.

(** ** Superposition of multigroup solutions *)
Section Lin.
Variables (w : sweeper) (y : src) (q : quad) (ins : nat -> nat -> nat -> list face).
Definition stream_source (S : nat -> nat -> R) (phi : nat -> nat -> R) (g : nat) : list R :=
  map (fun c => (S g c + rsum (ng (mat y)) (fun gp => phi gp c * transfer_xs y c g gp)) / solid_angle (q_dim q)) (seq 0 (cells y)).
Definition streams (S phi : nat -> nat -> R) : Prop := forall g, (g < ng (mat y))%nat -> exists P outs,
  (forall o a, (o < q_noct q)%nat -> (a < q_nao q)%nat ->
     equation (w_eq w) (group_grid (w_grid w) y g) (w_dirs w) (fun _ _ => stream_source S phi g) o a (ins g o a) (outs o a) (P o a)) /\
  forall c, (c < cells y)%nat -> phi g c = rsum (q_noct q) (fun o => rsum (q_nao q) (fun a => weight (w_dirs w) a * P o a c)).
Lemma equation_ext E G ds s s' o a i u p : s o a = s' o a -> equation E G ds s o a i u p -> equation E G ds s' o a i u p.
Proof.
  intros H. destruct E as [e|e|]; cbn [equation]; unfold solution1, solution2, solution3; rewrite H; auto.
Qed.

Lemma streams_ext S S' phi phi' : (forall g c, (g < ng (mat y))%nat -> (c < cells y)%nat -> S g c = S' g c) ->
  (forall g c, (g < ng (mat y))%nat -> (c < cells y)%nat -> phi g c = phi' g c) -> streams S phi -> streams S' phi'.
Proof.
  intros H1 H2 H g Hg. destruct (H g Hg) as (P & outs & E1 & A1). exists P, outs. split.
  - intros o a Ho Ha. eapply equation_ext; [|apply E1; auto]. cbv beta. unfold stream_source. apply map_ext_in. intros c Hc. apply in_seq in Hc.
    rewrite H1 by (auto; lia). do 2 f_equal. apply rsum_ext. intros gp Hgp. rewrite H2 by (auto; lia). auto.
  - intros c Hc. rewrite <- H2 by auto. auto.
Qed.
Hypotheses (ED : eq_dim (w_eq w) = q_dim q) (NC : cells y = cells_of (q_dim q) (w_grid w)) (HD : dirs_ok (q_dim q) (q_nao q) (w_dirs w))
  (HG : forall g, (g < ng (mat y))%nat -> grid_ok (q_dim q) (group_grid (w_grid w) y g) /\ sig_ok (eq_strict (w_eq w)) (group_grid (w_grid w) y g))
  (HI : forall g o a, (g < ng (mat y))%nat -> (o < q_noct q)%nat -> (a < q_nao q)%nat -> Forall no_face (ins g o a)).

Lemma pick2 A (D : A) N M (Pr : nat -> nat -> A -> Prop) :
  (forall o a, (o < N)%nat -> (a < M)%nat -> exists u, Pr o a u) -> exists f, forall o a, (o < N)%nat -> (a < M)%nat -> Pr o a (f o a).
Proof.
  intros H. 
  assert (H1 : forall o, (o < N)%nat -> exists f, forall a, (a < M)%nat -> Pr o a (f a)).
  { intros o Ho. clear -H Ho D. specialize (fun a => H o a Ho).
    induction M as [|M IH]; [exists (fun _ => D); intros; lia|].
    destruct IH as (f & Hf); [intros; apply H; lia|]. destruct (H M (Nat.lt_succ_diag_r M)) as (u & Hu).
    exists (fun a => if a =? M then u else f a). intros a Ha. destruct (Nat.eqb_spec a M) as [->|]; auto. apply Hf. lia. }
  clear H. induction N as [|N IH]; [exists (fun _ _ => D); intros; lia|].
  destruct IH as (f & Hf); [intros; apply H1; lia|]. destruct (H1 N (Nat.lt_succ_diag_r N)) as (u & Hu).
  exists (fun o => if o =? N then u else f o). intros o a Ho Ha. destruct (Nat.eqb_spec o N) as [->|]; auto. apply Hf; auto. lia.
Qed.

Lemma streams_lin al be S S' phi phi' : streams S phi -> streams S' phi' ->
  streams (fun g c => al * S g c + be * S' g c) (fun g c => al * phi g c + be * phi' g c).
Proof.
  intros H H' g Hg. destruct (H g Hg) as (P & outs & E1 & A1), (H' g Hg) as (P' & outs' & E2 & A2). destruct (HG Hg) as (G1 & G2).
  destruct (@pick2 _ ([] : list face) (q_noct q) (q_nao q) (fun o a u =>
     equation (w_eq w) (group_grid (w_grid w) y g) (w_dirs w)
       (fun _ _ => stream_source (fun g c => al * S g c + be * S' g c) (fun g c => al * phi g c + be * phi' g c) g) o a (ins g o a) u
       (fun c => al * P o a c + be * P' o a c))) as (u & Hu).
  { intros o a Ho Ha. rewrite <- ED in G1, HD.
    eapply (@equation_lin (w_eq w) (group_grid (w_grid w) y g) (w_dirs w) (q_nao q) G1 G2 HD al be); [apply HI; auto|apply E1; auto|apply E2; auto|].
    intros c Hc. assert (Hc' : (c < cells y)%nat) by (rewrite NC, <- ED; exact Hc).
    unfold stream_source. rewrite !at_tab by auto.
    replace (rsum (ng (mat y)) (fun gp => (al * phi gp c + be * phi' gp c) * transfer_xs y c g gp)) with
      (al * rsum (ng (mat y)) (fun gp => phi gp c * transfer_xs y c g gp) + be * rsum (ng (mat y)) (fun gp => phi' gp c * transfer_xs y c g gp)).
    - unfold Rdiv. ring.
    - rewrite <- !rsum_scal, <- rsum_plus. apply rsum_ext. intros. ring. }
  exists (fun o a c => al * P o a c + be * P' o a c), u. split; auto.
  intros c Hc. rewrite A1, A2 by auto. rewrite <- !rsum_scal, <- rsum_plus. apply rsum_ext. intros o Ho.
  rewrite <- !rsum_scal, <- rsum_plus. apply rsum_ext. intros. ring.
Qed.
(** Finite sums. *)
Lemma streams_sum N (v : nat -> R) (S : nat -> nat -> nat -> R) (phi : nat -> nat -> nat -> R) : (0 < N)%nat ->
  (forall j, (j < N)%nat -> streams (S j) (phi j)) ->
  streams (fun g c => rsum N (fun j => v j * S j g c)) (fun g c => rsum N (fun j => v j * phi j g c)).
Proof.
  intros H0 H. destruct N as [|N]; [lia|]. clear H0. induction N as [|N IH].
  - apply (@streams_ext (fun g c => v 0%nat * S 0%nat g c + 0 * S 0%nat g c) _ (fun g c => v 0%nat * phi 0%nat g c + 0 * phi 0%nat g c)).
    + intros. unfold rsum. cbn. ring.
    + intros. unfold rsum. cbn. ring.
    + apply streams_lin; apply H; lia.
  - eapply streams_ext; [| |apply (@streams_lin 1 (v (Datatypes.S N)) _ _ _ _ (IH ltac:(intros; apply H; lia)) (H (Datatypes.S N) ltac:(lia)))].
    + intros. cbn [rsum]. ring.
    + intros. cbn [rsum]. ring.
Qed.
End Lin.

Arguments sc_cells {w m nc t0 t}.
Arguments sc_source {w m nc t0 t}.
Arguments sc_enter {w m nc t0 t} _ [g].
Arguments sc_posed {w m nc t0 t}.
Arguments sc_ready {w m nc t0 t}.
Arguments ho_sides {t}.
Arguments ho_enter {t}.
Arguments ho_source {t}.
Arguments ho_fission {t}.

Lemma incoming_ins b b' g o a : same_incoming b b' g -> sn_quad (b_q b) -> (g < b_ng b)%nat -> (o < q_noct (b_q b))%nat -> (a < q_nao (b_q b))%nat ->
  ins_of b' o a g = ins_of b o a g.
Proof.
  intros ((S1 & S2 & S3) & H) Q Hg Ho Ha. unfold ins_of. rewrite S1. apply map_ext_in. intros y Hy. apply in_seq in Hy.
  assert (Ho' : (o < 2 ^ q_dim (b_q b))%nat) by (destruct Q as (_ & <- & _); auto).
  apply H; [|apply in_side_enters; auto]. repeat split; auto. apply in_side_lt. lia.
Qed.

(** ** One case: all the states it goes through *)
Section Case.
Variables (w : sweeper) (m : mtl) (nc : nat) (t0 : tstate).
Local Notation x0 := (ssrc (t_x t0)).
Local Notation q0 := (b_q (t_b t0)).
Local Notation n := (ng (mat x0)).
Local Notation Inv := (same_case w m nc t0).
Hypotheses (HO : homogeneous t0) (Hn : (0 < n)%nat).
Definition ins0 (g o a : nat) : list face := ins_of (t_b t0) o a g.
Definition tab (F : nat -> nat -> R) : list (list R) := map (fun g => map (F g) (seq 0 (cells x0))) (seq 0 n).
Lemma tab_nth F g : (g < n)%nat -> nth g (tab F) [] = map (F g) (seq 0 (cells x0)).
Proof. intros H. unfold tab. rewrite nth_map with (d := 0%nat) by (rewrite seq_length; auto). rewrite seq_nth by auto. auto. Qed.
Lemma tab_phi F g c : (g < n)%nat -> (c < cells x0)%nat -> phi_of (tab F) g c = F g c.
Proof. intros H Hc. unfold phi_of. rewrite tab_nth by auto. apply nth_map_seq. auto. Qed.

Lemma case_setup t : Inv t -> same_setup (t_b t0) (t_b t).
Proof. intros I. apply (sc_enter I Hn). Qed.
Lemma case_grid t g : Inv t -> group_grid (w_grid w) (ssrc (t_x t)) g = group_grid (w_grid w) x0 g.
Proof. intros I. destruct (sc_cells I) as (A1 & A2 & A3 & _). unfold group_grid, mat_of. rewrite A1, A2, A3. auto. Qed.
Lemma case_emission t phi g angle c : Inv t -> emission (t_x t) phi (q_dim q0) g angle c =
  (explicit_fission (t_x t) g c + rsum n (fun gp => phi_of phi gp c * transfer_xs x0 c g gp)) / solid_angle (q_dim q0).
Proof.
  intros I. destruct (sc_cells I) as (A1 & A2 & A3 & A4). destruct (sc_source I) as (B1 & B2 & B3).
  destruct (ho_source HO g c) as (E1 & E2). unfold emission, scatter_sum, transfer_xs, mat_of, all_groups in *.
  unfold external in *. unfold discrete in *. rewrite B1, B2, B3, A2, A3, A4, E1, E2, (ho_fission HO).
  destruct (fiss (t_x t)); unfold Rdiv; ring.
Qed.
Lemma case_entering t b' g : Inv t -> (g < n)%nat -> entering (t_b t) b' g -> same_incoming (t_b t) b' g.
Proof.
  intros I Hg (S1 & _ & S3). split; auto. destruct (case_setup I) as (A1 & A2 & A3). intros s o a V En.
  assert (EB : b_bc (t_b t) s = Vacuum) by (rewrite A3; apply (ho_sides HO); rewrite <- A1; apply V).
  apply S3; auto; rewrite EB; congruence.
Qed.
Lemma case_incoming t b' g : Inv t -> (g < n)%nat -> entering (t_b t) b' g -> same_incoming (t_b t0) b' g.
Proof. intros I Hg H. eapply same_incoming_trans; [apply (sc_enter I Hg)|apply case_entering; auto]. Qed.
Lemma case_posed t g : Inv t -> (g < n)%nat -> wellposed w m g t.
Proof. intros I Hg. apply (sc_posed I). auto. Qed.
Lemma case_ins b' g o a : Inv t0 -> (g < n)%nat -> (o < q_noct q0)%nat -> (a < q_nao q0)%nat -> same_incoming (t_b t0) b' g -> ins_of b' o a g = ins0 g o a.
Proof.
  intros I Hg Ho Ha H. destruct (case_posed I Hg) as [_ _ (_ & Hb) (Q & _) _ _ _ _ _]. apply (incoming_ins H); auto.
Qed.
Lemma case_zero g o a : Inv t0 -> (g < n)%nat -> (o < q_noct q0)%nat -> (a < q_nao q0)%nat -> Forall no_face (ins0 g o a).
Proof.
  intros I Hg Ho Ha. destruct (case_posed I Hg) as [_ _ (_ & Hb) (Q & _) _ _ _ _ _]. unfold ins0, ins_of. apply Forall_forall.
  intros f Hf. apply in_map_iff in Hf. destruct Hf as (x & <- & Hx). apply in_seq in Hx.
  assert (Ho' : (o < 2 ^ q_dim q0)%nat) by (destruct Q as (_ & <- & _); auto).
  apply (ho_enter HO); [|apply in_side_enters; auto]. repeat split; auto. apply in_side_lt. lia.
Qed.

Lemma to_streams t phi : Inv t0 -> Inv t -> mg_solution w t phi -> streams w x0 q0 ins0 (explicit_fission (t_x t)) (phi_of phi).
Proof.
  intros I0 I (L & SO) g Hg. destruct (sc_cells I) as (A1 & A2 & A3 & A4). rewrite A2 in SO.
  destruct (SO g Hg) as (b' & EB & P & EQ & LF & AV). pose proof (case_incoming I Hg EB) as SI. pose proof SI as ((B1 & _) & _).
  rewrite B1 in *. rewrite A1 in *. exists P, (fun o a => outs_of b' o a g). split; [|exact AV].
  intros o a Ho Ha. rewrite <- (case_ins I0 Hg Ho Ha SI). specialize (EQ o a Ho Ha). rewrite (case_grid g I) in EQ.
  eapply equation_ext; [|exact EQ]. unfold emissions, stream_source. rewrite A1. apply map_ext. intros c. apply case_emission. auto.
Qed.

Lemma of_streams t F : Inv t0 -> Inv t -> streams w x0 q0 ins0 (explicit_fission (t_x t)) F -> mg_solution w t (tab F).
Proof.
  intros I0 I ST. destruct (sc_cells I) as (A1 & A2 & A3 & A4). split; [unfold tab; rewrite map_length, seq_length; congruence|].
  rewrite A2. intros g Hg.  destruct (ST g Hg) as (P & outs & EQ & AV).
  destruct (case_posed I0 Hg) as [_ _ (_ & Hb) (Q & QE) _ _ _ _ _].
  destruct (case_setup I) as (B1 & B2 & B3).
  set (b' := with_flux (t_b t) (fun s g' k => let o := (k / q_nao q0)%nat in let a := (k mod q_nao q0)%nat in
     if s =? out_side o (s / 2) then nth (s / 2) (outs o a) [] else b_flux (t_b t) s g' k)).
  assert (FL : forall s o a g', (a < q_nao q0)%nat -> bflux b' s o a g' = if s =? out_side o (s / 2) then nth (s / 2) (outs o a) [] else bflux (t_b t) s o a g').
  { intros s o a g' Ha. unfold bflux, b'. cbn [with_flux b_flux b_q]. rewrite B1. unfold Angle_Model.index.
    rewrite Nat.div_add, Nat.div_small, Nat.mod_add, Nat.mod_small by lia. cbn [plus]. auto. }
  assert (IO : forall o x, in_side o x <> out_side o (in_side o x / 2)).
  { intros o x. assert (E : (in_side o x / 2 = x)%nat).
    { unfold in_side. destruct (positive o x); [rewrite Nat.add_0_r, Nat.mul_comm; apply Nat.div_mul; lia|].
      symmetry. apply (Nat.div_unique _ 2 x 1); lia. }
    rewrite E. unfold in_side, out_side. destruct (positive o x); lia. }
  assert (EN : entering (t_b t) b' g).
  { split; [repeat split|]. rewrite B1, B3. split.
    - intros s l io o a psi Hs EB. rewrite (ho_sides HO s Hs) in EB. discriminate.
    - intros s o a V En _ _ _. destruct V as (V1 & V2 & V3 & V4). rewrite B1 in V3. rewrite FL by auto.
      destruct (Nat.eqb_spec s (out_side o (s / 2))) as [E|]; auto. exfalso.
      apply (enters_out (x := S (s / 2)) En). apply in_map_iff. exists (s / 2)%nat. split; [auto|apply in_seq; lia]. }
  exists b'. split; auto. rewrite tab_nth by auto. pose proof (case_incoming I Hg EN) as SI. pose proof SI as ((C1 & _) & _).
  exists P. rewrite C1, A1. split; [|split].
  - intros o a Ho Ha. rewrite (case_ins I0 Hg Ho Ha SI). specialize (EQ o a Ho Ha).
    assert (OU : outs_of b' o a g = outs o a).
    { apply list_ext_nth with (d := []); unfold outs_of; rewrite map_length, seq_length, C1; [rewrite (outs_length EQ); auto|].
      intros i Hi. rewrite nth_map with (d := 0%nat) by (rewrite seq_length; auto). rewrite seq_nth by auto. cbn [plus].
      rewrite FL by auto. destruct (out_side_div o i) as (-> & _). rewrite Nat.eqb_refl. auto. }
    rewrite OU, (case_grid g I). eapply equation_ext; [|exact EQ]. unfold emissions, stream_source. rewrite A1. apply map_ext_in.
    intros c Hc. apply in_seq in Hc. rewrite case_emission by auto. do 2 f_equal. apply rsum_ext. intros gp Hgp. rewrite tab_phi by (auto; lia). auto.
  - rewrite map_length, seq_length. auto.
  - intros c Hc. rewrite at_tab by auto. auto.
Qed.

(** *** Solutions are unique *)
Variable l : list nat.
Hypotheses (SO : solve_order (t_x t0) l) (DA : all_damped w t0).

Lemma case_damped t g r : Inv t -> damped w (t_x t0) g q0 r -> damped w (t_x t) g q0 r.
Proof.
  intros I [D1 D2 D3 D4]. destruct (sc_cells I) as (A1 & A2 & A3 & A4). destruct (sc_source I) as (B1 & B2 & B3).
  constructor; auto. intros c Hc. rewrite A1 in Hc. specialize (D2 c Hc). rewrite A2. unfold mat_of. rewrite A3.
  replace (self_transfer (t_x t) g c) with (self_transfer (t_x t0) g c); auto.
  unfold self_transfer, transfer_xs, mat_of. rewrite A2, A3, A4, B3, (ho_fission HO). destruct (fiss (t_x t)), (fiss (t_x t0)); auto.
Qed.

Lemma solution_unique t phi phi' : Inv t -> mg_solution w t phi -> mg_solution w t phi' ->
  length phi = length phi' /\ forall g, (g < n)%nat -> nth g phi [] = nth g phi' [].
Proof.
  intros I (L & SP) (L' & SP'). destruct (sc_cells I) as (A1 & A2 & A3 & A4). destruct (sc_source I) as (B1 & B2 & B3).
  rewrite A2 in *. split; [congruence|]. destruct SO as (SO1 & SO2).
  destruct (case_setup I) as (S1 & S2 & S3).
  assert (LN : forall g, (g < n)%nat -> length (nth g phi []) = cells (ssrc (t_x t))).
  { intros g Hg. destruct (SP g Hg) as (b & _ & P & _ & X & _). auto. }
  assert (KEY : forall k i, (i < k)%nat -> (i < length l)%nat -> nth (nth i l 0%nat) phi [] = nth (nth i l 0%nat) phi' []).
  { induction k as [|k IH]; intros i Hk Hi; [lia|]. destruct (Nat.eq_dec i k) as [->|]; [|apply IH; lia].
    set (g := nth k l 0%nat). assert (Hg : (g < n)%nat) by (apply SO1, nth_In; auto).
    destruct (DA Hg) as ((r & Dr) & GS).
    set (ts := with_x t (with_phis (t_x t) phi)).
    assert (WT : wellposed w m g ts).
    { destruct (case_posed I Hg) as [RD EM HG' Q G' D' Bd OR (LF & LK)]. constructor; auto.
      - unfold ts. cbn [with_x t_x]. destruct RD as ((P1 & P2 & P3) & R2 & R3 & R4 & R5). 
        split; [|split; [|split; [|split]]]; auto.
        + split; [|split]; auto. destruct P3 as (P3 & P4). unfold flux_ok. cbn. rewrite A2. split; auto. intros gp Hgp. rewrite (LN gp Hgp). auto.
        + intros q Eq. unfold with_phis in Eq. cbn [fiss] in Eq. destruct (fiss (t_x t)) as [q'|] eqn:EF; cbn [option_map] in Eq; [|discriminate].
          assert (Eq' : q = fis_flux q' phi) by congruence. subst q.
          destruct (R4 q' eq_refl) as (F1 & F2 & F3). split; [|split]; auto. cbn. rewrite F1. auto.
        + intros Hi'. specialize (R5 Hi'). cbn. destruct (fiss (t_x t)); auto. discriminate. }
    assert (OB : open_boundary (t_b ts)).
    { intros s Hs. unfold ts in *. cbn [with_x t_b] in *. rewrite S1 in Hs. rewrite S3, (ho_sides HO s Hs). split; discriminate. }
    assert (DT : damped w (t_x ts) g (b_q (t_b ts)) r).
    { destruct (case_damped I Dr) as [D1 D2 D3 D4]. unfold ts. cbn [with_x t_b]. rewrite S1. constructor; auto.
      intros c Hc. specialize (D2 c Hc). unfold self_transfer in *. cbn in *. destruct (fiss (t_x t)); auto. }
    assert (FT : fixed_set_to (t_b ts) (t_b ts) g).
    { split; [repeat split|]. split; auto. intros s l' io o a psi Hs EB. unfold ts in *. cbn [with_x t_b] in *.
      rewrite S1 in Hs. rewrite S3, (ho_sides HO s Hs) in EB. discriminate. }
    assert (GG : good_scheme w g ts).
    { destruct GS as [GS|GS]; [left; auto|right]. unfold ts. cbn. 
      change (group_grid (w_grid w) (src_flux (ssrc (t_x t)) phi) g) with (group_grid (w_grid w) (ssrc (t_x t)) g). rewrite case_grid; auto. }
    destruct (one_solution WT OB DT GG FT) as (Fs & _ & UN).
    assert (AL : alike (t_x t) (t_x ts)).
    { unfold ts. repeat split. cbn. destruct (fiss (t_x t)); auto. }
    rewrite (UN (nth g phi [])), (UN (nth g phi' [])); auto.
    - destruct (SP' g Hg) as (b' & EB & TR). exists b'. split; [exact (case_entering I Hg EB)|].
      eapply transported_alike; [exact AL| |exact TR]. intros gp c Hc Hgp. rewrite A2 in Hgp.
      change (phis ts) with phi. unfold phi_of. rewrite with_group_nth by lia.
      destruct (Nat.eqb_spec gp g) as [->|Ng]; [left; auto|].
      destruct (In_nth l gp 0%nat (proj2 (SO1 gp) Hgp)) as (j & Hj & Ej). destruct (Nat.lt_trichotomy j k) as [Lt|[Eq|Gt]].
      + left. rewrite <- Ej. rewrite (IH j Lt Hj). auto.
      + exfalso. apply Ng. unfold g. subst k. auto.
      + right. specialize (SO2 k j ltac:(lia)). fold g in SO2. rewrite Ej in SO2.
        intros c' Hc'. rewrite A1 in Hc'. specialize (SO2 c' Hc'). rewrite B3. unfold transfer_xs, fission_xs, mat_of in *. rewrite A2, A3, A4. exact SO2.
    - destruct (SP g Hg) as (b' & EB & TR). exists b'. split; [exact (case_entering I Hg EB)|].
      eapply transported_alike; [exact AL| |exact TR]. intros gp c Hc Hgp. rewrite A2 in Hgp. left. change (phis ts) with phi.
      unfold phi_of. rewrite with_group_nth by lia. destruct (Nat.eqb_spec gp g) as [->|]; auto. }
  intros g Hg. destruct (In_nth l g 0%nat (proj2 (SO1 g) Hg)) as (i & Hi & <-). apply (KEY (S i)); auto.
Qed.

(** *** The matrix of the fission operator: its columns are the productions of
    unit densities *)
Variable mg : tstate -> res tstate.
Hypotheses (I0 : Inv t0) (MS : mg_solver nc Inv mg) (EX : exact w Inv mg).

Lemma case_nc : cells x0 = nc.
Proof. apply (sc_posed I0). Qed.
Definition unit_fission (q : fis) (j : nat) : fis :=
  {| fsrc := x0; dens := dens q; fscale := 1;
     fsource := map (fun g => map (fun c => if c =? j then spectrum x0 g c else 0) (seq 0 nc)) (seq 0 n) |}.
Definition column (q : fis) (j : nat) : list (list R) :=
  match mg (put_fission t0 (unit_fission q j)) with Ok t => phis t | _ => [] end.
Definition matrix (q : fis) (c j : nat) : R := production x0 (column q j) c.
Lemma unit_source q j g c : (g < n)%nat -> (c < nc)%nat ->
  explicit_fission (t_x (put_fission t0 (unit_fission q j))) g c = if c =? j then spectrum x0 g c else 0.
Proof.
  intros Hg Hc. unfold explicit_fission. cbn [put_fission with_x t_x with_fiss fiss implicit]. rewrite (ho_fission HO).
  unfold unit_fission. cbn [fsource]. rewrite nth_map with (d := 0%nat) by (rewrite seq_length; auto). rewrite seq_nth by auto.
  cbn [plus]. rewrite nth_map_seq by auto. auto.
Qed.
Lemma column_ok q j : dens q = density t0 -> streams w x0 q0 ins0 (fun g c => if c =? j then spectrum x0 g c else 0) (phi_of (column q j)).
Proof.
  intros Eq.
  assert (IU : Inv (put_fission t0 (unit_fission q j))).
  { apply (ms_fission MS); auto. split; [reflexivity|]. split; [|split].
    - cbn [unit_fission dens]. rewrite Eq. apply (inv_density MS I0).
    - unfold unit_fission. cbn [fsource]. rewrite map_length, seq_length. auto.
    - intros g Hg. unfold unit_fission. cbn [fsource]. rewrite nth_map with (d := 0%nat) by (rewrite seq_length; auto).
      rewrite map_length, seq_length. auto. }
  destruct (ms_solve MS IU) as (t' & E & I'). unfold column. rewrite E.
  eapply streams_ext; [| |apply (to_streams I0 IU (EX IU E))].
  - intros g c Hg Hc. rewrite case_nc in Hc. apply unit_source; auto.
  - auto.
Qed.
Lemma case_production t phi c : Inv t -> production (ssrc (t_x t)) phi c = production x0 phi c.
Proof. intros I. destruct (sc_cells I) as (A1 & A2 & A3 & A4). unfold production, mat_of. rewrite A2, A3, A4. auto. Qed.
Lemma case_spectrum t g c : Inv t -> spectrum (ssrc (t_x t)) g c = spectrum x0 g c.
Proof. intros I. destruct (sc_cells I) as (A1 & A2 & A3 & A4). unfold spectrum, mat_of. rewrite A2, A3, A4. auto. Qed.

Theorem fission_acts q : dens q = density t0 -> acts_as nc Inv mg (matrix q).
Proof.
  intros Eq k t s t1 t' I OU c Hc. pose proof case_nc as NC.
  destruct OU as [(qs & -> & SH & Ed & Es) ES (q1 & _ & Ed')].
  assert (IS : Inv (put_fission t qs)) by (apply (ms_fission MS); auto).
  destruct (ms_solve MS IS) as (t1' & ES' & I1). rewrite ES in ES'. injection ES' as <-.
  destruct (sc_cells I) as (A1 & A2 & A3 & A4). destruct (sc_source I) as (_ & _ & B3).
  rewrite Ed'. rewrite at_tab by auto. rewrite (case_production _ _ I1).
  set (v := fun j => 1 / k * at_ (density t) j).
  assert (ST : streams w x0 q0 ins0 (explicit_fission (t_x (put_fission t qs))) (fun g c => rsum nc (fun j => v j * phi_of (column q j) g c))).
  { destruct (case_posed I0 Hn) as [_ _ _ (_ & QE) (_ & _ & G3 & _) DI _ _ _].
    assert (SS : streams w x0 q0 ins0 (fun g c => rsum nc (fun j => v j * (if c =? j then spectrum x0 g c else 0)))
       (fun g c => rsum nc (fun j => v j * phi_of (column q j) g c))).
    { apply (@streams_sum w x0 q0 ins0 QE G3 DI); [|intros; apply case_zero; auto|lia|intros; apply column_ok; auto].
      intros g Hg. destruct (case_posed I0 Hg) as [_ _ _ _ (G1 & G2 & _) _ _ _ _]. auto. }
    eapply streams_ext; [| |exact SS]; auto. intros g c' Hg Hc'. rewrite NC in Hc'.
    unfold explicit_fission. cbn [put_fission with_x t_x with_fiss fiss implicit]. rewrite B3, (ho_fission HO).
    rewrite Es by (auto; rewrite A2; auto). rewrite (case_spectrum _ _ I).
    rewrite (@rsum_ext nc _ (fun j => (if j =? c' then v c' * spectrum x0 g c' else 0))).
    - rewrite rsum_delta by auto. reflexivity.
    - intros j Hj. rewrite (Nat.eqb_sym c' j). destruct (Nat.eqb_spec j c') as [->|]; ring. }
  pose proof (of_streams I0 IS ST) as MT. destruct (solution_unique IS (EX IS ES) MT) as (_ & UN).
  transitivity (production x0 (tab (fun g c => rsum nc (fun j => v j * phi_of (column q j) g c))) c).
  - unfold production. apply rsum_ext. intros g Hg. unfold phi_of at 1. rewrite (UN g Hg). reflexivity.
  - unfold production. rewrite (@rsum_ext n _ (fun g => rsum nc (fun j => v j * (phi_of (column q j) g c * (if adj x0 then chi (mat x0) g (mat_of x0 c) else nsf (mat x0) g (mat_of x0 c)))))).
    + rewrite rsum_swap. rewrite <- rsum_scal. apply rsum_ext. intros j Hj. unfold matrix, production, v. rewrite rsum_scal. ring.
    + intros g Hg. rewrite tab_phi by (auto; lia). rewrite <- rsum_scal_r. apply rsum_ext. intros. ring.
Qed.
Corollary fission_linear : exists a, acts_as nc Inv mg a.
Proof.
  destruct (ms_ready MS I0) as (_ & _ & q & E & _). exists (matrix q). apply fission_acts. unfold density. rewrite E. auto.
Qed.
End Case.
