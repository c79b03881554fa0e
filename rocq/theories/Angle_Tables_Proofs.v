(** * Angle_Tables_Proofs: the incident and outgoing index tables of a product quadrature *)
From Verif Require Import Base BaseR Angle_Model Angle_Spec Angle_Proofs.
Open Scope nat_scope.
Set Implicit Arguments. Unset Strict Implicit.

(** ** Writing a nested vector *)

Definition shape {A} (n m : nat) (t : list (list A)) : Prop :=
  length t = n /\ forall r, In r t -> length r = m.
Lemma shape_repeat A (x : A) n m : shape n m (repeat (repeat x m) n).
Proof. split; [apply repeat_length|]. intros r H. apply repeat_spec in H. subst. apply repeat_length. Qed.

Lemma In_upd A (l : list A) n x r : In r (upd l n x) -> r = x \/ In r l.
Proof.
  revert n; induction l as [|h t IH]; intros [|n] H; cbn in *; auto.
  - destruct H; auto.
  - destruct H as [H|H]; auto. destruct (IH _ H); auto.
Qed.

Lemma wr2_ok A n m (t : list (list A)) i j x : shape n m t -> i < n -> j < m ->
  exists t', wr2 t i j x = Ok t' /\ shape n m t' /\ rd2 t' i j = Ok x /\
    forall i' j', (i', j') <> (i, j) -> rd2 t' i' j' = rd2 t i' j'.
Proof.
  intros [L S] Hi Hj. unfold wr2. rewrite rd_ok with (d := []) by lia. cbn [bind].
  assert (Lr : length (nth i t []) = m) by (apply S, nth_In; lia).
  unfold wr. rewrite Lr, L, (proj2 (Nat.ltb_lt j m) Hj), (proj2 (Nat.ltb_lt i n) Hi). cbn [bind].
  eexists. split; [reflexivity|]. split; [|split].
  - split; [rewrite upd_length; auto|]. intros r H. apply In_upd in H. destruct H as [->|H]; auto. rewrite upd_length. auto.
  - unfold rd2, rd. rewrite nth_error_upd_eq by lia. cbn. rewrite nth_error_upd_eq by lia. auto.
  - intros i' j' Hne. unfold rd2, rd. destruct (Nat.eq_dec i i') as [->|Ne].
    + rewrite nth_error_upd_eq by lia. rewrite nth_error_nth' with (d := []) by lia. cbn.
      rewrite nth_error_upd_neq by (intros ->; apply Hne; auto). auto.
    + rewrite nth_error_upd_neq by auto. auto.
Qed.

Lemma writes_ok A X (key : X -> nat * nat) (val : X -> A) n m : forall ws (t : list (list A)), shape n m t ->
  (forall w, In w ws -> fst (key w) < n /\ snd (key w) < m) -> NoDup (map key ws) ->
  exists t', foldM (fun t w => wr2 t (fst (key w)) (snd (key w)) (val w)) ws t = Ok t' /\ shape n m t' /\
    (forall w, In w ws -> rd2 t' (fst (key w)) (snd (key w)) = Ok (val w)) /\
    (forall i j, ~ In (i, j) (map key ws) -> rd2 t' i j = rd2 t i j).
Proof.
  induction ws as [|w ws IH]; intros t St HR ND; cbn [foldM].
  - exists t. split; auto. split; auto. split; auto. intros w [].
  - inversion ND as [|? ? N1 N2]; subst.
    destruct (HR w (or_introl eq_refl)) as [R1 R2].
    destruct (@wr2_ok A n m t (fst (key w)) (snd (key w)) (val w) St R1 R2) as (t1 & E1 & S1 & V1 & F1).
    rewrite E1. cbn [bind].
    destruct (IH t1 S1 (fun x Hx => HR x (or_intror Hx)) N2) as (t' & E & S' & V & F).
    exists t'. split; auto. split; auto. split.
    + intros x [<-|Hx]; auto. rewrite F; auto. rewrite <- surjective_pairing. auto.
    + intros i j Hn. cbn in Hn. rewrite F by tauto. apply F1. intros E'. apply Hn. left. rewrite E'. apply surjective_pairing.
Qed.

Lemma foldM_pair S T X (f : S -> X -> res S) (g : T -> X -> res T) l : forall s t s' t',
  foldM f l s = Ok s' -> foldM g l t = Ok t' ->
  foldM (fun st x => let '(s, t) := st in do s' <- f s x; do t' <- g t x; Ok (s', t')) l (s, t) = Ok (s', t').
Proof.
  induction l as [|x l IH]; intros s t s' t' H1 H2; cbn in *.
  - inversion H1; inversion H2; subst; auto.
  - destruct (f s x); try discriminate. destruct (g t x); try discriminate. cbn in *. apply IH; auto.
Qed.
Lemma foldM_ext S X (f g : S -> X -> res S) l : (forall x s, In x l -> f s x = g s x) ->
  forall s, foldM f l s = foldM g l s.
Proof.
  induction l as [|x l IH]; intros H s; cbn; auto. rewrite H by (cbn; auto).
  destruct (g s x); cbn; auto. apply IH. intros; apply H; cbn; auto.
Qed.

(** ** Keys *)

Definition inc_o (dim s oo : nat) : nat := nth oo (nth s (incident_table dim) []) 0.
Definition out_o (dim s oo : nat) : nat := nth oo (nth s (outgoing_table dim) []) 0.
Definition inc_key (dim na np s : nat) (w : nat * nat) : nat * nat :=
  let '(ai, pi, _, _) := slot_index dim na np s (inc_o dim s (fst w)) (out_o dim s (fst w)) (snd w) in (ai, pi).
Definition out_key (dim na np s : nat) (w : nat * nat) : nat * nat :=
  let '(_, _, ao, po) := slot_index dim na np s (inc_o dim s (fst w)) (out_o dim s (fst w)) (snd w) in (ao, po).
Definition dirs (dim na np : nat) : list (nat * nat) :=
  flat_map (fun oo => map (pair oo) (seq 0 (na * np))) (seq 0 ((dim - 1) * 2)).

Lemma dirs_In dim na np oo a : In (oo, a) (dirs dim na np) <-> oo < (dim - 1) * 2 /\ a < na * np.
Proof.
  unfold dirs. rewrite in_flat_map. split.
  - intros (x & Hx & H). apply in_map_iff in H. destruct H as (y & E & Hy). inversion E; subst.
    apply in_seq in Hx, Hy. lia.
  - intros [H1 H2]. exists oo. split; [apply in_seq; lia|]. apply in_map, in_seq. lia.
Qed.
Lemma dirs_length dim na np : length (dirs dim na np) = (dim - 1) * 2 * (na * np).
Proof.
  unfold dirs. generalize ((dim - 1) * 2) as n. generalize 0 at 2. intros k n. revert k.
  induction n as [|n IH]; intros k; cbn [seq flat_map]; auto.
  rewrite app_length, map_length, seq_length, IH. lia.
Qed.
Lemma dirs_NoDup dim na np : NoDup (dirs dim na np).
Proof.
  unfold dirs. generalize ((dim - 1) * 2) as n. generalize 0 at 2. intros k n. revert k.
  induction n as [|n IH]; intros k; cbn [seq flat_map]; [constructor|].
  assert (Hd : forall x, In x (map (pair k) (seq 0 (na * np))) -> ~ In x (flat_map (fun oo => map (pair oo) (seq 0 (na * np))) (seq (S k) n))).
  { intros x H1 H2. apply in_map_iff in H1. destruct H1 as (y & <- & _). apply in_flat_map in H2.
    destruct H2 as (z & Hz & H2). apply in_map_iff in H2. destruct H2 as (w & E & _). inversion E; subst.
    apply in_seq in Hz. lia. }
  assert (H1 : NoDup (map (pair k) (seq 0 (na * np)))).
  { apply FinFun.Injective_map_NoDup; [|apply seq_NoDup]. intros x y E. inversion E. auto. }
  revert H1 Hd. generalize (map (pair k) (seq 0 (na * np))) as u. induction u as [|b u IHu]; intros H1 Hd; cbn; auto.
  inversion H1; subst. constructor.
  - rewrite in_app_iff. intros [H|H]; auto. apply (Hd b); cbn; auto.
  - apply IHu; auto. intros x Hx. apply Hd. cbn; auto.
Qed.

Definition dim23 (dim : nat) : Prop := dim = 2 \/ dim = 3.

Ltac side_cases Hs := 
  match type of Hs with
  | ?s < 2 * 2 => let H := fresh in assert (H : s = 0 \/ s = 1 \/ s = 2 \/ s = 3) by lia; destruct H as [?|[?|[?|?]]]; subst s
  | ?s < 2 * 3 => let H := fresh in assert (H : s = 0 \/ s = 1 \/ s = 2 \/ s = 3 \/ s = 4 \/ s = 5) by lia; destruct H as [?|[?|[?|[?|[?|?]]]]]; subst s
  end.
Ltac oo_cases Ho :=
  match type of Ho with
  | ?o < (2 - 1) * 2 => let H := fresh in assert (H : o = 0 \/ o = 1) by lia; destruct H as [?|?]; subst o
  | ?o < (3 - 1) * 2 => let H := fresh in assert (H : o = 0 \/ o = 1 \/ o = 2 \/ o = 3) by lia; destruct H as [?|[?|[?|?]]]; subst o
  end.
Ltac keyc := cbv [inc_key out_key slot_index inc_o out_o incident_table outgoing_table nth fst snd
  Nat.eqb Nat.ltb Nat.leb is_o orb number_azimuths number_polar].

Lemma key_range dim na np s oo a : dim23 dim -> s < 2 * dim -> oo < (dim - 1) * 2 -> a < na * np ->
  (fst (inc_key dim na np s (oo, a)) < number_azimuths na s /\ snd (inc_key dim na np s (oo, a)) < number_polar dim np s) /\
  (fst (out_key dim na np s (oo, a)) < number_azimuths na s /\ snd (out_key dim na np s (oo, a)) < number_polar dim np s).
Proof.
  intros Hd Hs Ho Ha. destruct (product_angle_onto Ha) as (A1 & A2 & A3).
  destruct Hd as [->| ->]; side_cases Hs; oo_cases Ho; keyc;
  revert A1 A2; generalize (azimuth_of na np a) as z; generalize (polar_of np a) as p; intros; repeat split; lia.
Qed.

Lemma key_inj dim na np s oo a oo' a' : dim23 dim -> s < 2 * dim ->
  oo < (dim - 1) * 2 -> a < na * np -> oo' < (dim - 1) * 2 -> a' < na * np ->
  (inc_key dim na np s (oo, a) = inc_key dim na np s (oo', a') -> (oo, a) = (oo', a')) /\
  (out_key dim na np s (oo, a) = out_key dim na np s (oo', a') -> (oo, a) = (oo', a')).
Proof.
  intros Hd Hs Ho Ha Ho' Ha'.
  destruct (product_angle_onto Ha) as (A1 & A2 & A3). destruct (product_angle_onto Ha') as (B1 & B2 & B3).
  assert (G : oo = oo' -> azimuth_of na np a = azimuth_of na np a' -> polar_of np a = polar_of np a' -> (oo, a) = (oo', a')).
  { intros -> E1 E2. f_equal. rewrite <- A3, <- B3, E1, E2. auto. }
  destruct Hd as [->| ->]; side_cases Hs; oo_cases Ho; oo_cases Ho'; keyc;
  (split; intros E; apply G; clear G A3 B3; revert E A1 A2 B1 B2;
  generalize (azimuth_of na np a) as z; generalize (polar_of np a) as p;
  generalize (azimuth_of na np a') as z'; generalize (polar_of np a') as p'; intros; inversion E; lia).
Qed.

Lemma keys_NoDup dim na np (s : nat) (key : nat * nat -> nat * nat) :
  (forall w w', In w (dirs dim na np) -> In w' (dirs dim na np) -> key w = key w' -> w = w') ->
  NoDup (map key (dirs dim na np)).
Proof.
  intros H. pose proof (dirs_NoDup dim na np) as ND. revert H ND. generalize (dirs dim na np) as l.
  induction l as [|w l IH]; intros H ND; cbn; constructor; inversion ND; subst.
  - intros Hin. apply in_map_iff in Hin. destruct Hin as (x & E & Hx).
    assert (x = w) by (apply H; cbn; auto). subst. auto.
  - apply IH; auto. intros x y Hx Hy. apply H; cbn; auto.
Qed.

Definition inc_val (dim s : nat) (w : nat * nat) : slot := {| s_oct := inc_o dim s (fst w); s_ang := snd w; s_io := fst w |}.
Definition out_val (dim s : nat) (w : nat * nat) : slot := {| s_oct := out_o dim s (fst w); s_ang := snd w; s_io := fst w |}.

Lemma side_table_lengths dim s : dim23 dim -> s < 2 * dim ->
  exists incs outs, rd (incident_table dim) s = Ok incs /\ rd (outgoing_table dim) s = Ok outs /\
    length incs = (dim - 1) * 2 /\ length outs = (dim - 1) * 2 /\
    (forall oo, nth oo incs 0 = inc_o dim s oo) /\ (forall oo, nth oo outs 0 = out_o dim s oo).
Proof.
  intros Hd Hs. destruct Hd as [->| ->]; side_cases Hs; do 2 eexists; (split; [reflexivity|]); (split; [reflexivity|]);
  (split; [reflexivity|]); (split; [reflexivity|]); split; intros oo; reflexivity.
Qed.

Lemma side_tables_ok dim na np s : dim23 dim -> s < 2 * dim ->
  exists ti tj, side_tables dim na np s = Ok (ti, tj) /\
    shape (number_azimuths na s) (number_polar dim np s) ti /\ shape (number_azimuths na s) (number_polar dim np s) tj /\
    (forall w, In w (dirs dim na np) -> rd2 ti (fst (inc_key dim na np s w)) (snd (inc_key dim na np s w)) = Ok (inc_val dim s w)) /\
    (forall w, In w (dirs dim na np) -> rd2 tj (fst (out_key dim na np s w)) (snd (out_key dim na np s w)) = Ok (out_val dim s w)).
Proof.
  intros Hd Hs. destruct (side_table_lengths Hd Hs) as (incs & outs & E1 & E2 & L1 & L2 & N1 & N2).
  unfold side_tables. rewrite E1, E2. cbn [bind].
  set (blank := repeat (repeat slot0 (number_polar dim np s)) (number_azimuths na s)).
  set (fi := fun (t : list (list slot)) w => wr2 t (fst (inc_key dim na np s w)) (snd (inc_key dim na np s w)) (inc_val dim s w)).
  set (fo := fun (t : list (list slot)) w => wr2 t (fst (out_key dim na np s w)) (snd (out_key dim na np s w)) (out_val dim s w)).
  set (n := number_azimuths na s). set (m := number_polar dim np s).
  destruct (@writes_ok slot _ (inc_key dim na np s) (inc_val dim s) n m (dirs dim na np) blank) as (ti & F1 & S1 & V1 & _).
  { apply shape_repeat. }
  { intros [oo a] H. apply dirs_In in H. apply (@key_range dim na np s oo a); tauto. }
  { apply (@keys_NoDup dim na np s). intros [oo a] [oo' a'] H H'. apply dirs_In in H. apply dirs_In in H'. apply key_inj; tauto. }
  destruct (@writes_ok slot _ (out_key dim na np s) (out_val dim s) n m (dirs dim na np) blank) as (tj & F2 & S2 & V2 & _).
  { apply shape_repeat. }
  { intros [oo a] H. apply dirs_In in H. apply (@key_range dim na np s oo a); tauto. }
  { apply (@keys_NoDup dim na np s). intros [oo a] [oo' a'] H H'. apply dirs_In in H. apply dirs_In in H'. apply key_inj; tauto. }
  exists ti, tj. split; [|auto].
  pose proof (@foldM_pair _ _ _ fi fo _ _ _ _ _ F1 F2) as F.
  unfold dirs in F. rewrite <- (@foldM_flat nat nat _ (fun st x => let '(s0, t) := st in do s' <- fi s0 x; do t' <- fo t x; Ok (s', t'))) in F.
  rewrite <- F. apply foldM_ext. intros oo st Hoo. apply in_seq in Hoo.
  rewrite rd_ok with (d := 0) by lia. rewrite rd_ok with (d := 0) by lia. cbn [bind]. rewrite N1, N2.
  apply foldM_ext. intros a [t u] _. unfold fi, fo, inc_key, out_key, inc_val, out_val. cbn [fst snd].
  destruct (slot_index dim na np s (inc_o dim s oo) (out_o dim s oo) a) as [[[ai pi] ao] po]. reflexivity.
Qed.

(** Every slot is written. *)
Lemma slots_covered dim na np s (key : nat * nat -> nat * nat) : dim23 dim -> s < 2 * dim ->
  (forall w, In w (dirs dim na np) -> fst (key w) < number_azimuths na s /\ snd (key w) < number_polar dim np s) ->
  NoDup (map key (dirs dim na np)) ->
  forall az p, az < number_azimuths na s -> p < number_polar dim np s ->
  exists w, In w (dirs dim na np) /\ key w = (az, p).
Proof.
  intros Hd Hs HR ND az p Haz Hp.
  assert (I : incl (list_prod (seq 0 (number_azimuths na s)) (seq 0 (number_polar dim np s))) (map key (dirs dim na np))).
  { apply NoDup_length_incl; auto.
    - rewrite prod_length, !seq_length, map_length, dirs_length.
      destruct Hd as [->| ->]; unfold number_azimuths, number_polar; side_cases Hs; cbn [Nat.ltb Nat.leb Nat.eqb]; nia.
    - intros [x y] H. apply in_map_iff in H. destruct H as (w & E & Hw). apply HR in Hw. rewrite E in Hw. cbn in Hw.
      apply in_prod; apply in_seq; lia. }
  specialize (I (az, p)). rewrite in_map_iff in I. destruct I as (w & E & Hw).
  - apply in_prod; apply in_seq; lia.
  - exists w. auto.
Qed.

Lemma inc_key_facts dim na np s : dim23 dim -> s < 2 * dim ->
  (forall w, In w (dirs dim na np) -> fst (inc_key dim na np s w) < number_azimuths na s /\ snd (inc_key dim na np s w) < number_polar dim np s) /\
  NoDup (map (inc_key dim na np s) (dirs dim na np)).
Proof.
  intros Hd Hs. split.
  - intros [oo a] H. apply dirs_In in H. apply (@key_range dim na np s oo a); tauto.
  - apply (@keys_NoDup dim na np s). intros [oo a] [oo' a'] H H'. apply dirs_In in H. apply dirs_In in H'. apply key_inj; tauto.
Qed.
Lemma out_key_facts dim na np s : dim23 dim -> s < 2 * dim ->
  (forall w, In w (dirs dim na np) -> fst (out_key dim na np s w) < number_azimuths na s /\ snd (out_key dim na np s w) < number_polar dim np s) /\
  NoDup (map (out_key dim na np s) (dirs dim na np)).
Proof.
  intros Hd Hs. split.
  - intros [oo a] H. apply dirs_In in H. apply (@key_range dim na np s oo a); tauto.
  - apply (@keys_NoDup dim na np s). intros [oo a] [oo' a'] H H'. apply dirs_In in H. apply dirs_In in H'. apply key_inj; tauto.
Qed.

(** Reading a slot finds the direction that was put there. *)
Lemma incident_index_val dim na np s az p : dim23 dim -> s < 2 * dim ->
  az < number_azimuths na s -> p < number_polar dim np s ->
  exists w, In w (dirs dim na np) /\ inc_key dim na np s w = (az, p) /\ incident_index dim na np s az p = Ok (inc_val dim s w).
Proof.
  intros Hd Hs Haz Hp. destruct (inc_key_facts na np Hd Hs) as [R ND].
  destruct (@slots_covered dim na np s _ Hd Hs R ND az p Haz Hp) as (w & Hw & E).
  destruct (@side_tables_ok dim na np s Hd Hs) as (ti & tj & E1 & _ & _ & V & _).
  exists w. split; auto. split; auto. unfold incident_index. rewrite E1. cbn [bind fst].
  specialize (V w Hw). rewrite E in V. auto.
Qed.
Lemma outgoing_index_val dim na np s az p : dim23 dim -> s < 2 * dim ->
  az < number_azimuths na s -> p < number_polar dim np s ->
  exists w, In w (dirs dim na np) /\ out_key dim na np s w = (az, p) /\ outgoing_index dim na np s az p = Ok (out_val dim s w).
Proof.
  intros Hd Hs Haz Hp. destruct (out_key_facts na np Hd Hs) as [R ND].
  destruct (@slots_covered dim na np s _ Hd Hs R ND az p Haz Hp) as (w & Hw & E).
  destruct (@side_tables_ok dim na np s Hd Hs) as (ti & tj & E1 & _ & _ & _ & V).
  exists w. split; auto. split; auto. unfold outgoing_index. rewrite E1. cbn [bind snd].
  specialize (V w Hw). rewrite E in V. auto.
Qed.

(** ** Bijection *)

Lemma inc_o_inj dim s oo oo' : dim23 dim -> s < 2 * dim -> oo < (dim - 1) * 2 -> oo' < (dim - 1) * 2 ->
  (inc_o dim s oo = inc_o dim s oo' -> oo = oo') /\ (out_o dim s oo = out_o dim s oo' -> oo = oo').
Proof.
  intros Hd Hs Ho Ho'. destruct Hd as [->| ->]; side_cases Hs; oo_cases Ho; oo_cases Ho'; cbn; split; intros H; auto; discriminate.
Qed.

Lemma incident_bijection dim na np s : dim23 dim -> s < 2 * dim ->
  exists octs, rd (incident_table dim) s = Ok octs /\
  table_bijection (number_azimuths na s) (number_polar dim np s) (na * np) octs (incident_index dim na np s).
Proof.
  intros Hd Hs. destruct (side_table_lengths Hd Hs) as (incs & outs & E1 & E2 & L1 & L2 & N1 & N2).
  exists incs. split; auto. split.
  - intros az p Haz Hp. destruct (incident_index_val Hd Hs Haz Hp) as ([oo a] & Hw & E & V).
    exists (inc_val dim s (oo, a)). split; auto. apply dirs_In in Hw. cbn. split; [tauto|].
    rewrite <- N1. apply nth_error_nth'. lia.
  - intros o a Ho Ha. destruct (In_nth _ _ 0 Ho) as (oo & Hoo & Eo). rewrite N1 in Eo. rewrite L1 in Hoo.
    assert (Hw : In (oo, a) (dirs dim na np)) by (apply dirs_In; auto).
    destruct (inc_key_facts na np Hd Hs) as [R ND]. pose proof (R _ Hw) as [R1 R2].
    destruct (@side_tables_ok dim na np s Hd Hs) as (ti & tj & ET & _ & _ & V & _).
    exists (fst (inc_key dim na np s (oo, a))), (snd (inc_key dim na np s (oo, a))), (inc_val dim s (oo, a)).
    split; auto. split; auto. split; [unfold incident_index; rewrite ET; apply V; auto|].
    split; [exact Eo|]. split; [reflexivity|].
    intros az' p' x' Haz' Hp' HT Hox Hax.
    destruct (incident_index_val Hd Hs Haz' Hp') as ([oo' a'] & Hw' & E' & V'). rewrite HT in V'. inversion V'; subst x'.
    cbn in Hox, Hax. subst a'. rewrite <- Eo in Hox. apply dirs_In in Hw'.
    apply (proj1 (inc_o_inj Hd Hs (proj1 Hw') Hoo)) in Hox. subst oo'. rewrite E'. auto.
Qed.
Lemma outgoing_bijection dim na np s : dim23 dim -> s < 2 * dim ->
  exists octs, rd (outgoing_table dim) s = Ok octs /\
  table_bijection (number_azimuths na s) (number_polar dim np s) (na * np) octs (outgoing_index dim na np s).
Proof.
  intros Hd Hs. destruct (side_table_lengths Hd Hs) as (incs & outs & E1 & E2 & L1 & L2 & N1 & N2).
  exists outs. split; auto. split.
  - intros az p Haz Hp. destruct (outgoing_index_val Hd Hs Haz Hp) as ([oo a] & Hw & E & V).
    exists (out_val dim s (oo, a)). split; auto. apply dirs_In in Hw. cbn. split; [tauto|].
    rewrite <- N2. apply nth_error_nth'. lia.
  - intros o a Ho Ha. destruct (In_nth _ _ 0 Ho) as (oo & Hoo & Eo). rewrite N2 in Eo. rewrite L2 in Hoo.
    assert (Hw : In (oo, a) (dirs dim na np)) by (apply dirs_In; auto).
    destruct (out_key_facts na np Hd Hs) as [R ND]. pose proof (R _ Hw) as [R1 R2].
    destruct (@side_tables_ok dim na np s Hd Hs) as (ti & tj & ET & _ & _ & _ & V).
    exists (fst (out_key dim na np s (oo, a))), (snd (out_key dim na np s (oo, a))), (out_val dim s (oo, a)).
    split; auto. split; auto. split; [unfold outgoing_index; rewrite ET; apply V; auto|].
    split; [exact Eo|]. split; [reflexivity|].
    intros az' p' x' Haz' Hp' HT Hox Hax.
    destruct (outgoing_index_val Hd Hs Haz' Hp') as ([oo' a'] & Hw' & E' & V'). rewrite HT in V'. inversion V'; subst x'.
    cbn in Hox, Hax. subst a'. rewrite <- Eo in Hox. apply dirs_In in Hw'.
    apply (proj2 (inc_o_inj Hd Hs (proj1 Hw') Hoo)) in Hox. subst oo'. rewrite E'. auto.
Qed.

(** ** Order *)

Lemma right_order dim na np s mu eta xi (key : nat * nat -> nat * nat) (val : nat * nat -> slot) (inw : bool) oo a oo' a' az az' p :
  dim23 dim -> s < 4 -> product_ordered na np mu eta xi ->
  (key, val) = (if inw then (inc_key dim na np s, inc_val dim s) else (out_key dim na np s, out_val dim s)) ->
  In (oo, a) (dirs dim na np) -> In (oo', a') (dirs dim na np) ->
  key (oo, a) = (az, p) -> key (oo', a') = (az', p) -> az < az' ->
  let r x := rightward (fst (facing s inw)) (snd (facing s inw)) (slot_cos mu 0 x) (slot_cos eta 1 x) in
  (r (val (oo', a')) < r (val (oo, a)))%R.
Proof.
  intros Hd Hs (P1 & P2 & _) HK Hw Hw' E E' Haz r.
  apply dirs_In in Hw, Hw'. destruct Hw as [Ho Ha]. destruct Hw' as [Ho' Ha'].
  destruct (product_angle_onto Ha) as (A1 & A2 & A3). destruct (product_angle_onto Ha') as (B1 & B2 & B3).
  destruct (P1 a Ha) as (Q1 & Q2 & _). destruct (P1 a' Ha') as (Q1' & Q2' & _).
  assert (M1 : polar_of np a = polar_of np a' -> azimuth_of na np a < azimuth_of na np a' -> (mu a' < mu a /\ eta a < eta a')%R).
  { intros Ep Hz. rewrite <- A3, <- B3, <- Ep. apply P2; auto. }
  assert (M2 : polar_of np a = polar_of np a' -> azimuth_of na np a' < azimuth_of na np a -> (mu a < mu a' /\ eta a' < eta a)%R).
  { intros Ep Hz. rewrite <- A3, <- B3, <- Ep. apply P2; auto. }
  clear P1 P2 Ha Ha' A3 B3.
  assert (Hs' : s = 0 \/ s = 1 \/ s = 2 \/ s = 3) by lia. clear Hs.
  destruct inw; injection HK as -> ->.
  all: destruct Hd as [->| ->]; destruct Hs' as [->|[->|[->| ->]]]; oo_cases Ho; oo_cases Ho'; revert E E'; keyc;
    revert A1 A2 B1 B2 M1 M2;
    generalize (azimuth_of na np a) as z; generalize (polar_of np a) as q;
    generalize (azimuth_of na np a') as z'; generalize (polar_of np a') as q'; intros q' z' q z A1 A2 B1 B2 M1 M2 E E';
    injection E as E1 E2; injection E' as E1' E2';
    (try (exfalso; lia));
    cbv [r rightward facing slot_cos inc_val out_val s_oct s_ang fst snd inc_o out_o incident_table outgoing_table nth octant_signs Nat.modulo Nat.divmod Nat.sub Nat.eqb orb Nat.ltb Nat.leb];
    (assert (Eq : q = q') by lia);
    (destruct (lt_eq_lt_dec z z') as [[L|L]|L];
      [specialize (M1 Eq L) | clear M1 M2 | specialize (M2 Eq L)]; first [exfalso; lia | lra]).
Qed.

Lemma polar_order na np s mu eta xi (key : nat * nat -> nat * nat) (val : nat * nat -> slot) (inw : bool) oo a oo' a' az p p' :
  s < 6 -> product_ordered na np mu eta xi ->
  (key, val) = (if inw then (inc_key 3 na np s, inc_val 3 s) else (out_key 3 na np s, out_val 3 s)) ->
  In (oo, a) (dirs 3 na np) -> In (oo', a') (dirs 3 na np) ->
  key (oo, a) = (az, p) -> key (oo', a') = (az, p') -> p < p' ->
  (slot_cos xi 2 (val (oo', a')) < slot_cos xi 2 (val (oo, a)))%R.
Proof.
  intros Hs (P1 & _ & P2) HK Hw Hw' E E' Hpp.
  apply dirs_In in Hw, Hw'. destruct Hw as [Ho Ha]. destruct Hw' as [Ho' Ha'].
  destruct (product_angle_onto Ha) as (A1 & A2 & A3). destruct (product_angle_onto Ha') as (B1 & B2 & B3).
  destruct (P1 a Ha) as (_ & _ & Q1). destruct (P1 a' Ha') as (_ & _ & Q1').
  assert (M1 : azimuth_of na np a = azimuth_of na np a' -> polar_of np a < polar_of np a' -> (xi a < xi a')%R).
  { intros Ep Hz. rewrite <- A3, <- B3, <- Ep. apply P2; auto. }
  assert (M2 : azimuth_of na np a = azimuth_of na np a' -> polar_of np a' < polar_of np a -> (xi a' < xi a)%R).
  { intros Ep Hz. rewrite <- A3, <- B3, <- Ep. apply P2; auto. }
  clear P1 P2 Ha Ha' A3 B3.
  assert (Hs' : s = 0 \/ s = 1 \/ s = 2 \/ s = 3 \/ s = 4 \/ s = 5) by lia. clear Hs.
  destruct inw; injection HK as -> ->.
  all: destruct Hs' as [->|[->|[->|[->|[->| ->]]]]]; oo_cases Ho; oo_cases Ho'; revert E E'; keyc;
    revert A1 A2 B1 B2 M1 M2;
    generalize (azimuth_of na np a) as z; generalize (polar_of np a) as q;
    generalize (azimuth_of na np a') as z'; generalize (polar_of np a') as q'; intros q' z' q z A1 A2 B1 B2 M1 M2 E E';
    injection E as E1 E2; injection E' as E1' E2';
    (try (exfalso; lia));
    cbv [slot_cos inc_val out_val s_oct s_ang fst snd inc_o out_o incident_table outgoing_table nth octant_signs Nat.modulo Nat.divmod Nat.sub Nat.eqb orb Nat.ltb Nat.leb];
    (assert (Eq : z = z') by lia);
    (destruct (lt_eq_lt_dec q q') as [[L|L]|L];
      [specialize (M1 Eq L) | clear M1 M2 | specialize (M2 Eq L)]; first [exfalso; lia | lra]).
Qed.

Lemma table_order dim na np s mu eta xi : dim23 dim -> s < 2 * dim -> product_ordered na np mu eta xi ->
  let inc := incident_index dim na np s in let out := outgoing_index dim na np s in
  let right inw x := rightward (fst (facing s inw)) (snd (facing s inw)) (slot_cos mu 0 x) (slot_cos eta 1 x) in
  (* vertical sides: right to left *)
  (s < 4 -> forall az az' p x x', az < az' -> az' < number_azimuths na s -> p < number_polar dim np s ->
     (inc az p = Ok x -> inc az' p = Ok x' -> (right true x' < right true x)%R) /\
     (out az p = Ok x -> out az' p = Ok x' -> (right false x' < right false x)%R)) /\
  (* three dimensions: top to bottom *)
  (dim = 3 -> forall az p p' x x', p < p' -> p' < number_polar dim np s -> az < number_azimuths na s ->
     (inc az p = Ok x -> inc az p' = Ok x' -> (slot_cos xi 2 x' < slot_cos xi 2 x)%R) /\
     (out az p = Ok x -> out az p' = Ok x' -> (slot_cos xi 2 x' < slot_cos xi 2 x)%R)).
Proof.
  intros Hd Hs HO inc out right. split.
  - intros Hs4 az az' p x x' H1 H2 H3. split; intros E E'.
    + destruct (@incident_index_val dim na np s az p Hd Hs ltac:(lia) H3) as ([oo a] & W & K & V).
      destruct (@incident_index_val dim na np s az' p Hd Hs H2 H3) as ([oo' a'] & W' & K' & V').
      unfold inc in E, E'. rewrite E in V. rewrite E' in V'. inversion V; inversion V'; subst.
      apply (@right_order dim na np s mu eta xi (inc_key dim na np s) (inc_val dim s) true oo a oo' a' az az' p); auto.
    + destruct (@outgoing_index_val dim na np s az p Hd Hs ltac:(lia) H3) as ([oo a] & W & K & V).
      destruct (@outgoing_index_val dim na np s az' p Hd Hs H2 H3) as ([oo' a'] & W' & K' & V').
      unfold out in E, E'. rewrite E in V. rewrite E' in V'. inversion V; inversion V'; subst.
      apply (@right_order dim na np s mu eta xi (out_key dim na np s) (out_val dim s) false oo a oo' a' az az' p); auto.
  - intros -> az p p' x x' H1 H2 H3. split; intros E E'.
    + destruct (@incident_index_val 3 na np s az p Hd Hs H3 ltac:(lia)) as ([oo a] & W & K & V).
      destruct (@incident_index_val 3 na np s az p' Hd Hs H3 H2) as ([oo' a'] & W' & K' & V').
      unfold inc in E, E'. rewrite E in V. rewrite E' in V'. inversion V; inversion V'; subst.
      apply (@polar_order na np s mu eta xi (inc_key 3 na np s) (inc_val 3 s) true oo a oo' a' az p p'); auto.
    + destruct (@outgoing_index_val 3 na np s az p Hd Hs H3 ltac:(lia)) as ([oo a] & W & K & V).
      destruct (@outgoing_index_val 3 na np s az p' Hd Hs H3 H2) as ([oo' a'] & W' & K' & V').
      unfold out in E, E'. rewrite E in V. rewrite E' in V'. inversion V; inversion V'; subst.
      apply (@polar_order na np s mu eta xi (out_key 3 na np s) (out_val 3 s) false oo a oo' a' az p p'); auto.
Qed.

(** Horizontal sides: counter-clockwise. *)
Lemma azimuth_cos o phi : (cos (octant_azimuth o phi) = IZR (octant_signs o 0) * cos phi /\
  sin (octant_azimuth o phi) = IZR (octant_signs o 1) * sin phi)%R.
Proof.
  unfold octant_azimuth, octant_signs. pose proof (Nat.mod_upper_bound o 4 ltac:(lia)).
  destruct (o mod 4) as [|[|[|[|]]]]; cbn [Nat.eqb orb]; [| | | |lia].
  - split; ring.
  - rewrite cos_minus, sin_minus, cos_PI, sin_PI. split; ring.
  - rewrite cos_plus, sin_plus, cos_PI, sin_PI. split; ring.
  - rewrite cos_minus, sin_minus, cos_2PI, sin_2PI. split; ring.
Qed.

Lemma horizontal_order na np s (phi : nat -> R) oo a oo' a' az az' p (key : nat * nat -> nat * nat) (val : nat * nat -> slot) (inw : bool) :
  s = 4 \/ s = 5 -> (forall z, z < na -> (0 < phi z < PI / 2)%R) -> (forall z z', z < z' -> z' < na -> (phi z < phi z')%R) ->
  (key, val) = (if inw then (inc_key 3 na np s, inc_val 3 s) else (out_key 3 na np s, out_val 3 s)) ->
  In (oo, a) (dirs 3 na np) -> In (oo', a') (dirs 3 na np) ->
  key (oo, a) = (az, p) -> key (oo', a') = (az', p) -> az < az' ->
  (octant_azimuth (s_oct (val (oo, a))) (phi (azimuth_of na np a)) <
   octant_azimuth (s_oct (val (oo', a'))) (phi (azimuth_of na np a')))%R.
Proof.
  intros Hs P1 P2 HK Hw Hw' E E' Haz.
  apply dirs_In in Hw, Hw'. destruct Hw as [Ho Ha]. destruct Hw' as [Ho' Ha'].
  destruct (product_angle_onto Ha) as (A1 & A2 & _). destruct (product_angle_onto Ha') as (B1 & B2 & _).
  pose proof (P1 _ A1) as Q. pose proof (P1 _ B1) as Q'. pose proof PI_RGT_0 as HPI.
  assert (M1 : azimuth_of na np a < azimuth_of na np a' -> (phi (azimuth_of na np a) < phi (azimuth_of na np a'))%R) by (intros; apply P2; auto).
  assert (M2 : azimuth_of na np a' < azimuth_of na np a -> (phi (azimuth_of na np a') < phi (azimuth_of na np a))%R) by (intros; apply P2; auto).
  clear P1 P2 Ha Ha'.
  destruct inw; injection HK as -> ->.
  all: destruct Hs as [->| ->]; oo_cases Ho; oo_cases Ho'; revert E E'; keyc;
    revert A1 A2 B1 B2 M1 M2 Q Q';
    generalize (azimuth_of na np a) as z; generalize (polar_of np a) as q;
    generalize (azimuth_of na np a') as z'; generalize (polar_of np a') as q'; intros q' z' q z A1 A2 B1 B2 M1 M2 Q Q' E E';
    injection E as E1 E2; injection E' as E1' E2';
    (try (exfalso; lia));
    cbv [octant_azimuth inc_val out_val s_oct s_ang fst snd inc_o out_o incident_table outgoing_table nth Nat.modulo Nat.divmod Nat.sub];
    (destruct (lt_eq_lt_dec z z') as [[L|L]|L];
      [specialize (M1 L) | clear M1 M2 | specialize (M2 L)]; first [exfalso; lia | lra]).
Qed.

Lemma table_azimuth_order na np s (phi : nat -> R) : s = 4 \/ s = 5 ->
  (forall z, z < na -> (0 < phi z < PI / 2)%R) -> (forall z z', z < z' -> z' < na -> (phi z < phi z')%R) ->
  let ang x := octant_azimuth (s_oct x) (phi (azimuth_of na np (s_ang x))) in
  forall az az' p x x', az < az' -> az' < number_azimuths na s -> p < number_polar 3 np s ->
     (incident_index 3 na np s az p = Ok x -> incident_index 3 na np s az' p = Ok x' -> (ang x < ang x')%R) /\
     (outgoing_index 3 na np s az p = Ok x -> outgoing_index 3 na np s az' p = Ok x' -> (ang x < ang x')%R).
Proof.
  intros Hs P1 P2 ang az az' p x x' H1 H2 H3. assert (Hs6 : s < 2 * 3) by lia. assert (Hd : dim23 3) by (right; auto).
  split; intros E E'.
  - destruct (@incident_index_val 3 na np s az p Hd Hs6 ltac:(lia) H3) as ([oo a] & W & K & V).
    destruct (@incident_index_val 3 na np s az' p Hd Hs6 H2 H3) as ([oo' a'] & W' & K' & V').
    rewrite E in V. rewrite E' in V'. inversion V; inversion V'; subst.
    apply (@horizontal_order na np s phi oo a oo' a' az az' p (inc_key 3 na np s) (inc_val 3 s) true); auto.
  - destruct (@outgoing_index_val 3 na np s az p Hd Hs6 ltac:(lia) H3) as ([oo a] & W & K & V).
    destruct (@outgoing_index_val 3 na np s az' p Hd Hs6 H2 H3) as ([oo' a'] & W' & K' & V').
    rewrite E in V. rewrite E' in V'. inversion V; inversion V'; subst.
    apply (@horizontal_order na np s phi oo a oo' a' az az' p (out_key 3 na np s) (out_val 3 s) false); auto.
Qed.
(** The spec's signs are the quadrature's. *)
Lemma octant_signs_ok o axis : o < 8 -> axis < 3 -> rd2 octant_sign o axis = Ok (octant_signs o axis).
Proof.
  intros Ho Ha. destruct (lt8 Ho) as [?|[?|[?|[?|[?|[?|[?|?]]]]]]]; destruct (lt3 Ha) as [?|[?|?]]; subst; reflexivity.
Qed.
