(** * Tally_Proofs3: the tally of a whole sweep, from that of one angle. *)
From Coquelicot Require Import Coquelicot.
From Verif Require Import Base BaseR Loop Mesh_Model Mesh_Proofs Angle_Model Angle_Spec Boundary_Model Boundary_Spec
  Cell_Model Cell_Spec Cell_Proofs Sweep_Model Sweep_Spec Sweep_Proofs SweepAll_Proofs Region_Model Region_Spec Region_Proofs
  Tally_Model Tally_Spec Tally_Proofs.
Open Scope nat_scope.
Set Implicit Arguments. Unset Strict Implicit.

Lemma foldM_sim A X Y (f : X -> A -> res X) (h : Y -> A -> res Y) (Rel : X -> Y -> Prop) l :
  (forall a x y x', In a l -> Rel x y -> f x a = Ok x' -> exists y', h y a = Ok y' /\ Rel x' y') ->
  forall x y x', Rel x y -> foldM f l x = Ok x' -> exists y', foldM h l y = Ok y' /\ Rel x' y'.
Proof.
  induction l as [|a l IH]; intros H x y x' RL E; cbn [foldM] in *.
  - injection E as <-. exists y. auto.
  - destruct (f x a) as [x1| |] eqn:E1; try discriminate. cbn [bind] in E.
    destruct (H a x y x1) as (y1 & E2 & R1); cbn; auto. rewrite E2. cbn [bind].
    apply (IH ltac:(intros; eapply H; cbn; eauto) x1); auto.
Qed.

Section Sim.
Variables (KT : kernel_t) (K : kernel) (C : cmesh) (W : nat -> R) (n : nat) (keep upd : bool) (g nx ny nz dim nq : nat).
Variables (outx : nat -> nat -> list face -> list face) (pcx : nat -> nat -> list face -> nat -> R)
  (gam : entry3 -> nat -> nat -> list face -> R).
Hypothesis HKT : forall o a ins phi psi T, o < 2 ^ dim -> a < nq -> shape_ok nx ny nz dim ins -> length phi = n ->
  (keep = true -> length psi = n) -> tally_for C T ->
  exists phi' psi' T', KT o a ins phi psi T = Ok (outx o a ins, phi', psi', T') /\
    K o a ins phi psi = Ok (outx o a ins, phi', psi') /\
    adds n (W a) (pcx o a ins) phi phi' /\ stores n keep (pcx o a ins) psi psi' /\ tally_for C T' /\
    forall e, val T' e = (val T e + W a * gam e o a ins)%R.
Hypothesis Hout : forall o a ins, o < 2 ^ dim -> a < nq -> shape_ok nx ny nz dim ins -> shape_ok nx ny nz dim (outx o a ins).

Definition shape_b (fs : list face) : bool :=
  if list_eq_dec (list_eq_dec Nat.eq_dec) (map (map (@length R)) fs)
    (map (fun x => repeat (face_cols dim nx ny nz (2 * x)) (face_rows dim nx ny nz (2 * x))) (seq 0 dim)) then true else false.
Lemma shape_b_iff fs : shape_b fs = true <-> shape_ok nx ny nz dim fs.
Proof. unfold shape_b, shape_ok. destruct (list_eq_dec _ _ _); split; auto; discriminate. Qed.

(** The sweep of one angle with entry e of the tally as one more cell. *)
Section Entry.
Variable e : entry3.
Definition pce (o a : nat) (ins : list face) (c : nat) : R := if c <? n then pcx o a ins c else gam e o a ins.
Definition KE : kernel := fun o a ins phx psi =>
  if shape_b ins && (o <? 2 ^ dim) && (a <? nq) && (length phx =? S n) then
    Ok (outx o a ins, map (fun c => at_ phx c + W a * pce o a ins c)%R (seq 0 (S n)), psi)
  else UB.
Definition SolE : relation := fun o a ins outs pc => shape_ok nx ny nz dim ins /\ outs = outx o a ins /\ forall c, pc c = pce o a ins c.
Lemma KE_good : good_kernel KE SolE W (S n) false nx ny nz dim nq.
Proof.
  intros o a ins Ho Ha Sh. exists (outx o a ins), (pce o a ins). split; [apply Hout; auto|]. split; [split; auto|].
  intros phi psi Hphi _. exists (map (fun c => at_ phi c + W a * pce o a ins c)%R (seq 0 (S n))), psi. split; [|split].
  - unfold KE. rewrite (proj2 (shape_b_iff _) Sh), (proj2 (Nat.ltb_lt _ _) Ho), (proj2 (Nat.ltb_lt _ _) Ha), Hphi, Nat.eqb_refl. reflexivity.
  - split; [rewrite map_length, seq_length; auto|]. intros c Hc. unfold at_ at 1.
    rewrite nth_map_seq by auto. reflexivity.
  - reflexivity.
Qed.

Definition RelT (x : sstate) (y : sstate * tally) : Prop :=
  let '(b, phx, _) := x in let '(b', phi, psi, T) := y in
  b' = b /\ phx = phi ++ [val T e] /\ length phi = n /\ (forall o a, keep = true -> length (psi o a) = n) /\ tally_for C T.
Lemma put2_len (psi : nat -> nat -> list R) o a p : (forall o a, keep = true -> length (psi o a) = n) -> (keep = true -> length p = n) ->
  forall o' a', keep = true -> length (put2 psi o a p o' a') = n.
Proof. intros H1 H2 o' a' Hk. unfold put2. destruct ((o' =? o) && (a' =? a)); auto. Qed.
Lemma stores_len pc psi psi' : (keep = true -> length psi = n) -> stores n keep pc psi psi' -> keep = true -> length psi' = n.
Proof. intros H S Hk. unfold stores in S. rewrite Hk in S. apply S. Qed.
Lemma KE_ok o a ins phx psi r : KE o a ins phx psi = Ok r ->
  shape_ok nx ny nz dim ins /\ o < 2 ^ dim /\ a < nq /\ length phx = S n /\
  r = (outx o a ins, map (fun c => at_ phx c + W a * pce o a ins c)%R (seq 0 (S n)), psi).
Proof.
  unfold KE. destruct (shape_b ins) eqn:E1; [|discriminate]. destruct (Nat.ltb_spec o (2 ^ dim)); [|discriminate].
  destruct (Nat.ltb_spec a nq); [|discriminate]. destruct (Nat.eqb_spec (length phx) (S n)); [|discriminate].
  cbn [andb]. intros E. injection E as <-. apply shape_b_iff in E1. auto.
Qed.
Lemma angle_sim o a x y x' : RelT x y -> sweep_angle KE upd g x o a = Ok x' ->
  exists y', sweep_angle_t KT upd g y o a = Ok y' /\ sweep_angle K upd g (fst y) o a = Ok (fst y') /\ RelT x' y'.
Proof.
  destruct x as [[b phx] ps]. destruct y as [[[b0 phi] psi] T]. intros (-> & -> & Lphi & Lpsi & HT) E.
  unfold sweep_angle in E. unfold sweep_angle_t, sweep_angle. cbn [fst].
  destruct (if upd then bsn_update_angle b g o a else Ok b) as [b1| |]; try discriminate. cbn [bind] in *.
  destruct (read_faces b1 g o a) as [ins| |]; try discriminate. cbn [bind] in *.
  destruct (KE o a ins (phi ++ [val T e]) (ps o a)) as [r| |] eqn:EK; try discriminate. cbn [bind] in E.
  destruct (KE_ok EK) as (Sh & Ho & Ha & _ & ->).
  destruct (HKT Ho Ha Sh Lphi (fun H => Lpsi o a H) HT) as (phi' & psi' & T' & E1 & E2 & A & S & HT' & V).
  rewrite E1, E2. cbn [bind]. destruct (write_faces b1 g o a (outx o a ins)) as [b2| |]; try discriminate. cbn [bind] in *.
  assert (OI : forall (A : Type) (u v : A), Ok u = Ok v -> u = v) by (intros; congruence).
  apply OI in E. subst x'. exists (b2, phi', put2 psi o a psi', T'). split; auto. split; auto.
  split; auto. split; [|split; [|split]].
  - apply (@list_ext_nth _ 0%R).
    + rewrite map_length, seq_length, app_length. destruct A as (-> & _). cbn. lia.
    + intros c Hc. rewrite map_length, seq_length in Hc. rewrite nth_map_seq by auto. unfold at_, pce.
      destruct A as (L & A). destruct (Nat.ltb_spec c n) as [H|H].
      * rewrite !app_nth1 by lia. symmetry. apply A. auto.
      * replace c with n by lia. rewrite !app_nth2 by lia. rewrite Lphi, L, Nat.sub_diag. cbn [nth]. rewrite V. reflexivity.
  - apply A.
  - apply put2_len; auto. apply (@stores_len (pcx o a ins) (psi o a)); auto.
  - auto.
Qed.
Lemma sweep_sim ord b phi psi T x' : length phi = n -> (forall o a, keep = true -> length (psi o a) = n) -> tally_for C T ->
  sweep KE upd g ord (b, repeat 0%R (S n), psi) = Ok x' ->
  exists y', sweep_t KT upd g ord (b, phi, psi) T = Ok y' /\ sweep K upd g ord (b, phi, psi) = Ok (fst y') /\ RelT x' y'.
Proof.
  intros Lphi Lpsi HT E. unfold sweep in E. unfold sweep_t, sweep.
  assert (R0 : RelT (b, map (fun _ => 0%R) (repeat 0%R (S n)), psi) (b, map (fun _ => 0%R) phi, psi, reset T)).
  { split; auto. split; [|split; [|split]].
    - apply (@list_ext_nth _ 0%R).
      + rewrite app_length, !map_length, repeat_length. cbn. lia.
      + intros c Hc. rewrite map_length, repeat_length in Hc.
        assert (Z : forall l, nth c (map (fun _ : R => 0%R) l) 0%R = 0%R).
        { intros l. clear. revert c. induction l; intros [|c]; cbn; auto. }
        rewrite Z. destruct (Nat.ltb_spec c n) as [H|H].
        * rewrite app_nth1 by (rewrite map_length; lia). rewrite Z. auto.
        * rewrite app_nth2 by (rewrite map_length; lia). rewrite map_length, Lphi. replace (c - n) with 0 by lia. cbn [nth].
          destruct e as [[d s] i]. unfold val, reset. symmetry.
          destruct (Nat.ltb_spec d (length T)) as [H1|H1].
          -- rewrite (@nth_indep _ _ d [] (map (map (fun _ : R => 0%R)) [])) by (rewrite map_length; auto).
             rewrite (map_nth (map (map (fun _ : R => 0%R)))).
             destruct (Nat.ltb_spec s (length (nth d T []))) as [H2|H2].
             ++ rewrite (@nth_indep _ _ s [] (map (fun _ : R => 0%R) [])) by (rewrite map_length; auto).
                rewrite (map_nth (map (fun _ : R => 0%R))). clear. generalize (nth s (nth d T []) []).
                intros l. revert i. induction l; intros [|i]; cbn; auto.
             ++ rewrite (nth_overflow (map _ _)) by (rewrite map_length; auto). destruct i; auto.
          -- rewrite (nth_overflow (map _ _)) by (rewrite map_length; auto). destruct s; destruct i; auto.
    - rewrite map_length. auto.
    - auto.
    - destruct HT as (L3 & HT). unfold reset. split; [rewrite map_length; auto|]. intros d Hd.
      rewrite (@nth_indep _ _ d [] (map (map (fun _ : R => 0%R)) [])) by (rewrite map_length; lia).
      rewrite (map_nth (map (map (fun _ : R => 0%R)))). rewrite map_length. destruct (HT d Hd) as (L2 & HS). split; auto.
      intros s Hs. rewrite (@nth_indep _ _ s [] (map (fun _ : R => 0%R) [])) by (rewrite map_length; lia).
      rewrite (map_nth (map (fun _ : R => 0%R))), map_length. auto. }
  (* run both at once *)
  set (R2 := fun (x : sstate) (yz : (sstate * tally) * sstate) => RelT x (fst yz) /\ snd yz = fst (fst yz)).
  set (h := fun (yz : (sstate * tally) * sstate) oa => do y <- sweep_angle_t KT upd g (fst yz) (fst oa) (snd oa);
    do z <- sweep_angle K upd g (snd yz) (fst oa) (snd oa); Ok (y, z)).
  destruct (@foldM_sim nat sstate ((sstate * tally) * sstate)
    (fun st o => foldM (fun st a => sweep_angle KE upd g st o a) (seq 0 (q_nao (b_q b))) st)
    (fun yz o => foldM (fun yz a => h yz (o, a)) (seq 0 (q_nao (b_q b))) yz) R2 ord) with
    (x := (b, map (fun _ : R => 0%R) (repeat 0%R (S n)), psi))
    (y := ((b, map (fun _ : R => 0%R) phi, psi, reset T), (b, map (fun _ : R => 0%R) phi, psi))) (x' := x') as (yz & Eh & R1); auto.
  - intros o x yz x1 _ RX EX. eapply (@foldM_sim nat sstate ((sstate * tally) * sstate)); [|exact RX|exact EX].
    intros a x0 [y0 z0] x2 _ (RX0 & RZ) EX0. cbn [fst snd] in RX0, RZ. subst z0.
    destruct (angle_sim RX0 EX0) as (y' & Ey & Ez & RY). exists (y', fst y'). unfold h. cbn [fst snd].
    rewrite Ey. cbn [bind]. rewrite Ez. cbn [bind]. split; auto. split; auto.
  - split; auto.
  - assert (PR : forall l yz yz', foldM (fun yz o => foldM (fun yz a => h yz (o, a)) (seq 0 (q_nao (b_q b))) yz) l yz = Ok yz' ->
      foldM (fun st o => foldM (fun st a => sweep_angle_t KT upd g st o a) (seq 0 (q_nao (b_q b))) st) l (fst yz) = Ok (fst yz') /\
      foldM (fun st o => foldM (fun st a => sweep_angle K upd g st o a) (seq 0 (q_nao (b_q b))) st) l (snd yz) = Ok (snd yz')).
    { assert (PI : forall o l yz yz', foldM (fun yz a => h yz (o, a)) l yz = Ok yz' ->
        foldM (fun st a => sweep_angle_t KT upd g st o a) l (fst yz) = Ok (fst yz') /\
        foldM (fun st a => sweep_angle K upd g st o a) l (snd yz) = Ok (snd yz')).
      { intros o l. induction l as [|a l IH]; intros [y z] yz' EE; cbn [foldM] in *.
        - injection EE as <-. auto.
        - unfold h at 1 in EE. cbn [fst snd] in *. destruct (sweep_angle_t KT upd g y o a) as [y1| |]; try discriminate. cbn [bind] in *.
          destruct (sweep_angle K upd g z o a) as [z1| |]; try discriminate. cbn [bind] in *. apply IH in EE. auto. }
      intros l. induction l as [|o l IH]; intros yz0 yz' EE; cbn [foldM] in *.
      - injection EE as <-. auto.
      - destruct (foldM (fun yz a => h yz (o, a)) (seq 0 (q_nao (b_q b))) yz0) as [y1| |] eqn:E1; try discriminate. cbn [bind] in *.
        apply PI in E1. destruct E1 as (-> & ->). cbn [bind]. apply IH. auto. }
    apply PR in Eh. cbn [fst snd] in Eh. destruct Eh as (Ea & Eb). exists (fst yz). destruct R1 as (R1 & RZ). rewrite RZ in Eb. auto.
Qed.
End Entry.

Lemma app_tail (l l' : list R) x x' : length l = length l' -> l ++ [x] = l' ++ [x'] -> x = x'.
Proof. intros _ E. apply app_inj_tail in E. apply E. Qed.

(** The whole sweep. *)
Lemma sweep_tallied ord b phi psi T : setting g nx ny nz dim nq b -> good_ord dim ord -> length phi = n ->
  (forall o a, keep = true -> length (psi o a) = n) -> tally_for C T ->
  exists b' phi' psi' T',
  sweep_t KT upd g ord (b, phi, psi) T = Ok (b', phi', psi', T') /\
  sweep K upd g ord (b, phi, psi) = Ok (b', phi', psi') /\ tally_for C T' /\
  same_setup b b' /\ length phi' = n /\
  (forall o a, o < 2 ^ dim -> a < nq -> shape_ok nx ny nz dim (ins_of b' o a g) /\ outs_of b' o a g = outx o a (ins_of b' o a g)) /\
  (forall c, c < n -> at_ phi' c = over_angles (b_q b) (fun o a => W a * pcx o a (ins_of b' o a g) c)%R) /\
  (forall e, val T' e = over_angles (b_q b) (fun o a => W a * gam e o a (ins_of b' o a g))%R).
Proof.
  intros ST GO Lphi Lpsi HT. pose proof ST as (Q & D & NQ & _). pose proof Q as (_ & NO & _). rewrite D in NO.
  assert (RUN : forall e, exists b' phi' psi' T', sweep_t KT upd g ord (b, phi, psi) T = Ok (b', phi', psi', T') /\
    sweep K upd g ord (b, phi, psi) = Ok (b', phi', psi') /\ tally_for C T' /\ same_setup b b' /\ length phi' = n /\
    (forall o a, o < 2 ^ dim -> a < nq -> shape_ok nx ny nz dim (ins_of b' o a g) /\ outs_of b' o a g = outx o a (ins_of b' o a g)) /\
    (forall c, c < n -> at_ phi' c = over_angles (b_q b) (fun o a => W a * pcx o a (ins_of b' o a g) c)%R) /\
    val T' e = over_angles (b_q b) (fun o a => W a * gam e o a (ins_of b' o a g))%R).
  { intros e. destruct (@sweep_swept (KE e) (SolE e) W (S n) false upd g nx ny nz dim nq ord b (repeat 0%R (S n)) psi)
      as (b' & phx & psx & E & SW); auto; try (apply KE_good); try (apply repeat_length). { intros; discriminate. }
    destruct (@sweep_sim e ord b phi psi T _ Lphi Lpsi HT E) as ([[[b1 phi1] psi1] T1] & E1 & E2 & (-> & EP & L1 & _ & HT1)).
    destruct SW as [S1 _ (P & SF & LP & SP) _ _ _].
    rewrite NO, NQ in SF.
    exists b', phi1, psi1, T1. split; auto. split; auto. split; auto. split; auto. split; auto. split; [|split].
    - intros o a Ho Ha. destruct (SF o a Ho Ha) as (((A1 & A2 & _) & _) & _). auto.
    - intros c Hc. specialize (SP c ltac:(lia)). rewrite EP in SP. unfold at_ in SP at 1. rewrite app_nth1 in SP by lia.
      unfold at_. rewrite SP. unfold over_angles. rewrite NO, NQ. apply rsum_ext. intros o Ho. apply rsum_ext. intros a Ha.
      destruct (SF o a Ho Ha) as (((_ & _ & A3) & _) & _). rewrite A3. unfold pce. rewrite (proj2 (Nat.ltb_lt _ _) Hc). auto.
    - specialize (SP n ltac:(lia)). rewrite EP in SP. unfold at_ in SP at 1. rewrite app_nth2 in SP by lia. rewrite L1, Nat.sub_diag in SP.
      cbn [nth] in SP. rewrite SP. unfold over_angles. rewrite NO, NQ. apply rsum_ext. intros o Ho. apply rsum_ext. intros a Ha.
      destruct (SF o a Ho Ha) as (((_ & _ & A3) & _) & _). rewrite A3. unfold pce. rewrite Nat.ltb_irrefl. auto. }
  destruct (RUN (0, 0, 0)) as (b' & phi' & psi' & T' & E1 & E2 & H1 & H2 & H3 & H4 & H5 & _).
  exists b', phi', psi', T'. repeat (split; auto).
  intros e. destruct (RUN e) as (b2 & phi2 & psi2 & T2 & E3 & _ & _ & _ & _ & _ & _ & V). rewrite E1 in E3. injection E3 as <- <- <- <-. exact V.
Qed.
End Sim.
