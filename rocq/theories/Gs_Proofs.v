(** * Proofs about the multigroup Gauss-Seidel solver *)
From Verif Require Import Base BaseR Loop Util_Model Util_Spec Util_Proofs Angle_Model Angle_Spec Boundary_Model Boundary_Spec
  Mesh_Model Material_Model Material_Spec Material_Proofs Source_Model Source_Spec Source_Proofs Cell_Spec
  Sweep_Model Sweep_Spec Iter_Model Iter_Spec Iter_Proofs.
From Coq Require Import Permutation.
Set Implicit Arguments. Unset Strict Implicit.
Open Scope nat_scope.

(** ** Norms bound the entries *)
Local Open Scope R_scope.
Lemma fold_sq_ge (l : list (R * R)) : forall v, 0 <= v -> v <= fold_left (fun v p => v + (fst p - snd p) ^ 2) l v /\
  forall p, In p l -> (fst p - snd p) ^ 2 <= fold_left (fun v p => v + (fst p - snd p) ^ 2) l v.
Proof.
  induction l as [|p l IH]; intros v Hv; cbn [fold_left]; [split; [lra|intros p []]|].
  assert (H : 0 <= (fst p - snd p) ^ 2) by apply pow2_ge_0.
  destruct (IH (v + (fst p - snd p) ^ 2)) as (A & B); [lra|]. split; [lra|].
  intros q [<-|Hq]; [lra|auto].
Qed.
Lemma fold_abs_ge (l : list (R * R)) : forall v, 0 <= v -> v <= fold_left (fun v p => v + Rabs (fst p - snd p)) l v /\
  forall p, In p l -> Rabs (fst p - snd p) <= fold_left (fun v p => v + Rabs (fst p - snd p)) l v.
Proof.
  induction l as [|p l IH]; intros v Hv; cbn [fold_left]; [split; [lra|intros p []]|].
  pose proof (Rabs_pos (fst p - snd p)) as H.
  destruct (IH (v + Rabs (fst p - snd p))) as (A & B); [lra|]. split; [lra|].
  intros q [<-|Hq]; [lra|auto].
Qed.
Lemma abs_le_sqrt a v : a ^ 2 <= v -> Rabs a <= sqrt v.
Proof. intros H. rewrite <- (sqrt_pow2 (Rabs a)) by apply Rabs_pos. apply sqrt_le_1_alt. rewrite pow2_abs. auto. Qed.
Lemma residual_ok f x y : f <> BadFlag -> length x = length y -> x <> [] ->
  exists e, norm_residual x y f = Ok e /\ 0 <= e /\ forall c, (c < length x)%nat -> Rabs (at_ x c - at_ y c) <= e.
Proof.
  intros HB L N.
  assert (IN : forall c, (c < length x)%nat -> In (at_ x c, at_ y c) (combine x y)).
  { intros c Hc. unfold at_. rewrite <- combine_nth by auto. apply nth_In. rewrite combine_length. lia. }
  destruct f; [| | |congruence]; cbn [norm_residual].
  - eexists. split; [reflexivity|]. destruct (@fold_abs_ge (combine x y) 0) as (A & B); [lra|]. split; auto.
    intros c Hc. apply (B _ (IN c Hc)).
  - eexists. split; [reflexivity|]. destruct (@fold_sq_ge (combine x y) 0) as (A & B); [lra|]. split; [apply sqrt_pos|].
    intros c Hc. apply abs_le_sqrt. apply (B _ (IN c Hc)).
  - destruct (norm_residual_Linf L N) as (v & E & P & _ & (I & M)). exists v. cbn [norm_residual] in E. split; [exact E|]. split; auto.
    intros c Hc. apply M. apply in_map_iff. exists (at_ x c, at_ y c). split; auto.
Qed.
Lemma fold_sq_ge1 (l : list R) : forall v, 0 <= v -> v <= fold_left (fun v a => v + a * a) l v /\
  forall a, In a l -> a * a <= fold_left (fun v a => v + a * a) l v.
Proof.
  induction l as [|p l IH]; intros v Hv; cbn [fold_left]; [split; [lra|intros p []]|].
  assert (H : 0 <= p * p) by nra.
  destruct (IH (v + p * p)) as (A & B); [lra|]. split; [lra|]. intros q [<-|Hq]; [lra|auto].
Qed.
Lemma fold_abs_ge1 (l : list R) : forall v, 0 <= v -> v <= fold_left (fun v a => v + Rabs a) l v /\
  forall a, In a l -> Rabs a <= fold_left (fun v a => v + Rabs a) l v.
Proof.
  induction l as [|p l IH]; intros v Hv; cbn [fold_left]; [split; [lra|intros p []]|].
  pose proof (Rabs_pos p) as H. destruct (IH (v + Rabs p)) as (A & B); [lra|]. split; [lra|]. intros q [<-|Hq]; [lra|auto].
Qed.
Lemma norm_ok f x : f <> BadFlag -> x <> [] -> (forall a, In a x -> 0 <= a) ->
  exists v, norm x f = Ok v /\ (forall a, In a x -> a <= v) /\ (f = Linf -> In v x).
Proof.
  intros HB N P. destruct f; [| | |congruence]; cbn [norm].
  - eexists. split; [reflexivity|]. split; [|discriminate]. intros a Ha. destruct (@fold_abs_ge1 x 0) as (_ & B); [lra|].
    eapply Rle_trans; [apply Rle_abs|apply B; auto].
  - eexists. split; [reflexivity|]. split; [|discriminate]. intros a Ha. destruct (@fold_sq_ge1 x 0) as (_ & B); [lra|].
    eapply Rle_trans; [apply Rle_abs|]. apply abs_le_sqrt. replace (a ^ 2) with (a * a) by ring. auto.
  - destruct x as [|a r]; [congruence|]. destruct (@norm_Linf_nonneg_head a r) as (v & E & (I & M)); [apply P; left; auto|].
    exists v. split; auto. split.
    + intros b Hb. eapply Rle_trans; [apply Rle_abs|]. apply M. apply in_map. auto.
    + intros _. apply in_map_iff in I. destruct I as (b & Eb & Ib). rewrite Rabs_right in Eb; [congruence|]. apply Rle_ge. auto.
Qed.
Local Open Scope nat_scope.

(** ** Passes *)
Lemma firstn_In A (l : list A) i j d : j < i -> j < length l -> In (nth j l d) (firstn i l).
Proof.
  revert i j. induction l as [|a l IH]; intros [|i] [|j] H1 H2; cbn in *; try lia; auto. right. apply IH; lia.
Qed.
Lemma nth_firstn_not A (l : list A) i d : NoDup l -> i < length l -> ~ In (nth i l d) (firstn i l).
Proof.
  intros ND. revert i. induction l as [|a l IH]; intros [|i] H; cbn in *; try lia; auto. inversion ND; subst.
  intros [E|I]; [|apply (IH H3 i); auto; lia]. apply H2. rewrite E. apply nth_In. lia.
Qed.
Lemma foldM_snoc A B (f : A -> B -> res A) l a b : foldM f (l ++ [a]) b = do r <- foldM f l b; f r a.
Proof. revert b. induction l as [|x l IH]; intros b; cbn; [destruct (f b a); auto|]. destruct (f b x); cbn; auto. Qed.

Section GS.
Variables (n nc : nat) (Inv : tstate -> Prop) (Sol : nat -> tstate -> tstate -> Prop) (wg : nat -> tstate -> res tstate).
Hypotheses (GS : group_solver n Inv Sol wg) (Hnc : 0 < nc)
  (HI : forall t, Inv t -> length (phis t) = n /\ forall g, g < n -> length (nth g (phis t) []) = nc).

Definition states (gs : list nat) (t t' : tstate) (T : nat -> tstate) : Prop :=
  T 0 = t /\ T (length gs) = t' /\ (forall i, i <= length gs -> Inv (T i)) /\
  forall i, i < length gs -> only_group (nth i gs 0) (T i) (T (S i)) /\ Sol (nth i gs 0) (T i) (T (S i)).
Definition cons_state (t : tstate) (T : nat -> tstate) (i : nat) : tstate := match i with 0 => t | S i => T i end.
Lemma states_nil t : Inv t -> states [] t t (fun _ => t).
Proof. intros H. unfold states. cbn [length]. split; auto. split; auto. split; auto. intros; lia. Qed.
Lemma states_cons g gs t t1 t' T : Inv t -> only_group g t t1 -> Sol g t t1 -> states gs t1 t' T -> states (g :: gs) t t' (cons_state t T).
Proof.
  intros I O X (A & B & C & D). split; [reflexivity|]. split; [exact B|]. split.
  - intros [|i] Hi; cbn in *; auto. apply C. lia.
  - intros [|i] Hi; cbn in *; [rewrite A; auto|]. apply D. lia.
Qed.

Lemma pass_states gs : forall t, Inv t -> Forall (fun g => g < n) gs ->
  exists T t', gs_pass wg gs t = Ok t' /\ states gs t t' T.
Proof.
  unfold gs_pass. induction gs as [|g gs IH]; intros t I F; cbn [foldM].
  - exists (fun _ => t), t. split; auto. apply states_nil; auto.
  - inversion F; subst. destruct (@GS g t I H1) as (t1 & E & I1 & O & X). rewrite E. cbn [bind].
    destruct (IH t1 I1 H2) as (T & t' & E2 & ST). exists (cons_state t T), t'. split; auto. eapply states_cons; eauto.
Qed.

Definition res_step (f : nflag) (old : list (list R)) (st : tstate * list R) (g : nat) : res (tstate * list R) :=
  let (t, nres) := st in
  do t <- wg g t;
  do p1 <- rd (phis t) g; do p0 <- rd old g;
  do e <- norm_residual p1 p0 f;
  do nres <- wr nres g e;
  Ok (t, nres).
Lemma res_states f old gs : f <> BadFlag -> length old = n -> (forall g, g < n -> length (nth g old []) = nc) ->
  forall t nres, Inv t -> Forall (fun g => g < n) gs -> NoDup gs -> length nres = n ->
  exists T t' nres', foldM (res_step f old) gs (t, nres) = Ok (t', nres') /\ states gs t t' T /\ length nres' = n /\
    (forall j, ~ In j gs -> nth j nres' 0%R = nth j nres 0%R) /\
    (forall i, i < length gs -> norm_residual (nth (nth i gs 0) (phis (T (S i))) []) (nth (nth i gs 0) old []) f = Ok (nth (nth i gs 0) nres' 0%R)).
Proof.
  intros HB LO LN. induction gs as [|g gs IH]; intros t nres I F ND L; cbn [foldM].
  - exists (fun _ => t), t, nres. split; auto. split; [apply states_nil; auto|]. split; auto. split; auto. cbn. intros; lia.
  - apply Forall_cons_iff in F. destruct F as (H1 & H2). apply NoDup_cons_iff in ND. destruct ND as (H4 & H5). destruct (@GS g t I H1) as (t1 & E & I1 & O & X). cbn [res_step]. rewrite E. cbn [bind].
    destruct (HI I1) as (LP & LQ). rewrite (@rd_ok _ (phis t1) g []) by lia. cbn [bind]. rewrite (@rd_ok _ old g []) by lia. cbn [bind].
    destruct (@residual_ok f (nth g (phis t1) []) (nth g old []) HB) as (e & Ee & _ & _).
    { rewrite LQ, LN; auto. }
    { intros N. specialize (LQ g H1). rewrite N in LQ. cbn in LQ. lia. }
    rewrite Ee. cbn [bind]. unfold wr. rewrite (proj2 (Nat.ltb_lt _ _)) by lia. cbn [bind].
    destruct (IH t1 (upd nres g e) I1 H2 H5) as (T & t' & nres' & E2 & ST & L' & A & B); [rewrite upd_length; auto|].
    exists (cons_state t T), t', nres'. split; auto. split; [eapply states_cons; eauto|]. split; auto. split.
    + intros j Hj. rewrite A by (intros Q; apply Hj; right; auto). apply nth_upd_neq. intros ->. apply Hj. left. auto.
    + intros [|i] Hi; cbn [nth cons_state].
      * destruct ST as (S0 & _). rewrite S0, A by auto. rewrite nth_upd_eq by lia. exact Ee.
      * apply B. cbn in Hi. lia.
Qed.

Lemma states_keep gs t t' T gp : states gs t t' T -> forall a b, a <= b -> b <= length gs ->
  (forall j, a <= j < b -> nth j gs 0 <> gp) -> nth gp (phis (T b)) [] = nth gp (phis (T a)) [].
Proof.
  intros (_ & _ & _ & D) a b Hab. induction Hab as [|b Hab IH]; intros Hb HN; auto.
  rewrite <- IH; [|lia|intros j Hj; apply HN; lia]. destruct (D b ltac:(lia)) as ((_ & O) & _). apply O.
  intros E. apply (HN b); auto.
Qed.
Lemma states_order gs t t' T : NoDup gs -> states gs t t' T -> in_order Sol gs t t' T.
Proof.
  intros ND ST. pose proof ST as (A & B & C & D). constructor; auto.
  - intros i Hi. apply D; auto.
  - intros i gp Hi. destruct (in_dec Nat.eq_dec gp (firstn i gs)) as [I|I].
    + rewrite <- B. symmetry. apply (@states_keep gs t t' T gp ST i (length gs)); auto.
      intros j Hj E. destruct (In_nth _ _ 0 I) as (j0 & Hj0 & E0). rewrite firstn_length in Hj0.
      assert (E1 : nth j0 (firstn i gs) 0 = nth j0 gs 0).
      { rewrite <- (firstn_skipn i gs) at 2. rewrite app_nth1; auto. rewrite firstn_length. lia. }
      assert (j = j0); [|lia]. apply (proj1 (NoDup_nth gs 0) ND); [lia|lia|rewrite <- E1, E0; exact E].
    + rewrite <- A. apply (@states_keep gs t t' T gp ST 0 i); auto; [lia|].
      intros j Hj E. apply I. rewrite <- E. apply firstn_In; lia.
Qed.

Lemma loop_step p k t : gs_loop wg p n (S k) t =
  (do r <- foldM (res_step (gs_norm p) (phis t)) (gs_groups (gs_lower_up p) (gs_upper p)) (t, repeat 0%R n);
   let (t, nres) := r in
   do tot <- norm nres (gs_norm p);
   if Rlt_dec tot (gs_tol p) then Ok t else gs_loop wg p n k t).
Proof. reflexivity. Qed.

Lemma loop_history p : let bl := gs_groups (gs_lower_up p) (gs_upper p) in
  gs_norm p <> BadFlag -> 0 < n -> Forall (fun g => g < n) bl -> NoDup bl -> (gs_norm p = Linf -> (0 < gs_tol p)%R) ->
  forall K t, Inv t -> exists t' k P, gs_loop wg p n K t = Ok t' /\ Inv t' /\ P 0 = t /\ P k = t' /\ k <= K /\
    (forall i, i <= k -> Inv (P i)) /\
    (forall i, i < k -> exists T, in_order Sol bl (P i) (P (S i)) T) /\
    (k < K -> 0 < k /\ forall g, In g bl -> within (gs_tol p) (nth g (phis (P k)) []) (nth g (phis (P (k - 1))) [])) /\
    (gs_norm p = Linf -> forall i, S i < k ->
       ~ (forall g, In g bl -> within (gs_tol p) (nth g (phis (P (S i))) []) (nth g (phis (P i)) []))).
Proof.
  intros bl HB Hn FB ND HT. induction K; intros t I.
  - exists t, 0, (fun _ => t). cbn [gs_loop]. repeat split; auto; intros; lia.
  - rewrite loop_step. fold bl. destruct (HI I) as (LP & LQ).
    destruct (@res_states (gs_norm p) (phis t) bl HB LP LQ t (repeat 0%R n) I FB ND) as (T & t1 & nres & E & ST & L & A & B); [apply repeat_length|].
    rewrite E. cbn [bind]. pose proof (states_order ND ST) as IO. pose proof ST as (T0 & TL & TI & _).
    assert (I1 : Inv t1) by (rewrite <- TL; apply TI; auto). destruct (HI I1) as (LP1 & LQ1).
    assert (FIN : forall g, In g bl -> g < n /\ exists e, norm_residual (nth g (phis t1) []) (nth g (phis t) []) (gs_norm p) = Ok e /\ nth g nres 0%R = e /\
      (0 <= e)%R /\ forall c, c < nc -> (Rabs (at_ (nth g (phis t1) []) c - at_ (nth g (phis t) []) c) <= e)%R).
    { intros g Hg. assert (g < n) by (apply (proj1 (Forall_forall _ _) FB); auto). split; auto.
      destruct (In_nth _ _ 0 Hg) as (i & Hi & Ei). specialize (B i Hi). rewrite Ei in B.
      assert (EF : nth g (phis (T (S i))) [] = nth g (phis t1) []).
      { rewrite (io_mix _ _ _ _ _ IO (S i) g) by lia. destruct (in_dec Nat.eq_dec g (firstn (S i) bl)) as [|N]; auto.
        exfalso. apply N. rewrite <- Ei. apply firstn_In; lia. }
      rewrite EF in B.
      destruct (@residual_ok (gs_norm p) (nth g (phis t1) []) (nth g (phis t) []) HB) as (e & Ee & P0 & PC).
      { rewrite LQ1, LQ; auto. }
      { intros N. specialize (LQ1 g H). rewrite N in LQ1. cbn in LQ1. lia. }
      rewrite LQ1 in PC by auto. exists e. split; auto. split; [congruence|]. split; auto. }
    assert (NN : forall a, In a nres -> (0 <= a)%R).
    { intros a Ha. destruct (In_nth _ _ 0%R Ha) as (j & Hj & <-). destruct (in_dec Nat.eq_dec j bl) as [Ij|Ij].
      - destruct (FIN j Ij) as (_ & e & _ & -> & P & _). auto.
      - rewrite A by auto. rewrite nth_repeat. lra. }
    destruct (@norm_ok (gs_norm p) nres HB) as (tot & Et & U & V); auto.
    { intros N. rewrite N in L. cbn in L. lia. }
    rewrite Et. cbn [bind].
    assert (WI : (tot < gs_tol p)%R -> forall g, In g bl -> within (gs_tol p) (nth g (phis t1) []) (nth g (phis t) [])).
    { intros HV g Hg. destruct (FIN g Hg) as (Hgn & e & _ & E1 & _ & PC). split; [rewrite LQ1, LQ; auto|].
      intros c Hc. rewrite LQ1 in Hc by auto. eapply Rle_lt_trans; [apply PC; auto|]. rewrite <- E1.
      eapply Rle_lt_trans; [apply U|exact HV]. apply nth_In. lia. }
    destruct (Rlt_dec tot (gs_tol p)) as [HV|HV].
    + exists t1, 1, (fun i => match i with 0 => t | _ => t1 end). split; auto. split; auto. split; auto. split; auto. split; [lia|].
      split; [intros [|i] _; auto|]. split; [intros i Hi; replace i with 0 by lia; exists T; exact IO|].
      split; [intros _; split; [lia|apply WI; auto]|]. intros _ i Hi. lia.
    + destruct (IHK t1 I1) as (t' & k & P & EL & I' & P0 & Pk & Hk & PI & PP & PE & PG).
      exists t', (S k), (fun i => match i with 0 => t | S i => P i end). split; auto. split; auto. split; auto. split; auto. split; [lia|].
      split; [intros [|i] Hi; auto; apply PI; lia|].
      split; [intros [|i] Hi; [rewrite P0; exists T; exact IO|apply PP; lia]|].
      split.
      * intros Hlt. destruct PE as (K0 & W); [lia|]. split; [lia|]. intros g Hg. specialize (W g Hg).
        destruct k; [lia|]. cbn [Nat.sub] in *. rewrite Nat.sub_0_r in W. exact W.
      * intros HL [|i] Hi W; [|apply (PG HL i); auto; lia]. apply HV. rewrite P0 in W.
        destruct (In_nth _ _ 0%R (V HL)) as (j & Hj & Ej). destruct (in_dec Nat.eq_dec j bl) as [Ij|Ij].
        -- destruct (FIN j Ij) as (Hjn & e & Ee & E1 & _ & _). rewrite HL in Ee.
           destruct (@within_norm (nth j (phis t1) []) (nth j (phis t) []) (gs_tol p)) as (v & Ev & Wv).
           { rewrite LQ1, LQ; auto. }
           { intros N. specialize (LQ1 j Hjn). rewrite N in LQ1. cbn in LQ1. lia. }
           assert (v = tot) by congruence. subst v. apply Wv. apply W; auto.
        -- rewrite A in Ej by auto. rewrite nth_repeat in Ej. rewrite <- Ej. auto.
Qed.

Theorem gs_generic p keff ts t : started p keff ts t -> gs_norm p <> BadFlag -> 0 < n -> group_lists n p ->
  (gs_norm p = Linf -> (0 < gs_tol p)%R) -> ng (mat (ssrc (t_x t))) = n -> Inv t ->
  exists t' k P, gs_solve wg p keff ts = Ok t' /\ gs_history Sol p t t' k P /\ forall i, i <= k -> Inv (P i).
Proof.
  intros HM HB Hn (N1 & A1 & N2 & A2) HT EN I. 
  assert (GE : gs_solve wg p keff ts = do t <- gs_pass wg (gs_groups (gs_lower p) (gs_upper p)) t; if gs_iterate p then gs_loop wg p n (gs_max p) t else Ok t).
  { unfold gs_solve. unfold started in HM. destruct (gs_multiply p).
    - destruct HM as (q & q' & E1 & E2 & ->). rewrite E1, E2. cbn [bind]. change (with_x ts (with_fiss (t_x ts) (Some q'))) with (put_fission ts q').
      rewrite <- EN. reflexivity.
    - subst ts. rewrite EN. reflexivity. }
  rewrite GE.
  destruct (@pass_states (gs_groups (gs_lower p) (gs_upper p)) t I) as (T & t1 & E & ST).
  { apply Forall_forall. intros g Hg. apply A1. auto. }
  rewrite E. cbn [bind]. pose proof (states_order N1 ST) as IO. pose proof ST as (T0 & TL & TI & _).
  assert (I1 : Inv t1) by (rewrite <- TL; apply TI; auto).
  destruct (gs_iterate p) eqn:EI.
  - destruct (@loop_history p HB Hn A2 N2 HT (gs_max p) t1 I1) as (t' & k & P & EL & I' & P0 & Pk & Hk & PI & PP & PE & PG).
    exists t', k, P. split; auto. split; auto. constructor; auto.
    + rewrite P0. exists T. exact IO.
    + split; auto. congruence.
  - exists t1, 0, (fun _ => t1). split; auto. split; [|auto].
    constructor; [exists T; exact IO|intros; lia|auto|split; [lia|auto]|congruence|intros; lia].
Qed.
End GS.

(** ** With source iteration in the groups *)
Definition si_sol (w : sweeper) (tol : R) (max g : nat) (a b : tstate) : Prop := exists n B F, iterated w tol max g a b n B F.
Lemma si_solver w m tol max n nc : group_solver n (all_wellposed w m n nc) (si_sol w tol max) (si_solve w tol max).
Proof.
  intros g t (E1 & E2 & H) Hg. destruct (@si_strong w m tol max g t (H g Hg)) as (t' & k & B & F & E & IT & WP).
  exists t'. split; auto. destruct (it_problem _ _ _ _ _ _ _ _ _ IT) as (f & s & EX). split; [|split].
  - split; [rewrite EX; exact E1|]. split; [rewrite EX; exact E2|]. intros g' Hg'. apply WP. auto.
  - apply (it_others _ _ _ _ _ _ _ _ _ IT).
  - exists k, B, F. exact IT.
Qed.
Lemma all_wellposed_flux w m n nc t : 0 < n -> all_wellposed w m n nc t ->
  0 < nc /\ length (phis t) = n /\ forall g, g < n -> length (nth g (phis t) []) = nc.
Proof.
  intros Hn (E1 & E2 & H). split; [rewrite <- E2; apply (H 0 Hn)|]. split; [rewrite <- E1; apply (H 0 Hn)|].
  intros g Hg. rewrite <- E2. apply (H g Hg).
Qed.

(** What the source of a group depends on. *)
Definition alike (x x' : swp) : Prop :=
  cells (ssrc x') = cells (ssrc x) /\ mat (ssrc x') = mat (ssrc x) /\ mmap (ssrc x') = mmap (ssrc x) /\ adj (ssrc x') = adj (ssrc x) /\
  ext x' = ext x /\ dext x' = dext x /\ implicit x' = implicit x /\
  option_map (fun q => (fsource q, fscale q)) (fiss x') = option_map (fun q => (fsource q, fscale q)) (fiss x).
Lemma alike_refl x : alike x x. Proof. repeat split. Qed.
Lemma alike_trans x y z : alike x y -> alike y z -> alike x z.
Proof. intros (A1 & A2 & A3 & A4 & A5 & A6 & A7 & A8) (B1 & B2 & B3 & B4 & B5 & B6 & B7 & B8). repeat split; congruence. Qed.
Lemma alike_sym x y : alike x y -> alike y x.
Proof. intros (A1 & A2 & A3 & A4 & A5 & A6 & A7 & A8). repeat split; congruence. Qed.
Lemma alike_si w tol max g a b : si_sol w tol max g a b -> alike (t_x a) (t_x b).
Proof.
  intros (n & B & F & IT). destruct (it_problem _ _ _ _ _ _ _ _ _ IT) as (f & s & ->). repeat split.
  cbn. destruct (fiss (t_x a)); reflexivity.
Qed.
Lemma alike_explicit x x' g c : alike x x' -> explicit_fission x' g c = explicit_fission x g c.
Proof.
  intros (_ & _ & _ & _ & _ & _ & A7 & A8). unfold explicit_fission. rewrite A7.
  destruct (fiss x') as [q'|], (fiss x) as [q|]; cbn in A8; try discriminate; auto. injection A8 as E1 E2. rewrite E1. auto.
Qed.
Lemma emission_alike x x' phi phi' dim g angle c : alike x x' -> c < cells (ssrc x) ->
  (forall gp, gp < ng (mat (ssrc x)) -> phi_of phi' gp c = phi_of phi gp c \/ takes_nothing x g gp) ->
  emission x' phi' dim g angle c = emission x phi dim g angle c.
Proof.
  intros AL Hc HP. pose proof AL as (A1 & A2 & A3 & A4 & A5 & A6 & A7 & A8). unfold emission.
  rewrite (alike_explicit g c AL). unfold external, discrete. rewrite A5, A6.
  assert (TX : forall gp, transfer_xs (ssrc x') c g gp = transfer_xs (ssrc x) c g gp) by (intros; unfold transfer_xs, mat_of; rewrite A2, A3, A4; auto).
  assert (FX : forall gp, fission_xs (ssrc x') c g gp = fission_xs (ssrc x) c g gp) by (intros; unfold fission_xs, mat_of; rewrite A2, A3, A4; auto).
  assert (SC : scatter_sum (ssrc x') phi' all_groups g c = scatter_sum (ssrc x) phi all_groups g c).
  { unfold scatter_sum, all_groups. rewrite A2. apply rsum_ext. intros gp Hgp. rewrite TX.
    destruct (HP gp Hgp) as [->|N]; auto. rewrite (proj1 (N c Hc)). ring. }
  rewrite SC. f_equal. f_equal. f_equal. f_equal.
  rewrite A7. destruct (fiss x') as [q'|], (fiss x) as [q|]; cbn in A8; try discriminate; auto. injection A8 as E1 E2. rewrite E2.
  destruct (implicit x) eqn:EI; auto. f_equal. unfold fission_sum, all_groups. rewrite A2. apply rsum_ext. intros gp Hgp. rewrite FX.
  destruct (HP gp Hgp) as [->|N]; auto. rewrite (proj2 (N c Hc) EI). ring.
Qed.
Lemma transported_alike w x x' g b phi phi' f : alike x x' ->
  (forall gp c, c < cells (ssrc x) -> gp < ng (mat (ssrc x)) -> phi_of phi' gp c = phi_of phi gp c \/ takes_nothing x g gp) ->
  transported w x g b phi f -> transported w x' g b phi' f.
Proof.
  intros AL HP (P & A & L & V). pose proof AL as (A1 & A2 & A3 & _). exists P. rewrite A1. split; [|split; auto].
  intros o a Ho Ha. specialize (A o a Ho Ha).
  assert (EG : group_grid (w_grid w) (ssrc x') g = group_grid (w_grid w) (ssrc x) g) by (unfold group_grid, mat_of; rewrite A1, A2, A3; auto).
  rewrite EG. eapply equation_ext; [|exact A]. unfold emissions. rewrite A1. apply map_ext_in. intros c Hc. apply in_seq in Hc.
  symmetry. apply emission_alike; auto; [lia|]. intros gp Hgp. apply HP; auto. lia.
Qed.
Lemma within_sym tol f f' : within tol f f' -> within tol f' f.
Proof. intros (L & H). split; auto. intros c Hc. rewrite Rabs_minus_sym. apply H. lia. Qed.

(** Sides that return nothing keep what enters through them. *)
Definition kept (b b' : bsn) : Prop := same_setup b b' /\
  forall s o a g, valid b s o a g -> enters (q_dim (b_q b)) s o -> b_bc b s <> Reflect -> b_bc b s <> Periodic ->
    (forall psi, b_bc b s <> Fixed psi) -> bflux b' s o a g = bflux b s o a g.
Lemma kept_refl b : kept b b. Proof. split; [repeat split|auto]. Qed.
Lemma kept_trans b b1 b2 : kept b b1 -> kept b1 b2 -> kept b b2.
Proof.
  intros ((A1 & A2 & A3) & H) ((B1 & B2 & B3) & H'). split; [repeat split; congruence|].
  intros s o a g V E N1 N2 N3. rewrite H'; auto.
  - unfold valid. rewrite A1, A2. auto.
  - rewrite A1. auto.
  - rewrite A3. auto.
  - rewrite A3. auto.
  - rewrite A3. auto.
Qed.
Lemma plain_from w tol max g a b n B F : iterated w tol max g a b n B F -> forall i, i <= n -> same_setup (B 0) (B i) /\
  (forall s o an, valid (B 0) s o an g -> enters (q_dim (b_q (B 0))) s o -> b_bc (B 0) s <> Reflect /\ b_bc (B 0) s <> Periodic ->
    bflux (B i) s o an g = bflux (B 0) s o an g) /\
  (forall s o an g', valid (B 0) s o an g' -> g' <> g -> bflux (B i) s o an g' = bflux (B 0) s o an g').
Proof.
  intros [ _ _ _ _ _ ST _ _ ]. induction i; intros Hi; [repeat split; auto|].
  destruct (IHi ltac:(lia)) as ((A1 & A2 & A3) & A4 & A5). destruct (ST i ltac:(lia)) as [ (C1 & C2 & C3) _ C4 C5 _ _ ].
  assert (VV : forall s o an g', valid (B 0) s o an g' -> valid (B i) s o an g') by (intros s o an g'; unfold valid; rewrite A1, A2; auto).
  split; [repeat split; congruence|]. split.
  - intros s o an V E PL. rewrite C5; auto; [rewrite A1; auto|rewrite A3; auto].
  - intros s o an g' V N. rewrite C4; auto.
Qed.
Lemma si_kept w tol max g a b n B F : iterated w tol max g a b n B F -> kept (t_b a) (t_b b).
Proof.
  intros IT. pose proof IT as [ (_ & ((A1 & A2 & A3) & _ & FT)) (_ & ->) _ _ _ _ _ _ ].
  destruct (plain_from IT (le_n n)) as ((C1 & C2 & C3) & C4 & C5). split; [repeat split; congruence|].
  intros s o an g' V E N1 N2 N3. rewrite <- (FT s o an g' V) by auto.
  assert (V' : valid (B 0) s o an g') by (unfold valid; rewrite A1, A2; auto).
  destruct (Nat.eq_dec g' g) as [->|Ng]; [|apply C5; auto]. apply C4; auto; [rewrite A1; auto|rewrite A3; auto].
Qed.
(** One solve of group g. *)
Lemma si_final w tol max g a b n B F : sn_quad (b_q (t_b a)) -> iterated w tol max g a b n B F -> 0 < n ->
  exists b', entering (t_b a) b' g /\ transported w (t_x a) g b' (with_group (phis a) g (F (n - 1))) (nth g (phis b) []).
Proof.
  intros Q IT Hn. pose proof IT as [ (S1 & ((A1 & A2 & A3) & FX & FT)) (R1 & R2) _ _ _ ST _ EA ].
  rewrite R1.
  exists (B n). split.
  - destruct (plain_from IT (le_n n)) as ((C1 & C2 & C3) & C4 & C5). split; [repeat split; congruence|]. split.
    + intros s l io o an psi Hs EB EI Hio Han Hg. rewrite C4; [eapply FX; eauto| | |].
      * pose proof Q as (Hd & Hn' & _ & Hi & _). destruct (Boundary_Proofs.inc_table_spec Hd Hs) as (i & u & T1 & _ & _ & _ & T5 & T6 & T7 & _).
        unfold incident_octant in EI. rewrite Hi, T1 in EI. injection EI as ->. apply nth_error_In in Hio. apply T5 in Hio.
        unfold valid. rewrite A1, A2. destruct Hio as (Ho & _). rewrite Hn'. repeat split; auto.
      * pose proof Q as (Hd & Hn' & _ & Hi & _). destruct (Boundary_Proofs.inc_table_spec Hd Hs) as (i & u & T1 & _ & _ & _ & T5 & T6 & T7 & _).
        unfold incident_octant in EI. rewrite Hi, T1 in EI. injection EI as ->. apply nth_error_In in Hio. apply T5 in Hio. rewrite A1. auto.
      * rewrite A3, EB. split; discriminate.
    + intros s o an V E N1 N2 N3. rewrite <- (FT s o an g V) by auto. apply C4; [unfold valid; rewrite A1, A2; auto|rewrite A1; auto|rewrite A3; auto].
  - specialize (ST (n - 1) ltac:(lia)). replace (S (n - 1)) with n in ST by lia. apply ST.
Qed.
Lemma si_last w tol max g a b n B F : sn_quad (b_q (t_b a)) -> iterated w tol max g a b n B F -> n < max ->
  within tol (F (n - 1)) (nth g (phis b) []) /\
  exists b', entering (t_b a) b' g /\ transported w (t_x a) g b' (with_group (phis a) g (F (n - 1))) (nth g (phis b) []).
Proof.
  intros Q IT Hn. destruct (it_early _ _ _ _ _ _ _ _ _ IT Hn) as (H0 & W). split; [|eapply si_final; eauto].
  rewrite (proj1 (it_result _ _ _ _ _ _ _ _ _ IT)). auto.
Qed.
Lemma entering_kept b b1 b' g : kept b b1 -> entering b1 b' g -> entering b b' g.
Proof.
  intros ((A1 & A2 & A3) & K) ((C1 & C2 & C3) & C4 & C5). split; [repeat split; congruence|]. split.
  - intros s l io o an psi Hs EB EI Hio Han Hg. eapply C4; eauto; rewrite ?A1, ?A2, ?A3; eauto.
  - intros s o an V E N1 N2 N3. rewrite <- (K s o an g V E N1 N2 N3). apply C5; rewrite ?A1, ?A3; auto. unfold valid. rewrite A1, A2. auto.
Qed.
Lemma order_weaken (Sol Sol' : nat -> tstate -> tstate -> Prop) gs t t' T : (forall g a b, Sol g a b -> Sol' g a b) ->
  in_order Sol gs t t' T -> in_order Sol' gs t t' T.
Proof. intros H [ A B C ]. constructor; auto. Qed.
Lemma history_weaken (Sol Sol' : nat -> tstate -> tstate -> Prop) p t t' k P : (forall g a b, Sol g a b -> Sol' g a b) ->
  gs_history Sol p t t' k P -> gs_history Sol' p t t' k P.
Proof.
  intros H [ (T & A) B C D E F ]. constructor; auto.
  - exists T. eapply order_weaken; eauto.
  - intros i Hi. destruct (B i Hi) as (T' & B'). exists T'. eapply order_weaken; eauto.
Qed.

Lemma order_alike w tol max gs t t' T : in_order (si_sol w tol max) gs t t' T -> forall i, i <= length gs -> alike (t_x t) (t_x (T i)).
Proof.
  intros [ (E0 & _) SO _ ]. induction i; intros Hi; [rewrite E0; apply alike_refl|].
  eapply alike_trans; [apply IHi; lia|]. eapply alike_si. apply SO. lia.
Qed.
Lemma history_alike w tol max p t t' k P : gs_history (si_sol w tol max) p t t' k P -> forall i, i <= k -> alike (t_x t) (t_x (P i)).
Proof.
  intros [ (T & IO) PA _ _ _ _ ]. induction i; intros Hi.
  - pose proof (order_alike IO (le_n _)) as A. rewrite (proj2 (io_ends _ _ _ _ _ IO)) in A. exact A.
  - destruct (PA i ltac:(lia)) as (T' & IO'). pose proof (order_alike IO' (le_n _)) as A. rewrite (proj2 (io_ends _ _ _ _ _ IO')) in A.
    eapply alike_trans; [apply IHi; lia|exact A].
Qed.
Lemma order_kept w tol max gs t t' T : in_order (si_sol w tol max) gs t t' T -> forall i, i <= length gs -> kept (t_b t) (t_b (T i)).
Proof.
  intros [ (E0 & _) SO _ ]. induction i; intros Hi; [rewrite E0; apply kept_refl|].
  eapply kept_trans; [apply IHi; lia|]. destruct (SO i ltac:(lia)) as (k & B & F & IT). eapply si_kept; eauto.
Qed.
Lemma history_kept w tol max p t t' k P : gs_history (si_sol w tol max) p t t' k P -> forall i, i <= k -> kept (t_b t) (t_b (P i)).
Proof.
  intros [ (T & IO) PA _ _ _ _ ]. induction i; intros Hi.
  - pose proof (order_kept IO (le_n _)) as A. rewrite (proj2 (io_ends _ _ _ _ _ IO)) in A. exact A.
  - destruct (PA i ltac:(lia)) as (T' & IO'). pose proof (order_kept IO' (le_n _)) as A. rewrite (proj2 (io_ends _ _ _ _ _ IO')) in A.
    eapply kept_trans; [apply IHi; lia|exact A].
Qed.
Lemma order_length w tol max gs t t' T : in_order (si_sol w tol max) gs t t' T -> forall i, i <= length gs -> length (phis (T i)) = length (phis t).
Proof.
  intros [ (E0 & _) SO _ ]. induction i; intros Hi; [rewrite E0; auto|]. rewrite <- IHi by lia.
  destruct (SO i ltac:(lia)) as (k & B & F & IT). apply (it_others _ _ _ _ _ _ _ _ _ IT).
Qed.
Lemma history_length w tol max p t t' k P : gs_history (si_sol w tol max) p t t' k P -> forall i, i <= k -> length (phis (P i)) = length (phis t).
Proof.
  intros [ (T & IO) PA _ _ _ _ ]. induction i; intros Hi.
  - pose proof (order_length IO (le_n _)) as A. rewrite (proj2 (io_ends _ _ _ _ _ IO)) in A. exact A.
  - destruct (PA i ltac:(lia)) as (T' & IO'). pose proof (order_length IO' (le_n _)) as A. rewrite (proj2 (io_ends _ _ _ _ _ IO')) in A.
    rewrite A. apply IHi. lia.
Qed.
(** A pass over other groups leaves a group alone. *)
Lemma order_other Sol gs t t' T gp : in_order Sol gs t t' T -> ~ In gp gs -> nth gp (phis t') [] = nth gp (phis t) [].
Proof.
  intros [ (_ & EL) _ M ] N. rewrite <- EL at 1. rewrite M by auto. rewrite firstn_all. destruct (in_dec Nat.eq_dec gp gs); tauto.
Qed.
(** The group at position i has its final flux after its solve. *)
Lemma order_at Sol gs t t' T i : in_order Sol gs t t' T -> i < length gs -> nth (nth i gs 0) (phis (T (S i))) [] = nth (nth i gs 0) (phis t') [].
Proof.
  intros [ _ _ M ] Hi. rewrite M by lia. destruct (in_dec Nat.eq_dec (nth i gs 0) (firstn (S i) gs)) as [|N]; auto.
  exfalso. apply N. apply firstn_In; lia.
Qed.

Theorem gs_solution w tol max p t t' k P : let n := ng (mat (ssrc (t_x t))) in
  sn_quad (b_q (t_b t)) -> length (phis t) = n -> group_lists n p -> decoupled (t_x t) p ->
  gs_history (stopped w tol max) p t t' k P -> (gs_iterate p = true -> k < gs_max p) -> forall g, g < n ->
  exists phi b', near tol (gs_tol p) g phi (phis t') /\ entering (t_b t) b' g /\ transported w (t_x t) g b' phi (nth g (phis t') []).
Proof.
  intros n Q LP GL DC HS CV g Hg. destruct GL as (N1 & A1 & N2 & A2).
  assert (SS : forall g a b, stopped w tol max g a b -> si_sol w tol max g a b) by (intros g' a b (k' & B & F & IT & _); exists k', B, F; auto).
  pose proof (history_weaken SS HS) as HI.
  pose proof HS as [ (T0 & IO0) PA EK (LK & LK0) EA _ ].
  assert (FL : forall i, i <= k -> length (phis (P i)) = n) by (intros i Hi; rewrite (history_length HI Hi); auto).
  rewrite <- EK. destruct (in_dec Nat.eq_dec g (block p)) as [IB|IB].
  - (* solved last in the last pass over the block *)
    unfold block in IB. destruct (gs_iterate p) eqn:EI; [|destruct IB]. specialize (CV eq_refl). destruct (EA eq_refl CV) as (K0 & W).
    destruct (PA (k - 1) ltac:(lia)) as (T & IO). replace (S (k - 1)) with k in IO by lia. set (bl := gs_groups (gs_lower_up p) (gs_upper p)) in *.
    destruct (In_nth _ _ 0 IB) as (i & Hi & Ei). pose proof (io_solve _ _ _ _ _ IO i Hi) as SO. rewrite Ei in SO.
    destruct SO as (j & B & F & IT & Hj).
    assert (KP : kept (t_b t) (t_b (T i))) by (eapply kept_trans; [apply (history_kept HI (i := k - 1)); lia|eapply order_kept; [eapply order_weaken; [exact SS|exact IO]|lia]]).
    destruct (@si_last w tol max g (T i) (T (S i)) j B F) as (W1 & (b' & EB & TR)); auto; [rewrite (proj1 (proj1 KP)); auto|]. pose proof (order_at IO Hi) as OA. rewrite Ei in OA. rewrite OA in W1, TR.
    assert (LT : length (phis (T i)) = n).
    { rewrite (order_length (order_weaken SS IO)) by lia. apply FL. lia. }
    exists (with_group (phis (T i)) g (F (j - 1))), b'. split; [|split; [eapply entering_kept; eauto|]].
    + split; [rewrite with_group_length, LT; symmetry; apply FL; auto|].
      intros gp Hgp. rewrite with_group_length in Hgp. rewrite with_group_nth by auto.
      destruct (Nat.eqb_spec gp g) as [->|Ng]; [right; auto|].
      rewrite (io_mix _ _ _ _ _ IO i gp) by lia. destruct (in_dec Nat.eq_dec gp (firstn i bl)); [left; auto|].
      destruct (in_dec Nat.eq_dec gp bl) as [I|I]; [right; apply within_sym, W; auto|left; symmetry; eapply order_other; eauto].
    + apply (@transported_alike w (t_x (T i)) (t_x t) g b' (with_group (phis (T i)) g (F (j - 1)))); auto.
      apply alike_sym. eapply alike_trans; [apply (history_alike HI (i := k - 1)); lia|]. eapply order_alike; [eapply order_weaken; eauto|lia].
  - (* solved once *)
    set (l := gs_groups (gs_lower p) (gs_upper p)) in *. assert (IL : In g l) by (apply A1; auto).
    destruct (In_nth _ _ 0 IL) as (i & Hi & Ei). pose proof (io_solve _ _ _ _ _ IO0 i Hi) as SO. rewrite Ei in SO.
    destruct SO as (j & B & F & IT & Hj).
    assert (KP : kept (t_b t) (t_b (T0 i))) by (eapply order_kept; [eapply order_weaken; [exact SS|exact IO0]|lia]).
    destruct (@si_last w tol max g (T0 i) (T0 (S i)) j B F) as (W1 & (b' & EB & TR)); auto; [rewrite (proj1 (proj1 KP)); auto|]. pose proof (order_at IO0 Hi) as OA. rewrite Ei in OA. rewrite OA in W1, TR.
    assert (FIN : forall gp, ~ In gp (block p) -> nth gp (phis (P k)) [] = nth gp (phis (P 0)) []).
    { intros gp Ngp. clear EA CV EK. assert (H : forall a, a <= k -> nth gp (phis (P a)) [] = nth gp (phis (P 0)) []).
      { induction a; intros Ha; auto. rewrite <- IHa by lia. destruct (PA a ltac:(lia)) as (T & IO). eapply order_other; eauto.
        unfold block in Ngp. destruct (gs_iterate p); auto. specialize (LK0 eq_refl). lia. }
      apply H; auto. }
    rewrite <- (FIN g IB) in W1, TR.
    assert (LT : length (phis (T0 i)) = n).
    { rewrite (order_length (order_weaken SS IO0)) by lia. auto. }
    destruct (DC i Hi) as (D1 & D2); [fold l; rewrite Ei; auto|]. fold l in D1, D2. rewrite Ei in D2.
    exists (with_group (phis (P k)) g (F (j - 1))), b'. split; [|split; [eapply entering_kept; eauto|]].
    + split; [apply with_group_length|]. intros gp Hgp. rewrite with_group_length in Hgp. rewrite with_group_nth by auto.
      destruct (Nat.eqb_spec gp g) as [->|Ng]; [right; auto|left; auto].
    + apply (@transported_alike w (t_x (T0 i)) (t_x t) g b' (with_group (phis (T0 i)) g (F (j - 1)))); auto.
      * apply alike_sym. eapply order_alike; [eapply order_weaken; eauto|lia].
      * intros gp c Hc Hgp. pose proof (order_alike (order_weaken SS IO0) (i := i) ltac:(lia)) as AL.
        assert (Hgp' : gp < n) by (destruct AL as (_ & AM & _); unfold n; rewrite <- AM; auto).
        destruct (Nat.eq_dec gp g) as [->|Ng].
        { left. unfold phi_of. rewrite !with_group_nth, Nat.eqb_refl; auto; [rewrite LT; auto|rewrite (FL k (le_n k)); auto]. }
        assert (Igp : In gp l) by (apply A1; auto). destruct (In_nth _ _ 0 Igp) as (jj & Hjj & Ejj).
        destruct (Nat.lt_trichotomy jj i) as [Lt|[Eq|Gt]].
        -- left. rewrite !phi_of_other; auto; [|rewrite LT; auto|rewrite (FL k (le_n k)); auto].
           unfold phi_of. rewrite FIN; [|rewrite <- Ejj; apply D1; auto].
           rewrite (io_mix _ _ _ _ _ IO0 i gp) by lia. destruct (in_dec Nat.eq_dec gp (firstn i l)) as [|N]; auto.
           exfalso. apply N. rewrite <- Ejj. apply firstn_In; lia.
        -- exfalso. apply Ng. subst jj. congruence.
        -- right. specialize (D2 jj ltac:(lia)). rewrite Ejj in D2. destruct AL as (B1 & B2 & B3 & B4 & _ & _ & B7 & _).
           intros c' Hc'. rewrite B1 in Hc'. specialize (D2 c' Hc'). rewrite B7.
           unfold transfer_xs, fission_xs, mat_of in *. rewrite B2, B3, B4. exact D2.
Qed.

(** ** The groups the constructor chooses *)

Theorem gs_converged w m tol max p keff ts t nc : started p keff ts t -> gs_norm p <> BadFlag -> 0 < ng (mat (ssrc (t_x t))) ->
  group_lists (ng (mat (ssrc (t_x t)))) p -> (gs_norm p = Linf -> (0 < gs_tol p)%R) ->
  all_wellposed w m (ng (mat (ssrc (t_x t)))) nc t -> decoupled (t_x t) p ->
  exists t' k P, gs_solve (si_solve w tol max) p keff ts = Ok t' /\ gs_history (si_sol w tol max) p t t' k P /\
    (gs_history (stopped w tol max) p t t' k P -> (gs_iterate p = true -> k < gs_max p) -> forall g, g < ng (mat (ssrc (t_x t))) ->
     exists phi b', near tol (gs_tol p) g phi (phis t') /\ entering (t_b t) b' g /\ transported w (t_x t) g b' phi (nth g (phis t') [])).
Proof.
  intros HM HB Hn GL HT AW DC. set (n := ng (mat (ssrc (t_x t)))) in *.
  destruct (all_wellposed_flux Hn AW) as (Hnc & FL & _).
  destruct (@gs_generic n nc (all_wellposed w m n nc) (si_sol w tol max) (si_solve w tol max) (@si_solver w m tol max n nc) Hnc
    (fun t H => proj2 (all_wellposed_flux Hn H)) p keff ts t HM HB Hn GL HT eq_refl AW) as (t' & k & P & E & HI & IV).
  exists t', k, P. split; auto. split; auto. intros HS CV g Hg. eapply gs_solution; eauto. apply (proj2 (proj2 AW) g Hg).
Qed.

Lemma count_up k lo : map Z.to_nat (count_from k (Z.of_nat lo) 1) = seq lo k.
Proof.
  revert lo. induction k as [|k IH]; intros lo; cbn [count_from map seq]; auto. rewrite Nat2Z.id. f_equal.
  replace (Z.of_nat lo + 1)%Z with (Z.of_nat (S lo)) by lia. apply IH.
Qed.
Lemma count_down lo : map Z.to_nat (count_from (S lo) (Z.of_nat lo) (-1)) = rev (seq 0 (S lo)).
Proof.
  induction lo as [|lo IH]; [reflexivity|]. rewrite seq_S, rev_app_distr. cbn [rev app plus].
  change (count_from (S (S lo)) (Z.of_nat (S lo)) (-1)) with (Z.of_nat (S lo) :: count_from (S lo) (Z.of_nat (S lo) + -1) (-1)).
  cbn [map]. rewrite Nat2Z.id. f_equal. replace (Z.of_nat (S lo) + -1)%Z with (Z.of_nat lo) by lia. exact IH.
Qed.
Lemma groups_forward lo n : lo <= n -> gs_groups (Z.of_nat lo) (Z.of_nat n) = seq lo (n - lo).
Proof.
  intros H. unfold gs_groups, range. rewrite Nat.add_0_r. replace (Z.to_nat (Z.abs (Z.of_nat lo - Z.of_nat n))) with (n - lo) by lia.
  destruct (Z.ltb_spec (Z.of_nat lo) (Z.of_nat n)); [apply count_up|]. replace (n - lo) with 0 by lia. reflexivity.
Qed.
Lemma groups_adjoint lo : gs_groups (Z.of_nat lo) (-1) = rev (seq 0 (S lo)).
Proof.
  unfold gs_groups, range. rewrite Nat.add_0_r. replace (Z.to_nat (Z.abs (Z.of_nat lo - -1))) with (S lo) by lia.
  destruct (Z.ltb_spec (Z.of_nat lo) (-1)); [lia|]. apply count_down.
Qed.

Lemma new_groups m adjoint multiply down f max tol : 0 < ng m ->
  upscatter_cutoff m adjoint <= ng m -> (adjoint = true -> upscatter_cutoff m adjoint < ng m) ->
  let p := gs_new m adjoint multiply down f max tol in
  gs_groups (gs_lower p) (gs_upper p) = (if adjoint then rev (seq 0 (ng m)) else seq 0 (ng m)) /\
  (multiply = false -> gs_groups (gs_lower_up p) (gs_upper p) =
     if adjoint then rev (seq 0 (S (upscatter_cutoff m adjoint)))
     else seq (upscatter_cutoff m adjoint) (ng m - upscatter_cutoff m adjoint)) /\
  (multiply = true -> gs_lower_up p = gs_lower p) /\
  group_lists (ng m) p.
Proof.
  intros Hn Hc Ha p.
  assert (A : gs_groups (gs_lower p) (gs_upper p) = (if adjoint then rev (seq 0 (ng m)) else seq 0 (ng m))).
  { cbn. destruct adjoint.
    - replace (Z.of_nat (ng m) - 1)%Z with (Z.of_nat (ng m - 1)) by lia. rewrite groups_adjoint. do 2 f_equal. lia.
    - change 0%Z with (Z.of_nat 0). rewrite groups_forward by lia. f_equal. lia. }
  assert (B : multiply = false -> gs_groups (gs_lower_up p) (gs_upper p) =
     if adjoint then rev (seq 0 (S (upscatter_cutoff m adjoint)))
     else seq (upscatter_cutoff m adjoint) (ng m - upscatter_cutoff m adjoint)).
  { intros ->. cbn -[seq upscatter_cutoff]. destruct adjoint; [apply groups_adjoint|apply groups_forward; auto]. }
  assert (C : multiply = true -> gs_lower_up p = gs_lower p) by (intros ->; reflexivity).
  split; auto. split; auto. split; auto.
  assert (G0 : NoDup (if adjoint then rev (seq 0 (ng m)) else seq 0 (ng m)) /\
    forall g, In g (if adjoint then rev (seq 0 (ng m)) else seq 0 (ng m)) <-> g < ng m).
  { destruct adjoint; split; try (apply NoDup_rev, seq_NoDup); try apply seq_NoDup; intros g; rewrite <- ?in_rev, in_seq; lia. }
  unfold group_lists. rewrite A. split; [apply G0|]. split; [apply G0|]. destruct multiply.
  - rewrite C, A by auto. split; [apply G0|]. apply Forall_forall. intros g Hg. apply G0; auto.
  - rewrite B by auto. destruct adjoint.
    + split; [apply NoDup_rev, seq_NoDup|]. apply Forall_forall. intros g Hg. apply in_rev, in_seq in Hg. specialize (Ha eq_refl). lia.
    + split; [apply seq_NoDup|]. apply Forall_forall. intros g Hg. apply in_seq in Hg. lia.
Qed.

Lemma nth_rev_seq k i : i < k -> nth i (rev (seq 0 k)) 0 = k - 1 - i.
Proof. intros H. rewrite rev_nth by (rewrite seq_length; auto). rewrite seq_length, seq_nth by lia. lia. Qed.

(** A material finalised once, with the flags the solvers read from it. *)
Lemma fresh_decoupled nmat ngrp l x f max tol : forallb plain l = true ->
  mat (ssrc x) = finalize (run_ops (material_new nmat ngrp) l) -> nonneg_scatter (run_ops (material_new nmat ngrp) l) ->
  problem (ssrc x) -> implicit x = false -> 0 < ngrp -> 0 < max ->
  let m := mat (ssrc x) in let p := gs_new m (adj (ssrc x)) false (downscatter m false) f max tol in
  ng m = ngrp /\ group_lists ngrp p /\ decoupled x p.
Proof.
  intros HP EM NN (_ & PM & _) IM Hg Hmax m p.
  assert (EN : ng m = ngrp).
  { unfold m. rewrite EM. change (ng (finalize ?y)) with (ng y). destruct (@plain_keeps l HP (material_new nmat ngrp)) as (-> & _). reflexivity. }
  destruct (@fresh_finalized nmat ngrp l HP) as (CO & CA & DS). rewrite <- EM in CO, CA, DS. fold m in CO, CA, DS.
  assert (N0 : forall g gp c, c < cells (ssrc x) -> ~ transfer m g gp -> ss m g gp (mat_of (ssrc x) c) = 0%R).
  { intros g gp c Hc NT. destruct (Rle_lt_or_eq_dec 0 (ss m g gp (mat_of (ssrc x) c))) as [P|P]; auto.
    - unfold m. rewrite EM. apply NN.
    - exfalso. apply NT. exists (mat_of (ssrc x) c). split; auto. apply PM; auto. }
  assert (Hc : upscatter_cutoff m (adj (ssrc x)) <= ng m).
  { destruct (adj (ssrc x)); [|apply CO]. destruct (Nat.eq_dec (upscatter_cutoff m true) 0) as [->|Ne]; [lia|].
    destruct (proj2 CA Ne). lia. }
  assert (Ha : adj (ssrc x) = true -> upscatter_cutoff m (adj (ssrc x)) < ng m).
  { intros ->. destruct (Nat.eq_dec (upscatter_cutoff m true) 0) as [->|Ne]; [lia|]. apply (proj2 CA Ne). }
  destruct (@new_groups m (adj (ssrc x)) false (downscatter m false) f max tol) as (G1 & G2 & _ & GL); auto; [lia|].
  fold p in G1, G2, GL. specialize (G2 eq_refl). split; auto. split; [rewrite <- EN; exact GL|].
  unfold decoupled. rewrite G1. unfold block. rewrite G2.
  assert (EI : gs_iterate p = negb (downscatter m false) && (1 <? ng m)).
  { unfold p. cbn [gs_new gs_iterate]. rewrite (proj2 (Nat.ltb_lt _ _) Hmax), andb_true_r, orb_false_r. reflexivity. }
  assert (TN : forall g gp, (if adj (ssrc x) then ~ transfer m gp g else ~ transfer m g gp) -> takes_nothing x g gp).
  { intros g gp H c Hc'. split; [|congruence]. unfold transfer_xs. fold m. destruct (adj (ssrc x)); apply N0; auto. }
  intros i Hi NB. rewrite EI in *.
  assert (NOUP : downscatter m false = true -> forall a b, a < b < ng m -> ~ transfer m a b).
  { intros HD a b Hab TR. apply (proj1 DS HD a); [lia|]. exists b. split; auto. }
  destruct (adj (ssrc x)) eqn:EA; rewrite ?rev_length, seq_length in *.
  - rewrite nth_rev_seq in NB by auto.
    destruct (negb (downscatter m false) && (1 <? ng m)) eqn:ET.
    + assert (Hgi : upscatter_cutoff m true < ng m - 1 - i).
      { destruct (le_lt_dec (ng m - 1 - i) (upscatter_cutoff m true)); auto. exfalso. apply NB. apply -> in_rev. apply in_seq. lia. }
      split.
      * intros j Hj. rewrite nth_rev_seq by lia. intros I. apply in_rev, in_seq in I. lia.
      * intros j Hj. rewrite !nth_rev_seq by lia. apply TN. intros TR. apply (proj1 CA (ng m - 1 - i)); [lia|].
        exists (ng m - 1 - j). split; [lia|auto].
    + split; [intros j _ []|]. intros j Hj. rewrite !nth_rev_seq by lia. apply TN.
      apply andb_false_iff in ET. destruct ET as [ET|ET]; [|apply Nat.ltb_ge in ET; lia].
      apply NOUP; [destruct (downscatter m false); auto|lia].
  - rewrite seq_nth in NB by auto. cbn [plus] in NB.
    destruct (negb (downscatter m false) && (1 <? ng m)) eqn:ET.
    + assert (Hgi : i < upscatter_cutoff m false).
      { destruct (le_lt_dec (upscatter_cutoff m false) i); auto. exfalso. apply NB. apply in_seq. lia. }
      split.
      * intros j Hj. rewrite seq_nth by lia. rewrite in_seq. lia.
      * intros j Hj. rewrite !seq_nth by lia. apply TN. intros TR. destruct CO as (_ & CO & _). apply (CO i Hgi).
        exists j. split; [lia|auto].
    + split; [intros j _ []|]. intros j Hj. rewrite !seq_nth by lia. apply TN.
      apply andb_false_iff in ET. destruct ET as [ET|ET]; [|apply Nat.ltb_ge in ET; lia].
      apply NOUP; [destruct (downscatter m false); auto|lia].
Qed.
