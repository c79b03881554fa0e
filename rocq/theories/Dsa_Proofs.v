(** * Dsa_Proofs: transport corrected preconditioner, and GMRES with a preconditioner
    that forgets some unknowns. *)
From Verif Require Import Base BaseR Loop Vector_Model Vector_Spec Vector_Proofs Solver_Model Solver_Spec Gmres_Model Gmres_Spec Gmres_Proofs Dsa_Model Dsa_Spec.
From Coq Require Import Lra.
Set Implicit Arguments. Unset Strict Implicit.
Open Scope nat_scope.

Section Newton.
  Variables (n : nat) (At P : list R -> nat -> R) (at_ p_ : vop).
  Hypothesis HA : is_op n at_ At.
  Hypothesis LA : linear n At.
  Hypothesis HP : is_op n p_ P.
  Hypothesis LP : linear n P.

  Lemma vec_ext f g : (forall i, i < n -> f i = g i) -> vec n f = vec n g.
  Proof. intros H. apply map_ext_in. intros i Hi. apply in_seq in Hi. apply H. lia. Qed.
  Lemma vec_cmp v : length v = n -> vec n (cmp v) = v.
  Proof. intros H. apply (nth_ext _ _ 0%R 0%R); rewrite vec_length; [auto|]. intros i Hi. apply cmp_vec. auto. Qed.

  (** 2 b - A X b *)
  Definition twice (A X : list R -> nat -> R) (b : list R) : list R := vec n (fun i => 2 * cmp b i - A (vec n (X b)) i)%R.
  Lemma twice_comp A X b a : is_op n a A -> length b = n ->
    (do y <- a (vec n (X b)); do y <- vaxpy y (-2)%R b; Ok (vscale y (-1)%R)) = Ok (twice A X b).
  Proof.
    intros Ha Hb. rewrite Ha by apply vec_length. cbn [bind].
    destruct (@vaxpy_ok n (vec n (A (vec n (X b)))) (-2)%R b) as (z & -> & Lz & Ez); auto using vec_length. cbn [bind]. f_equal.
    apply (nth_ext _ _ 0%R 0%R); unfold vscale, twice; rewrite map_length, ?vec_length; [auto|]. intros i Hi. rewrite Lz in Hi.
    rewrite (nth_indep _ 0%R (0 * -1)%R) by (rewrite map_length; lia). rewrite (map_nth (fun a => (a * -1)%R)). 
    change (nth i z 0%R) with (cmp z i). rewrite Ez by auto. rewrite vec_nth by auto. unfold cmp at 1. rewrite vec_nth by auto. ring.
  Qed.

  Lemma twice_linear A X u v w a : linear n A -> linear n X -> length u = n -> length v = n -> length w = n ->
    (forall i, i < n -> cmp w i = (cmp u i + a * cmp v i)%R) -> forall i, i < n -> (cmp (twice A X w) i = cmp (twice A X u) i + a * cmp (twice A X v) i)%R.
  Proof.
    intros HAl HX Hu Hv Hw E i Hi. unfold twice. rewrite !cmp_vec by auto. rewrite E by auto.
    rewrite (HAl (vec n (X u)) (vec n (X v)) (vec n (X w)) a); auto using vec_length; [ring|].
    intros j Hj. rewrite !cmp_vec by auto. apply (HX u v w a); auto.
  Qed.
  (** A correction squares what is left over. *)
  Lemma left_twice A X b : linear n A -> linear n X -> length b = n -> forall i, i < n ->
    left_over n A (fun b => X (twice A X b)) b i = left_over n A X (vec n (left_over n A X b)) i.
  Proof.
    intros HAl HX Hb i Hi. unfold left_over at 1 2. rewrite cmp_vec by auto. unfold left_over at 1.
    set (r := vec n (left_over n A X b)).
    assert (Lr : length r = n) by apply vec_length.
    rewrite (HAl (vec n (X b)) (vec n (X r)) (vec n (X (twice A X b))) 1%R); auto using vec_length; [ring|].
    intros j Hj. rewrite !cmp_vec by auto. apply (HX b r (twice A X b) 1%R); auto; [apply vec_length|].
    intros l Hl. unfold twice, r. rewrite !cmp_vec by auto. unfold left_over. ring.
  Qed.

  Lemma power_add E k l b : power n E (k + l) b = power n E k (power n E l b).
  Proof. induction k as [|k IH]; cbn [Nat.add power]; auto. rewrite IH. auto. Qed.
  Lemma power_length E k b : length b = n -> length (power n E k b) = n.
  Proof. intros H. destruct k; cbn [power]; auto. apply vec_length. Qed.

  Lemma newton_ok k : exists X, is_op n (tc_apply at_ p_ k) X /\ linear n X /\
    forall b, length b = n -> vec n (left_over n At X b) = power n (left_over n At P) (2 ^ k) b.
  Proof.
    induction k as [|k (X & HX & LX & EX)].
    - exists P. split; [exact HP|]. split; [exact LP|]. intros b Hb. reflexivity.
    - exists (fun b => X (twice At X b)). split; [|split].
      + intros b Hb. cbn [tc_apply]. rewrite HX by auto. cbn [bind].
        assert (T := @twice_comp At X b at_ HA Hb). revert T.
        destruct (at_ (vec n (X b))) as [y| |]; cbn [bind]; try discriminate. destruct (vaxpy y (-2)%R b) as [z| |]; cbn [bind]; try discriminate.
        intros T. injection T as ->. apply HX. apply vec_length.
      + intros u v w a Hu Hv Hw E. apply (LX (twice At X u) (twice At X v) (twice At X w) a); try apply vec_length.
        apply twice_linear; auto.
      + intros b Hb. rewrite (@vec_ext _ (left_over n At X (vec n (left_over n At X b)))) by (apply left_twice; auto).
        rewrite EX by apply vec_length. rewrite EX by auto. rewrite <- power_add. f_equal. cbn. lia.
  Qed.

  Lemma tcdsa_ok A a k : is_op n a A -> linear n A -> exists X, is_op n (tc_apply at_ p_ k) X /\ linear n X /\
    (forall b, length b = n -> vec n (left_over n At X b) = power n (left_over n At P) (2 ^ k) b) /\
    is_op n (tcdsa_apply a at_ p_ k false) X /\
    exists Y, is_op n (tcdsa_apply a at_ p_ k true) Y /\ linear n Y /\
      forall b, length b = n -> vec n (left_over n A Y b) = power n (left_over n A X) 2 b.
  Proof.
    intros Ha LAa. destruct (newton_ok k) as (X & HX & LX & EX). exists X. split; auto. split; auto. split; auto. split.
    - intros b Hb. unfold tcdsa_apply. rewrite HX by auto. reflexivity.
    - exists (fun b => X (twice A X b)). split; [|split].
      + intros b Hb. unfold tcdsa_apply. rewrite HX by auto. cbn [bind].
        assert (T := @twice_comp A X b a Ha Hb). revert T.
        destruct (a (vec n (X b))) as [y| |]; cbn [bind]; try discriminate. destruct (vaxpy y (-2)%R b) as [z| |]; cbn [bind]; try discriminate.
        intros T. injection T as ->. apply HX. apply vec_length.
      + intros u v w c Hu Hv Hw E. apply (LX (twice A X u) (twice A X v) (twice A X w) c); try apply vec_length.
        apply twice_linear; auto.
      + intros b Hb. cbn [power]. apply vec_ext. apply left_twice; auto.
  Qed.
End Newton.

(** ** GMRES and unknowns that the preconditioner forgets *)
Section Tail.
  Variables (T : nat -> Prop).
  (** zero at the indices of T *)
  Definition blank (v : list R) : Prop := forall i, T i -> nth i v 0%R = 0%R.

  Lemma blank_scale v a : blank v -> blank (vscale v a).
  Proof.
    intros H i Hi. unfold vscale. destruct (Nat.lt_ge_cases i (length v)) as [L|L].
    - rewrite (nth_indep _ 0%R (0 * a)%R) by (rewrite map_length; lia). rewrite (map_nth (fun b => (b * a)%R)). rewrite H by auto. ring.
    - apply nth_overflow. rewrite map_length. auto.
  Qed.
  Lemma vzip_inv f u v w : vzip f u v = Ok w -> length w = length u /\ (forall i, i < length u -> nth i w 0%R = f (nth i u 0%R) (nth i v 0%R)).
  Proof.
    intros E. destruct (Nat.le_gt_cases (length u) (length v)) as [L|L].
    - assert (E' : vzip f u v = Ok (vec (length u) (fun i => f (nth i u 0%R) (nth i v 0%R)))).
      { unfold vzip, vec. apply mapM_ok. intros i Hi. apply in_seq in Hi. rewrite (@rd_ok _ u i 0%R), (@rd_ok _ v i 0%R) by lia. reflexivity. }
      rewrite E' in E. injection E as <-. split; [apply vec_length|]. intros i Hi. rewrite vec_nth by auto. auto.
    - rewrite vzip_ub in E by auto. discriminate.
  Qed.
  Lemma blank_axpy u a v w : blank u -> blank v -> vaxpy u a v = Ok w -> blank w.
  Proof.
    intros Hu Hv E i Hi. apply vzip_inv in E. destruct E as [L E]. destruct (Nat.lt_ge_cases i (length u)) as [Li|Li].
    - rewrite E, Hu, Hv by auto. ring.
    - apply nth_overflow. lia.
  Qed.
  Lemma blank_zero x : blank (vset x 0%R).
  Proof.
    intros i _. unfold vset. revert i. induction x as [|a x IH]; intros [|i]; cbn; auto.
  Qed.

  (** An invariant of a loop that ends. *)
  Lemma for_keep S (Q : S -> Prop) lo hi s s' body : for_ lo hi s body = Ok s' -> Q s ->
    (forall i s t, lo <= i < hi -> Q s -> body i s = Ok t -> Q t) -> Q s'.
  Proof.
    unfold for_. intros E H HB.
    assert (G : forall l s, (forall i, In i l -> lo <= i < hi) -> Q s -> foldM (fun s i => body i s) l s = Ok s' -> Q s').
    { induction l as [|a l IH]; intros t Hl Ht Et; cbn in Et; [injection Et as <-; auto|].
      destruct (body a t) as [t'| |] eqn:Eb; cbn in Et; try discriminate. apply (IH t'); auto.
      - intros; apply Hl; cbn; auto.
      - apply (HB a t); auto. apply Hl. cbn; auto. }
    apply (G _ s) in E; auto. intros i Hi. apply in_seq in Hi. lia.
  Qed.

  Lemma axpy_len u a v w : vaxpy u a v = Ok w -> length w = length u.
  Proof. intros E. apply vzip_inv in E. tauto. Qed.

  (** A preconditioner that returns blank vectors only. *)
  Definition blanking (p : option vop) : Prop := match p with Some P => forall v w, P v = Ok w -> length w = length v /\ blank w | None => False end.
  Variables (mul : vop) (pl pr : option vop).

  Lemma comb_keep k v y x0 a : for_ 0 k (vset x0 0%R) (fun i x => vaxpy x (y i) (v i)) = Ok a ->
    length a = length x0 /\ ((forall j, blank (v j)) -> blank a).
  Proof.
    intros E. split.
    - apply (for_keep (Q := fun a => length a = length x0) E).
      + unfold vset. apply map_length.
      + intros i s t _ H Et. apply axpy_len in Et. congruence.
    - intros HV. apply (for_keep (Q := blank) E); [apply blank_zero|]. intros i s t _ H Et. apply (blank_axpy (u := s) (a := y i) (v := v i)); auto.
  Qed.
  Lemma add_blank a x0 x' : length a = length x0 -> blank a -> vadd a x0 = Ok x' -> length x' = length x0 /\ forall i, T i -> nth i x' 0%R = nth i x0 0%R.
  Proof.
    intros L HB E. apply vzip_inv in E. destruct E as [L' E]. split; [congruence|]. intros i Hi.
    destruct (Nat.lt_ge_cases i (length a)) as [Li|Li].
    - rewrite E, HB by auto. ring.
    - rewrite !nth_overflow by lia. auto.
  Qed.
  Lemma update_keep k v y x0 x' : (blanking pl /\ pr = None /\ (forall j, blank (v j)) \/ blanking pr) -> update_x pr k v y x0 = Ok x' ->
    length x' = length x0 /\ forall i, T i -> nth i x' 0%R = nth i x0 0%R.
  Proof.
    intros HB E. unfold update_x in E.
    destruct (for_ 0 k (vset x0 0%R) (fun i x => vaxpy x (y i) (v i))) as [a| |] eqn:Ea; cbn [bind] in E; try discriminate.
    apply comb_keep in Ea. destruct Ea as [La Ba].
    destruct (pre pr a) as [c| |] eqn:Ep; cbn [bind] in E; try discriminate. unfold pre in Ep.
    destruct HB as [(_ & -> & HV)|HB].
    - injection Ep as <-. apply add_blank with (a := a); auto.
    - destruct pr as [P|]; [|destruct HB]. apply HB in Ep. destruct Ep as [Lc Bc]. apply add_blank with (a := c); auto. congruence.
  Qed.

  Lemma kop_blank v w : blanking pl -> kop mul pl pr v = Ok w -> blank w.
  Proof.
    intros HB E. unfold kop in E. destruct (pre pr v) as [t| |]; cbn [bind] in E; try discriminate.
    destruct (mul t) as [u| |]; cbn [bind] in E; try discriminate. unfold pre in E. destruct pl as [P|]; [|destruct HB]. apply (HB u w E).
  Qed.
  Lemma mgs_blank k v w H w' H' : (forall j, blank (v j)) -> blank w -> mgs k v w H = Ok (w', H') -> blank w'.
  Proof.
    intros HV HW E. unfold mgs in E. apply (for_keep (Q := fun st => blank (fst st)) E); auto.
    intros i [s Hs] t _ Hb Et. cbn [fst] in *. destruct (vdot s (v i)) as [h| |]; cbn [bind] in Et; try discriminate.
    destruct (vaxpy s (- h)%R (v i)) as [u| |] eqn:Eu; cbn [bind] in Et; try discriminate. injection Et as <-. cbn [fst]. apply (blank_axpy (u := s) (a := (- h)%R) (v := v i)); auto.
  Qed.
  Lemma reorth_blank k v w H w' H' : (forall j, blank (v j)) -> blank w -> reorth k v w H = Ok (w', H') -> blank w'.
  Proof.
    intros HV HW E. unfold reorth in E. apply (for_keep (Q := fun st => blank (fst st)) E); auto.
    intros i [s Hs] t _ Hb Et. cbn [fst] in *. destruct (vdot (v i) s) as [h| |]; cbn [bind] in Et; try discriminate.
    destruct (vaxpy s (- h)%R (v i)) as [u| |] eqn:Eu; cbn [bind] in Et; try discriminate. injection Et as <-. cbn [fst]. apply (blank_axpy (u := s) (a := (- h)%R) (v := v i)); auto.
  Qed.
  Lemma setf_blank v k w : (forall j, blank (v j)) -> blank w -> forall j, blank (setf v k w j).
  Proof. intros HV HW j. unfold setf. destruct (j =? k); auto. Qed.

  Lemma step_blank mode k st st' rho : blanking pl -> (forall j, blank (g_v st j)) -> gm_step mul pl pr mode k st = Ok (st', rho) -> forall j, blank (g_v st' j).
  Proof.
    intros HB HV E. unfold gm_step in E.
    destruct (kop mul pl pr (g_v st k)) as [w| |] eqn:Ek; cbn [bind] in E; try discriminate. apply kop_blank in Ek; auto.
    destruct (mgs k (g_v st) w (g_H st)) as [[w1 H1]| |] eqn:Em; cbn [bind] in E; try discriminate. apply mgs_blank in Em; auto.
    match type of E with bind ?e _ = _ => destruct e as [[w2 H2]| |] eqn:Er end; cbn [bind] in E; try discriminate.
    assert (B2 : blank w2).
    { match type of Er with (if ?b then _ else _) = _ => destruct b end.
      - destruct (reorth k (g_v st) w1 (setH H1 (S k) k (norm L2 w1))) as [[w3 H3]| |] eqn:E3; cbn [bind] in Er; try discriminate.
        injection Er as <- _. apply (@reorth_blank k (g_v st) w1 _ w3 H3 HV Em E3).
      - injection Er as <- _. auto. }
    match type of E with (if ?b then _ else _) = _ => destruct b end; [discriminate|].
    injection E as <- _. cbn [g_v]. apply setf_blank; auto. destruct (Req_EM_T (H2 (S k) k) 0); auto. apply blank_scale. auto.
  Qed.
  Lemma inner_blank p mode : forall fuel k it st m k' it' dn st' m', blanking pl -> (forall j, blank (g_v st j)) ->
    inner_loop p mul pl pr mode fuel k it st m = Ok (k', it', dn, st', m') -> forall j, blank (g_v st' j).
  Proof.
    induction fuel as [|f IH]; intros k it st m k' it' dn st' m' HB HV E; cbn [inner_loop] in E.
    - injection E as _ _ _ <- _. auto.
    - destruct (p_maxit p <=? S (S it)); [injection E as _ _ _ <- _; auto|].
      destruct (gm_step mul pl pr mode k st) as [[st1 rho]| |] eqn:Es; cbn [bind] in E; try discriminate.
      assert (B1 := step_blank HB HV Es).
      destruct (monitor p (S it) rho m) as [[b m1]| |]; cbn [bind] in E; try discriminate. destruct b.
      + injection E as _ _ _ <- _. auto.
      + apply (IH _ _ _ _ _ _ _ _ _ HB B1 E).
  Qed.

  Lemma outer_keep p mode restart b : forall fuel it st y x m x' m', (blanking pl /\ pr = None /\ (forall j, blank (g_v st j)) \/ blanking pr) ->
    outer_loop p mul pl pr mode restart b fuel it st y x m = Ok (x', m') -> length x' = length x /\ forall i, T i -> nth i x' 0%R = nth i x 0%R.
  Proof.
    induction fuel as [|f IH]; intros it st y x m x' m' HB E; cbn [outer_loop] in E.
    - injection E as <- _. auto.
    - destruct (p_maxit p <=? it); [injection E as <- _; auto|].
      destruct (mul x) as [r| |]; cbn [bind] in E; try discriminate. destruct (vsub r b) as [r1| |]; cbn [bind] in E; try discriminate.
      destruct (pre pl (vscale r1 (-1)%R)) as [r2| |] eqn:Ep; cbn [bind] in E; try discriminate.
      match type of E with bind ?e _ = _ => destruct e as [[stop m1]| |] end; cbn [bind] in E; try discriminate.
      destruct stop; [injection E as <- _; auto|].
      destruct (Req_EM_T (norm L2 r2) 0); [discriminate|].
      match type of E with bind ?e _ = _ => destruct e as [[[[[k it1] dn] st1] m2]| |] eqn:Ei end; cbn [bind] in E; try discriminate.
      destruct (compute_y k (g_H st1) (g_g st1) y) as [y1| |]; cbn [bind] in E; try discriminate.
      destruct (update_x pr k (g_v st1) y1 x) as [x1| |] eqn:Eu; cbn [bind] in E; try discriminate.
      assert (HB1 : blanking pl /\ pr = None /\ (forall j, blank (g_v st1 j)) \/ blanking pr).
      { destruct HB as [(B1 & B2 & B3)|B]; [left|right; auto]. split; auto. split; auto.
        refine (inner_blank B1 _ Ei). cbn [g_v]. apply setf_blank.
        - intros j. destruct (j <? restart); [apply blank_zero|auto].
        - apply blank_scale. unfold pre in Ep. destruct pl as [P|]; [|destruct B1]. apply B1 in Ep. tauto. }
      apply update_keep in Eu; auto. destruct dn.
      + injection E as <- _. auto.
      + apply IH in E; auto. destruct Eu as [L1 E1], E as [L2' E2]. split; [congruence|]. intros i Hi. rewrite E2, E1 by auto. auto.
  Qed.

  Lemma gmres_keep p mode restart b x st prev x' m : (blanking pl /\ pr = None \/ blanking pr) ->
    gmres p mul pl pr mode restart b x st prev = Ok (x', m) -> length x' = length x /\ forall i, T i -> nth i x' 0%R = nth i x 0%R.
  Proof.
    intros HB E. unfold gmres, solve in E.
    match type of E with bind ?e _ = _ => destruct e as [[x1 m1]| |] eqn:E1 end; cbn [bind] in E; try discriminate.
    injection E as <- _. unfold gmres_impl in E1. apply outer_keep in E1; auto.
    destruct HB as [[B1 B2]|B]; [left|right; auto]. split; auto. split; auto. intros j. cbn [g_v]. apply blank_zero.
  Qed.
End Tail.

Lemma power_rate n (E : list R -> nat -> R) (size : list R -> R) q : (0 <= q)%R -> (forall b, length b = n -> size (vec n (E b)) <= q * size b)%R ->
  forall k b, length b = n -> (size (power n E k b) <= q ^ k * size b)%R.
Proof.
  intros Hq HS k b Hb. induction k as [|k IH]; cbn [power pow]; [lra|].
  refine (Rle_trans _ _ _ (HS _ (@power_length n E k b Hb)) _). rewrite Rmult_assoc. apply Rmult_le_compat_l; auto.
Qed.
