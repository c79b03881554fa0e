(** * Fcl_Proofs *)
From Coquelicot Require Import Coquelicot.
From Coq Require Import Lra Lia.
From Verif Require Import Base BaseR Loop Util_Model Mesh_Model Material_Model Matrix_Model Matrix_Spec Sweep_Model Tally_Model Diffusion_Model Cmfd_Model Cmfd_Spec Cmfd_Proofs Cmfd_Proofs2 Cmfd_Proofs3 Cmfd_Proofs4 Cmfd_Proofs5 Cmfd_Proofs6
  Ecl_Proofs Fcl_Model Fcl_Spec.
Open Scope nat_scope.
Set Implicit Arguments. Unset Strict Implicit.

Lemma residual_near (x y : list R) e tol : length x <= length y -> norm_residual x y Linf = Ok e ->
  (0 <= e)%R /\ ((e < tol)%R <-> forall c, c < length x -> (Rabs (nth c x 0 - nth c y 0) < tol)%R).
Proof.
  intros L E. assert (EC : combine x y = combine x (firstn (length x) y)).
  { clear E e. revert y L. induction x as [|a x IH]; intros [|b y] L; cbn in *; auto. f_equal. apply IH. lia. }
  assert (E' : norm_residual x (firstn (length x) y) Linf = Ok e) by (unfold norm_residual in *; rewrite <- EC; exact E).
  assert (LF : length (firstn (length x) y) = length x) by (rewrite firstn_length; lia).
  assert (NF : forall c, c < length x -> nth c (firstn (length x) y) 0%R = nth c y 0%R).
  { intros c Hc. rewrite <- (firstn_skipn (length x) y) at 2. rewrite app_nth1 by lia. reflexivity. }
  split.
  - destruct (Rle_lt_dec 0 e) as [P|N]; auto. exfalso. pose proof (proj1 (residual_close 0 eq_refl LF E') N) as Q.
    destruct x as [|a x]; [discriminate E'|]. specialize (Q 0 ltac:(cbn; lia)). revert Q. match goal with |- (Rabs ?z < _)%R -> _ => pose proof (Rabs_pos z) end. lra.
  - rewrite (residual_close tol eq_refl LF E'). split; intros H c Hc; specialize (H c Hc); rewrite NF in *; auto.
Qed.
Lemma fold_near d a tol : (fold_left (fun v b => rmax (Rabs b) v) d a < tol)%R <-> (a < tol)%R /\ forall b, In b d -> (Rabs b < tol)%R.
Proof.
  revert a. induction d as [|y d IH]; intros a; cbn [fold_left In]; [firstorder|]. rewrite IH. unfold rmax. split.
  - intros (A & B). destruct (Rlt_dec _ _) as [L|L]; (split; [lra|]); intros q [<-|Q]; auto; lra.
  - intros (A & B). split; [|auto]. destruct (Rlt_dec _ _); [auto|]. apply B. auto.
Qed.
Lemma mapM_ok A B (f : A -> res B) l r : mapM f l = Ok r -> forall i da db, i < length l -> f (nth i l da) = Ok (nth i r db).
Proof.
  revert r. induction l as [|a l IH]; intros r E i da db Hi; [cbn in Hi; lia|]. cbn [mapM] in E.
  destruct (f a) as [b| |] eqn:Ef; cbn [bind] in E; try discriminate. destruct (mapM f l) as [t| |] eqn:Em; cbn [bind] in E; try discriminate.
  injection E as <-. destruct i as [|i]; cbn [nth]; auto. apply IH; [reflexivity|cbn in Hi; lia].
Qed.
Lemma mapM_len A B (f : A -> res B) l r : mapM f l = Ok r -> length r = length l.
Proof.
  revert r. induction l as [|a l IH]; intros r E; cbn [mapM] in E; [injection E as <-; reflexivity|].
  destruct (f a) as [b| |]; cbn [bind] in E; try discriminate. destruct (mapM f l) as [t| |]; cbn [bind] in E; try discriminate.
  injection E as <-. cbn. f_equal. apply IH. reflexivity.
Qed.
Lemma change_near U p phi e tol : shape U p -> fchange (ng (u_mat U)) p phi = Ok e -> ((e < tol)%R <-> near U tol p phi).
Proof.
  intros (SL & SG) E. unfold fchange in E. destruct (mapM _ _) as [r| |] eqn:EM; cbn [bind] in E; try discriminate.
  pose proof (mapM_len EM) as LR. rewrite seq_length in LR.
  assert (K : forall g, g < ng (u_mat U) -> (0 <= nth g r 0)%R /\ ((nth g r 0 < tol)%R <-> forall c, c < ncells (u_mesh U) -> (Rabs (val2 p g c - val2 phi g c) < tol)%R)).
  { intros g Hg. pose proof (mapM_ok EM 0 0%R (i := g)) as Q. rewrite seq_length in Q. specialize (Q Hg). rewrite seq_nth in Q by auto. rewrite Nat.add_0_l in Q. cbv beta in Q.
    destruct (rd p g) as [a| |] eqn:Ea; cbn [bind] in Q; try discriminate. destruct (rd phi g) as [b| |] eqn:Eb; cbn [bind] in Q; try discriminate.
    destruct (length a <=? length b) eqn:EL; [|discriminate Q]. apply Nat.leb_le in EL.
    apply rd_inv in Ea. apply rd_inv in Eb. destruct Ea as (Ea & _). destruct Eb as (Eb & _).
    apply (nth_error_nth _ _ (@nil R)) in Ea. apply (nth_error_nth _ _ (@nil R)) in Eb.
    destruct (residual_near tol EL Q) as (P & RN). split; [exact P|]. rewrite RN. unfold val2.
    specialize (SG g Hg). rewrite Ea, Eb in *. rewrite SG. reflexivity. }
  cbn [norm] in E. destruct r as [|a r]; [discriminate|]. injection E as <-. rewrite fold_near. unfold near. split.
  - intros (A & B) g c Hg Hc. apply (K g Hg); auto. rewrite <- LR in Hg. destruct g as [|g]; [exact A|]. cbn [nth] in *.
    specialize (B (nth g r 0%R)). rewrite Rabs_pos_eq in B; [apply B, nth_In; cbn in Hg; lia|]. apply (K (S g)). lia.
  - intros H. split; [apply (K 0); [cbn in LR; lia|]; auto; intros; apply H; auto; cbn in LR; lia|].
    intros b Hb. apply (In_nth _ _ 0%R) in Hb. destruct Hb as (g & Hg & <-). assert (HG : S g < ng (u_mat U)) by (cbn in LR; lia).
    destruct (K (S g) HG) as (P & Q). cbn [nth] in *. rewrite Rabs_pos_eq by exact P. apply Q. intros; apply H; auto.
Qed.

Theorem passes_accelerated sweep srt solve U C q keff alpha tol n phi0 f sw up : shaped U sweep ->
  fpasses sweep srt solve U C q keff alpha tol n phi0 = Ok (f, sw, up) ->
  exists phi p : nat -> list (list R), phi 0 = phi0 /\ up <= n /\ accelerated sweep srt solve U C q keff alpha tol up phi p /\
    ((sw = n /\ up = n /\ f = phi n) \/
     (sw = S up /\ sw <= n /\ (exists T cur, sweep (phi up) = Ok (f, T, cur)) /\ near U tol f (phi up))).
Proof.
  intros SH. revert phi0 sw up. induction n as [|n IH]; intros phi0 sw up E; cbn [fpasses] in E.
  - injection E as <- <- <-. exists (fun _ => phi0), (fun _ => phi0). split; [reflexivity|]. split; [lia|]. split; [intros i Hi; lia|]. left. auto.
  - destruct (sweep phi0) as [((p0 & T) & cur)| |] eqn:ES; cbn [bind] in E; try discriminate.
    destruct (fchange _ _ _) as [e| |] eqn:EC; cbn [bind] in E; try discriminate. pose proof (change_near tol (SH _ _ _ _ ES) EC) as CN.
    destruct (Rlt_dec e tol) as [LT|GE].
    + injection E as <- <- <-. exists (fun _ => phi0), (fun _ => phi0). split; [reflexivity|]. split; [lia|]. split; [intros i Hi; lia|].
      right. split; [reflexivity|]. split; [lia|]. split; [eauto|]. apply CN. exact LT.
    + destruct (update _ _ _ _ _ _ _ _ _ _) as [phi1| |] eqn:EU; cbn [bind] in E; try discriminate.
      destruct (fpasses _ _ _ _ _ _ _ _ _ _ _) as [((f2 & s2) & u2)| |] eqn:EP; cbn [bind] in E; try discriminate. injection E as <- <- <-.
      destruct (IH _ _ _ EP) as (phi & p & P0 & PU & AC & EN).
      exists (fun i => match i with 0 => phi0 | S i => phi i end), (fun i => match i with 0 => p0 | S i => p i end).
      split; [reflexivity|]. split; [lia|]. split.
      * intros [|i] Hi; [|apply AC; lia]. exists T, cur. rewrite P0. split; [exact ES|]. split; [|exact EU]. intros Q. apply GE, CN, Q.
      * destruct EN as [(-> & -> & ->)|(-> & L2 & EX & NE)]; [left; auto|]. right. split; [reflexivity|]. split; [lia|]. auto.
Qed.

(** ** From a solution *)
Lemma change_same U phi : 0 < ng (u_mat U) -> 0 < ncells (u_mesh U) -> shape U phi -> fchange (ng (u_mat U)) phi phi = Ok 0%R.
Proof.
  intros HG HN (SL & SG). assert (R0 : forall a : list R, 0 < length a -> norm_residual a a Linf = Ok 0%R).
  { intros a La. destruct (norm_residual a a Linf) as [e| |] eqn:E.
    - destruct (residual_near 1 (le_n _) E) as (P & _). f_equal. destruct (Rle_lt_or_eq_dec _ _ P) as [Q|Q]; [|auto].
      exfalso. destruct (residual_near e (le_n _) E) as (_ & RN). assert (e < e)%R; [|lra]. apply RN. intros c Hc. rewrite Rminus_diag_eq by reflexivity. rewrite Rabs_R0. exact Q.
    - unfold norm_residual in E. destruct (combine a a); discriminate.
    - unfold norm_residual in E. destruct a; [cbn in La; lia|discriminate]. }
  assert (EM : mapM (fun g => do a <- rd phi g; do b <- rd phi g; if length a <=? length b then norm_residual a b Linf else UB) (seq 0 (ng (u_mat U)))
    = Ok (map (fun _ => 0%R) (seq 0 (ng (u_mat U))))).
  { assert (H : forall g, In g (seq 0 (ng (u_mat U))) -> g < ng (u_mat U)) by (intros g Hg; apply in_seq in Hg; lia).
    revert H. generalize (seq 0 (ng (u_mat U))). induction l as [|g l IH]; intros H; cbn [mapM map]; auto.
    assert (Hg : g < ng (u_mat U)) by (apply H; left; auto). rewrite (@rd_ok _ phi g []) by lia. cbn [bind]. rewrite Nat.leb_refl, R0 by (rewrite SG; auto). cbn [bind].
    rewrite IH by (intros; apply H; right; auto). reflexivity. }
  unfold fchange. rewrite EM. cbn [bind norm]. destruct (ng (u_mat U)) as [|G]; [lia|]. cbn [seq map]. f_equal.
  generalize (seq 1 G). induction l as [|g l IH]; cbn [map fold_left]; auto. unfold rmax at 2. rewrite Rabs_R0. destruct (Rlt_dec 0 0); exact IH.
Qed.
Theorem solution_left sweep srt solve U C level T q cur keff alpha tol max phi : is_sort srt -> problem_ok U ->
  coarse_mesh (Mesh_Model.dim (u_mesh U)) (grid_of U 0) level = Ok C -> Mesh_Model.dim (u_mesh U) < 3 ->
  positive_flux U phi -> shape U q -> current_ok U cur -> conserving U keff -> transport_solution U C keff q phi T ->
  keeps_solutions solve -> sweep phi = Ok (phi, T, cur) ->
  fsolve sweep srt solve U C q keff alpha tol max phi = if Rlt_dec 0 tol then Ok (phi, 1, 0) else Ok (phi, S max, S max).
Proof.
  intros HS HP HC HD HF HQ HCU HK HT KS ES. unfold fsolve.
  pose proof (n_positive HP) as HN. pose proof (change_same (proj1 (proj2 (proj2 (proj2 HP)))) HN (proj1 HF)) as CS.
  pose proof (@solution_fixed srt solve U C level T q cur keff alpha phi HS HP HC HD HF HQ HCU HK HT KS) as EU.
  destruct (Rlt_dec 0 tol) as [P|N].
  - cbn [fpasses]. rewrite ES. cbn [bind]. rewrite CS. cbn [bind]. destruct (Rlt_dec 0 tol); [reflexivity|tauto].
  - generalize (S max). intros n. induction n as [|n IH]; [reflexivity|]. cbn [fpasses]. rewrite ES. cbn [bind]. rewrite CS. cbn [bind].
    destruct (Rlt_dec 0 tol); [tauto|]. rewrite EU. cbn [bind]. rewrite IH. reflexivity.
Qed.

Lemma case_limit : exists U C level keff q phi T, problem_ok U /\ coarse_mesh (Mesh_Model.dim (u_mesh U)) (grid_of U 0) level = Ok C /\ Mesh_Model.dim (u_mesh U) = 1 /\
  positive_flux U phi /\ transport_solution U C keff q phi T /\ shaped U (fun _ => Ok (phi, T, None)) /\
  forall srt solve alpha max, is_sort srt -> keeps_solutions solve ->
  (forall tol, (0 < tol)%R -> fsolve (fun _ => Ok (phi, T, None)) srt solve U C q keff alpha tol max phi = Ok (phi, 1, 0)) /\
  fsolve (fun _ => Ok (phi, T, None)) srt solve U C q keff alpha 0 max phi = Ok (phi, S max, S max).
Proof.
  destruct case_fixed as (U & C & level & keff & q & phi & T & HP & HC & HD & HF & HQ & HT & HK & _).
  exists U, C, level, keff, q, phi, T. do 5 (split; [assumption|]). split; [intros ? ? ? ? E; injection E as <- _ _; apply HF|].
  intros srt solve alpha max HS KS.
  assert (K : forall tol, fsolve (fun _ => Ok (phi, T, None)) srt solve U C q keff alpha tol max phi = if Rlt_dec 0 tol then Ok (phi, 1, 0) else Ok (phi, S max, S max)).
  { intros tol. eapply (@solution_left _ srt solve U C level T q None); eauto; [lia|exact I]. }
  split; [intros tol Ht|]; rewrite K; destruct (Rlt_dec _ _); auto; lra.
Qed.
