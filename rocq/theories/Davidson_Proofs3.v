(** * Davidson_Proofs3: the dense eigensolver, and cases. *)
From Verif Require Import Base BaseR Loop Vector_Model Vector_Spec Vector_Proofs Solver_Spec Gmres_Model Gmres_Spec Gmres_Proofs Matrix_Model Dense_Model Dense_Spec Dense_Proofs Rom_Spec Rom_Proofs Davidson_Model Davidson_Spec Davidson_Proofs Davidson_Proofs2.
From Verif Require Dsa_Proofs2.
From Coq Require Import Lra.
Set Implicit Arguments. Unset Strict Implicit.
Open Scope nat_scope.

(** a is before b in the order asked for. *)
Lemma pick_ok which ER m : length ER = m -> 0 < m ->
  exists i, eis_pick which ER m = Ok (cmp ER i, i) /\ i < m /\ (which = 1 -> forall j, j < m -> (cmp ER j <= cmp ER i)%R) /\ (which = 0 -> forall j, j < m -> (cmp ER i <= cmp ER j)%R).
Proof.
  intros L H0. unfold eis_pick. rewrite (@rd_ok _ ER 0 0%R) by lia. cbn [bind].
  destruct (@for_inv _ (fun h st => exists i, st = (cmp ER i, i) /\ i < m /\ (which = 1 -> forall j, j < h -> (cmp ER j <= cmp ER i)%R) /\ (which = 0 -> forall j, j < h -> (cmp ER i <= cmp ER j)%R))
    1 m (nth 0 ER 0%R, 0) (fun i st => do e <- rd ER i; Ok (if (if Rlt_dec (fst st) e then which =? 1 else if Rlt_dec e (fst st) then which =? 0 else false) then (e, i) else st)))
    as (st & E & i & -> & Hi & H1 & H2); [lia|..].
  - exists 0. split; auto. split; auto. split; intros _ j Hj; assert (j = 0) as -> by lia; lra.
  - intros h st Hh (i & -> & Hi & H1 & H2). rewrite (@rd_ok _ ER h 0%R) by lia. cbn [bind fst]. eexists. split; [reflexivity|]. fold (cmp ER h).
    destruct (Rlt_dec (cmp ER i) (cmp ER h)) as [A|A].
    + destruct (Nat.eqb_spec which 1) as [->|N1].
      * exists h. split; auto. split; [lia|]. split; [|discriminate]. intros _ j Hj. destruct (Nat.eq_dec j h) as [->|]; [lra|]. specialize (H1 eq_refl j ltac:(lia)). lra.
      * exists i. split; auto. split; auto. split; [lia|]. intros W j Hj. destruct (Nat.eq_dec j h) as [->|]; [lra|]. apply H2; auto; lia.
    + destruct (Rlt_dec (cmp ER h) (cmp ER i)) as [B|B].
      * destruct (Nat.eqb_spec which 0) as [->|N0].
        -- exists h. split; auto. split; [lia|]. split; [discriminate|]. intros _ j Hj. destruct (Nat.eq_dec j h) as [->|]; [lra|]. specialize (H2 eq_refl j ltac:(lia)). lra.
        -- exists i. split; auto. split; auto. split; [|lia]. intros W j Hj. destruct (Nat.eq_dec j h) as [->|]; [lra|]. apply H1; auto; lia.
      * exists i. split; auto. split; auto. split; intros W j Hj; (destruct (Nat.eq_dec j h) as [->|]; [lra|]); [apply H1|apply H2]; auto; lia.
  - exists i. auto.
Qed.

Lemma pair_scale M W k c a : dwf M -> (forall W', W = Some W' -> dwf W' /\ dn W' = dn M /\ dm W' = dm M) -> dm M = dn M -> reduced_pair M W k c -> reduced_pair M W k (vscale c a).
Proof.
  intros WM WW Sq (y & z & Ey & Ez & Lc & H). destruct (@dmultiply_spec M c WM Lc) as (y0 & Ey0 & Ly0 & Hy0). assert (y0 = y) as -> by congruence.
  destruct (@dmultiply_spec M (vscale c a) WM ltac:(rewrite vscale_length; auto)) as (y' & Ey' & Ly' & Hy').
  assert (Sy : forall i, i < dm M -> cmp y' i = (a * cmp y i)%R).
  { intros i Hi. unfold cmp. rewrite Hy', Hy0 by auto. rewrite <- rsum_scal. apply rsum_ext. intros j Hj. rewrite vscale_nth. ring. }
  exists y'. destruct W as [W|].
  - destruct (WW W eq_refl) as (W1 & W2 & W3). destruct (@dmultiply_spec W c W1 ltac:(congruence)) as (z0 & Ez0 & Lz0 & Hz0). assert (z0 = z) as -> by congruence.
    destruct (@dmultiply_spec W (vscale c a) W1 ltac:(rewrite vscale_length; congruence)) as (z' & Ez' & Lz' & Hz'). exists z'. split; auto. split; auto. split; [rewrite vscale_length; auto|].
    intros i Hi. rewrite Sy, H by auto. assert (Q : cmp z' i = (a * cmp z i)%R); [|rewrite Q; ring]. unfold cmp. rewrite Hz', Hz0 by lia. rewrite <- rsum_scal. apply rsum_ext.
    intros j Hj. rewrite vscale_nth. ring.
  - exists (vscale c a). injection Ez as <-. split; auto. split; auto. split; [rewrite vscale_length; auto|]. intros i Hi. rewrite Sy, H by auto. unfold cmp. rewrite vscale_nth. ring.
Qed.

Lemma dense_pair which M W out x l v : dwf M -> (forall W', W = Some W' -> dwf W' /\ dn W' = dn M /\ dm W' = dm M) -> dm M = dn M -> 0 < dn M -> length x = dn M -> spectrum M W out ->
  eis_solve which (dn M) out x = Ok (l, v) ->
  length v = dn M /\ gnorm L2 (dn M) (cmp v) = 1%R /\ exists i, i < dn M /\ l = cmp (eo_R out) i /\
    (which = 1 -> forall j, j < dn M -> (cmp (eo_R out) j <= l)%R) /\ (which = 0 -> forall j, j < dn M -> (l <= cmp (eo_R out) j)%R) /\
    (cmp (eo_I out) i = 0%R -> reduced_pair M W l v).
Proof.
  intros WM WW Sq H0 Lx (WV & V1 & V2 & LR & LI & HS) E. unfold eis_solve in E. destruct (@pick_ok which (eo_R out) (dn M) LR H0) as (i & Ep & Hi & Q1 & Q2). rewrite Ep in E. cbn [bind fst snd] in E.
  destruct (@for_inv _ (fun h x => length x = dn M /\ forall e, e < h -> cmp x e = entry (eo_V out) e i) 0 (dn M) x (fun k x => do v <- dget (eo_V out) k i; wr x k v)) as (c & Ec & Lc & Hc); [lia|..].
  - split; auto. intros; lia.
  - intros k c Hk (L & H). rewrite dget_ok by (auto; lia). cbn [bind]. rewrite Dsa_Proofs2.wr_ok by lia. eexists. split; [reflexivity|]. rewrite upd_length. split; auto.
    intros e He. unfold cmp. destruct (Nat.eq_dec k e) as [->|N]; [rewrite nth_upd_eq by lia; reflexivity|]. rewrite nth_upd_neq by auto. apply H. lia.
  - rewrite Ec in E. cbn [bind] in E. destruct (Req_EM_T (norm L2 c) 0) as [|Nz]; [discriminate|]. injection E as <- <-. rewrite vscale_length. split; auto.
    split; [|exists i; split; auto; split; auto; split; auto; split; auto].
    + assert (U := @unit_scale (dn M) c Lc Nz). change (sqrt (ip (dn M) (vscale c (1 / norm L2 c)) (vscale c (1 / norm L2 c))) = 1%R). rewrite U. apply sqrt_1.
    + intros Z. destruct (HS i Hi Z) as (_ & HP). assert (c = vec (dn M) (fun e => entry (eo_V out) e i)) as ->; [|apply pair_scale; auto].
      apply (nth_ext _ _ 0%R 0%R); [rewrite vec_length; auto|]. intros e He. rewrite vec_nth by lia. apply Hc. lia.
Qed.

(** The projected solver of Davidson. *)
Definition eis_projected (rgg : dense -> dense -> res eis_out) (M W : dense) : res (R * list R) :=
  do out <- rgg M W; eis_solve 1 (dn M) out (repeat 0%R (dn M)).

(** ** A rotation *)
Lemma complex_wrong : exists M out x l v, dwf M /\ dm M = 2 /\ dn M = 2 /\ length x = 2 /\ spectrum M None out /\ eis_solve 1 2 out x = Ok (l, v) /\ ~ reduced_pair M None l v.
Proof.
  exists (D 2 2 [0; 1; -1; 0]%R), {| eo_V := D 2 2 [1; 0; 0; -1]%R; eo_R := [0; 0]%R; eo_I := [1; -1]%R |}, [0; 0]%R, 0%R, [1; 0]%R.
  split; [reflexivity|]. do 3 (split; [reflexivity|]). split; [|split].
  - split; [reflexivity|]. do 4 (split; [reflexivity|]). intros i Hi Z. destruct i as [|[|i]]; cbn in *; [lra|lra|lia].
  - unfold eis_solve, eis_pick. cbn. destruct (Rlt_dec 0 0); [lra|]. cbn.
    assert (N : sqrt (0 + 1 * 1 + 0 * 0) = 1%R) by (replace (0 + 1 * 1 + 0 * 0)%R with 1%R by ring; apply sqrt_1). rewrite N. destruct (Req_EM_T 1 0); [lra|].
    unfold vscale. cbn. f_equal. f_equal. f_equal; [field|]. f_equal. field.
  - intros (y & z & Ey & Ez & _ & H). injection Ez as <-. specialize (H 1 ltac:(cbn; lia)). cbn in Ey. injection Ey as <-. unfold cmp in H. cbn in H. lra.
Qed.

(** ** Two unknowns exchanged by A *)
Definition ex_mul (v : list R) : res (list R) := Ok (vec 2 (fun i => cmp v (1 - i))).
Definition id_mul (v : list R) : res (list R) := Ok (vec 2 (cmp v)).
Definition ex_op (v : list R) (i : nat) : R := cmp v (1 - i).
Definition one_pair (M W : dense) : res (R * list R) := one_eig M (Some W).
(** An exact solve of (A - l) w = r *)
Definition ex_pc (l : R) (r u : list R) : res (list R) :=
  if Req_EM_T (1 - l * l) 0 then Err else Ok (vec 2 (fun i => (l * cmp r i + cmp r (1 - i)) / (1 - l * l)))%R.

Lemma ex_is : is_op 2 ex_mul ex_op. Proof. intros v _. reflexivity. Qed.
Lemma id_is : is_op 2 id_mul cmp. Proof. intros v _. reflexivity. Qed.
Lemma ex_linear : linear 2 ex_op. Proof. intros u v w a Hu Hv Hw E i Hi. apply E. lia. Qed.
Lemma one_units : unit_pairs one_pair.
Proof.
  intros M W ly Sq E. split; [apply one_eig_ok; auto|]. unfold one_pair, one_eig in E.
  destruct (Nat.eq_dec (dm M) 1) as [A1|]; [|discriminate]. destruct (Nat.eq_dec (dn M) 1) as [A2|]; [|discriminate].
  destruct (Nat.eq_dec (dm W) 1) as [A3|]; [|discriminate]. destruct (Nat.eq_dec (dn W) 1) as [A4|]; [|discriminate].
  destruct (Nat.eq_dec (length (dv M)) 1) as [A5|]; [|discriminate]. destruct (Nat.eq_dec (length (dv W)) 1) as [A6|]; [|discriminate].
  destruct (Req_EM_T (nth 0 (dv W) 0%R) 0) as [|NZ]; [discriminate|]. injection E as <-. rewrite A2. cbn. replace (0 + 1 * 1)%R with 1%R by ring. apply sqrt_1.
Qed.
Lemma ex_exact : exact_pc 2 ex_op cmp ex_pc.
Proof.
  intros l r u w Lr Lu E. unfold ex_pc in E. destruct (Req_EM_T (1 - l * l) 0) as [|Nz]; [discriminate|]. injection E as <-. split; [apply vec_length|]. split.
  - intros e He. unfold gap, ex_op. destruct e as [|[|e]]; [| |lia]; unfold cmp; cbn; field; auto.
  - intros v Lv H. assert (H0 := H 0 ltac:(lia)). assert (H1 := H 1 ltac:(lia)). unfold gap, ex_op in H0, H1. cbn [Nat.sub] in H0, H1.
    change (1 - 1) with 0 in H1.
    assert (Z0 : ((1 - l * l) * cmp v 0 = 0)%R) by (replace ((1 - l * l) * cmp v 0)%R with ((cmp v 0 - l * cmp v 1) + l * (cmp v 1 - l * cmp v 0))%R by ring; rewrite H0, H1; ring).
    assert (Z1 : ((1 - l * l) * cmp v 1 = 0)%R) by (replace ((1 - l * l) * cmp v 1)%R with ((cmp v 1 - l * cmp v 0) + l * (cmp v 0 - l * cmp v 1))%R by ring; rewrite H0, H1; ring).
    apply Rmult_integral in Z0. apply Rmult_integral in Z1. intros i Hi. destruct i as [|[|i]]; [| |lia]; tauto.
Qed.
Lemma ex_pc_sized : sized 2 ex_pc.
Proof. intros l r u w Lr Lu E. unfold ex_pc in E. destruct (Req_EM_T _ _); [discriminate|]. injection E as <-. apply vec_length. Qed.

Lemma nrm10 : norm L2 [1; 0]%R = 1%R.
Proof. cbn. replace (0 + 1 * 1 + 0 * 0)%R with 1%R by ring. apply sqrt_1. Qed.
Lemma nrm01 : norm L2 [0; 1]%R = 1%R.
Proof. cbn. replace (0 + 0 * 0 + 1 * 1)%R with 1%R by ring. apply sqrt_1. Qed.
Lemma ex_pass st u0 u1 r0 r1 : db_V st 0 = [1; 0]%R -> db_A st 0 = [0; 1]%R -> db_B st 0 = [1; 0]%R ->
  dav_gram 0 (db_V st) (db_A st) = Ok (D 1 1 [0%R]) /\ dav_gram 0 (db_V st) (db_B st) = Ok (D 1 1 [1%R]) /\ one_pair (D 1 1 [0%R]) (D 1 1 [1%R]) = Ok (0%R, [1%R]) /\
  dav_ritz 0 [1%R] (db_V st) [u0; u1] = Ok [1; 0]%R /\ dav_residual 0 [1%R] 0 (db_A st) (db_B st) [r0; r1] = Ok [0; 1]%R.
Proof.
  intros HV HA HB. split; [|split; [|split; [|split]]].
  - unfold dav_gram. cbn. rewrite HV, HA. cbn. f_equal. f_equal. f_equal. ring.
  - unfold dav_gram. cbn. rewrite HV, HB. cbn. f_equal. f_equal. f_equal. ring.
  - unfold one_pair, one_eig. cbn. destruct (Req_EM_T 1 0); [lra|]. f_equal. f_equal. field.
  - unfold dav_ritz. cbn. rewrite HV. cbn. f_equal. f_equal; [ring|]. f_equal. ring.
  - unfold dav_residual. cbn. rewrite HA. cbn. rewrite HB. cbn. f_equal. f_equal; [ring|]. f_equal. ring.
Qed.
Lemma ex_scale : vscale [1; 0]%R (1 / 1) = [1; 0]%R.
Proof. unfold vscale. cbn. f_equal; [field|]. f_equal. field. Qed.
Lemma ex_muls : ex_mul [1; 0]%R = Ok [0; 1]%R /\ id_mul [1; 0]%R = Ok [1; 0]%R.
Proof. split; reflexivity. Qed.

(** An exact preconditioner breaks down. *)
Lemma exact_breaks : davidson ex_mul id_mul ex_pc one_pair 2 10 (1 / 2) [0; 0]%R [1; 0]%R (repeat 0%R 11) = UB.
Proof.
  unfold davidson. cbn [rd nth_error bind length]. rewrite (@vcopy_ok 2) by reflexivity. cbn [bind]. rewrite nrm10. destruct (Req_EM_T 1 0); [lra|]. rewrite ex_scale.
  rewrite (proj1 ex_muls). cbn [bind]. rewrite (proj2 ex_muls). cbn [bind Nat.eqb]. change (10 / 2 + 1) with 6. cbn [dav_outer].
  set (st := {| db_V := _; db_A := _; db_B := _ |}). cbn [dav_inner repeat].
  destruct (@ex_pass st 0%R 0%R 0%R 0%R eq_refl eq_refl eq_refl) as (E1 & E2 & E3 & E4 & E5). rewrite E1. cbn [bind]. rewrite E2. cbn [bind]. rewrite E3. cbn [bind fst snd]. rewrite E4. cbn [bind].
  rewrite E5. cbn [bind]. rewrite nrm01. unfold wr. cbn [length Nat.ltb Nat.leb bind Nat.eqb]. destruct (Rlt_dec 1 (1 / 2)); [lra|]. rewrite (@vcopy_ok 2) by reflexivity. cbn [bind Nat.sub Nat.eqb].
  unfold ex_pc. destruct (Req_EM_T (1 - 0 * 0) 0); [lra|]. cbn [bind].
  assert (Ew : vec 2 (fun i => (0 * cmp [0; 1] i + cmp [0; 1] (1 - i)) / (1 - 0 * 0))%R = [1; 0]%R) by (cbn; f_equal; [field|]; f_equal; field).
  rewrite Ew. assert (Eo : dav_orth 0 [1%R] (db_V st) [1; 0]%R = Ok [0; 0]%R).
  { unfold dav_orth. cbn. f_equal. f_equal; [ring|]. f_equal. ring. }
  rewrite Eo. cbn [bind]. assert (N : norm L2 [0; 0]%R = 0%R) by (cbn; replace (0 + 0 * 0 + 0 * 0)%R with 0%R by ring; apply sqrt_0). rewrite N. destruct (Req_EM_T 0 0); [|lra]. reflexivity.
Qed.

(** One vector, three problems solved with a limit of two. *)
Lemma one_vector_stays : exists res, davidson ex_mul id_mul ex_pc one_pair 1 2 (1 / 2) [0; 0]%R [1; 0]%R (repeat 0%R 3) = Ok res /\
  dr_status res = DMAXIT /\ dr_it res = 1 /\ dr_solves res = 3 /\ dr_u res = [1; 0]%R.
Proof.
  assert (step : forall fuel st u0 u1 t0 t1 r0 r1 l h0 h1 h2 k, db_V st 0 = [1; 0]%R -> db_A st 0 = [0; 1]%R -> db_B st 0 = [1; 0]%R ->
    exists st' l', db_V st' 0 = [1; 0]%R /\ db_A st' 0 = [0; 1]%R /\ db_B st' 0 = [1; 0]%R /\
    dav_outer ex_mul id_mul ex_pc one_pair 1 2 (1 / 2) (S fuel) 1 st [u0; u1] [t0; t1] [r0; r1] l [h0; h1; h2] k =
    dav_outer ex_mul id_mul ex_pc one_pair 1 2 (1 / 2) fuel 1 st' [1; 0]%R [1; 0]%R [r0; r1] l' [h0; 1%R; h2] (S k)).
  { intros fuel st u0 u1 t0 t1 r0 r1 l h0 h1 h2 k H1 H2 H3. cbn [dav_outer dav_inner].
    destruct (@ex_pass st u0 u1 r0 r1 H1 H2 H3) as (E1 & E2 & E3 & E4 & E5). rewrite E1. cbn [bind]. rewrite E2. cbn [bind]. rewrite E3. cbn [bind fst snd]. rewrite E4. cbn [bind].
    rewrite E5. cbn [bind]. rewrite nrm01. unfold wr. cbn [length Nat.ltb Nat.leb bind Nat.eqb]. destruct (Rlt_dec 1 (1 / 2)); [lra|]. rewrite (@vcopy_ok 2) by reflexivity. cbn [bind Nat.sub Nat.eqb].
    rewrite (proj1 ex_muls). cbn [bind]. rewrite (proj2 ex_muls). cbn [bind upd]. eexists _, _. split; [|split; [|split; [|reflexivity]]]; reflexivity. }
  unfold davidson. cbn [rd nth_error bind length]. rewrite (@vcopy_ok 2) by reflexivity. cbn [bind]. rewrite nrm10. destruct (Req_EM_T 1 0); [lra|]. rewrite ex_scale.
  rewrite (proj1 ex_muls). cbn [bind]. rewrite (proj2 ex_muls). cbn [bind Nat.eqb]. change (2 / 1 + 1) with 3. set (st := {| db_V := _; db_A := _; db_B := _ |}). cbn [repeat].
  destruct (step 2 st 0%R 0%R 0%R 0%R 0%R 0%R 0%R 0%R 0%R 0%R 0 eq_refl eq_refl eq_refl) as (s1 & l1 & A1 & A2 & A3 & ->).
  destruct (step 1 s1 1%R 0%R 1%R 0%R 0%R 0%R l1 0%R 1%R 0%R 1 A1 A2 A3) as (s2 & l2 & B1 & B2 & B3 & ->).
  destruct (step 0 s2 1%R 0%R 1%R 0%R 0%R 0%R l2 0%R 1%R 0%R 2 B1 B2 B3) as (s3 & l3 & C1 & C2 & C3 & ->). cbn [dav_outer]. eexists. split; [reflexivity|]. auto.
Qed.

(** A run of two steps *)
Definition h2 : R := (/ sqrt 2)%R.
Definition two_pair (M W : dense) : res (R * list R) :=
  if Nat.eq_dec (dm M) 2 then if Nat.eq_dec (dn M) 2 then if list_eq_dec Req_EM_T (dv M) [0; 1; 1; 0]%R then
    if Nat.eq_dec (dm W) 2 then if Nat.eq_dec (dn W) 2 then if list_eq_dec Req_EM_T (dv W) [1; 0; 0; 1]%R then Ok (1%R, [h2; h2]) else Err else Err else Err else Err else Err
  else one_pair M W.
Lemma h2_sq : (h2 * h2 = / 2)%R.
Proof. unfold h2. rewrite <- Rinv_mult, sqrt_sqrt by lra. reflexivity. Qed.
Lemma two_units : unit_pairs two_pair.
Proof.
  intros M W ly Sq E. unfold two_pair in E. destruct (Nat.eq_dec (dm M) 2) as [A|]; [|apply one_units; auto].
  destruct (Nat.eq_dec (dn M) 2) as [A'|]; [|discriminate]. destruct (list_eq_dec Req_EM_T (dv M) [0; 1; 1; 0]%R) as [A''|]; [|discriminate].
  destruct (Nat.eq_dec (dm W) 2) as [B|]; [|discriminate]. destruct (Nat.eq_dec (dn W) 2) as [B'|]; [|discriminate]. destruct (list_eq_dec Req_EM_T (dv W) [1; 0; 0; 1]%R) as [B''|]; [|discriminate].
  injection E as <-. destruct M as [m n0 v], W as [m' n0' v']. cbn [dm dn dv] in *. subst. cbn [fst snd]. split.
  - eexists _, _. split; [cbn; reflexivity|]. split; [cbn; reflexivity|]. split; [reflexivity|]. intros i Hi. cbn [dm] in Hi. destruct i as [|[|i]]; [| |lia]; unfold cmp; cbn; ring.
  - cbn. rewrite !h2_sq. replace (/ 2 + / 2)%R with 1%R by field. replace (0 + / 2 + / 2)%R with 1%R by field. apply sqrt_1.
Qed.
Lemma two_steps : exists res, davidson ex_mul id_mul (fun _ r _ => Ok r) two_pair 2 10 (1 / 2) [0; 0]%R [1; 0]%R (repeat 0%R 11) = Ok res /\ dr_status res = DSUCCESS /\ dr_it res = 2 /\ dr_lambda res = 1%R.
Proof.
  unfold davidson. cbn [rd nth_error bind length]. rewrite (@vcopy_ok 2) by reflexivity. cbn [bind]. rewrite nrm10. destruct (Req_EM_T 1 0); [lra|]. rewrite ex_scale.
  rewrite (proj1 ex_muls). cbn [bind]. rewrite (proj2 ex_muls). cbn [bind Nat.eqb]. change (10 / 2 + 1) with 6. cbn [dav_outer].
  set (st := {| db_V := _; db_A := _; db_B := _ |}). cbn [dav_inner repeat].
  destruct (@ex_pass st 0%R 0%R 0%R 0%R eq_refl eq_refl eq_refl) as (E1 & E2 & E3 & E4 & E5). rewrite E1. cbn [bind]. rewrite E2. cbn [bind]. change (two_pair (D 1 1 [0%R]) (D 1 1 [1%R])) with (one_pair (D 1 1 [0%R]) (D 1 1 [1%R])).
  rewrite E3. cbn [bind fst snd]. rewrite E4. cbn [bind].
  rewrite E5. cbn [bind]. rewrite nrm01. unfold wr. cbn [length Nat.ltb Nat.leb bind Nat.eqb]. destruct (Rlt_dec 1 (1 / 2)); [lra|]. rewrite (@vcopy_ok 2) by reflexivity. cbn [bind Nat.sub Nat.eqb].
  assert (Eo : dav_orth 0 [1%R] (db_V st) [0; 1]%R = Ok [0; 1]%R).
  { unfold dav_orth. cbn. f_equal. f_equal; [ring|]. f_equal. ring. }
  rewrite Eo. cbn [bind]. rewrite nrm01. destruct (Req_EM_T 1 0); [lra|].
  assert (Es : vscale [0; 1]%R (1 / 1) = [0; 1]%R) by (unfold vscale; cbn; f_equal; [field|]; f_equal; field). rewrite Es.
  change (ex_mul [0; 1]%R) with (Ok [1; 0]%R : res (list R)). change (id_mul [0; 1]%R) with (Ok [0; 1]%R : res (list R)). cbn [bind].
  set (s2 := {| db_V := _; db_A := _; db_B := _ |}).
  assert (G1 : dav_gram 1 (db_V s2) (db_A s2) = Ok (D 2 2 [0; 1; 1; 0]%R)) by (unfold dav_gram; cbn; f_equal; f_equal; repeat (f_equal; try ring)).
  assert (G2 : dav_gram 1 (db_V s2) (db_B s2) = Ok (D 2 2 [1; 0; 0; 1]%R)) by (unfold dav_gram; cbn; f_equal; f_equal; repeat (f_equal; try ring)).
  rewrite G1. cbn [bind]. rewrite G2. cbn [bind].
  assert (G3 : two_pair (D 2 2 [0; 1; 1; 0]%R) (D 2 2 [1; 0; 0; 1]%R) = Ok (1%R, [h2; h2])).
  { unfold two_pair. cbn [dm dn dv]. destruct (Nat.eq_dec 2 2); [|lia]. destruct (list_eq_dec _ _ _); [|congruence]. destruct (list_eq_dec _ _ _); [|congruence]. reflexivity. }
  rewrite G3. cbn [bind fst snd].
  assert (G4 : dav_ritz 1 [h2; h2] (db_V s2) [0; 1]%R = Ok [h2; h2]) by (unfold dav_ritz; cbn; f_equal; f_equal; [ring|]; f_equal; ring). rewrite G4. cbn [bind].
  assert (G5 : dav_residual 1 [h2; h2] 1 (db_A s2) (db_B s2) [0; 1]%R = Ok [0; 0]%R) by (unfold dav_residual; cbn; f_equal; f_equal; [ring|]; f_equal; ring). rewrite G5. cbn [bind].
  assert (N : norm L2 [0; 0]%R = 0%R) by (cbn; replace (0 + 0 * 0 + 0 * 0)%R with 0%R by ring; apply sqrt_0). rewrite N. cbn [length Nat.ltb Nat.leb bind Nat.eqb upd]. destruct (Rlt_dec 0 (1 / 2)); [|lra].
  cbn [bind]. eexists. split; [reflexivity|]. auto.
Qed.
