(** * Rom_Proofs: Galerkin projection. *)
From Verif Require Import Base BaseR Loop Vector_Spec Vector_Proofs Solver_Spec Gmres_Model Gmres_Spec Gmres_Proofs Matrix_Model Dense_Model Dense_Spec Dense_Proofs Rom_Model Rom_Spec.
From Verif Require Dsa_Proofs.
From Coq Require Import Lra.
Set Implicit Arguments. Unset Strict Implicit.
Open Scope nat_scope.

Lemma dent_entry U i j : dent U i j = entry U i j. Proof. reflexivity. Qed.

Lemma rom_column_ok U i : dwf U -> i < dn U -> rom_column U i = Ok (vec (dm U) (fun j => entry U j i)).
Proof.
  intros W Hi. unfold rom_column, vec. apply mapM_ok. intros j Hj. apply in_seq in Hj. rewrite dget_ok; auto; lia.
Qed.

Section Proj.
  Variables (U : dense) (n r : nat) (A : vop) (op : list R -> nat -> R).
  Hypothesis W : dwf U.
  Hypothesis Hn : dm U = n.
  Hypothesis Hr : dn U = r.
  Hypothesis HA : is_op n A op.

  Definition col (j : nat) : list R := vec n (fun i => entry U i j).

  Lemma fold_col f j (v : nat -> R) k : forall a b, fold_left tbl_upd (map (fun i => DOp i j (v i) INSERT) (seq 0 k)) f a b =
    if (b =? j) && (a <? k) then v a else f a b.
  Proof.
    induction k as [|k IH]; intros a b.
    - cbn. rewrite andb_false_r. auto.
    - rewrite seq_S, map_app, fold_left_app. cbn [map fold_left Nat.add]. unfold tbl_upd at 1. cbn [d_i d_j d_x d_t]. rewrite IH.
      destruct (Nat.eqb_spec a k) as [->|Na], (Nat.eqb_spec b j) as [->|Nb]; cbn [andb]; auto.
      + rewrite (proj2 (Nat.ltb_lt k (S k))) by lia. auto.
      + destruct (Nat.ltb_spec a k), (Nat.ltb_spec a (S k)); auto; lia.
  Qed.

  Lemma project_ok : exists Ar, project A U (dense_new r r 0%R) = Ok Ar /\ dwf Ar /\ dm Ar = r /\ dn Ar = r /\
    forall i j, i < r -> j < r -> entry Ar i j = along U (op (col j)) i.
  Proof.
    unfold project. rewrite Hr.
    destruct (@for_inv _ (fun h Ar => dwf Ar /\ dm Ar = r /\ dn Ar = r /\ forall i j, i < r -> j < h -> entry Ar i j = along U (op (col j)) i)
      0 r (dense_new r r 0%R) (fun i Ar => do v <- rom_column U i; do y <- A v; do y2 <- dmultiply_transpose U y; dinsert_col Ar i y2 INSERT)) as (Ar & E & H); [lia|..].
    - split; [unfold dwf; cbn; apply repeat_length|]. do 2 (split; [reflexivity|]). intros; lia.
    - intros j Ar Hj (WA & D1 & D2 & H). rewrite rom_column_ok by (auto; lia). cbn [bind]. rewrite Hn. fold (col j). rewrite HA by apply vec_length. cbn [bind].
      destruct (@dmultiply_transpose_spec U (vec n (op (col j)))) as (y & -> & Ly & Hy); auto; [rewrite vec_length; auto|]. cbn [bind].
      rewrite dinsert_col_ok by (auto; lia).
      destruct (@dense_history_gen (map (fun i => DOp i j (nth i y 0%R) INSERT) (seq 0 (dm Ar))) Ar WA) as (Ar' & E & W' & D1' & D2' & H').
      { apply Forall_forall. intros o Ho. apply in_map_iff in Ho. destruct Ho as (i & <- & Hi). apply in_seq in Hi. unfold dop_ok. cbn. lia. }
      exists Ar'. split; auto. split; auto. split; [congruence|]. split; [congruence|]. intros a b Ha Hb. rewrite <- dent_entry, H' by lia. rewrite fold_col.
      destruct (Nat.eqb_spec b j) as [->|Nb]; cbn [andb].
      + rewrite (proj2 (Nat.ltb_lt a (dm Ar))) by lia. rewrite Hy by lia. unfold along. rewrite Hn. apply rsum_ext. intros k Hk.
        rewrite vec_nth by auto. rewrite dent_entry. ring.
      + apply H; lia.
    - exists Ar. auto.
  Qed.

  (** The projected matrix acts as U^T A U. *)
  Hypothesis LA : linear n op.
  Lemma op_lift c i : i < n -> op (lift U c) i = rsum r (fun j => op (col j) i * cmp c j)%R.
  Proof.
    intros Hi. unfold lift. rewrite Hn, Hr.
    assert (G : forall k, k <= r -> op (vec n (fun i => rsum k (fun j => entry U i j * cmp c j)%R)) i = rsum k (fun j => op (col j) i * cmp c j)%R); [|auto].
    induction k as [|k IH]; intros Hk.
    - cbn [rsum]. apply (lin_zero LA); auto using vec_length. intros j Hj. rewrite cmp_vec by auto. auto.
    - cbn [rsum]. rewrite <- IH by lia. rewrite (LA (u := vec n (fun i => rsum k (fun j => entry U i j * cmp c j)%R)) (v := col k) (a := cmp c k)); auto; try apply vec_length; [ring|].
      intros j Hj. unfold col. rewrite !cmp_vec by auto. ring.
  Qed.
  Lemma project_acts Ar c : project A U (dense_new r r 0%R) = Ok Ar -> length c = r ->
    exists y, dmultiply Ar c = Ok y /\ length y = r /\ forall i, i < r -> cmp y i = along U (op (lift U c)) i.
  Proof.
    intros E Hc. destruct project_ok as (Ar' & E' & WA & D1 & D2 & H). assert (Ar' = Ar) as -> by congruence.
    destruct (@dmultiply_spec Ar c WA) as (y & Ey & Ly & Hy); [congruence|]. exists y. split; auto. split; [congruence|]. intros i Hi.
    unfold cmp at 1. rewrite Hy by lia. rewrite D2. unfold along. rewrite Hn.
    rewrite (@rsum_ext r _ (fun j => rsum n (fun k => entry U k i * op (col j) k * cmp c j)%R)).
    - rewrite rsum_swap. apply rsum_ext. intros k Hk. rewrite op_lift by auto. rewrite <- rsum_scal. apply rsum_ext. intros; ring.
    - intros j Hj. rewrite dent_entry, H by auto. unfold along. rewrite Hn. rewrite <- rsum_scal_r. reflexivity.
  Qed.
End Proj.

Lemma lift_multiply U c : dwf U -> length c = dn U -> dmultiply U c = Ok (lift U c).
Proof.
  intros W Hc. destruct (@dmultiply_spec U c W Hc) as (y & -> & Ly & Hy). f_equal. apply (nth_ext _ _ 0%R 0%R); [rewrite Ly; symmetry; apply vec_length|].
  intros i Hi. rewrite Hy by lia. unfold lift. rewrite vec_nth by lia. reflexivity.
Qed.

Lemma sign_nonneg v : (forall i, i < length v -> (0 <= cmp v i)%R) -> rom_sign v = v.
Proof.
  intros H. unfold rom_sign. rewrite <- (map_id v) at 2. apply map_ext_in. intros a Ha. destruct (Rlt_dec a 0) as [N|]; auto. exfalso.
  destruct (In_nth _ _ 0%R Ha) as (i & Hi & E). specialize (H i Hi). unfold cmp in H. rewrite E in H. lra.
Qed.
Lemma sign_nonpos v : (forall i, i < length v -> (cmp v i <= 0)%R) -> rom_sign v = map (fun s => (s * -1)%R) v.
Proof.
  intros H. unfold rom_sign. apply map_ext_in. intros a Ha. destruct (Rlt_dec a 0) as [|N]; auto.
  destruct (In_nth _ _ 0%R Ha) as (i & Hi & E). specialize (H i Hi). unfold cmp in H. rewrite E in H. assert (a = 0)%R as -> by lra. ring.
Qed.
Lemma sign_abs v i : cmp (rom_sign v) i = Rabs (cmp v i).
Proof.
  unfold cmp, rom_sign. destruct (Nat.lt_ge_cases i (length v)) as [Hi|Hi].
  - rewrite (nth_indep _ 0%R (if Rlt_dec 0 0 then (0 * -1)%R else 0%R)) by (rewrite map_length; auto). rewrite (map_nth (fun s => if Rlt_dec s 0 then (s * -1)%R else s)).
    unfold Rabs. destruct (Rlt_dec (nth i v 0%R) 0), (Rcase_abs (nth i v 0%R)); lra.
  - rewrite !nth_overflow by (rewrite ?map_length; auto). rewrite Rabs_R0. auto.
Qed.

(** The residual of a reduced solution has no component along the basis. *)
Lemma rom_galerkin n r U A opA B opB eig k sol :
  dwf U -> dm U = n -> dn U = r -> is_op n A opA -> linear n opA -> is_op n B opB -> linear n opB ->
  (forall M Wt kx, eig M Wt = Ok kx -> reduced_pair M Wt (fst kx) (snd kx)) ->
  rom_solve A (Some B) eig U = Ok (k, sol) ->
  exists c, length c = r /\ sol = rom_sign (lift U c) /\ forall i, i < r -> along U (fun e => opB (lift U c) e - k * opA (lift U c) e)%R i = 0%R.
Proof.
  intros W Hn Hr HA LA HB LB HE E. unfold rom_solve in E. rewrite Hr in E.
  destruct (@project_ok U n r A opA W Hn Hr HA) as (Ar & EA & _ & DA & DA' & _). rewrite EA in E. cbn [bind] in E.
  destruct (@project_ok U n r B opB W Hn Hr HB) as (Br & EB & _ & DB & DB' & _). rewrite EB in E. cbn [bind] in E.
  destruct (eig Br (Some Ar)) as [[k0 c]| |] eqn:Ee; cbn [bind] in E; try discriminate.
  destruct (HE _ _ _ Ee) as (y & z & Ey & Ez & Lc & H). cbn [fst snd] in *. rewrite DB' in Lc.
  rewrite lift_multiply in E by (auto; lia). cbn [bind] in E. injection E as <- <-. exists c. split; auto. split; auto. intros i Hi.
  destruct (@project_acts U n r B opB W Hn Hr HB LB Br c EB Lc) as (y' & Ey' & _ & Hy). assert (y' = y) as -> by congruence.
  destruct (@project_acts U n r A opA W Hn Hr HA LA Ar c EA Lc) as (z' & Ez' & _ & Hz). assert (z' = z) as -> by congruence.
  specialize (H i ltac:(lia)). rewrite Hy, Hz in H by auto. unfold along in *.
  rewrite (@rsum_ext (dm U) _ (fun e => entry U e i * opB (lift U c) e - k0 * (entry U e i * opA (lift U c) e))%R) by (intros; ring).
  rewrite rsum_minus, rsum_scal, H. ring.
Qed.

Lemma along_lift U c i : unit_basis U -> i < dn U -> length c = dn U -> along U (cmp (lift U c)) i = cmp c i.
Proof.
  intros O Hi Hc. unfold along, lift.
  rewrite (@rsum_ext (dm U) _ (fun e => rsum (dn U) (fun j => entry U e i * entry U e j * cmp c j))%R).
  - rewrite rsum_swap. rewrite <- (@rsum_delta (dn U) i (cmp c i) Hi). apply rsum_ext. intros j Hj. rewrite rsum_scal_r.
    specialize (O i j Hi Hj). unfold along in O. rewrite O. rewrite (Nat.eqb_sym j i). destruct (Nat.eqb_spec i j) as [->|]; ring.
  - intros e He. rewrite cmp_vec by auto. rewrite <- rsum_scal. apply rsum_ext. intros; ring.
Qed.

Lemma rom_galerkin_independent n r U A opA eig k sol :
  dwf U -> dm U = n -> dn U = r -> is_op n A opA -> linear n opA ->
  (forall M Wt kx, eig M Wt = Ok kx -> reduced_pair M Wt (fst kx) (snd kx)) ->
  rom_solve A None eig U = Ok (k, sol) ->
  exists c, length c = r /\ sol = rom_sign (lift U c) /\
    (forall i, i < r -> along U (opA (lift U c)) i = (k * cmp c i)%R) /\
    (unit_basis U -> forall i, i < r -> along U (fun e => opA (lift U c) e - k * cmp (lift U c) e)%R i = 0%R).
Proof.
  intros W Hn Hr HA LA HE E. unfold rom_solve in E. rewrite Hr in E.
  destruct (@project_ok U n r A opA W Hn Hr HA) as (Ar & EA & _ & DA & DA' & _). rewrite EA in E. cbn [bind] in E.
  destruct (eig Ar None) as [[k0 c]| |] eqn:Ee; cbn [bind] in E; try discriminate.
  destruct (HE _ _ _ Ee) as (y & z & Ey & Ez & Lc & H). cbn [fst snd] in *. rewrite DA' in Lc. injection Ez as <-.
  rewrite lift_multiply in E by (auto; lia). cbn [bind] in E. injection E as <- <-. exists c. split; auto. split; auto.
  destruct (@project_acts U n r A opA W Hn Hr HA LA Ar c EA Lc) as (y' & Ey' & _ & Hy). assert (y' = y) as -> by congruence.
  assert (K : forall i, i < r -> along U (opA (lift U c)) i = (k0 * cmp c i)%R) by (intros i Hi; rewrite <- Hy by auto; apply H; lia).
  split; auto. intros O i Hi. unfold along in *.
  rewrite (@rsum_ext (dm U) _ (fun e => entry U e i * opA (lift U c) e - k0 * (entry U e i * cmp (lift U c) e))%R) by (intros; ring).
  rewrite rsum_minus, rsum_scal, K by auto. fold (along U (cmp (lift U c)) i). rewrite along_lift by (auto; lia). ring.
Qed.

(** A solution of the full problem within the basis is found by the reduced one. *)
Lemma rom_exact n r U A opA B opB k c :
  dwf U -> dm U = n -> dn U = r -> is_op n A opA -> linear n opA -> is_op n B opB -> linear n opB -> length c = r ->
  (forall e, e < n -> opB (lift U c) e = (k * opA (lift U c) e)%R) ->
  exists Ar Br, project A U (dense_new r r 0%R) = Ok Ar /\ project B U (dense_new r r 0%R) = Ok Br /\ reduced_pair Br (Some Ar) k c.
Proof.
  intros W Hn Hr HA LA HB LB Lc HF.
  destruct (@project_ok U n r A opA W Hn Hr HA) as (Ar & EA & _ & DA & DA' & _).
  destruct (@project_ok U n r B opB W Hn Hr HB) as (Br & EB & _ & DB & DB' & _). exists Ar, Br. split; auto. split; auto.
  destruct (@project_acts U n r B opB W Hn Hr HB LB Br c EB Lc) as (y & Ey & _ & Hy).
  destruct (@project_acts U n r A opA W Hn Hr HA LA Ar c EA Lc) as (z & Ez & _ & Hz).
  exists y, z. split; auto. split; auto. split; [congruence|]. intros i Hi. rewrite DB in Hi. rewrite Hy, Hz by auto. unfold along.
  rewrite <- rsum_scal. apply rsum_ext. intros e He. rewrite HF by lia. ring.
Qed.
Lemma rom_exact_independent n r U A opA k c :
  dwf U -> dm U = n -> dn U = r -> is_op n A opA -> linear n opA -> length c = r -> unit_basis U ->
  (forall e, e < n -> opA (lift U c) e = (k * cmp (lift U c) e)%R) ->
  exists Ar, project A U (dense_new r r 0%R) = Ok Ar /\ reduced_pair Ar None k c.
Proof.
  intros W Hn Hr HA LA Lc O HF.
  destruct (@project_ok U n r A opA W Hn Hr HA) as (Ar & EA & _ & DA & DA' & _). exists Ar. split; auto.
  destruct (@project_acts U n r A opA W Hn Hr HA LA Ar c EA Lc) as (y & Ey & _ & Hy).
  exists y, c. split; auto. split; auto. split; [congruence|]. intros i Hi. rewrite DA in Hi. rewrite Hy by auto.
  rewrite <- (@along_lift U c i) by (auto; lia). unfold along. rewrite <- rsum_scal. apply rsum_ext. intros e He. rewrite HF by lia. ring.
Qed.

(** Reading a basis. *)
Lemma get_basis_ok file U : dwf U -> 0 < dn U -> dn U * dm U <= length file ->
  exists U', get_basis file U = Ok U' /\ dwf U' /\ dm U' = dm U /\ dn U' = dn U /\
    forall i j, i < dm U -> j < dn U -> entry U' i j = nth (i * dn U + j) file 0%R.
Proof.
  intros W R0 HF. unfold get_basis.
  destruct (@for_inv _ (fun h V => dwf V /\ dm V = dm U /\ dn V = dn U /\ forall i j, i < dm U -> j < dn U -> i * dn U + j < h -> entry V i j = nth (i * dn U + j) file 0%R)
    0 (dn U * dm U) U (fun c U => do b <- rd file c; dinsert U (c / dn U) (c mod dn U) b INSERT)) as (V & E & WV & D1 & D2 & H); [lia|..].
  - do 3 (split; auto). intros; lia.
  - intros c V Hc (WV & D1 & D2 & H). rewrite (@rd_ok _ file c 0%R) by lia. cbn [bind].
    assert (CI : c / dn U < dm U) by (apply Nat.div_lt_upper_bound; lia). assert (CJ : c mod dn U < dn U) by (apply Nat.mod_upper_bound; lia).
    destruct (@dinsert_ok V (c / dn V) (c mod dn V) (nth c file 0%R) INSERT) as (V' & E & W' & D1' & D2' & H'); auto; [rewrite D1, D2; auto|rewrite D2; auto|].
    exists V'. split; auto. split; auto. split; [congruence|]. split; [congruence|]. intros i j Hi Hj Hc'.
    rewrite <- dent_entry, H' by lia. unfold tbl_upd. cbn [d_i d_j d_x d_t]. rewrite D2. assert (CE := Nat.div_mod_eq c (dn U)).
    destruct (Nat.eqb_spec i (c / dn U)) as [Ei|Ni]; [destruct (Nat.eqb_spec j (c mod dn U)) as [Ej|Nj]|]; cbn [andb].
    + f_equal. subst i j. lia.
    + apply H; auto. assert (i * dn U + j <> c) by (intros E1; apply Nj; rewrite <- E1, Nat.add_comm, Nat.mod_add, Nat.mod_small; lia). lia.
    + apply H; auto. assert (i * dn U + j <> c) by (intros E1; apply Ni; rewrite <- E1, Nat.div_add_l, Nat.div_small; lia). lia.
  - exists V. split; auto. do 3 (split; auto). intros i j Hi Hj. apply H; auto. nia.
Qed.

Lemma rom_one_sign v : one_sign v -> exists s, (s = 1 \/ s = -1)%R /\ forall e, cmp (rom_sign v) e = (s * cmp v e)%R.
Proof.
  intros [H|H].
  - exists 1%R. split; auto. intros e. rewrite sign_nonneg by auto. ring.
  - exists (-1)%R. split; auto. intros e. rewrite sign_abs. destruct (Nat.lt_ge_cases e (length v)) as [L|L].
    + specialize (H e L). rewrite Rabs_left1 by auto. ring.
    + unfold cmp. rewrite nth_overflow by auto. rewrite Rabs_R0. ring.
Qed.

(** ** Witnesses *)
Lemma id_linear n : linear n cmp.
Proof. intros u v w a Hu Hv Hw E i Hi. auto. Qed.
Lemma id_op n : is_op n (fun v => Ok v) cmp.
Proof. intros v Hv. f_equal. symmetry. apply Dsa_Proofs.vec_cmp. auto. Qed.
Lemma lift1 a b c e : e < 2 -> cmp (lift (D 2 1 [a; b]) c) e = (nth e [a; b] 0 * cmp c 0)%R.
Proof. intros He. unfold lift. rewrite cmp_vec by auto. cbn [dn rsum]. destruct e as [|[|e]]; [| |lia]; cbn; ring. Qed.

Lemma basis_wrong : exists U A opA k c, dwf U /\ dm U = 2 /\ dn U = 1 /\ is_op 2 A opA /\ linear 2 opA /\ length c = 1 /\
  (exists e, e < 2 /\ cmp (lift U c) e <> 0%R) /\ (forall e, e < 2 -> opA (lift U c) e = (k * cmp (lift U c) e)%R) /\
  forall Ar k' c', project A U (dense_new 1 1 0%R) = Ok Ar -> reduced_pair Ar None k' c' -> cmp c' 0 <> 0%R -> k' <> k.
Proof.
  exists (D 2 1 [1%R; 1%R]), (fun v => Ok v), cmp, 1%R, [1%R]. split; [reflexivity|]. do 2 (split; [reflexivity|]). split; [apply id_op|]. split; [apply id_linear|].
  split; [reflexivity|]. split; [exists 0; split; [lia|rewrite lift1 by lia; cbn; lra]|]. split; [intros; ring|].
  intros Ar k' c' E (y & z & Ey & Ez & Lc & H) Hc. destruct (@project_ok (D 2 1 [1%R; 1%R]) 2 1 (fun v => Ok v) cmp eq_refl eq_refl eq_refl (@id_op 2)) as (Ar' & E' & _ & D1 & D2 & _).
  assert (Ar' = Ar) as -> by congruence. rewrite D2 in Lc.
  destruct (@project_acts (D 2 1 [1%R; 1%R]) 2 1 (fun v => Ok v) cmp eq_refl eq_refl eq_refl (@id_op 2) (@id_linear 2) Ar c' E Lc) as (y' & Ey' & _ & Hy).
  assert (y' = y) as -> by congruence. injection Ez as <-. specialize (H 0 ltac:(lia)). rewrite Hy in H by lia. unfold along in H. cbn [dm rsum] in H.
  rewrite !lift1 in H by lia. cbn in H. intros ->. lra.
Qed.

(** An eigensolver for one unknown, for weights that are not zero. *)
Definition one_eig (M : dense) (W : option dense) : res (R * list R) :=
  match W with
  | Some W => if Nat.eq_dec (dm M) 1 then if Nat.eq_dec (dn M) 1 then if Nat.eq_dec (dm W) 1 then if Nat.eq_dec (dn W) 1 then
      if Nat.eq_dec (length (dv M)) 1 then if Nat.eq_dec (length (dv W)) 1 then
      if Req_EM_T (nth 0 (dv W) 0%R) 0 then Err else Ok ((nth 0 (dv M) 0 / nth 0 (dv W) 0)%R, [1%R]) else Err else Err else Err else Err else Err else Err
  | None => Err
  end.
Lemma one_eig_ok M Wt kx : one_eig M Wt = Ok kx -> reduced_pair M Wt (fst kx) (snd kx).
Proof.
  unfold one_eig. destruct Wt as [W|]; [|discriminate]. destruct (Nat.eq_dec (dm M) 1) as [A1|]; [|discriminate]. destruct (Nat.eq_dec (dn M) 1) as [A2|]; [|discriminate].
  destruct (Nat.eq_dec (dm W) 1) as [A3|]; [|discriminate]. destruct (Nat.eq_dec (dn W) 1) as [A4|]; [|discriminate].
  destruct (Nat.eq_dec (length (dv M)) 1) as [A5|]; [|discriminate]. destruct (Nat.eq_dec (length (dv W)) 1) as [A6|]; [|discriminate].
  destruct (Req_EM_T (nth 0 (dv W) 0%R) 0) as [|NZ]; [discriminate|]. intros [= <-].
  destruct (@dmultiply_spec M [1%R]) as (y & Ey & Ly & Hy); [unfold dwf; lia|cbn; lia|].
  destruct (@dmultiply_spec W [1%R]) as (z & Ez & Lz & Hz); [unfold dwf; lia|cbn; lia|].
  exists y, z. split; auto. split; auto. split; [cbn; lia|]. intros i Hi. assert (i = 0) as -> by lia. unfold cmp. rewrite Hy, Hz by lia.
  rewrite A2, A4. cbn [rsum]. unfold dent, mdidx. cbn. field. auto.
Qed.

Definition swap_op (v : list R) (i : nat) : R := match i with 0 => - nth 1 v 0 | _ => - nth 0 v 0 end%R.
Lemma sign_wrong : exists U A opA B opB eig k sol, dwf U /\ dm U = 2 /\ dn U = 1 /\ is_op 2 A opA /\ linear 2 opA /\ is_op 2 B opB /\ linear 2 opB /\
  (forall M Wt kx, eig M Wt = Ok kx -> reduced_pair M Wt (fst kx) (snd kx)) /\
  rom_solve A (Some B) eig U = Ok (k, sol) /\ (exists c, length c = 1 /\ cmp c 0 <> 0%R /\ forall e, e < 2 -> opB (lift U c) e = (k * opA (lift U c) e)%R) /\
  ~ (forall e, e < 2 -> opB sol e = (k * opA sol e)%R) /\
  ~ (exists s c, length c = 1 /\ forall e, e < 2 -> cmp sol e = (s * cmp (lift U c) e)%R).
Proof.
  exists (D 2 1 [1%R; (-1)%R]), (fun v => Ok v), cmp, (fun v => Ok (vec 2 (swap_op v))), swap_op, one_eig, 1%R, [1%R; 1%R].
  do 3 (split; [reflexivity|]). split; [apply id_op|]. split; [apply id_linear|]. split; [intros v _; reflexivity|]. split.
  { intros u v w a Hu Hv Hw E i Hi. unfold swap_op. assert (E0 := E 0 ltac:(lia)). assert (E1 := E 1 ltac:(lia)). unfold cmp in E0, E1. destruct i; rewrite ?E0, ?E1; ring. }
  split; [exact one_eig_ok|]. split.
  { unfold rom_solve, one_eig. cbn. destruct (Req_EM_T _ 0) as [Z|]; [exfalso; revert Z; cbn; lra|]. cbn. f_equal. f_equal; [field|]. unfold rom_sign. cbn.
    repeat (destruct (Rlt_dec _ 0); try lra); f_equal; try f_equal; lra. }
  split.
  { exists [1%R]. split; auto. split; [cbn; lra|]. intros e He. unfold swap_op. change (nth 1 ?v 0%R) with (cmp v 1). change (nth 0 ?v 0%R) with (cmp v 0).
    rewrite !lift1 by lia. destruct e as [|[|e]]; [| |lia]; cbn; ring. }
  split.
  - intros H. specialize (H 0 ltac:(lia)). unfold swap_op in H. cbn in H. lra.
  - intros (s & c & _ & H). assert (H0 := H 0 ltac:(lia)). assert (H1 := H 1 ltac:(lia)). rewrite lift1 in H0, H1 by lia. cbn in H0, H1. lra.
Qed.

Lemma rom_case : let U := D 2 1 [1%R; 1%R] in let A := fun v => Ok v in let B := fun v => Ok [(nth 0 v 0 + nth 1 v 0)%R; (nth 0 v 0 + nth 1 v 0)%R] in
  dwf U /\ is_op 2 A cmp /\ is_op 2 B (fun v _ => (nth 0 v 0 + nth 1 v 0)%R) /\
  (forall e, e < 2 -> (nth 0 (lift U [1%R]) 0 + nth 1 (lift U [1%R]) 0 = 2 * cmp (lift U [1%R]) e)%R) /\
  rom_solve A (Some B) one_eig U = Ok (2%R, [1%R; 1%R]) /\ get_basis [1%R; 2%R; 3%R; 4%R; 5%R; 6%R] (dense_new 3 2 0%R) = Ok (D 3 2 [1%R; 3%R; 5%R; 2%R; 4%R; 6%R]).
Proof.
  cbn zeta. split; [reflexivity|]. split; [apply id_op|]. split; [intros v _; reflexivity|]. split; [|split].
  - intros e He. destruct e as [|[|e]]; [| |lia]; cbn; ring.
  - unfold rom_solve, one_eig. cbn. destruct (Req_EM_T _ 0) as [Z|]; [exfalso; revert Z; cbn; lra|]. cbn. f_equal. f_equal; [field|]. unfold rom_sign. cbn.
    repeat (destruct (Rlt_dec _ 0); try lra); f_equal; try f_equal; lra.
  - reflexivity.
Qed.
