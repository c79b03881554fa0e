(** * Davidson_Proofs2: what a Davidson solve reports, when it ends, when it breaks down. *)
From Verif Require Import Base BaseR Loop Vector_Model Vector_Spec Vector_Proofs Solver_Spec Gmres_Model Gmres_Spec Gmres_Proofs Matrix_Model Dense_Model Dense_Spec Dense_Proofs Rom_Spec Davidson_Model Davidson_Spec Davidson_Proofs.
From Verif Require Dsa_Proofs2.
From Coq Require Import Lra.
Set Implicit Arguments. Unset Strict Implicit.
Open Scope nat_scope.

Section Main.
  Variables (n : nat) (mulA mulB : vop) (opA opB : list R -> nat -> R) (P : R -> list R -> list R -> res (list R)) (psolve : dense -> dense -> res (R * list R)).
  Variables (s maxit : nat) (tol : R).
  Hypothesis HA : is_op n mulA opA.
  Hypothesis LA : linear n opA.
  Hypothesis HB : is_op n mulB opB.
  Hypothesis LB : linear n opB.
  Hypothesis HP : sized n P.
  Hypothesis HS : unit_pairs psolve.
  Notation ip := (ip n). Notation orthonormal := (orthonormal n).
  Notation gap := (gap opA opB).

  Definition based (i : nat) (st : dbase) : Prop := orthonormal (S i) (db_V st) /\
    forall j, j <= i -> db_A st j = vec n (opA (db_V st j)) /\ db_B st j = vec n (opB (db_V st j)).

  (** One projected problem. *)
  Lemma pass i st u r : based i st -> length u = n -> length r = n ->
    forall A B ly, dav_gram i (db_V st) (db_A st) = Ok A -> dav_gram i (db_V st) (db_B st) = Ok B -> psolve A B = Ok ly ->
    length (snd ly) = S i /\
    exists w q, dav_ritz i (snd ly) (db_V st) u = Ok w /\ dav_residual i (snd ly) (fst ly) (db_A st) (db_B st) r = Ok q /\ length w = n /\ length q = n /\
      (forall e, e < n -> cmp w e = rsum (S i) (fun j => cmp (snd ly) j * cmp (db_V st j) e)%R) /\
      ip w w = 1%R /\ (forall e, e < n -> cmp q e = gap (fst ly) w e) /\ forall j, j <= i -> ip q (db_V st j) = 0%R.
  Proof.
    intros [O HAB] Lu Lr A B [l y] EA EB EP. assert (HV := proj1 O). assert (HO := proj2 O). cbn [fst snd].
    assert (LVA : forall j, j <= i -> length (db_A st j) = n) by (intros j Hj; rewrite (proj1 (HAB j Hj)); apply vec_length).
    assert (LVB : forall j, j <= i -> length (db_B st j) = n) by (intros j Hj; rewrite (proj2 (HAB j Hj)); apply vec_length).
    assert (LV : forall j, j <= i -> length (db_V st j) = n) by (intros; apply HV; lia).
    destruct (@gram_ok n i (db_V st) (db_A st) LV LVA) as (A' & EA' & WA & A1 & A2 & EntA). assert (A' = A) as -> by congruence.
    destruct (@gram_ok n i (db_V st) (db_B st) LV LVB) as (B' & EB' & WB & B1 & B2 & EntB). assert (B' = B) as -> by congruence.
    destruct (HS (M := A) (W := B) (ly := (l, y)) ltac:(congruence) EP) as ((z1 & z2 & E1 & E2 & Ly & HR) & HU). cbn [fst snd] in *. rewrite A2 in Ly, HU. rewrite A1 in HR.
    split; auto. destruct (@ritz_ok n i y (db_V st) u Ly LV Lu) as (w & Ew & Lw & Hw). destruct (@residual_ok n i y l (db_A st) (db_B st) r Ly LVA LVB Lr) as (q & Eq & Lq & Hq).
    exists w, q. do 5 (split; auto).
    assert (CA : forall j e, j <= i -> e < n -> cmp (db_A st j) e = opA (db_V st j) e) by (intros j e Hj He; rewrite (proj1 (HAB j Hj)); apply cmp_vec; auto).
    assert (CB : forall j e, j <= i -> e < n -> cmp (db_B st j) e = opB (db_V st j) e) by (intros j e Hj He; rewrite (proj2 (HAB j Hj)); apply cmp_vec; auto).
    split; [|split].
    - unfold Gmres_Proofs.ip, inner.
      rewrite (@rsum_ext n _ (fun e => rsum (S i) (fun a => rsum (S i) (fun b => cmp y a * cmp y b * (cmp (db_V st a) e * cmp (db_V st b) e))))%R).
      2:{ intros e He. rewrite Hw by auto. rewrite <- rsum_scal_r. apply rsum_ext. intros a Ha. rewrite <- rsum_scal. apply rsum_ext. intros; ring. }
      rewrite rsum_swap. rewrite (@rsum_ext (S i) _ (fun a => cmp y a * cmp y a)%R).
      2:{ intros a Ha. rewrite rsum_swap. rewrite (@rsum_ext (S i) _ (fun b => if b =? a then cmp y a * cmp y a else 0)%R); [apply rsum_delta; auto|].
          intros b Hb. rewrite rsum_scal. fold (inner n (cmp (db_V st a)) (cmp (db_V st b))). fold (ip (db_V st a) (db_V st b)). rewrite HO by auto.
          rewrite (Nat.eqb_sym a b). destruct (Nat.eqb_spec b a) as [->|]; ring. }
      cbn [gnorm] in HU. rewrite <- (sqrt_sqrt (rsum (S i) (fun a => cmp y a * cmp y a)%R)) by apply sq_nonneg. rewrite HU. ring.
    - intros e He. rewrite Hq by auto. unfold Davidson_Spec.gap. rewrite (@lin_comb0 n opA (S i) (cmp y) (db_V st) w LA Lw HV Hw e He), (@lin_comb0 n opB (S i) (cmp y) (db_V st) w LB Lw HV Hw e He).
      rewrite <- rsum_scal, <- rsum_minus. apply rsum_ext. intros j Hj. rewrite CA, CB by (auto; lia). ring.
    - intros j Hj. destruct (@dmultiply_spec A y WA ltac:(congruence)) as (y1 & F1 & M1 & N1). destruct (@dmultiply_spec B y WB ltac:(congruence)) as (y2 & F2 & M2 & N2).
      assert (y1 = z1) as -> by congruence. assert (y2 = z2) as -> by congruence. specialize (HR j ltac:(lia)). unfold cmp at 1 2 in HR. rewrite N1, N2, A2, B2 in HR by lia.
      rewrite ip_comm. unfold Gmres_Proofs.ip, inner.
      rewrite (@rsum_ext n _ (fun e => rsum (S i) (fun k => cmp y k * (cmp (db_V st j) e * cmp (db_A st k) e)) - l * rsum (S i) (fun k => cmp y k * (cmp (db_V st j) e * cmp (db_B st k) e)))%R).
      2:{ intros e He. rewrite Hq by auto. rewrite <- !rsum_scal, <- rsum_minus. apply rsum_ext. intros; ring. }
      rewrite rsum_minus, rsum_scal. rewrite !(rsum_swap n).
      rewrite (@rsum_ext (S i) (fun k => rsum n (fun e => cmp y k * (cmp (db_V st j) e * cmp (db_A st k) e))%R) (fun k => dent A j k * nth k y 0)%R).
      2:{ intros k Hk. rewrite rsum_scal. rewrite EntA by lia. unfold Gmres_Proofs.ip, inner, cmp. ring. }
      rewrite (@rsum_ext (S i) (fun k => rsum n (fun e => cmp y k * (cmp (db_V st j) e * cmp (db_B st k) e))%R) (fun k => dent B j k * nth k y 0)%R).
      2:{ intros k Hk. rewrite rsum_scal. rewrite EntB by lia. unfold Gmres_Proofs.ip, inner, cmp. ring. }
      rewrite HR. ring.
  Qed.

  (** What is known of a vector u, an eigenvalue and the monitored norms. *)
  Definition known (u : list R) (l : R) (it : nat) (hist : list R) : Prop :=
    length u = n /\ ip u u = 1%R /\ inner n (cmp u) (gap l u) = 0%R /\ nth it hist 0%R = gnorm L2 n (gap l u).

  Definition told (i it k fuel len : nat) (x : dnext) : Prop :=
    match x with
    | Stop r => known (dr_u r) (dr_lambda r) (dr_it r) (dr_hist r) /\ (dr_status r = DSUCCESS -> (gnorm L2 n (gap (dr_lambda r) (dr_u r)) < tol)%R /\ dr_it r <> maxit) /\
        (dr_status r = DMAXIT -> dr_it r = maxit) /\ it <= dr_it r < it + fuel /\ dr_it r <= maxit /\ dr_solves r = k + (dr_it r - it) + 1 /\ length (dr_hist r) = len /\ dr_it r + S i <= n + it
    | Again it' u t l hist k' => known u l it' hist /\ t = u /\ it' = it + fuel - 1 /\ it' < maxit /\ k' = k + fuel /\ (tol <= gnorm L2 n (gap l u))%R /\ length hist = len /\ (n <= s -> (tol <= 0)%R)
    end.

  Lemma vcopy_ok t u : length t = n -> length u = n -> vcopy t u = Ok u.
  Proof.
    intros Ht Hu. unfold vcopy. rewrite vzip_ok by lia. f_equal. rewrite Ht. rewrite <- Hu. symmetry. apply vec_self.
  Qed.
  Lemma norm_gap q l w : length q = n -> (forall e, e < n -> cmp q e = gap l w e) -> norm L2 q = gnorm L2 n (gap l w).
  Proof. intros Lq Hq. rewrite norm_plain by constructor. rewrite Lq. apply gnorm_ext. auto. Qed.

  Lemma inner_told : forall fuel i it st u t r l hist k x, based i st -> i + fuel = s -> 0 < fuel -> it <= maxit -> length u = n -> length t = n -> length r = n ->
    dav_inner mulA mulB P psolve s maxit tol fuel i it st u t r l hist k = Ok x -> told i it k fuel (length hist) x.
  Proof.
    induction fuel as [|fuel IH]; intros i it st u t r l hist k x HB0 Hs Hf Hit Lu Lt Lr E; [lia|]. cbn [dav_inner] in E.
    destruct (dav_gram i (db_V st) (db_A st)) as [A| |] eqn:EA; cbn [bind] in E; try discriminate.
    destruct (dav_gram i (db_V st) (db_B st)) as [B| |] eqn:EB; cbn [bind] in E; try discriminate.
    destruct (psolve A B) as [[l1 y]| |] eqn:EP; cbn [bind] in E; try discriminate. cbn [fst snd] in E.
    destruct (@pass i st u r HB0 Lu Lr A B (l1, y) EA EB EP) as (Ly & w & q & Ew & Eq & Lw & Lq & Hw & Uw & Hq & Oq). cbn [fst snd] in *.
    rewrite Ew in E. cbn [bind] in E. rewrite Eq in E. cbn [bind] in E.
    destruct (wr hist it (norm L2 q)) as [h1| |] eqn:EH; cbn [bind] in E; try discriminate.
    assert (Hh : nth it h1 0%R = norm L2 q /\ length h1 = length hist).
    { unfold wr in EH. destruct (it <? length hist) eqn:EL; [|discriminate]. injection EH as <-. apply Nat.ltb_lt in EL. rewrite upd_length. split; auto. apply nth_upd_eq. auto. }
    destruct Hh as [Hh Lh]. assert (NG := @norm_gap q l1 w Lq Hq).
    assert (K : known w l1 it h1).
    { split; auto. split; auto. split; [|congruence]. unfold inner. rewrite (@rsum_ext n _ (fun e => rsum (S i) (fun j => cmp y j * (cmp q e * cmp (db_V st j) e))%R)).
      - rewrite rsum_swap. apply rsum_zero. intros j Hj. rewrite rsum_scal. fold (inner n (cmp q) (cmp (db_V st j))). fold (ip q (db_V st j)). rewrite Oq by lia. ring.
      - intros e He. rewrite Hw, <- Hq by auto. rewrite <- rsum_scal_r. apply rsum_ext. intros; ring. }
    assert (Dm := orthonormal_dim (proj1 HB0)).
    destruct (Nat.eqb_spec it maxit) as [Em|Nm].
    { injection E as <-. cbn [told dr_u dr_lambda dr_it dr_hist dr_status dr_solves]. split; auto. split; [discriminate|]. split; auto. lia. }
    destruct (Rlt_dec (norm L2 q) tol) as [Lt1|Ge].
    { injection E as <-. cbn [told dr_u dr_lambda dr_it dr_hist dr_status dr_solves]. split; auto. split; [intros _; rewrite <- NG; auto|]. split; [discriminate|]. lia. }
    rewrite vcopy_ok in E by auto. cbn [bind] in E. destruct (Nat.eqb_spec i (s - 1)) as [El|Nl].
    { injection E as <-. cbn [told]. split; auto. split; auto. assert (fuel = 0) by lia. subst fuel. split; [lia|]. split; [lia|]. split; [lia|]. split; [rewrite <- NG; lra|]. split; auto.
      intros Hn. assert (Sn : S i = n) by lia. assert (Z : norm L2 q = 0%R); [|lra]. apply (@orth_full n (db_V st)); auto; [|intros j Hj; apply Oq; lia]. assert (O := proj1 HB0). rewrite Sn in O. exact O. }
    destruct (P l1 q w) as [p| |] eqn:EPc; cbn [bind] in E; try discriminate. assert (Lp := @HP l1 q w p Lq Lw EPc).
    destruct (@orth_ok n i y (db_V st) p Ly (proj1 HB0) Lp) as (p' & Eo & Lp' & Hp' & Op). rewrite Eo in E. cbn [bind] in E.
    destruct (Req_EM_T (norm L2 p') 0) as [|Nz]; [discriminate|]. set (nx := vscale p' (1 / norm L2 p')) in *.
    assert (Lnx : length nx = n) by (unfold nx; rewrite vscale_length; auto).
    rewrite HA in E by auto. cbn [bind] in E. rewrite HB in E by auto. cbn [bind] in E.
    specialize (IH (S i) (S it) {| db_V := setf (db_V st) (S i) nx; db_A := setf (db_A st) (S i) (vec n (opA nx)); db_B := setf (db_B st) (S i) (vec n (opB nx)) |} nx w q l1 h1 (S k) x).
    assert (T : told (S i) (S it) (S k) fuel (length h1) x).
    { apply IH; auto; try lia. split.
      - cbn [db_V]. apply orth_add; auto. apply HB0.
      - cbn [db_V db_A db_B]. intros j Hj. unfold setf. destruct (Nat.eqb_spec j (S i)); auto. apply HB0. lia. }
    rewrite Lh in T. destruct x as [res|it' u' t' l' h' k']; cbn [told] in *.
    - destruct T as (T1 & T2 & T3 & T4 & T5 & T6 & T7 & T8). do 3 (split; auto). lia.
    - destruct T as (T1 & T2 & T3 & T4 & T5 & T6 & T7 & T8). do 2 (split; auto). split; [lia|]. split; [auto|]. split; [lia|auto].
  Qed.

  Definition reported (k : nat) (res : dresult) : Prop :=
    known (dr_u res) (dr_lambda res) (dr_it res) (dr_hist res) /\ (dr_status res = DSUCCESS -> (gnorm L2 n (gap (dr_lambda res) (dr_u res)) < tol)%R) /\
    dr_it res <= maxit /\ dr_solves res <= k.

  Lemma start_based (v : list R) (d d' d'' : nat -> list R) : length v = n -> ip v v = 1%R ->
    based 0 {| db_V := setf d 0 v; db_A := setf d' 0 (vec n (opA v)); db_B := setf d'' 0 (vec n (opB v)) |}.
  Proof.
    intros Lv Uv. split; cbn [db_V db_A db_B].
    - split; [intros j Hj; assert (j = 0) as -> by lia; rewrite setf_eq; auto|]. intros a b Ha Hb. assert (a = 0) as -> by lia. assert (b = 0) as -> by lia. rewrite setf_eq. auto.
    - intros j Hj. assert (j = 0) as -> by lia. rewrite !setf_eq. auto.
  Qed.

  Lemma outer_told : forall fuel it st u t r l hist k res, based 0 st -> 0 < s -> it <= maxit -> length u = n -> length t = n -> length r = n -> 0 < fuel \/ known u l it hist ->
    dav_outer mulA mulB P psolve s maxit tol fuel it st u t r l hist k = Ok res -> reported (k + s * fuel) res.
  Proof.
    induction fuel as [|fuel IH]; intros it st u t r l hist k res HB0 Hs Hit Lu Lt Lr HK E.
    - cbn [dav_outer] in E. injection E as <-. destruct HK as [|HK]; [lia|]. split; auto. cbn [dr_u dr_lambda dr_status dr_it dr_solves]. split; [discriminate|]. lia.
    - cbn [dav_outer] in E. destruct (dav_inner _ _ _ _ _ _ _ _ _ _ _ _ _ _ _ _ _) as [x| |] eqn:EI; cbn [bind] in E; try discriminate.
      apply inner_told in EI; auto; try lia. destruct x as [r1|it' u' t' l' h' k']; cbn [told] in EI.
      + injection E as <-. destruct EI as (T1 & T2 & T3 & T4 & T5 & T6 & T7 & T8). split; auto. split; [intros Q; apply T2; auto|]. split; auto. nia.
      + destruct EI as (T1 & -> & T3 & T4 & -> & T6). destruct T1 as (K1 & K2 & K3). rewrite HA in E by auto. cbn [bind] in E. rewrite HB in E by auto. cbn [bind] in E.
        apply IH in E; auto; try lia.
        * destruct E as (R1 & R2 & R3 & R4). split; auto. split; auto. split; auto. nia.
        * apply start_based; auto.
        * right. split; auto.
  Qed.

  (** The first pass. *)
  Lemma unit_scale x0 : length x0 = n -> norm L2 x0 <> 0%R -> ip (vscale x0 (1 / norm L2 x0)) (vscale x0 (1 / norm L2 x0)) = 1%R.
  Proof.
    intros Lx Nz. rewrite <- (@norm_sq n) by (rewrite vscale_length; auto).
    assert (Q : norm L2 (vscale x0 (1 / norm L2 x0)) = 1%R); [|rewrite Q; ring]. rewrite norm_plain by constructor. rewrite vscale_length, Lx.
    rewrite (@gnorm_ext L2 n _ (fun e => 1 / norm L2 x0 * cmp x0 e)%R) by (intros e He; unfold cmp; rewrite vscale_nth; ring).
    rewrite gnorm_scal. rewrite (@norm_plain L2 x0) in * by constructor. rewrite Lx in *. assert (G := @gnorm_nonneg L2 n (cmp x0)).
    rewrite Rabs_right; [field; auto|]. apply Rle_ge. apply Rlt_le. apply Rdiv_lt_0_compat; lra.
  Qed.
  Lemma davidson_starts u x0 hist res : length u = n -> length x0 = n ->
    davidson mulA mulB P psolve s maxit tol u x0 hist = Ok res ->
    0 < s /\ norm L2 x0 <> 0%R /\ exists st l z, based 0 st /\ db_V st 0 = vscale x0 (1 / norm L2 x0) /\ length z = n /\
      dav_outer mulA mulB P psolve s maxit tol (maxit / s + 1) 1 st u z z l hist 0 = Ok res.
  Proof.
    intros Lu Lx E. unfold davidson in E. destruct (rd u 0) as [l| |]; cbn [bind] in E; try discriminate. rewrite vcopy_ok in E by (auto; rewrite repeat_length; auto). cbn [bind] in E.
    destruct (Req_EM_T (norm L2 x0) 0) as [|Nz]; [discriminate|]. set (v := vscale x0 (1 / norm L2 x0)) in *. assert (Lv : length v = n) by (unfold v; rewrite vscale_length; auto).
    rewrite HA in E by auto. cbn [bind] in E. rewrite HB in E by auto. cbn [bind] in E. destruct (Nat.eqb_spec s 0) as [|Ns]; [discriminate|].
    split; [lia|]. split; auto. eexists _, l, (repeat 0%R (length u)). split; [|split; [|split; [|exact E]]].
    - apply start_based; auto. apply unit_scale; auto.
    - reflexivity.
    - rewrite repeat_length; auto.
  Qed.
  Lemma davidson_reports u x0 hist res : length u = n -> length x0 = n -> 0 < maxit ->
    davidson mulA mulB P psolve s maxit tol u x0 hist = Ok res -> reported (s * (maxit / s + 1)) res.
  Proof.
    intros Lu Lx Hm E. destruct (davidson_starts Lu Lx E) as (Hs & _ & st & l & z & HB0 & _ & Lz & E'). apply outer_told in E'; auto; lia.
  Qed.

  (** With room for the whole space it ends within n projected problems. *)
  Lemma davidson_ends u x0 hist res : length u = n -> length x0 = n -> n <= s -> n < maxit -> (0 < tol)%R ->
    davidson mulA mulB P psolve s maxit tol u x0 hist = Ok res -> dr_status res = DSUCCESS /\ dr_it res <= n /\ dr_solves res = dr_it res.
  Proof.
    intros Lu Lx Hns Hm Ht E. destruct (davidson_starts Lu Lx E) as (Hs & _ & st & l & z & HB0 & _ & Lz & E'). rewrite Nat.add_comm in E'. cbn [Nat.add dav_outer] in E'.
    destruct (dav_inner _ _ _ _ _ _ _ _ _ _ _ _ _ _ _ _ _) as [x| |] eqn:EI; cbn [bind] in E'; try discriminate. apply inner_told in EI; auto; try lia.
    destruct x as [r|]; cbn [told] in EI.
    - injection E' as <-. destruct EI as (T1 & T2 & T3 & T4 & T5 & T6 & T7 & T8). split; [|lia]. destruct (dr_status r); auto. specialize (T3 eq_refl). lia.
    - destruct EI as (_ & _ & _ & _ & _ & _ & _ & Q). specialize (Q Hns). lra.
  Qed.

  (** An exact solve of (A - lambda B) v = r leads back into the space. *)
  Notation exact_pc := (exact_pc n opA opB P).
  Lemma gap_linear l : linear n (gap l).
  Proof. intros u v w a Hu Hv Hw E i Hi. unfold Davidson_Spec.gap. rewrite (LA Hu Hv Hw E Hi), (LB Hu Hv Hw E Hi). ring. Qed.
  Lemma inner_exact it st u t r l hist k x : exact_pc -> based 0 st -> 2 <= s -> it <= maxit -> length u = n -> length t = n -> length r = n ->
    dav_inner mulA mulB P psolve s maxit tol s 0 it st u t r l hist k = Ok x -> exists res, x = Stop res /\ dr_it res = it /\ dr_solves res = S k.
  Proof.
    intros HE HB0 Hs Hit Lu Lt Lr E. destruct s as [|[|f]] eqn:Es; [lia|lia|]. cbn [dav_inner] in E.
    destruct (dav_gram 0 (db_V st) (db_A st)) as [A| |] eqn:EA; cbn [bind] in E; try discriminate.
    destruct (dav_gram 0 (db_V st) (db_B st)) as [B| |] eqn:EB; cbn [bind] in E; try discriminate.
    destruct (psolve A B) as [[l1 y]| |] eqn:EP; cbn [bind] in E; try discriminate. cbn [fst snd] in E.
    destruct (@pass 0 st u r HB0 Lu Lr A B (l1, y) EA EB EP) as (Ly & w & q & Ew & Eq & Lw & Lq & Hw & Uw & Hq & Oq). cbn [fst snd] in *.
    rewrite Ew in E. cbn [bind] in E. rewrite Eq in E. cbn [bind] in E.
    destruct (wr hist it (norm L2 q)) as [h1| |] eqn:EH; cbn [bind] in E; try discriminate.
    destruct (Nat.eqb_spec it maxit) as [Em|Nm]; [injection E as <-; eexists; split; [reflexivity|split; reflexivity]|].
    destruct (Rlt_dec (norm L2 q) tol) as [Lt1|Ge]; [injection E as <-; eexists; split; [reflexivity|split; reflexivity]|].
    exfalso. rewrite vcopy_ok in E by auto. cbn [bind] in E. cbn [Nat.sub Nat.eqb] in E.
    destruct (P l1 q w) as [p| |] eqn:EPc; cbn [bind] in E; try discriminate.
    destruct (HE _ _ _ _ Lq Lw EPc) as (Lp & Hp & Inj).
    assert (Ep : forall e, e < n -> cmp p e = cmp w e).
    { intros e He. assert (Z := Inj (vec n (fun e => cmp p e + -1 * cmp w e)%R) ltac:(apply vec_length)). specialize (Z (fun j Hj => ltac:(
        rewrite (@gap_linear l1 p w _ (-1)%R Lp Lw (vec_length n _) (fun i Hi => cmp_vec _ Hi) j Hj); rewrite Hp, Hq by auto; ring)) e He). rewrite cmp_vec in Z by auto. lra. }
    destruct (@orth_ok n 0 y (db_V st) p Ly (proj1 HB0) Lp) as (p' & Eo & Lp' & Hp' & Op). rewrite Eo in E. cbn [bind] in E.
    assert (Z : norm L2 p' = 0%R).
    { rewrite norm_plain by constructor. apply gnorm_zero. rewrite Lp'. intros e He. rewrite Hp' by auto. rewrite Ep by auto. cbn [rsum].
      assert (Ey : ip (db_V st 0) p = cmp y 0).
      { unfold Gmres_Proofs.ip, inner. rewrite (@rsum_ext n _ (fun e => cmp y 0 * (cmp (db_V st 0) e * cmp (db_V st 0) e))%R).
        - rewrite rsum_scal. assert (O := proj2 (proj1 HB0) 0 0 ltac:(lia) ltac:(lia)). cbn [Nat.eqb] in O. unfold Gmres_Proofs.ip, inner in O. rewrite O. ring.
        - intros j Hj. rewrite Ep, Hw by auto. cbn [rsum]. ring. }
      rewrite Ey, Hw by auto. cbn [rsum]. ring. }
    rewrite Z in E. destruct (Req_EM_T 0 0); [discriminate|lra].
  Qed.
  Lemma davidson_exact u x0 hist res : exact_pc -> length u = n -> length x0 = n -> 2 <= s -> 0 < maxit ->
    davidson mulA mulB P psolve s maxit tol u x0 hist = Ok res -> dr_it res = 1 /\ dr_solves res = 1.
  Proof.
    intros HE Lu Lx Hs2 Hm E. destruct (davidson_starts Lu Lx E) as (Hs & _ & st & l & z & HB0 & _ & Lz & E'). rewrite Nat.add_comm in E'. cbn [Nat.add dav_outer] in E'.
    destruct (dav_inner _ _ _ _ _ _ _ _ _ _ _ _ _ _ _ _ _) as [x| |] eqn:EI; cbn [bind] in E'; try discriminate.
    apply inner_exact in EI; auto; try lia. destruct EI as (r & -> & Q1 & Q2). injection E' as <-. auto.
  Qed.

  (** A space of one vector never changes. *)
  Lemma outer_one v : s = 1 -> length v = n -> forall fuel st u t r l hist k res, based 0 st -> 1 <= maxit -> length u = n -> length t = n -> length r = n ->
    (exists g, (g = 1 \/ g = -1)%R /\ forall e, e < n -> cmp (db_V st 0) e = (g * cmp v e)%R) ->
    0 < fuel \/ (exists g, (g = 1 \/ g = -1)%R /\ forall e, e < n -> cmp u e = (g * cmp v e)%R) ->
    dav_outer mulA mulB P psolve s maxit tol fuel 1 st u t r l hist k = Ok res ->
    dr_it res = 1 /\ exists g, (g = 1 \/ g = -1)%R /\ forall e, e < n -> cmp (dr_u res) e = (g * cmp v e)%R.
  Proof.
    intros Es Lv. induction fuel as [|fuel IH]; intros st u t r l hist k res HB0 Hm Lu Lt Lr HV HF E.
    - cbn [dav_outer] in E. injection E as <-. destruct HF as [|HF]; [lia|]. auto.
    - cbn [dav_outer] in E. rewrite Es in E. cbn [dav_inner] in E.
      destruct (dav_gram 0 (db_V st) (db_A st)) as [A| |] eqn:EA; cbn [bind] in E; try discriminate.
      destruct (dav_gram 0 (db_V st) (db_B st)) as [B| |] eqn:EB; cbn [bind] in E; try discriminate.
      destruct (psolve A B) as [[l1 y]| |] eqn:EP; cbn [bind] in E; try discriminate. cbn [fst snd] in E.
      destruct (@pass 0 st u r HB0 Lu Lr A B (l1, y) EA EB EP) as (Ly & w & q & Ew & Eq & Lw & Lq & Hw & Uw & Hq & Oq). cbn [fst snd] in *.
      rewrite Ew in E. cbn [bind] in E. rewrite Eq in E. cbn [bind] in E.
      destruct (wr hist 1 (norm L2 q)) as [h1| |] eqn:EH; cbn [bind] in E; try discriminate.
      assert (HW : exists g, (g = 1 \/ g = -1)%R /\ forall e, e < n -> cmp w e = (g * cmp v e)%R).
      { destruct HV as (g & Hg & HV). exists (cmp y 0 * g)%R.
        assert (Ys : (cmp y 0 * cmp y 0 = 1)%R).
        { rewrite <- Uw. unfold Gmres_Proofs.ip, inner. rewrite (@rsum_ext n _ (fun e => cmp y 0 * cmp y 0 * (cmp (db_V st 0) e * cmp (db_V st 0) e))%R).
          - rewrite rsum_scal. assert (O := proj2 (proj1 HB0) 0 0 ltac:(lia) ltac:(lia)). cbn [Nat.eqb] in O. unfold Gmres_Proofs.ip, inner in O. rewrite O. ring.
          - intros j Hj. rewrite Hw by auto. cbn [rsum]. ring. }
        split; [|intros e He; rewrite Hw by auto; cbn [rsum]; rewrite HV by auto; ring].
        assert (Q : ((cmp y 0 - 1) * (cmp y 0 + 1) = 0)%R) by lra. apply Rmult_integral in Q. destruct Q, Hg; subst; [left|right|right|left]; nra. }
      destruct (Nat.eqb_spec 1 maxit) as [Em|Nm]; [injection E as <-; auto|].
      destruct (Rlt_dec (norm L2 q) tol) as [Lt1|Ge]; [injection E as <-; auto|].
      rewrite vcopy_ok in E by auto. cbn [bind] in E. cbn [Nat.sub Nat.eqb] in E. cbn [bind] in E. rewrite HA in E by auto. cbn [bind] in E. rewrite HB in E by auto. cbn [bind] in E.
      rewrite <- Es in E at 1. apply IH in E; auto. apply start_based; auto.
  Qed.
  Lemma davidson_one u x0 hist res : length u = n -> length x0 = n -> s = 1 -> 0 < maxit ->
    davidson mulA mulB P psolve s maxit tol u x0 hist = Ok res ->
    dr_it res = 1 /\ exists g, (g = 1 \/ g = -1)%R /\ forall e, e < n -> cmp (dr_u res) e = (g * (cmp x0 e / norm L2 x0))%R.
  Proof.
    intros Lu Lx Es Hm E. destruct (davidson_starts Lu Lx E) as (Hs & Nz & st & l & z & HB0 & HV & Lz & E').
    apply (@outer_one (vscale x0 (1 / norm L2 x0))) in E'; auto.
    - destruct E' as (I1 & g & Hg & H). split; auto. exists g. split; auto. intros e He. rewrite H by auto. unfold cmp. rewrite vscale_nth. field. auto.
    - rewrite vscale_length. auto.
    - exists 1%R. split; auto. intros e He. rewrite HV. ring.
    - left. lia.
  Qed.
End Main.
