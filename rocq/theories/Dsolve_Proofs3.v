From Verif Require Import Base BaseR Util_Model Mesh_Model Mesh_Spec Mesh_Proofs Material_Model Material_Spec Matrix_Model Matrix_Spec Matrix_Proofs.
From Verif Require Import Diffusion_Model Diffusion_Spec Diffusion_Proofs Boundary_Proofs Dsolve_Model Dsolve_Spec Dsolve_Proofs Dsolve_Proofs2.
From Coq Require Import Lra Classical.
Set Implicit Arguments. Unset Strict Implicit.
Open Scope nat_scope.

Lemma solve_no_ub P srt lin : prob_ok P -> is_sort srt -> exact lin -> (forall A b x, lin A b x <> UB) ->
  forall calls s i k, keffs_ok P (map snd calls ++ [k]) -> (forall i k, In (i, k) calls -> call_ok P i) -> call_ok P i ->
  d_runs srt lin P calls = Ok s -> d_solve srt lin P s i k <> UB.
Proof.
  intros PK HS HL NU calls s i k KO CO CK HR. destruct (solve_safe PK HS HL KO CO CK HR) as (A & Q & _ & X).
  specialize (NU A Q (s_x s)). destruct (lin A Q (s_x s)).
  - destruct X as (r & ->). discriminate.
  - rewrite X. discriminate.
  - congruence.
Qed.

(** ** A solver that knows the answer *)
Definition oracle (v : list R) (A : csr) (b x0 : list R) : res (list R) :=
  if length v =? length x0 then
    match multiply A v with Ok y => if list_eq_dec Req_EM_T y b then Ok v else Err | _ => Err end
  else Err.
Lemma oracle_exact v : exact (oracle v).
Proof.
  intros A b x0 x. unfold oracle. destruct (Nat.eqb_spec (length v) (length x0)) as [L|]; [|discriminate].
  destruct (multiply A v) as [y| |] eqn:M; try discriminate. destruct (list_eq_dec Req_EM_T y b) as [->|]; [|discriminate].
  intros E. inversion E. subst. auto.
Qed.
Lemma oracle_solves P v srt i k : prob_ok P -> is_sort srt -> keffs_ok P [k] -> call_ok P i -> length v = d_size P ->
  (forall g c, g < ng (q_mat P) -> c < ncells (q_mesh P) ->
     (leakage (q_mesh P) (cur (q_mesh P) (fun c => dc (q_mat P) g (mt (q_mesh P) c)) (albedo (dim (q_mesh P)) (q_bc P) (q_zero P)) (part (ncells (q_mesh P)) v g)) c +
      reactions (full_loss P k) (part (ncells (q_mesh P)) v) g c =
      vsource P i c g + rsum (dim (q_mesh P)) (fun a => rsum 2 (fun dir => if on_edge (q_mesh P) c (2 * a + dir) then bterm P i g c (2 * a + dir) else 0)))%R) ->
  exists s r, d_new srt P = Ok s /\ d_solve srt (oracle v) P s i k = Ok r /\
    (forall g c, g < ng (q_mat P) -> c < ncells (q_mesh P) -> nth c (nth g (r_phi r) []) 0%R = part (ncells (q_mesh P)) v g c) /\
    (q_fill P = true -> forall s g c, s < 2 * dim (q_mesh P) -> g < ng (q_mat P) -> c < ncells (q_mesh P) -> on_edge (q_mesh P) c s = true ->
       at_face (q_mesh P) (r_out r) s g c = jout P v i g c s).
Proof.
  intros PK HS KO CK LV HV. destruct (new_good PK HS) as (s & EN & GS). exists s.
  destruct (solve_shape PK HS (@oracle_exact v) GS KO CK) as (A & Q & B & LQ & NQ & X).
  destruct (full_builds PK HS k) as (C & B' & H). assert (C = A) by congruence. subst C.
  destruct (H v LV) as (y & M & LY & Y).
  assert (EQ : y = Q).
  { apply (nth_ext _ _ 0%R 0%R); [congruence|]. intros j Hj. rewrite LY in Hj.
    assert (N0 : 0 < ncells (q_mesh P)) by (unfold d_size in Hj; nia).
    assert (Hg : j / ncells (q_mesh P) < ng (q_mat P)) by (apply Nat.div_lt_upper_bound; [lia|unfold d_size in Hj; lia]).
    assert (Hc : j mod ncells (q_mesh P) < ncells (q_mesh P)) by (apply Nat.mod_upper_bound; lia).
    assert (EJ : j = j mod ncells (q_mesh P) + j / ncells (q_mesh P) * ncells (q_mesh P)) by (rewrite (Nat.div_mod_eq j (ncells (q_mesh P))) at 1; lia).
    assert (Y1 := Y _ _ Hg Hc). assert (Q1 := NQ _ _ Hg Hc). unfold part in Y1 at 1. unfold part in Q1 at 1. rewrite <- EJ in Y1, Q1.
    rewrite Y1, Q1. apply HV; auto. }
  subst y. destruct GS as (_ & LX & _).
  assert (EO : oracle v A Q (s_x s) = Ok v).
  { unfold oracle. rewrite LV, LX, Nat.eqb_refl, M. destruct (list_eq_dec Req_EM_T Q Q); congruence. }
  rewrite EO in X. destruct X as (r & ES & _ & _ & NP & VO). exists r. auto.
Qed.

(** ** A one-cell problem with two groups *)
Definition case_prob (bc : nat -> option bool) (zero adj : bool) : dprob :=
  {| q_mesh := one_cell; q_mat := two_groups true; q_adj := adj; q_mult := false; q_bc := bc; q_zero := zero; q_fill := true; q_store := true |}.
Definition case_input (q j : R) : dinput :=
  {| i_ext := [None; Some (fun _ g => if g =? 0 then q else 0%R)]; i_fis := None;
     i_in := {| b_g := 2; b_r := fun _ => 1; b_c := fun _ => 1; b_v := fun s g _ _ => if (s =? 0) && (g =? 0) then j else 0%R |};
     i_out := btab_new one_cell 2 |}.
Lemma case_prob_ok bc zero adj : prob_ok (case_prob bc zero adj).
Proof.
  destruct (two_k_ok true) as (A & B & C). split; [exact A|split; [|exact C]]. cbn. destruct adj; lia.
Qed.
Lemma case_call_ok bc zero adj q j : call_ok (case_prob bc zero adj) (case_input q j).
Proof. split; split; auto. Qed.

Lemma case_solves bc zero q j f0 f1 srt : is_sort srt ->
  let be := albedo 1 bc zero in
  (dtilde_edge 1 (be 0%nat) 1 * f0 + dtilde_edge 1 (be 1%nat) 1 * f0 + f0 = q + 8 / 5 * j)%R ->
  (dtilde_edge 1 (be 0%nat) 1 * f1 + dtilde_edge 1 (be 1%nat) 1 * f1 + f1 = / 2 * f0)%R ->
  let P := case_prob bc zero false in
  exists s r, d_new srt P = Ok s /\ d_solve srt (oracle [f0; f1]) P s (case_input q j) 1 = Ok r /\
    nth 0 (nth 0 (r_phi r) []) 0%R = f0 /\ nth 0 (nth 1 (r_phi r) []) 0%R = f1 /\
    forall s, s < 2 -> at_face one_cell (r_out r) s 0 0 = ((2 * f0 + (1 - 4) * (if s =? 0 then j else 0)) / 5)%R.
Proof.
  intros HS be E0 E1 P.
  destruct (@oracle_solves P [f0; f1] srt (case_input q j) 1 (case_prob_ok _ _ _) HS) as (s & r & EN & ES & NP & VO).
  - left. auto.
  - apply case_call_ok.
  - auto.
  - intros g c Hg Hc. cbn in Hg. change (ncells (q_mesh P)) with 1 in *. replace c with 0 by lia.
    assert (CU : forall g s, s < 2 -> cur one_cell (fun c => dc (two_groups true) g (mt one_cell c)) be (part 1 [f0; f1] g) 0 s =
       (dtilde_edge 1 (be s) 1 * part 1 [f0; f1] g 0)%R).
    { intros g' s' Hs'. unfold cur, dt1. destruct s' as [|[|s']]; [reflexivity|reflexivity|lia]. }
    assert (CZ : forall g s, 2 <= s < 6 -> cur one_cell (fun c => dc (two_groups true) g (mt one_cell c)) be (part 1 [f0; f1] g) 0 s = 0%R).
    { intros g' s' Hs'. unfold cur, dt1. destruct s' as [|[|[|[|[|[|s']]]]]]; try lia; cbn; unfold dtilde_edge, Rdiv; ring. }
    unfold leakage. change (q_mesh P) with one_cell. change (q_mat P) with (two_groups true). change (albedo (dim one_cell) (q_bc P) (q_zero P)) with be.
    cbn [rsum]. rewrite !CU, !CZ by lia. change (dim one_cell) with 1. cbn [rsum].
    change (2 * 0 + 0)%nat with 0%nat. change (2 * 0 + 1)%nat with 1%nat. change (on_edge one_cell 0 0) with true. change (on_edge one_cell 0 1) with true.
    change (wid one_cell 0 0) with 1%R. change (wid one_cell 1 0) with 1%R. change (wid one_cell 2 0) with 1%R. change (2 * 0)%nat with 0%nat.
    unfold bterm, vsource. change (wid (q_mesh P) (0 / 2) 0) with 1%R. change (wid (q_mesh P) (1 / 2) 0) with 1%R.
    clear CU CZ. set (t0 := dtilde_edge 1 (be 0%nat) 1) in *. set (t1 := dtilde_edge 1 (be 1%nat) 1) in *. clearbody t0 t1.
    unfold reactions. destruct g as [|[|g]]; [| |lia].
    + cbn. unfold part. cbn. lra.
    + cbn. unfold part. cbn. lra.
  - exists s, r. split; [auto|split; [auto|]]. split; [|split].
    + rewrite NP by (cbn; lia). auto.
    + rewrite NP by (cbn; lia). auto.
    + intros s' Hs'. change one_cell with (q_mesh P) at 1. rewrite VO; auto.
      * unfold jout. change (ncells (q_mesh P)) with 1. destruct s' as [|[|s']]; [| |lia]; cbn; unfold part; cbn; field.
      * cbn; lia.
      * destruct s' as [|[|s']]; [reflexivity|reflexivity|lia].
Qed.

(** Vacuum on both sides, an incident current on the left. *)
Lemma case_vacuum srt : is_sort srt -> exists s r,
  d_new srt (case_prob (fun _ => Some false) false false) = Ok s /\
  d_solve srt (oracle [8 / 9; 20 / 81]%R) (case_prob (fun _ => Some false) false false) s (case_input 0 1) 1 = Ok r /\
  nth 0 (nth 0 (r_phi r) []) 0%R = (8 / 9)%R /\ nth 0 (nth 1 (r_phi r) []) 0%R = (20 / 81)%R /\
  at_face one_cell (r_out r) 0 0 0 = (- (11 / 45))%R /\ at_face one_cell (r_out r) 1 0 0 = (16 / 45)%R.
Proof.
  intros HS. destruct (@case_solves (fun _ => Some false) false 0 1 (8 / 9) (20 / 81) srt HS) as (s & r & A & B & C & D & O).
  - unfold albedo, dtilde_edge. cbn. lra.
  - unfold albedo, dtilde_edge. cbn. lra.
  - exists s, r. rewrite !O by lia. cbn. repeat split; auto; lra.
Qed.

(** Reflection on both sides: nothing enters, yet currents leave. *)
Lemma case_reflect srt : is_sort srt -> exists s r,
  d_new srt (case_prob (fun _ => Some true) false false) = Ok s /\
  d_solve srt (oracle [1; / 2]%R) (case_prob (fun _ => Some true) false false) s (case_input 1 0) 1 = Ok r /\
  at_face one_cell (r_out r) 0 0 0 = (2 / 5)%R.
Proof.
  intros HS. destruct (@case_solves (fun _ => Some true) false 1 0 1 (/ 2) srt HS) as (s & r & A & B & C & D & O).
  - unfold albedo, dtilde_edge. cbn. lra.
  - unfold albedo, dtilde_edge. cbn. lra.
  - exists s, r. rewrite !O by lia. cbn. repeat split; auto; lra.
Qed.

(** ** Adjoint problems with another keff *)
Lemma mapM_length A B (f : A -> res B) l : forall r, mapM f l = Ok r -> length r = length l.
Proof.
  induction l as [|a l IH]; intros r H; cbn in H; [inversion H; auto|].
  destruct (f a); try discriminate. cbn in H. destruct (mapM f l) eqn:E; try discriminate. inversion H. cbn. rewrite (IH a1); auto.
Qed.
Lemma multiply_rows C x y : multiply C x = Ok y -> length y = length (c_rows C) - 1.
Proof. intros H. unfold multiply in H. apply mapM_length in H. rewrite seq_length in H. auto. Qed.

Lemma adjoint_fails P srt lin s i k : prob_ok P -> is_sort srt -> exact lin -> call_ok P i ->
  q_adj P = true -> 1 < ng (q_mat P) -> d_new srt P = Ok s -> k <> 1%R ->
  forall r, d_solve srt lin P s i k <> Ok r.
Proof.
  intros PK HS HL CK HA HG EN HK r HR.
  destruct (new_good PK HS) as (s0 & EN' & GS). assert (s0 = s) by congruence. subst s0. clear EN'.
  destruct GS as (_ & LX & KA).
  assert (EK : s_keff s = 1%R) by auto.
  unfold d_solve in HR. destruct (Req_EM_T (s_keff s) k) as [E|_]; [congruence|]. unfold refresh in HR.
  assert (LK : loss_ok (d_loss P 0 k)). { destruct PK as (A & B & C). split; [exact A|split; [|exact C]]. cbn. lia. }
  destruct (loss_builds LK HS) as (C & B & H). unfold d_build in HR. rewrite B in HR. cbn [bind s_M s_x] in HR.
  assert (AC : active (d_loss P 0 k) = 1) by (unfold active; cbn; rewrite HA; auto).
  assert (RC : length (c_rows C) - 1 = ncells (q_mesh P)).
  { destruct (H (repeat 0%R (ncells (q_mesh P)))) as (y & M & LY & _).
    - rewrite repeat_length, AC. cbn. lia.
    - rewrite <- (multiply_rows M), LY, AC. cbn. lia. }
  destruct (volume_ok P i) as (Q1 & E1 & L1 & N1). rewrite E1 in HR. cbn [bind] in HR.
  destruct (boundary_ok PK CK L1) as (Q2 & E2 & L2 & N2). rewrite E2 in HR. cbn [bind] in HR.
  destruct (lin C Q2 (s_x s)) as [x| |] eqn:EL; try discriminate.
  destruct (HL _ _ _ _ EL) as [_ M]. apply multiply_rows in M. rewrite RC, L2 in M. unfold d_size in M.
  assert (N0 : 0 < ncells (q_mesh P)). { destruct PK as ((_ & _ & _ & _ & _ & _ & _ & X & Y & Z & _) & _). cbn in X, Y, Z. unfold ncells. nia. }
  nia.
Qed.

(** ** Stored currents *)
Definition two_cells : mesh :=
  {| dim := 1; xfm := [2]; yfm := [1]; zfm := [1]; xcme := [0%R; 2%R]; ycme := [0%R; 1%R]; zcme := [0%R; 1%R];
     mdx := [1%R; 1%R]; mdy := [1%R]; mdz := [1%R]; twx := 2%R; twy := 1%R; twz := 1%R; mat := [0%Z; 0%Z] |}.
Definition mirror_prob : dprob :=
  {| q_mesh := two_cells; q_mat := two_groups true; q_adj := false; q_mult := false; q_bc := fun _ => Some false; q_zero := false; q_fill := false; q_store := true |}.
Definition pair (a b : R) (c : nat) : R := if c =? 0 then a else b.
Lemma mirror_currents a b : (0 <= a)%R -> (0 <= b)%R ->
  cell_current mirror_prob 0 (pair a b) 0 = (2 * Rabs (2 / 5 * a + (b - a)))%R /\
  cell_current mirror_prob 0 (pair b a) 1 = (2 * Rabs (2 / 5 * a))%R.
Proof.
  intros Ha Hb.
  set (A := ((1 * 1 + 1 * 1 + 1 * 1) * (1 / 6))%R).
  assert (SQ : forall z, (sqrt ((z * 1 * 1 / A) * (z * 1 * 1 / A) + ((0 + 0) * 1 * 1 / A) * ((0 + 0) * 1 * 1 / A) +
     ((0 + 0) * 1 * 1 / A) * ((0 + 0) * 1 * 1 / A)) = 2 * Rabs z)%R).
  { intros z. replace (z * 1 * 1 / A * (z * 1 * 1 / A) + (0 + 0) * 1 * 1 / A * ((0 + 0) * 1 * 1 / A) + (0 + 0) * 1 * 1 / A * ((0 + 0) * 1 * 1 / A))%R
      with (Rsqr (2 * z)) by (unfold A, Rsqr; field).
    rewrite sqrt_Rsqr_abs, Rabs_mult, (Rabs_pos_eq 2) by lra. auto. }
  assert (FZ : forall phi c s, 2 <= s < 6 -> c < 2 -> face_current mirror_prob 0 phi c s = 0%R).
  { intros phi c s Hs Hc. unfold face_current, dtilde.
    destruct c as [|[|c]]; [| |lia]; destruct s as [|[|[|[|[|[|s]]]]]]; try lia; cbn; unfold dtilde_edge, Rdiv; ring. }
  split; unfold cell_current; rewrite (FZ _ _ 2), (FZ _ _ 3), (FZ _ _ 4), (FZ _ _ 5) by lia; change (hw (q_mesh mirror_prob) 0 0) with 1%R; change (hw (q_mesh mirror_prob) 0 1) with 1%R;
    change (hw (q_mesh mirror_prob) 0 2) with 1%R; change (hw (q_mesh mirror_prob) 1 0) with 1%R; change (hw (q_mesh mirror_prob) 1 1) with 1%R;
    change (hw (q_mesh mirror_prob) 1 2) with 1%R; fold A; rewrite SQ; do 2 f_equal; unfold face_current, dtilde, pair; cbn; unfold dtilde_edge, dtilde_inner; field.
Qed.
