From Verif Require Import Base BaseR Util_Model Mesh_Model Mesh_Spec Mesh_Proofs Material_Model Material_Spec Matrix_Model Matrix_Spec Matrix_Proofs.
From Verif Require Import Vector_Model Vector_Proofs Diffusion_Model Diffusion_Spec Diffusion_Proofs Dsolve_Model Dsolve_Spec Dsolve_Proofs Dsolve_Proofs2 Dsolve_Proofs3.
From Verif Require Import Dpos_Spec Dpos_Proofs Dpos_Proofs2 Dpos_Proofs3 Cpow_Model Cpow_Spec Cpow_Proofs Cpow_Proofs2 Ediff_Model Ediff_Spec Ediff_Proofs Ediff_Proofs2 Ediff_Proofs3.
From Coq Require Import Lra Classical.
Set Implicit Arguments. Unset Strict Implicit.
Open Scope nat_scope.

(** One cell with reflecting sides, two groups, both with fissions and births. *)
Definition duo : mtl :=
  {| ng := 2; nm := 1; st := fun g _ => if g =? 0 then 2%R else 1%R; sa := fun _ _ => 0%R; nsf := fun g _ => if g =? 0 then 1%R else 3%R; sf := fun _ _ => 1%R;
     nu := fun _ _ => 1%R; chi := fun _ _ => (/ 2)%R;
     ss := fun g gp _ => if (g =? 1) && (gp =? 0) then (if true then 1 else 0)%R else 0%R;
     dc := fun _ _ => 1%R; b0 := fun g => if true then 0 else g; b1 := fun g => g;
     b2 := fun g => if true then 1 else g; b3 := fun g => g;
     cut0 := 2; cut1 := 0; ds0 := true; ds1 := true; fin := true |}.
Definition duo_prob (adj : bool) : dprob :=
  {| q_mesh := one_cell; q_mat := duo; q_adj := adj; q_mult := false; q_bc := fun _ => Some true; q_zero := false; q_fill := true; q_store := false |}.
Lemma duo_ok adj : prob_ok (duo_prob adj).
Proof.
  assert (TR : forall g gp, transfer duo g gp -> g = 1 /\ gp = 0).
  { intros g gp (k & _ & H). cbn in H. destruct (Nat.eqb_spec g 1), (Nat.eqb_spec gp 0); cbn [andb] in H; try lra. auto. }
  split; [apply one_cell_good|]. split; [destruct adj; cbn; lia|]. split; [|split; [|split; [|split]]].
  - intros c Hc. unfold ncells, ncx, ncy, ncz in Hc. cbn in Hc. replace c with 0 by lia. cbn. lia.
  - intros. cbn. lra.
  - intros g gp k _ _ _. cbn. destruct ((g =? 1) && (gp =? 0)); lra.
  - intros g gp Hg Hgp T. apply TR in T. destruct T as (-> & ->). cbn. lia.
  - intros g Hg. cbn in Hg. assert (T1 : transfer duo 1 0).
    { exists 0. cbn. split; [lia|lra]. }
    unfold lower, upper. cbn. destruct g as [|[|g]]; [| |lia]; cbn; repeat split; auto; lia.
Qed.
Lemma duo_absorbing adj : absorbing (duo_prob adj) 1.
Proof.
  split; [|discriminate]. intros g c Hg Hc. cbn in Hg. destruct g as [|[|g]]; [| |lia]; cbn; lra.
Qed.
Lemma duo_fission adj : fission_ok (duo_prob adj).
Proof. intros g c Hg Hc. cbn. destruct (g =? 0); lra. Qed.
Lemma duo_born adj g : g < 2 -> reached (duo_prob adj) (born (duo_prob adj) 0) g.
Proof. intros Hg. apply reached_source with (c := 0); try (cbn; lia). unfold vsource, born, source_of. cbn. lra. Qed.
Lemma duo_chain adj : chain (duo_prob adj).
Proof.
  split.
  - intros q c q' c' g (_ & Hc & _) (_ & Hc' & _) H. change (ncells (q_mesh (duo_prob adj))) with 1 in *. replace c' with c by lia. auto.
  - exists 0, 0, 0, 0. assert (F0 : fissile_in (duo_prob adj) 0 0) by (split; [cbn; lia|split; [cbn; lia|cbn; lra]]). split; [auto|]. split; [apply duo_born; lia|auto].
Qed.

(** The equations of the cell. *)
Definition duo_rhs (adj : bool) (y : nat -> nat -> R) (g : nat) : R :=
  ((if g =? 0 then 2 else 1) * y g 0%nat - (if adj then (if g =? 0 then y 1%nat 0%nat else 0) else (if g =? 0 then 0 else y 0%nat 0%nat)))%R.
Lemma duo_lhs adj y g : g < 2 ->
  lhs one_cell 2 (fun g c => dc duo g (mt one_cell c)) (albedo 1 (fun _ => Some true) false) (fun g c => st duo g (mt one_cell c)) (xfer (duo_prob adj) 1) y g 0
  = duo_rhs adj y g.
Proof.
  intros Hg. assert (E := @L_reactions (duo_prob adj) 1 (duo_ok adj) y g 0 Hg ltac:(cbn; lia)).
  change (q_mesh (duo_prob adj)) with one_cell in E. change (q_mat (duo_prob adj)) with duo in E. change (dim one_cell) with 1 in E.
  change (ng duo) with 2 in E. change (q_bc (duo_prob adj)) with (fun _ : nat => Some true) in E. change (q_zero (duo_prob adj)) with false in E. rewrite E.
  rewrite sealed_leakage by auto. unfold reactions, duo_rhs. destruct adj, g as [|[|g]]; try lia; cbn; lra.
Qed.
Lemma duo_solves adj srt q phi : is_sort srt -> duo_rhs adj phi 0 = q 0%nat 0%nat -> duo_rhs adj phi 1 = q 1%nat 0%nat -> returned (duo_prob adj) (source_of (duo_prob adj) q) 1 phi.
Proof.
  intros HS H0 H1. apply (solves_returned (duo_ok adj) (duo_absorbing adj) HS). intros g c Hg Hc. cbn in Hg. change (ncells (q_mesh (duo_prob adj))) with 1 in Hc.
  assert (c = 0) by lia. subst c. destruct g as [|[|g]]; [| |lia].
  - rewrite <- H0. apply (duo_lhs adj phi). lia.
  - rewrite <- H1. apply (duo_lhs adj phi). lia.
Qed.
Lemma duo_forward srt : is_sort srt -> critical (duo_prob false) (5 / 2) (fun g _ => if g =? 0 then 1 / 4 else 3 / 4)%R.
Proof.
  intros HS. split; [lra|]. split; [intros g c _ _; destruct (g =? 0); lra|]. split; [unfold total; cbn; lra|].
  apply (duo_solves HS); unfold duo_rhs, fissions, production, birth; cbn; lra.
Qed.
Lemma duo_adjoint srt : is_sort srt -> critical (duo_prob true) (5 / 2) (fun g _ => if g =? 0 then 2 / 5 else 3 / 5)%R.
Proof.
  intros HS. split; [lra|]. split; [intros g c _ _; destruct (g =? 0); lra|]. split; [unfold total; cbn; lra|].
  apply (duo_solves HS); unfold duo_rhs, fissions, production, birth; cbn; lra.
Qed.

(** What the code computes in the adjoint case. *)
Lemma duo_wrong srt s lin tol maxit E : is_sort srt -> d_new srt (duo_prob true) = Ok s -> solver_for lin (s_M s) 2 ->
  (0 < tol)%R -> 2 <= maxit -> e_new srt (duo_prob true) tol maxit = Ok E ->
  exists r, e_solve lin (duo_prob true) E = Ok r /\ er_status r = SUCCESS /\ er_k r = 2%R.
Proof.
  intros HS NEW LIN T0 M2 EN. set (P := duo_prob true) in *.
  destruct (@e_new_ok P srt HS s NEW tol maxit) as (F & B & EN'). assert (EF : e_F E = F) by (rewrite EN' in EN; inversion EN; auto).
  set (S1 := fun (_ _ _ : nat) => (/ 2)%R).
  assert (S1E : forall c', c' < 1 -> forall g c, g < 2 -> c < 1 ->
     lhs one_cell 2 (fun g c => dc duo g (mt one_cell c)) (albedo 1 (fun _ => Some true) false) (fun g c => st duo g (mt one_cell c)) (xfer P 1) (S1 c') g c
     = (if c =? c' then chi duo g (mt one_cell c') else 0)%R).
  { intros c' Hc' g c Hg Hc. assert (c = 0) by lia. assert (c' = 0) by lia. subst c c'. unfold P. rewrite duo_lhs by auto. unfold duo_rhs, S1. destruct g as [|[|g]]; [cbn; lra|cbn; lra|lia]. }
  assert (RZ := @ed_realises P (duo_ok true) (duo_absorbing true) srt HS s NEW lin LIN F B S1 S1E). change (d_size P) with 2 in RZ.
  destruct (@solve_fixed 2 (multiply F) (Some (lin (s_M s))) (tmat P S1) (power_new tol maxit) [0; 0]%R [1; 1]%R 2 RZ) as (pr & PS & SU & LA & _ & _).
  - reflexivity.
  - cbn [ps_maxit ps_hist power_new]. rewrite repeat_length. lia.
  - auto.
  - auto.
  - lra.
  - unfold size1. cbn. rewrite Rabs_R1. lra.
  - intros i Hi. unfold image, tmat, S1. destruct i as [|[|i]]; [| |lia]; cbn; lra.
  - destruct (@e_solve_ok P srt HS s NEW lin tol maxit E pr EN) as (r & ES & K & ST & _).
    + rewrite EF. exact PS.
    + refine (@solve_length 2 _ _ _ (power_new tol maxit) [0; 0]%R [1; 1]%R pr RZ _ _ _ PS); [reflexivity| |reflexivity].
      cbn [ps_maxit ps_hist power_new]. rewrite repeat_length. lia.
    + exists r. split; [auto|]. split; congruence.
Qed.
