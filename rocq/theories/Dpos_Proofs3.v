From Verif Require Import Base BaseR Util_Model Mesh_Model Mesh_Spec Mesh_Proofs Material_Model Material_Spec Matrix_Model Matrix_Spec Matrix_Proofs.
From Verif Require Import Diffusion_Model Diffusion_Spec Diffusion_Proofs Dsolve_Model Dsolve_Spec Dsolve_Proofs Dsolve_Proofs2 Dsolve_Proofs3.
From Verif Require Import Dpos_Spec Dpos_Proofs Dpos_Proofs2.
From Coq Require Import Lra Classical.
Set Implicit Arguments. Unset Strict Implicit.
Open Scope nat_scope.

(** ** Cases *)
Lemma case_absorbing bc zero adj : absorbing (case_prob bc zero adj) 1.
Proof.
  split.
  - intros g c Hg Hc. cbn in Hg. destruct g as [|[|g]]; [| |lia]; cbn; lra.
  - discriminate.
Qed.
Lemma case_nonneg bc zero adj q j : (0 <= q)%R -> (0 <= j)%R -> nonnegative (case_prob bc zero adj) (case_input q j).
Proof.
  intros Q J g Hg. split.
  - intros c Hc. unfold vsource. cbn. destruct (g =? 0); lra.
  - intros s c Hs _. cbn in Hs. unfold at_face. cbn. destruct ((s =? 0) && (g =? 0)); lra.
Qed.
Lemma case_reached bc zero q j : (0 < q)%R -> reached (case_prob bc zero false) (case_input q j) 1.
Proof.
  intros Q. apply reached_transfer with (gp := 0) (c := 0); try (cbn; lia).
  - left. cbn. lra.
  - apply reached_source with (c := 0); try (cbn; lia). unfold vsource. cbn. lra.
Qed.
(** In the adjoint problem the second group feeds the first, not the other way. *)
Lemma case_unreached bc zero q : ~ reached (case_prob bc zero true) (case_input q 0) 1.
Proof.
  intros R. remember 1 as g eqn:E. revert E. induction R as [g c Hg Hc V|g c s Hg Hs HO J|g gp c Hg Hgp Hc TG F IH]; intros ->.
  - unfold vsource in V. cbn in V. lra.
  - unfold at_face in J. cbn in J. destruct ((s =? 0) && false); lra.
  - cbn in Hgp. destruct TG as [H|(H & _)]; [|discriminate]. cbn in H. rewrite andb_false_r in H. lra.
Qed.

(** ** More fission than absorption: a positive source gives a negative flux *)
Definition fissile : mtl :=
  {| ng := 2; nm := 1; st := fun _ _ => 1%R; sa := fun _ _ => 0%R; nsf := fun _ _ => 2%R; sf := fun _ _ => 2%R;
     nu := fun _ _ => 1%R; chi := fun g _ => if g =? 0 then 1%R else 0%R;
     ss := fun g gp _ => if (g =? 1) && (gp =? 0) then (if true then / 2 else 0)%R else 0%R;
     dc := fun _ _ => 1%R; b0 := fun g => if true then 0 else g; b1 := fun g => g;
     b2 := fun g => if true then 1 else g; b3 := fun g => g;
     cut0 := 2; cut1 := 0; ds0 := true; ds1 := true; fin := true |}.
Definition fissile_prob : dprob :=
  {| q_mesh := one_cell; q_mat := fissile; q_adj := false; q_mult := true; q_bc := fun _ => Some true; q_zero := false; q_fill := true; q_store := false |}.
Lemma fissile_ok : prob_ok fissile_prob.
Proof. destruct (two_k_ok true) as (A & B & C). split; [exact A|split; [cbn; lia|exact C]]. Qed.
Lemma fissile_call q j : call_ok fissile_prob (case_input q j).
Proof. split; split; auto. Qed.

Lemma sealed_leakage D bc zero (f : nat -> R) : (forall s, bc s = Some true) -> leakage one_cell (cur one_cell D (albedo 1 bc zero) f) 0 = 0%R.
Proof.
  intros B. assert (C : forall s, s < 6 -> cur one_cell D (albedo 1 bc zero) f 0 s = 0%R).
  { intros s Hs. unfold cur, dt1, albedo. rewrite B. destruct s as [|[|[|[|[|[|s]]]]]]; try lia; cbn; unfold dtilde_edge, Rdiv; ring. }
  unfold leakage. cbn [rsum]. rewrite !C by lia. unfold Rdiv. ring.
Qed.

Lemma fissile_returned srt : is_sort srt -> returned fissile_prob (case_input 1 0) 1 (fun g _ => if g =? 0 then - / 2 else - / 4)%R.
Proof.
  intros HS.
  destruct (@oracle_solves fissile_prob [- / 2; - / 4]%R srt (case_input 1 0) 1 fissile_ok HS) as (s & r & EN & ES & NP & _).
  - left. auto.
  - apply fissile_call.
  - reflexivity.
  - intros g c Hg Hc. cbn in Hg. change (ncells (q_mesh fissile_prob)) with 1 in *. assert (c = 0) by lia. subst c.
    change (q_mesh fissile_prob) with one_cell. change (dim one_cell) with 1. rewrite sealed_leakage by auto.
    change (rsum 1 (fun a => rsum 2 (fun dir => if on_edge one_cell 0 (2 * a + dir) then bterm fissile_prob (case_input 1 0) g 0 (2 * a + dir) else 0%R)))
      with (0 + (0 + bterm fissile_prob (case_input 1 0) g 0 0 + bterm fissile_prob (case_input 1 0) g 0 1))%R.
    unfold bterm, vsource, reactions. destruct g as [|[|g]]; [| |lia].
    + cbn. unfold part. cbn. lra.
    + cbn. unfold part. cbn. lra.
  - exists srt, (oracle [- / 2; - / 4]%R), [], s, r. split; [auto|]. split; [apply oracle_exact|]. split; [left; auto|]. split; [intros ? ? []|].
    split; [apply fissile_call|]. split; [unfold d_runs; rewrite EN; auto|]. split; [auto|].
    intros g c Hg Hc. rewrite NP by auto. cbn in Hg. change (ncells (q_mesh fissile_prob)) with 1 in *. assert (c = 0) by lia. subst c.
    destruct g as [|[|g]]; [reflexivity|reflexivity|lia].
Qed.
Lemma fissile_nonneg : nonnegative fissile_prob (case_input 1 0).
Proof.
  intros g Hg. split.
  - intros c Hc. unfold vsource. cbn. destruct (g =? 0); lra.
  - intros s c Hs _. cbn in Hs. unfold at_face. cbn. destruct ((s =? 0) && (g =? 0)); lra.
Qed.
