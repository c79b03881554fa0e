(** * Values of interpolated materials after an update (no model content) *)
From Coq Require Import Lra Lia.
From Verif Require Import Base BaseR Material_Model Kinetics_Model Kinetics_Spec Kinetics_Proofs Tmat_Model Tmat_Spec.
Open Scope R_scope.
Set Implicit Arguments. Unset Strict Implicit.

Theorem linear_value times mats self u d : (1 <= length times)%nat -> length mats = length times -> increasing times ->
  (1 <= c_order u <= 6)%nat -> positive_data self ->
  exists y, linear_call times mats self u = Ok y /\ ng (kb y) = ng (kb self) /\ nm (kb y) = nm (kb self) /\ np y = np self /\
    vel y = vel self /\ lam y = lam self /\
    forall m, (m < nm (kb self))%nat -> exists tab, (forall q, defined q self -> interpolates times (fun i => value q (nth i mats d) m) (c_t u) (tab q)) /\
      (forall i, (i < np self)%nat -> beta y i m = tab (QBeta i)) /\
      (forall g i, (g < ng (kb self))%nat -> (i < np self)%nat -> chid y g i m = tab (QChid g i)) /\
      (forall g gp, (g < ng (kb self))%nat -> (gp < ng (kb self))%nat -> ss (kb y) g gp m = tab (QSs g gp)) /\
      forall g, (g < ng (kb self))%nat ->
        sa (kb y) g m = tab (QSa g) /\ nu (kb y) g m = tab (QNu g) /\ dc (kb y) g m = tab (QDc g) /\
        sf (kb y) g m = tab (QSf g) / c_k u /\ nsf (kb y) g m = tab (QNu g) * tab (QSf g) / c_k u /\
        (c_syn u = false -> st (kb y) g m = tab (QSt g) /\ chi (kb y) g m = tab (QChi g)) /\
        (c_syn u = true -> st (kb y) g m = tab (QSt g) + bcoef (c_order u) 0 / (vel self g * c_dt u) /\
           chi (kb y) g m = (1 - rsum (np self) (fun i => tab (QBeta i))) * tab (QChi g) +
             rsum (np self) (fun i => lam self i * tab (QChid g i) * c_dt u * tab (QBeta i) / (bcoef (c_order u) 0 + c_dt u * lam self i))).
Proof.
  intros H1 H2 H3 H4 P. destruct (@linear_material_ok times mats self (c_t u) d H1 H2 H3) as (x & Ex & V & VE & LA & NP & NG & NM).
  assert (PX : positive_data x).
  { destruct P as [P1 P2]. split; [rewrite NP, LA; exact P1|rewrite NG, VE; exact P2]. }
  destruct (@td_update_ok (c_k u) x (c_dt u) (c_order u) (c_syn u) H4 PX) as (y & Ey & A1 & A2 & A3 & A4 & A5 & A6 & A7 & A8 & A9 & A10 & A11 & F).
  exists y. unfold linear_call. rewrite Ex. cbn [bind]. split; [exact Ey|]. split; [congruence|]. split; [congruence|]. split; [congruence|].
  split; [congruence|]. split; [congruence|]. intros m Hm. exists (fun q => value q x m). split; [intros q D; apply (V q m D Hm)|].
  rewrite A6, A7, A8, A9, A10, A11. cbn [value]. split; [reflexivity|]. split; [reflexivity|]. split; [reflexivity|].
  intros g Hg. destruct (F g m) as (F1 & F2 & F3 & F4); [lia|lia|]. rewrite F1, F2, F3, F4, NP, VE, LA.
  repeat split; intros; try reflexivity; destruct (c_syn u); try discriminate; try reflexivity; ring.
Qed.
