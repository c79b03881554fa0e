(** * Cell_Spec: conservation over one cell, and the exact solution along a line. *)
From Coquelicot Require Import Coquelicot.
From Verif Require Import BaseR.

(** Net leakage per unit volume along an axis of width h and direction cosine m. *)
Definition leak (m h pin pout : R) : R := m * (pout - pin) / h.
Definition balanced1 (sigma mu dx q pin pc pout : R) : Prop :=
  leak mu dx pin pout + sigma * pc = q.
Definition balanced2 (sigma mu eta dx dy q pv ph pc ov oh : R) : Prop :=
  leak mu dx pv ov + leak eta dy ph oh + sigma * pc = q.
Definition balanced3 (sigma mu eta xi dx dy dz q p1 p2 p3 pc o1 o2 o3 : R) : Prop :=
  leak mu dx p1 o1 + leak eta dy p2 o2 + leak xi dz p3 o3 + sigma * pc = q.
(** The diamond relation. *)
Definition diamond (pin pc pout : R) : Prop := pc = (pin + pout) / 2.

(** f is the flux along a segment with removal k = sigma/mu per unit length,
    source r = q/mu per unit length and entering value pin. *)
Definition line_flux (k r pin : R) (f : R -> R) : Prop :=
  f 0 = pin /\ forall x, is_derive f x (r - k * f x).
