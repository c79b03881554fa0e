(** * Tally_Spec: what the partial currents on a coarse mesh must be. *)
From Coquelicot Require Import Coquelicot.
From Verif Require Import Base BaseR Loop Mesh_Model Angle_Model Angle_Spec Boundary_Model Boundary_Spec Cell_Spec Sweep_Model
  Sweep_Spec Region_Model Region_Spec Tally_Model.
Open Scope nat_scope.

(** The face fluxes X (and Y) behind a solution: see solves1 and solves2. *)
Definition fluxes1 (E : scheme1) (G : grid) (d : dir) (px : bool) (src : list R) (ins outs : list face) (X P : nat -> R) : Prop :=
  ins = [[[X (entry px (g_nx G))]]] /\ outs = [[[X (leave px (g_nx G))]]] /\
  forall i, i < g_nx G ->
  obeys1 E (at_ (g_sig G) i) (d_mu d) (at_ (g_dx G) i) (at_ src i) (X (from px i)) (P i) (X (to px i)).
Definition fluxes2 (E : scheme2) (G : grid) (d : dir) (px py : bool) (src : list R) (ins outs : list face)
    (X Y : nat -> nat -> R) (P : nat -> R) : Prop :=
  ins = [[map (X (entry px (g_nx G))) (seq 0 (g_ny G))]; [map (fun i => Y i (entry py (g_ny G))) (seq 0 (g_nx G))]] /\
  outs = [[map (X (leave px (g_nx G))) (seq 0 (g_ny G))]; [map (fun i => Y i (leave py (g_ny G))) (seq 0 (g_nx G))]] /\
  forall i j, i < g_nx G -> j < g_ny G ->
  let c := Mesh_Model.index (g_nx G) (g_ny G) i j 0 in
  obeys2 E (at_ (g_sig G) c) (d_mu d) (d_eta d) (at_ (g_dx G) i) (at_ (g_dy G) j) (at_ src c)
    (X (from px i) j) (Y i (from py j)) (P c) (X (to px i) j) (Y i (to py j)).

(** A tally made for the coarse mesh C. *)
Definition tally_for (C : cmesh) (T : tally) : Prop :=
  length T = 3 /\ forall d, d < 3 -> length (nth d T []) = 2 /\ forall s, s < 2 -> length (nth s (nth d T []) []) = sizes C d.

(** Directions of a quadrature: sums over octants and angles. *)
Definition none : dir := {| d_mu := 0; d_eta := 0; d_xi := 0; d_w := 0 |}.
Definition over_angles (q : quad) (f : nat -> nat -> R) : R := rsum (q_noct q) (fun o => rsum (q_nao q) (fun a => f o a)).
(** Restriction to the octants travelling in one sense along an axis. *)
Definition along (axis : nat) (sense : nat) (o : nat) (x : R) : R :=
  if Bool.eqb (positive o axis) (sense =? 1) then x else 0%R.
(** The fine face on the coarse face I of an axis. *)
Definition edge (C : cmesh) (axis I : nat) : nat := psum (c_count (cm_of C axis)) I.
(** Sum over the fine cells of coarse cell I of an axis. *)
Definition across (C : cmesh) (axis I : nat) (f : nat -> R) : R := block_sum (c_count (cm_of C axis)) I f.

(** ** Balance of the coarse cells *)

(** Net current through the coarse face (I,J,K) normal to an axis. *)
Definition net_current (C : cmesh) (T : tally) (I J K axis : nat) : R :=
  match partial_current C T I J K axis 1, partial_current C T I J K axis 0 with
  | Ok p, Ok m => (p - m)%R
  | _, _ => 0%R
  end.
Definition net_leakage (C : cmesh) (T : tally) (I J K : nat) : R :=
  rsum (cm_dim C) (fun axis =>
    net_current C T (if axis =? 0 then S I else I) (if axis =? 1 then S J else J) (if axis =? 2 then S K else K) axis -
    net_current C T I J K axis)%R.
(** Sum of f over the fine cells of a coarse cell, weighted by volume. *)
Definition coarse_total (C : cmesh) (G : grid) (I J K : nat) (f : nat -> R) : R :=
  across C 0 I (fun i => across C 1 J (fun j => across C 2 K (fun k =>
    at_ (cm_w C 0) i * at_ (cm_w C 1) j * at_ (cm_w C 2) k * f (Mesh_Model.index (g_nx G) (g_ny G) i j k))))%R.
(** Leakage through its faces, with the reactions inside, balances the sources
    inside, in every coarse cell. *)
Definition balances (C : cmesh) (G : grid) (q : quad) (ds : list dir) (src : nat -> nat -> list R) (T : tally) (phi : list R) : Prop :=
  forall I J K, I < cm_n C 0 -> J < cm_n C 1 -> K < cm_n C 2 ->
  (net_leakage C T I J K + coarse_total C G I J K (fun c => at_ (g_sig G) c * at_ phi c) =
   coarse_total C G I J K (fun c => over_angles q (fun o a => Sweep_Spec.weight ds a * at_ (src o a) c)))%R.
