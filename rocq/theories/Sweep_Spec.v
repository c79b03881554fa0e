(** * Sweep_Spec: what a sweep must compute, in mesh coordinates and without
    reference to the order in which cells are visited. *)
From Coquelicot Require Import Coquelicot.
From Verif Require Import Base BaseR Mesh_Model Angle_Model Angle_Spec Boundary_Model Boundary_Spec Cell_Spec Sweep_Model.
Open Scope nat_scope.

(** The octant travels towards increasing coordinate along an axis. *)
Definition positive (o axis : nat) : bool := (octant_signs o axis =? 1)%Z.
(** Cell i lies between faces i and i+1. *)
Definition from (pos : bool) (i : nat) : nat := if pos then i else S i.
Definition to (pos : bool) (i : nat) : nat := if pos then S i else i.
(** The first and last face met. *)
Definition entry (pos : bool) (n : nat) : nat := if pos then 0 else n.
Definition leave (pos : bool) (n : nat) : nat := if pos then n else 0.

(** ** The discretised equation of one cell *)
Definition obeys1 (E : scheme1) (sigma mu dx q pin pc po : R) : Prop :=
  match E with
  | DD_1 => balanced1 sigma mu dx q pin pc po /\ diamond pin pc po
  | SD_1 => balanced1 sigma mu dx q pin pc po /\ po = pc
  | SC_1 => forall f, line_flux (sigma / mu)%R (q / mu)%R pin f -> po = f dx /\ is_RInt f 0%R dx (dx * pc)%R
  end.
(** Flux after a path s with constant source, entering with value f. *)
Definition attenuated (sigma q f s : R) : R := (q / sigma + (f - q / sigma) * exp (- (sigma * s)))%R.
(** Flux at height y of a cell's downwind face: traced back along (mu, eta), the
    line starts on the face crossed first, with flux f1 on the opposite face a
    distance d away and f2 on the face at height 0. *)
Definition traced (sigma q mu eta d f1 f2 y : R) : R :=
  (if Rle_dec (y / eta) (d / mu) then attenuated sigma q f2 (y / eta) else attenuated sigma q f1 (d / mu))%R.
Definition obeys2 (E : scheme2) (sigma mu eta dx dy q pv ph pc ov oh : R) : Prop :=
  balanced2 sigma mu eta dx dy q pv ph pc ov oh /\
  match E with
  | DD_2 => diamond pv pc ov /\ diamond ph pc oh
  | SD_2 => ov = pc /\ oh = pc
  | SC_2 => is_RInt (traced sigma q mu eta dx pv ph) 0%R dy (dy * ov)%R /\
            is_RInt (traced sigma q eta mu dy ph pv) 0%R dx (dx * oh)%R
  end.
Definition obeys3 (sigma mu eta xi dx dy dz q p1 p2 p3 pc o1 o2 o3 : R) : Prop :=
  balanced3 sigma mu eta xi dx dy dz q p1 p2 p3 pc o1 o2 o3 /\ diamond p1 pc o1 /\ diamond p2 pc o2 /\ diamond p3 pc o3.

(** ** The discretised equation of the mesh: center fluxes pc, with one value
    per interior and boundary face shared by the cells on both sides. *)
Definition at_ (l : list R) (i : nat) : R := nth i l 0%R.
Definition at2 (l : list (list R)) (i j : nat) : R := nth j (nth i l []) 0%R.
Definition solves1 (E : scheme1) (G : grid) (d : dir) (px : bool) (src : list R) (pin pout : R) (pc : nat -> R) : Prop :=
  exists X : nat -> R,
  X (entry px (g_nx G)) = pin /\ X (leave px (g_nx G)) = pout /\
  forall i, i < g_nx G ->
  obeys1 E (at_ (g_sig G) i) (d_mu d) (at_ (g_dx G) i) (at_ src i) (X (from px i)) (pc i) (X (to px i)).
(** X i j: face normal to x with index i in row j; Y i j: face normal to y with index j in column i. *)
Definition solves2 (E : scheme2) (G : grid) (d : dir) (px py : bool) (src vin hin vout hout : list R) (pc : nat -> nat -> R) : Prop :=
  exists X Y : nat -> nat -> R,
  (forall j, j < g_ny G -> X (entry px (g_nx G)) j = at_ vin j /\ X (leave px (g_nx G)) j = at_ vout j) /\
  (forall i, i < g_nx G -> Y i (entry py (g_ny G)) = at_ hin i /\ Y i (leave py (g_ny G)) = at_ hout i) /\
  forall i j, i < g_nx G -> j < g_ny G ->
  let c := Mesh_Model.index (g_nx G) (g_ny G) i j 0 in
  obeys2 E (at_ (g_sig G) c) (d_mu d) (d_eta d) (at_ (g_dx G) i) (at_ (g_dy G) j) (at_ src c)
    (X (from px i) j) (Y i (from py j)) (pc i j) (X (to px i) j) (Y i (to py j)).
Definition solves3 (G : grid) (d : dir) (px py pz : bool) (src : list R)
    (yzin xzin xyin yzout xzout xyout : list (list R)) (pc : nat -> nat -> nat -> R) : Prop :=
  exists X Y Z : nat -> nat -> nat -> R,
  (forall j k, j < g_ny G -> k < g_nz G -> X (entry px (g_nx G)) j k = at2 yzin k j /\ X (leave px (g_nx G)) j k = at2 yzout k j) /\
  (forall i k, i < g_nx G -> k < g_nz G -> Y i (entry py (g_ny G)) k = at2 xzin k i /\ Y i (leave py (g_ny G)) k = at2 xzout k i) /\
  (forall i j, i < g_nx G -> j < g_ny G -> Z i j (entry pz (g_nz G)) = at2 xyin j i /\ Z i j (leave pz (g_nz G)) = at2 xyout j i) /\
  forall i j k, i < g_nx G -> j < g_ny G -> k < g_nz G ->
  let c := Mesh_Model.index (g_nx G) (g_ny G) i j k in
  obeys3 (at_ (g_sig G) c) (d_mu d) (d_eta d) (d_xi d) (at_ (g_dx G) i) (at_ (g_dy G) j) (at_ (g_dz G) k) (at_ src c)
    (X (from px i) j k) (Y i (from py j) k) (Z i j (from pz k)) (pc i j k)
    (X (to px i) j k) (Y i (to py j) k) (Z i j (to pz k)).

(** ** Well formed data *)
Definition all_pos (l : list R) : Prop := Forall (fun x => 0 < x)%R l.
(** nz is used in 3-D, ny from 2-D. *)
Definition grid_ok (dim : nat) (G : grid) : Prop :=
  length (g_dx G) = g_nx G /\ all_pos (g_dx G) /\
  (1 < dim -> length (g_dy G) = g_ny G /\ all_pos (g_dy G)) /\
  (2 < dim -> length (g_dz G) = g_nz G /\ all_pos (g_dz G)) /\
  (Z.of_nat (g_nx G) < 2 ^ 32)%Z /\
  length (g_sig G) = g_nx G * (if 1 <? dim then g_ny G else 1) * (if 2 <? dim then g_nz G else 1).
Definition cells_of (dim : nat) (G : grid) : nat :=
  g_nx G * (if 1 <? dim then g_ny G else 1) * (if 2 <? dim then g_nz G else 1).
Definition dir_ok (dim : nat) (d : dir) : Prop :=
  (0 < d_mu d)%R /\ (1 < dim -> (0 < d_eta d)%R) /\ (2 < dim -> (0 < d_xi d)%R).
(** The characteristic schemes divide by the total cross section. *)
Definition strict1 (E : scheme1) : bool := match E with SC_1 => true | _ => false end.
Definition strict2 (E : scheme2) : bool := match E with SC_2 => true | _ => false end.
(** No void for the characteristic schemes, no negative removal for the others. *)
Definition sig_ok (strict : bool) (G : grid) : Prop :=
  Forall (fun s => if strict then 0 < s else 0 <= s)%R (g_sig G).
Definition rect (n m : nat) (l : list (list R)) : Prop := length l = n /\ Forall (fun r => length r = m) l.

Local Open Scope R_scope.
(** A total over a 1-D mesh. *)
Definition tot1 (G : grid) (f : nat -> R) : R := rsum (g_nx G) (fun i => at_ (g_dx G) i * f i).
Definition nonneg (l : list R) : Prop := Forall (fun x => 0 <= x) l.
Local Close Scope R_scope.

(** ** Accumulation: one angle adds w * pc to the scalar flux of each cell. *)
Definition adds (n : nat) (w : R) (pc : nat -> R) (phi phi' : list R) : Prop :=
  length phi' = n /\ forall c, c < n -> at_ phi' c = (at_ phi c + w * pc c)%R.
Definition stores (n : nat) (keep : bool) (pc : nat -> R) (psi psi' : list R) : Prop :=
  if keep then length psi' = n /\ forall c, c < n -> at_ psi' c = pc c else psi' = psi.

(** ** Octant order: number of non-reflective sides entered *)
Definition entersb (dim s o : nat) : bool :=
  (octant_signs o (s / 2) =? (if Nat.even s then 1 else -1))%Z.
Definition open_sides (dim : nat) (refl : nat -> bool) (o : nat) : nat :=
  length (filter (fun s => negb (refl s) && entersb dim s o) (seq 0 (2 * dim))).

(** ** A whole sweep *)

(** ins, outs: the face fluxes entering and leaving, one per axis; pc: cell fluxes. *)
Definition relation := nat -> nat -> list face -> list face -> (nat -> R) -> Prop.
Definition solution1 (E : scheme1) (G : grid) (ds : list dir) (src : nat -> nat -> list R) : relation :=
  fun o a ins outs pc => exists d x y, nth_error ds a = Some d /\ ins = [[[x]]] /\ outs = [[[y]]] /\
  solves1 E G d (positive o 0) (src o a) x y pc.
Definition solution2 (E : scheme2) (G : grid) (ds : list dir) (src : nat -> nat -> list R) : relation :=
  fun o a ins outs pc => exists d v h v' h', nth_error ds a = Some d /\ ins = [[v]; [h]] /\ outs = [[v']; [h']] /\
  solves2 E G d (positive o 0) (positive o 1) (src o a) v h v' h' (fun i j => pc (Mesh_Model.index (g_nx G) (g_ny G) i j 0)).
Definition solution3 (G : grid) (ds : list dir) (src : nat -> nat -> list R) : relation :=
  fun o a ins outs pc => exists d x y z x' y' z', nth_error ds a = Some d /\ ins = [x; y; z] /\ outs = [x'; y'; z'] /\
  solves3 G d (positive o 0) (positive o 1) (positive o 2) (src o a) x y z x' y' z'
    (fun i j k => pc (Mesh_Model.index (g_nx G) (g_ny G) i j k)).

(** The side crossed along each axis on entering and on leaving. *)
Definition in_side (o axis : nat) : nat := 2 * axis + (if positive o axis then 0 else 1).
Definition out_side (o axis : nat) : nat := 2 * axis + (if positive o axis then 1 else 0).
Definition ins_of (b : bsn) (o a g : nat) : list face := map (fun x => flux b (in_side o x) o a g) (seq 0 (q_dim (b_q b))).
Definition outs_of (b : bsn) (o a g : nat) : list face := map (fun x => flux b (out_side o x) o a g) (seq 0 (q_dim (b_q b))).
(** x comes before y. *)
Definition precedes {A} (l : list A) (x y : A) : Prop := exists l1 l2, l = l1 ++ y :: l2 /\ In x l1.

(** What a sweep in the octant order ord leaves behind, from b to b'. *)
Record swept (Sol : relation) (W : nat -> R) (n : nat) (keep upd : bool) (g : nat) (ord : list nat)
    (b : bsn) (psi : nat -> nat -> list R) (b' : bsn) (phi' : list R) (psi' : nat -> nat -> list R) : Prop := {
  sw_setup : same_setup b b';
  sw_other : forall s o a g', valid b s o a g' -> g' <> g -> flux b' s o a g' = flux b s o a g';
  sw_fluxes : exists P, (** P o a: cell fluxes of octant o, angle a *)
    (forall o a, o < q_noct (b_q b) -> a < q_nao (b_q b) ->
      Sol o a (ins_of b' o a g) (outs_of b' o a g) (P o a) /\ stores n keep (P o a) (psi o a) (psi' o a)) /\
    length phi' = n /\
    (forall c, c < n -> at_ phi' c = rsum (q_noct (b_q b)) (fun o => rsum (q_nao (b_q b)) (fun a => W a * P o a c)%R));
  sw_in_plain : forall s o a, valid b s o a g -> enters (q_dim (b_q b)) s o ->
    upd = false \/ (b_bc b s <> Reflect /\ b_bc b s <> Periodic) -> flux b' s o a g = flux b s o a g;
  sw_in_reflect : upd = true -> forall s o o' a, valid b s o a g -> enters (q_dim (b_q b)) s o ->
    b_bc b s = Reflect -> mirrored (q_dim (b_q b)) s o o' ->
    (precedes ord o' o -> flux b' s o a g = flux b' s o' a g) /\
    (precedes ord o o' -> flux b' s o a g = flux b s o' a g);
  sw_in_periodic : upd = true -> forall s s' o a, valid b s o a g -> leaves (q_dim (b_q b)) s o -> opposite s s' ->
    b_bc b s = Periodic -> flux b' s' o a g = flux b s o a g
}.

(** ** Well-posed sweeps *)
Definition dirs_ok (dim nq : nat) (ds : list dir) : Prop := length ds = nq /\ Forall (dir_ok dim) ds.
Definition src_ok (dim nq : nat) (G : grid) (src : nat -> nat -> list R) : Prop :=
  forall o a, o < 2 ^ dim -> a < nq -> length (src o a) = cells_of dim G.
Definition weight (ds : list dir) (a : nat) : R := d_w (nth a ds {| d_mu := 0; d_eta := 0; d_xi := 0; d_w := 0 |}).
Definition sweep_problem (G : grid) (ds : list dir) (keep : bool) (src : nat -> nat -> list R) (g : nat) (ord : list nat) (b : bsn)
    (phi : list R) (psi : nat -> nat -> list R) : Prop :=
  let dim := q_dim (b_q b) in let nq := q_nao (b_q b) in
  grid_ok dim G /\ dirs_ok dim nq ds /\ src_ok dim nq G src /\ sn_quad (b_q b) /\ g < b_ng b /\
  shaped b (g_nx G) (g_ny G) (g_nz G) /\
  (forall s s', s < 2 * dim -> opposite s s' -> b_bc b s = Periodic -> b_bc b s' = Periodic) /\
  Permutation ord (seq 0 (q_noct (b_q b))) /\ length phi = cells_of dim G /\
  (forall o a, keep = true -> length (psi o a) = cells_of dim G).
(** The sweep succeeds and its result is a sweep by Sol. *)
Definition full_sweep (G : grid) (ds : list dir) (keep upd : bool) (g : nat) (ord : list nat) (b : bsn)
    (phi : list R) (psi : nat -> nat -> list R) (K : kernel) (Sol : relation) : Prop :=
  exists b' phi' psi', sweep K upd g ord (b, phi, psi) = Ok (b', phi', psi') /\
  swept Sol (weight ds) (cells_of (q_dim (b_q b)) G) keep upd g ord b psi b' phi' psi'.
(** Every angle of every octant on one of T threads. *)
Definition fair (T nq : nat) (sched : nat -> list (nat * nat)) : Prop :=
  forall o, Permutation (map fst (sched o)) (seq 0 nq) /\ Forall (fun at_ => snd at_ < T) (sched o).

