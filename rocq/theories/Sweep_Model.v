(** * Sweep_Model: sweeping the mesh for every angle.
    Modelled: src/transport/Sweeper.cc (setup_spatial_indices,
    setup_octant_indices), Sweeper.t.hh (face tables), Sweeper1D.i.hh,
    Sweeper2D.i.hh, Sweeper3D.i.hh (sweep), with the cell solvers of Cell_Model.
    Simplifications: double is R; the sweep source and the cross section of each
    cell are given tables (Equation reads sigma_t(mat_map[cell], g), SweepSource
    computes from tables fixed during a sweep); the current tally is in
    Tally_Model; arrays are lists with every access bounds checked (outside: UB);
    int indices are Z, size_t indices are taken modulo 2^32.
    The OpenMP execution is in the second half. *)
From Verif Require Import Base BaseR Loop Mesh_Model Angle_Model Boundary_Model Cell_Model.
Open Scope nat_scope.

(** Access with a C++ integer index. *)
Definition rdz {A} (l : list A) (i : Z) : res A := if (i <? 0)%Z then UB else rd l (Z.to_nat i).
Definition wrz {A} (l : list A) (i : Z) (x : A) : res (list A) := if (i <? 0)%Z then UB else wr l (Z.to_nat i) x.

(** The mesh and the cross section of each cell, for the current group. *)
Record grid := { g_nx : nat; g_ny : nat; g_nz : nat;
                 g_dx : list R; g_dy : list R; g_dz : list R; g_sig : list R }.
(** One direction of octant 0 and its weight. *)
Record dir := { d_mu : R; d_eta : R; d_xi : R; d_w : R }.

(** ** Tables *)

(** Sweeper.cc 126-153: start and increment along a dimension *)
Definition space_range (o dim n : nat) : Z * Z :=
  if existsb (Nat.eqb o) (match dim with 0 => [0; 3; 4; 7] | 1 => [0; 1; 4; 5] | _ => [0; 1; 2; 3] end)
  then (0, 1)%Z else (Z.of_nat n - 1, -1)%Z.
(** Sweeper.t.hh 27-84: faces entered and left by an octant *)
Definition in_faces (dim o : nat) : list nat :=
  match dim with
  | 1 => match o with 0 => [0] | _ => [1] end
  | 2 => nth o [[0; 2]; [1; 2]; [1; 3]; [0; 3]] []
  | _ => nth o [[0; 2; 4]; [1; 2; 4]; [1; 3; 4]; [0; 3; 4]; [0; 2; 5]; [1; 2; 5]; [1; 3; 5]; [0; 3; 5]] []
  end.
Definition out_faces (dim o : nat) : list nat :=
  match dim with
  | 1 => match o with 0 => [1] | _ => [0] end
  | 2 => nth o [[1; 3]; [0; 3]; [0; 2]; [1; 2]] []
  | _ => nth o [[1; 3; 5]; [0; 3; 5]; [0; 2; 5]; [1; 2; 5]; [1; 3; 4]; [0; 3; 4]; [0; 2; 4]; [1; 2; 4]] []
  end.

(** Sweeper.cc 163-167: staggered default order *)
Definition staggered (no : nat) : list nat := flat_map (fun i => [i; no / 2 + i]) (seq 0 (no / 2)).
(** Sweeper.cc 177-181: non-reflective sides each octant enters *)
Definition vacuum_counts (q : quad) (refl : nat -> bool) : res (list nat) :=
  foldM (fun c s => if refl s then Ok c else
      foldM (fun c i => do t <- incident_octant q s; do o <- rd t i; do x <- rd c o; wr c o (S x))
        (seq 0 (q_noct q / 2)) c)
    (seq 0 (2 * q_dim q)) (repeat 0 (q_noct q)).
(** Sweeper.cc 184-194 *)
Definition swap {A} (l : list A) (i j : nat) : res (list A) :=
  do x <- rd l i; do y <- rd l j; do l <- wr l j x; wr l i y.
Definition exchange_sort (no : nat) (ord cnt : list nat) : res (list nat * list nat) :=
  foldM (fun st i => foldM (fun st j =>
      let '(ord, cnt) := st in
      do cj <- rd cnt j; do ci <- rd cnt i;
      if cj <? ci then do ord <- swap ord i j; do cnt <- swap cnt i j; Ok (ord, cnt) else Ok st)
    (seq 0 no) st) (seq 0 no) (ord, cnt).
(** Sweeper.cc 157-216; refl s is boundary->is_reflective(s), has_reflective is
    true when some side is reflective, has_vacuum is always true
    (BoundaryBase.hh 79, never reset).  user is "sweeper_ordered_octants". *)
Definition octant_order (q : quad) (refl : nat -> bool) (user : option (list nat)) : res (list nat) :=
  let no := q_noct q in
  do ord <- (if existsb refl (seq 0 (2 * q_dim q)) then
               do cnt <- vacuum_counts q refl;
               do st <- exchange_sort no (seq 0 no) cnt; Ok (fst st)
             else Ok (staggered no));
  match user with
  | None => Ok ord
  | Some oo => if length oo =? no then Ok oo else Err
  end.

(** ** Cell solves with their accumulation *)

(** phi[cell] += w * pc; if (d_update_psi) psi[cell] = pc
    (e.g. Equation_DD_2D.i.hh 44-48) *)
Definition deposit (w : R) (keep : bool) (c : Z) (pc : R) (phi psi : list R) : res (list R * list R) :=
  do p <- rdz phi c; do phi <- wrz phi c (p + w * pc)%R;
  if keep then do psi <- wrz psi c pc; Ok (phi, psi) else Ok (phi, psi).

Inductive scheme1 := DD_1 | SD_1 | SC_1.
Definition cell1 (E : scheme1) := match E with DD_1 => dd1 | SD_1 => sd1 | SC_1 => sc1 end.
Inductive scheme2 := DD_2 | SD_2 | SC_2.
Definition cell2 (E : scheme2) := match E with DD_2 => dd2 | SD_2 => sd2 | SC_2 => sc2 end.

Definition solve1 (E : scheme1) (G : grid) (d : dir) (keep : bool) (src : list R)
    (i : Z) (pin : R) (phi psi : list R) : res (R * list R * list R) :=
  do h <- rdz (g_dx G) i; do s <- rdz (g_sig G) i; do q <- rdz src i;
  let (pc, po) := cell1 E s (d_mu d) h q pin in
  do pp <- deposit (d_w d) keep i pc phi psi;
  Ok (po, fst pp, snd pp).
Definition cellz (G : grid) (i j k : Z) : Z :=
  (i + j * Z.of_nat (g_nx G) + k * Z.of_nat (g_nx G) * Z.of_nat (g_ny G))%Z.
Definition solve2 (E : scheme2) (G : grid) (d : dir) (keep : bool) (src : list R)
    (i j : Z) (pv ph : R) (phi psi : list R) : res (R * R * list R * list R) :=
  let c := cellz G i j 0 in
  do h <- rdz (g_dx G) i; do hy <- rdz (g_dy G) j; do s <- rdz (g_sig G) c; do q <- rdz src c;
  let '(pc, (ov, oh)) := cell2 E s (d_mu d) (d_eta d) h hy q pv ph in
  do pp <- deposit (d_w d) keep c pc phi psi;
  Ok (ov, oh, fst pp, snd pp).
Definition solve3 (G : grid) (d : dir) (keep : bool) (src : list R)
    (i j k : Z) (p1 p2 p3 : R) (phi psi : list R) : res (R * R * R * list R * list R) :=
  let c := cellz G i j k in
  do h <- rdz (g_dx G) i; do hy <- rdz (g_dy G) j; do hz <- rdz (g_dz G) k;
  do s <- rdz (g_sig G) c; do q <- rdz src c;
  let '(pc, (o1, o2, o3)) := dd3 s (d_mu d) (d_eta d) (d_xi d) h hy hz q p1 p2 p3 in
  do pp <- deposit (d_w d) keep c pc phi psi;
  Ok (o1, o2, o3, fst pp, snd pp).

(** ** One angle *)

(** Sweeper1D.i.hh 83-110 *)
Definition sweep1 (E : scheme1) (G : grid) (d : dir) (keep : bool) (o : nat) (src : list R)
    (pin : R) (phi psi : list R) : res (R * list R * list R) :=
  let (i0, di) := space_range o 0 (g_nx G) in
  do st <- for_ 0 (g_nx G) (i0, pin, phi, psi) (fun _ st =>
    let '(i, po, phi, psi) := st in
    do r <- solve1 E G d keep src i po phi psi;
    let '(po, phi, psi) := r in Ok ((i + di)%Z, po, phi, psi));
  let '(_, po, phi, psi) := st in Ok (po, phi, psi).

(** Sweeper2D.i.hh 117-151 *)
Definition sweep2 (E : scheme2) (G : grid) (d : dir) (keep : bool) (o : nat) (src : list R)
    (pv ph phi psi : list R) : res (list R * list R * list R * list R) :=
  let (j0, dj) := space_range o 1 (g_ny G) in
  do st <- for_ 0 (g_ny G) (j0, pv, ph, phi, psi) (fun _ st =>
    let '(j, pv, ph, phi, psi) := st in
    do v <- rdz pv j;
    let (i0, di) := space_range o 0 (g_nx G) in
    do st <- for_ 0 (g_nx G) (i0, v, ph, phi, psi) (fun _ st =>
      let '(i, v, ph, phi, psi) := st in
      do h <- rdz ph i;
      do r <- solve2 E G d keep src i j v h phi psi;
      let '(v, h, phi, psi) := r in
      do ph <- wrz ph i h;
      Ok ((i + di)%Z, v, ph, phi, psi));
    let '(_, v, ph, phi, psi) := st in
    do pv <- wrz pv j v;
    Ok ((j + dj)%Z, pv, ph, phi, psi));
  let '(_, pv, ph, phi, psi) := st in Ok (pv, ph, phi, psi).

Definition rdz2 (l : list (list R)) (i j : Z) : res R := do r <- rdz l i; rdz r j.
Definition wrz2 (l : list (list R)) (i j : Z) (x : R) : res (list (list R)) :=
  do r <- rdz l i; do r <- wrz r j x; wrz l i r.
Definition u32 (z : Z) : Z := (z mod 2 ^ 32)%Z.

(** Sweeper3D.i.hh 87-129; i and di are size_t *)
Definition sweep3 (G : grid) (d : dir) (keep : bool) (o : nat) (src : list R)
    (yz xz xy : list (list R)) (phi psi : list R)
    : res (list (list R) * list (list R) * list (list R) * list R * list R) :=
  let (k0, dk) := space_range o 2 (g_nz G) in
  do st <- for_ 0 (g_nz G) (k0, yz, xz, xy, phi, psi) (fun _ st =>
    let '(k, yz, xz, xy, phi, psi) := st in
    let (j0, dj) := space_range o 1 (g_ny G) in
    do st <- for_ 0 (g_ny G) (j0, yz, xz, xy, phi, psi) (fun _ st =>
      let '(j, yz, xz, xy, phi, psi) := st in
      do x <- rdz2 yz k j;
      let (i0, di) := space_range o 0 (g_nx G) in
      do st <- for_ 0 (g_nx G) (u32 i0, x, xz, xy, phi, psi) (fun _ st =>
        let '(i, x, xz, xy, phi, psi) := st in
        do y <- rdz2 xz k i; do z <- rdz2 xy j i;
        do r <- solve3 G d keep src i j k x y z phi psi;
        let '(x, y, z, phi, psi) := r in
        do xz <- wrz2 xz k i y; do xy <- wrz2 xy j i z;
        Ok (u32 (i + u32 di), x, xz, xy, phi, psi));
      let '(_, x, xz, xy, phi, psi) := st in
      do yz <- wrz2 yz k j x;
      Ok ((j + dj)%Z, yz, xz, xy, phi, psi));
    let '(_, yz, xz, xy, phi, psi) := st in
    Ok ((k + dk)%Z, yz, xz, xy, phi, psi));
  let '(_, yz, xz, xy, phi, psi) := st in Ok (yz, xz, xy, phi, psi).

(** ** All angles *)

(** The sweep of one angle from the faces it enters to the faces it leaves. *)
Definition kernel := nat -> nat -> list face -> list R -> list R -> res (list face * list R * list R).
Definition kernel1 (E : scheme1) (G : grid) (ds : list dir) (keep : bool) (src : nat -> nat -> list R) : kernel :=
  fun o a ins phi psi =>
  do d <- rd ds a;
  match ins with
  | [[[x]]] => do r <- sweep1 E G d keep o (src o a) x phi psi;
               let '(x, phi, psi) := r in Ok ([[[x]]], phi, psi)
  | _ => UB
  end.
Definition kernel2 (E : scheme2) (G : grid) (ds : list dir) (keep : bool) (src : nat -> nat -> list R) : kernel :=
  fun o a ins phi psi =>
  do d <- rd ds a;
  match ins with
  | [[v]; [h]] => do r <- sweep2 E G d keep o (src o a) v h phi psi;
                  let '(v, h, phi, psi) := r in Ok ([[v]; [h]], phi, psi)
  | _ => UB
  end.
Definition kernel3 (G : grid) (ds : list dir) (keep : bool) (src : nat -> nat -> list R) : kernel :=
  fun o a ins phi psi =>
  do d <- rd ds a;
  match ins with
  | [yz; xz; xy] => do r <- sweep3 G d keep o (src o a) yz xz xy phi psi;
                    let '(yz, xz, xy, phi, psi) := r in Ok ([yz; xz; xy], phi, psi)
  | _ => UB
  end.

(** Boundary, scalar flux, and the angular flux of each octant and angle. *)
Definition sstate := (bsn * list R * (nat -> nat -> list R))%type.
Definition put2 {A} (f : nat -> nat -> A) (o a : nat) (x : A) : nat -> nat -> A :=
  fun o' a' => if (o' =? o) && (a' =? a) then x else f o' a'.
(** The outgoing fluxes are stored: b(face_out, o, a, g) = ... *)
Definition write_faces (b : bsn) (g o a : nat) (outs : list face) : res bsn :=
  foldM (fun b sf => setk b (key b (fst sf) o a g) (snd sf))
    (combine (out_faces (q_dim (b_q b)) o) outs) b.
Definition read_faces (b : bsn) (g o a : nat) : res (list face) :=
  mapM (fun s => getk b (key b s o a g)) (in_faces (q_dim (b_q b)) o).
(** Body of the angle loop: Sweeper1D.i.hh 66-117, Sweeper2D.i.hh 66-160,
    Sweeper3D.i.hh 62-139. *)
Definition sweep_angle (K : kernel) (upd : bool) (g : nat) (st : sstate) (o a : nat) : res sstate :=
  let '(b, phi, psi) := st in
  do b <- (if upd then bsn_update_angle b g o a else Ok b);
  do ins <- read_faces b g o a;
  do r <- K o a ins phi (psi o a);
  let '(outs, phi, p) := r in
  do b <- write_faces b g o a outs;
  Ok (b, phi, put2 psi o a p).
(** The loops over octants and angles, serial build; phi is reset first. *)
Definition sweep (K : kernel) (upd : bool) (g : nat) (ord : list nat) (st : sstate) : res sstate :=
  let '(b, phi, psi) := st in
  foldM (fun st o => foldM (fun st a => sweep_angle K upd g st o a) (seq 0 (q_nao (b_q b))) st)
    ord (b, map (fun _ => 0%R) phi, psi).

(** ** OpenMP build *)

(** The team executes the angles of an octant in some order, each on some
    thread; the implicit barrier of "omp for" separates octants.  The body of
    one angle is one step here: the bodies of two angles touch different
    boundary entries (key (side, o, a) with their own a), different psi(g,o,a)
    and the phi_local of their thread.  Steps (o, a, t) are listed in the order
    in which they take effect. *)
Definition pstate := (bsn * (nat -> list R) * (nat -> nat -> list R))%type.
Definition put1 {A} (f : nat -> A) (t : nat) (x : A) : nat -> A := fun t' => if t' =? t then x else f t'.
Definition par_step (K : kernel) (upd : bool) (g : nat) (st : pstate) (x : nat * nat * nat) : res pstate :=
  let '(b, loc, psi) := st in let '(o, a, t) := x in
  do r <- sweep_angle K upd g (b, loc t, psi) o a;
  let '(b, p, psi) := r in Ok (b, put1 loc t p, psi).
(** Sweeper2D.i.hh 164-172: the critical sections, in the order [fin] in which
    the threads reach them; for (i) phi[i] += phi_local[i]. *)
Definition add_local (phi loc : list R) : res (list R) :=
  foldM (fun phi i => do x <- rd phi i; do y <- rd loc i; wr phi i (x + y)%R) (seq 0 (length phi)) phi.
(** Sweeper2D.i.hh 23-183 with DETRAN_ENABLE_OPENMP: sched o lists (angle,
    thread) for octant o. *)
Definition sweep_par (K : kernel) (upd : bool) (g : nat) (ord : list nat) (sched : nat -> list (nat * nat))
    (fin : list nat) (st : sstate) : res sstate :=
  let '(b, phi, psi) := st in
  do r <- foldM (par_step K upd g) (flat_map (fun o => map (fun at_ => (o, fst at_, snd at_)) (sched o)) ord)
            (b, fun _ => map (fun _ => 0%R) phi, psi);
  let '(b, loc, psi) := r in
  do phi <- foldM (fun phi t => add_local phi (loc t)) fin (map (fun _ => 0%R) phi);
  Ok (b, phi, psi).

(** Sweeper1D.i.hh 90-91 and Sweeper3D.i.hh 109 pass the shared phi to
    equation.solve inside the parallel region, where phi[cell] += x is a load
    followed by a store.  [cell_add t c x] is what thread t executes. *)
Inductive event := Load (t c : nat) | Store (t c : nat) (x : R).
Definition cell_add (t c : nat) (x : R) : list event := [Load t c; Store t c x].
(** reg t is the value thread t has loaded. *)
Fixpoint exec (es : list event) (phi reg : nat -> R) : nat -> R :=
  match es with
  | [] => phi
  | Load t c :: es => exec es phi (put1 reg t (phi c))
  | Store t c x :: es => exec es (put1 phi c (reg t + x)%R) reg
  end.
(** Thread t runs its additions (cell, amount) one after the other. *)
Definition thread (t : nat) (l : list (nat * R)) : list event := flat_map (fun cx => cell_add t (fst cx) (snd cx)) l.
Inductive interleave {A} : list A -> list A -> list A -> Prop :=
| il_nil : interleave [] [] []
| il_l x l r m : interleave l r m -> interleave (x :: l) r (x :: m)
| il_r x l r m : interleave l r m -> interleave l (x :: r) (x :: m).
(** Cells in the order visited (Sweeper1D.i.hh 83-110) with the amounts w * pc. *)
Definition contributions (E : scheme1) (G : grid) (d : dir) (o : nat) (src : list R) (pin : R) : res (list (nat * R)) :=
  do r <- sweep1 E G d true o src pin (repeat 0%R (g_nx G)) (repeat 0%R (g_nx G));
  let '(_, _, pc) := r in
  let cells := map (fun ii => Z.to_nat (let (i0, di) := space_range o 0 (g_nx G) in (i0 + Z.of_nat ii * di)%Z)) (seq 0 (g_nx G)) in
  mapM (fun c => do p <- rd pc c; Ok (c, (d_w d * p)%R)) cells.
