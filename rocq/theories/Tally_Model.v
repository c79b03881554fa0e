(** * Tally_Model: partial currents on the faces of a coarse mesh, tallied
    during a sweep.
    Modelled: src/transport/CoarseMesh.cc (the per-dimension data are those of
    Region_Model), BoundaryTally.hh (index, octant shifts, perpendicular axes),
    CurrentTally.cc (constructor, reset), CurrentTally.i.hh (all of it), and the
    calls in Sweeper1D.i.hh, Sweeper2D.i.hh and Sweeper3D.i.hh.
    Simplifications: one group is tallied at a time (a sweep touches only the
    currents of its group); double is R; every access is bounds checked
    (outside: UB), a negative int used as an index is outside; the serial build.
    The sweeps are those of Sweep_Model with the tally threaded through. *)
From Verif Require Import Base BaseR Loop Mesh_Model Angle_Model Boundary_Model Cell_Model Sweep_Model Region_Model.
Open Scope nat_scope.

(** ** The coarse mesh *)

(** Data of each dimension and the widths of the fine mesh (Mesh::width). *)
Record cmesh := { cm_dim : nat; cm_of : nat -> coarse1; cm_w : nat -> list R }.
(** A dimension the mesh does not have: CoarseMesh.cc 40-46 (number_cells = 1),
    Mesh1D.cc 24-30 and Mesh2D.cc 26-28 (width 1). *)
Definition unused : coarse1 := {| c_count := [1]; c_edges := [0; 1]%R; c_map := [0]; c_flag := [(-1)%Z; (-1)%Z] |}.
Definition fine_widths (dim : nat) (G : grid) (d : nat) : list R :=
  if d <? dim then nth d [g_dx G; g_dy G; g_dz G] [] else [1%R].
(** CoarseMesh.cc 18-98 *)
Definition coarse_mesh (dim : nat) (G : grid) (level : nat) : res cmesh :=
  do cs <- mapM (fun d => if d <? dim then coarsen (fine_widths dim G d) level else Ok unused) [0; 1; 2];
  Ok {| cm_dim := dim; cm_of := fun d => nth d cs unused; cm_w := fine_widths dim G |}.
(** number_cells of the coarse mesh *)
Definition cm_n (C : cmesh) (d : nat) : nat := length (c_count (cm_of C d)).

(** ** The tally of one group: axis, sense, coarse face *)
Definition tally := list (list (list R)).
(** CurrentTally.cc 17-44; axes beyond the dimension stay empty *)
Definition sizes (C : cmesh) (d : nat) : nat :=
  if d <? cm_dim C then
    nth d [(cm_n C 0 + 1) * cm_n C 1 * cm_n C 2; cm_n C 0 * (cm_n C 1 + 1) * cm_n C 2; cm_n C 0 * cm_n C 1 * (cm_n C 2 + 1)] 0
  else 0.
Definition new_tally (C : cmesh) : tally := map (fun d => repeat (repeat 0%R (sizes C d)) 2) [0; 1; 2].
(** CurrentTally.cc 48-58 *)
Definition reset (T : tally) : tally := map (map (map (fun _ => 0%R))) T.
(** BoundaryTally.hh 162-180 *)
Definition face_index (C : cmesh) (i j k : Z) (axis : nat) : Z :=
  let nx := Z.of_nat (cm_n C 0) in let ny := Z.of_nat (cm_n C 1) in
  match axis with
  | 0%nat => i + j * (nx + 1) + k * (nx + 1) * ny
  | 1%nat => i + j * nx + k * nx * (ny + 1)
  | _ => i + j * nx + k * nx * ny
  end%Z.
(** BoundaryTally.hh 196-223 *)
Definition shift (d o : nat) : nat :=
  nth o (nth d [[1; 0; 0; 1; 1; 0; 0; 1]; [1; 1; 0; 0; 1; 1; 0; 0]; [1; 1; 1; 1; 0; 0; 0; 0]] []) 0.
(** BoundaryTally.hh 226-231 *)
Definition perp (d : nat) : nat * nat := match d with 0 => (1, 2) | 1 => (0, 2) | _ => (0, 1) end.
(** CurrentTally.i.hh 18-38 *)
Definition partial_current (C : cmesh) (T : tally) (i j k axis sense : nat) : res R :=
  do a <- rd T axis; do s <- rd a sense; rdz s (face_index C (Z.of_nat i) (Z.of_nat j) (Z.of_nat k) axis).
(** d_partial_current[d][g][s][i] += x *)
Definition bump (T : tally) (d s : nat) (i : Z) (x : R) : res tally :=
  do a <- rd T d; do v <- rd a s; do y <- rdz v i;
  do v <- wrz v i (y + x)%R; do a <- wr a s v; wr T d a.

(** ** Tallying *)
Definition coord (ijk : Z * Z * Z) (d : nat) : Z :=
  let '(i, j, k) := ijk in match d with 0 => i | 1 => j | _ => k end.
Definition cosine (c : dir) (d : nat) : R := match d with 0 => d_mu c | 1 => d_eta c | _ => d_xi c end.
(** The part common to CurrentTally.i.hh 64-85 and 149-166: psi on coarse edge
    ce along d0, at fine cell ijk. *)
Definition tally_at (C : cmesh) (c : dir) (o : nat) (ijk : Z * Z * Z) (d0 : nat) (ce : Z) (psi : R) (T : tally) : res tally :=
  let (d1, d2) := perp d0 in
  do m1 <- rdz (c_map (cm_of C d1)) (coord ijk d1);
  do m2 <- rdz (c_map (cm_of C d2)) (coord ijk d2);
  let cdim d := if d =? d0 then ce else if d =? d1 then Z.of_nat m1 else Z.of_nat m2 in
  let i := face_index C (cdim 0) (cdim 1) (cdim 2) d0 in
  do h1 <- rdz (cm_w C d1) (coord ijk d1); do h2 <- rdz (cm_w C d2) (coord ijk d2);
  bump T d0 (shift d0 o) i (psi * cosine c d0 * d_w c * (h1 * h2))%R.
(** CurrentTally.i.hh 42-90: the outgoing fluxes of a cell, in two and three dimensions *)
Definition tally_out (C : cmesh) (c : dir) (o : nat) (ijk : Z * Z * Z) (psi : list R) (T : tally) : res tally :=
  foldM (fun T d0 =>
    do ce <- rdz (c_flag (cm_of C d0)) (coord ijk d0 + Z.of_nat (shift d0 o));
    if (ce >=? 0)%Z then do p <- rd psi d0; tally_at C c o ijk d0 ce p T else Ok T) (seq 0 (cm_dim C)) T.
(** CurrentTally.i.hh 95-118: in one dimension *)
Definition tally_out1 (C : cmesh) (c : dir) (o : nat) (i : Z) (psi : R) (T : tally) : res tally :=
  do ce <- rdz (c_flag (cm_of C 0)) (i + Z.of_nat (shift 0 o));
  if (ce >=? 0)%Z then bump T 0 (shift 0 o) ce (psi * d_mu c * d_w c)%R else Ok T.
(** CurrentTally.i.hh 122-168: the flux entering through the boundary *)
Definition tally_in (C : cmesh) (c : dir) (o : nat) (ijk : Z * Z * Z) (d0 : nat) (psi : R) (T : tally) : res tally :=
  let inc := (if coord ijk d0 =? 0 then -1 else 1)%Z in
  do ce <- rdz (c_flag (cm_of C d0)) (coord ijk d0 + Z.of_nat (shift d0 o) + inc);
  tally_at C c o ijk d0 ce psi T.

(** ** Sweeps with a tally *)

(** Sweeper1D.i.hh 83-110 *)
Definition sweep1_t (E : scheme1) (G : grid) (C : cmesh) (d : dir) (keep : bool) (o : nat) (src : list R)
    (pin : R) (phi psi : list R) (T : tally) : res (R * list R * list R * tally) :=
  let (i0, di) := space_range o 0 (g_nx G) in
  do T <- tally_in C d o (i0, 0, 0)%Z 0 pin T;
  do st <- for_ 0 (g_nx G) (i0, pin, phi, psi, T) (fun _ st =>
    let '(i, po, phi, psi, T) := st in
    do r <- solve1 E G d keep src i po phi psi;
    let '(po, phi, psi) := r in
    do T <- tally_out1 C d o i po T;
    Ok ((i + di)%Z, po, phi, psi, T));
  let '(_, po, phi, psi, T) := st in Ok (po, phi, psi, T).

(** Sweeper2D.i.hh 91-151 *)
Definition sweep2_t (E : scheme2) (G : grid) (C : cmesh) (d : dir) (keep : bool) (o : nat) (src : list R)
    (pv ph phi psi : list R) (T : tally) : res (list R * list R * list R * list R * tally) :=
  let nx := Z.of_nat (g_nx G) in let ny := Z.of_nat (g_ny G) in
  (* Sweeper2D.i.hh 92-104 *)
  do T <- for_ 0 (g_ny G) T (fun jj T =>
    let i := if (o =? 1) || (o =? 2) then (nx - 1)%Z else 0%Z in
    let j := if 1 <? o then (ny - Z.of_nat jj - 1)%Z else Z.of_nat jj in
    do v <- rdz pv j; tally_in C d o (i, j, 0%Z) 0 v T);
  (* Sweeper2D.i.hh 106-116 *)
  do T <- for_ 0 (g_nx G) T (fun ii T =>
    let j := if 1 <? o then (ny - 1)%Z else 0%Z in
    let i := if (o =? 1) || (o =? 2) then (nx - Z.of_nat ii - 1)%Z else Z.of_nat ii in
    do h <- rdz ph i; tally_in C d o (i, j, 0%Z) 1 h T);
  let (j0, dj) := space_range o 1 (g_ny G) in
  do st <- for_ 0 (g_ny G) (j0, pv, ph, phi, psi, T) (fun _ st =>
    let '(j, pv, ph, phi, psi, T) := st in
    do v <- rdz pv j;
    let (i0, di) := space_range o 0 (g_nx G) in
    do st <- for_ 0 (g_nx G) (i0, v, ph, phi, psi, T) (fun _ st =>
      let '(i, v, ph, phi, psi, T) := st in
      do h <- rdz ph i;
      do r <- solve2 E G d keep src i j v h phi psi;
      let '(v, h, phi, psi) := r in
      do ph <- wrz ph i h;
      do T <- tally_out C d o (i, j, 0%Z) [v; h] T;
      Ok ((i + di)%Z, v, ph, phi, psi, T));
    let '(_, v, ph, phi, psi, T) := st in
    do pv <- wrz pv j v;
    Ok ((j + dj)%Z, pv, ph, phi, psi, T));
  let '(_, pv, ph, phi, psi, T) := st in Ok (pv, ph, phi, psi, T).

(** The sweep of one angle. *)
Definition kernel_t := nat -> nat -> list face -> list R -> list R -> tally -> res (list face * list R * list R * tally).
Definition kernel1_t (E : scheme1) (G : grid) (C : cmesh) (ds : list dir) (keep : bool) (src : nat -> nat -> list R) : kernel_t :=
  fun o a ins phi psi T =>
  do d <- rd ds a;
  match ins with
  | [[[x]]] => do r <- sweep1_t E G C d keep o (src o a) x phi psi T;
               let '(x, phi, psi, T) := r in Ok ([[[x]]], phi, psi, T)
  | _ => UB
  end.
Definition kernel2_t (E : scheme2) (G : grid) (C : cmesh) (ds : list dir) (keep : bool) (src : nat -> nat -> list R) : kernel_t :=
  fun o a ins phi psi T =>
  do d <- rd ds a;
  match ins with
  | [[v]; [h]] => do r <- sweep2_t E G C d keep o (src o a) v h phi psi T;
                  let '(v, h, phi, psi, T) := r in Ok ([[v]; [h]], phi, psi, T)
  | _ => UB
  end.
(** Sweeper3D.i.hh 87-129: d_tally is not mentioned between the reset (line 48)
    and the end of the sweep. *)
Definition kernel3_t (G : grid) (ds : list dir) (keep : bool) (src : nat -> nat -> list R) : kernel_t :=
  fun o a ins phi psi T =>
  do r <- kernel3 G ds keep src o a ins phi psi;
  let '(outs, phi, psi) := r in Ok (outs, phi, psi, T).

(** Sweeper1D.i.hh 66-117, Sweeper2D.i.hh 66-160, Sweeper3D.i.hh 62-139 *)
Definition sweep_angle_t (K : kernel_t) (upd : bool) (g : nat) (st : sstate * tally) (o a : nat) : res (sstate * tally) :=
  let '(b, phi, psi, T) := st in
  do b <- (if upd then bsn_update_angle b g o a else Ok b);
  do ins <- read_faces b g o a;
  do r <- K o a ins phi (psi o a) T;
  let '(outs, phi, p, T) := r in
  do b <- write_faces b g o a outs;
  Ok (b, phi, put2 psi o a p, T).
(** The whole sweep; phi and the tally are reset first. *)
Definition sweep_t (K : kernel_t) (upd : bool) (g : nat) (ord : list nat) (st : sstate) (T : tally) : res (sstate * tally) :=
  let '(b, phi, psi) := st in
  foldM (fun st o => foldM (fun st a => sweep_angle_t K upd g st o a) (seq 0 (q_nao (b_q b))) st)
    ord (b, map (fun _ => 0%R) phi, psi, reset T).
