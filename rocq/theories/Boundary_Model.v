(** * Boundary_Model: discrete ordinates boundary fluxes and conditions.
    Modelled: src/boundary/BoundarySN.{cc,i.hh}, Reflective.i.hh, Periodic.{hh,i.hh},
    FixedBoundary.i.hh, Vacuum.hh and the SN part of BoundaryFactory.t.hh.
    Simplifications: double is R; the boundary flux of one side, group and angle
    (a value in 1-D, a vector in 2-D, a rectangular vector of vectors in 3-D) is a
    list of rows, with a single row in 1-D and 2-D; the side/group/angle container
    is a function with its sizes checked at every access (outside: UB).
    Not modelled: display, BoundaryMOC (its body is commented out). *)
From Verif Require Import Base BaseR Angle_Model.
Open Scope nat_scope.

Definition face := list (list R).
(** The condition of a side; Fixed holds FixedBoundary's d_psi[g][io][a]. *)
Inductive bc := Vacuum | Reflect | Fixed (psi : nat -> nat -> nat -> face) | Periodic.

Record bsn := { b_q : quad; b_ng : nat; b_bc : nat -> bc; b_flux : nat -> nat -> nat -> face }.
Definition with_flux (b : bsn) (f : nat -> nat -> nat -> face) : bsn :=
  {| b_q := b_q b; b_ng := b_ng b; b_bc := b_bc b; b_flux := f |}.

(** d_boundary_flux[side][g][angle], bounds checked. *)
Definition in_range (b : bsn) (s g n : nat) : bool :=
  (s <? 2 * q_dim (b_q b)) && (g <? b_ng b) && (n <? q_nang (b_q b)).
Definition getk (b : bsn) (k : nat * nat * nat) : res face :=
  let '(s, g, n) := k in if in_range b s g n then Ok (b_flux b s g n) else UB.
Definition setk (b : bsn) (k : nat * nat * nat) (v : face) : res bsn :=
  let '(s, g, n) := k in
  if in_range b s g n then
    Ok (with_flux b (fun s' g' n' => if (s' =? s) && (g' =? g) && (n' =? n) then v else b_flux b s' g' n'))
  else UB.
(** BoundarySN.i.hh 21-45: operator()(side, o, a, g) *)
Definition key (b : bsn) (s o a g : nat) : nat * nat * nat := (s, g, index (b_q b) o a).
(** One assignment b(dst) = b(src). *)
Definition copyk (b : bsn) (dst src : nat * nat * nat) : res bsn := do v <- getk b src; setk b dst v.

(** BoundarySN.cc 22-61: a side is reflective when its condition is "reflect". *)
Definition is_reflective (b : bsn) (s : nat) : bool := match b_bc b s with Reflect => true | _ => false end.

(** BoundarySN.cc 138-208: rows and columns of a side's flux. *)
Definition face_rows (dim nx ny nz s : nat) : nat :=
  match dim with 1 => 1 | 2 => 1 | _ => if s <? 4 then nz else ny end.
Definition face_cols (dim nx ny nz s : nat) : nat :=
  match dim with 1 => 1 | 2 => if s <? 2 then ny else nx | _ => if s <? 2 then ny else nx end.
Definition zero_face (dim nx ny nz s : nat) : face :=
  repeat (repeat 0%R (face_cols dim nx ny nz s)) (face_rows dim nx ny nz s).
(** BoundarySN.cc 138-208: boundary_flux_size *)
Definition flux_size (dim na nx ny nz s : nat) : nat :=
  match dim with
  | 1 => na
  | 2 => if s <? 2 then na * ny else na * nx
  | _ => if s <? 2 then na * nz * ny else if s <? 4 then na * nz * nx else na * ny * nx
  end.
(** BoundarySN.cc 22-61 and BoundaryFactory.t.hh 72-121: all fluxes zero. *)
Definition boundary_new (q : quad) (ng nx ny nz : nat) (c : nat -> bc) : bsn :=
  {| b_q := q; b_ng := ng; b_bc := c; b_flux := fun s _ _ => zero_face (q_dim q) nx ny nz s |}.
(** FixedBoundary.i.hh 18-31: initially a copy of boundary(side, 0, 0, 0). *)
Definition fixed_new (b : bsn) (s : nat) : bc := Fixed (fun _ _ _ => b_flux b s 0 (index (b_q b) 0 0)).

(** ** Reflective *)

(** Reflective.i.hh 81-218: (incident, outgoing) octants. *)
Definition octants (dim s : nat) : list (nat * nat) :=
  match dim with
  | 1 => match s with 0 => [(0, 1)] | _ => [(1, 0)] end
  | 2 => match s with
         | 0 => [(0, 1); (3, 2)]
         | 1 => [(2, 3); (1, 0)]
         | 2 => [(1, 2); (0, 3)]
         | _ => [(3, 0); (2, 1)]
         end
  | _ => match s with
         | 0 => [(7, 6); (4, 5); (3, 2); (0, 1)]
         | 1 => [(5, 4); (6, 7); (1, 0); (2, 3)]
         | 2 => [(5, 6); (1, 2); (4, 7); (0, 3)]
         | 3 => [(6, 5); (7, 4); (2, 1); (3, 0)]
         | 4 => [(2, 6); (3, 7); (1, 5); (0, 4)]
         | _ => [(7, 3); (6, 2); (4, 0); (5, 1)]
         end
  end.
(** Reflective.i.hh 20-32 *)
Definition reflect_group (b : bsn) (s g : nat) : res bsn :=
  foldM (fun b o => foldM (fun b a =>
      do io <- rd (octants (q_dim (b_q b)) s) o;
      copyk b (key b s (fst io) a g) (key b s (snd io) a g))
    (seq 0 (q_nao (b_q b))) b) (seq 0 (q_noct (b_q b) / 2)) b.
(** Reflective.i.hh 37-55: the last matching pair. *)
Definition out_of (t : list (nat * nat)) (o : nat) : option nat :=
  fold_left (fun r io => if fst io =? o then Some (snd io) else r) t None.
Definition reflect_angle (b : bsn) (s g o a : nat) : res bsn :=
  match out_of (octants (q_dim (b_q b)) s) o with
  | Some o' => copyk b (key b s o a g) (key b s o' a g)
  | None => Ok b
  end.

(** ** Periodic *)

(** Periodic.hh 54-73 *)
Definition periodic_side (s : nat) : nat :=
  match s with 0 => 1 | 1 => 0 | 2 => 3 | 3 => 2 | 4 => 5 | _ => 4 end.
(** Periodic.i.hh 18-29 *)
Definition periodic_group (b : bsn) (s g : nat) : res bsn :=
  foldM (fun b o => foldM (fun b a =>
      do io <- rd (octants (q_dim (b_q b)) s) o;
      copyk b (key b (periodic_side s) (fst io) a g) (key b s (snd io) a g))
    (seq 0 (q_nao (b_q b))) b) (seq 0 (q_noct (b_q b) / 2)) b.
(** Periodic.i.hh 33-44 *)
Definition periodic_angle (b : bsn) (s g o a : nat) : res bsn :=
  foldM (fun b io => if snd io =? o then copyk b (key b (periodic_side s) o a g) (key b s o a g) else Ok b)
    (octants (q_dim (b_q b)) s) b.

(** ** FixedBoundary.i.hh 36-47 *)
Definition fixed_set (psi : nat -> nat -> nat -> face) (b : bsn) (s g : nat) : res bsn :=
  do t <- incident_octant (b_q b) s;
  foldM (fun b io => do o <- rd t io;
      foldM (fun b a => setk b (key b s o a g) (psi g io a)) (seq 0 (q_nao (b_q b))) b)
    (seq 0 (length t)) b.

(** ** BoundarySN.i.hh 49-71 *)
Definition bc_set (b : bsn) (s g : nat) : res bsn :=
  match b_bc b s with Fixed psi => fixed_set psi b s g | _ => Ok b end.
Definition bc_update (b : bsn) (s g : nat) : res bsn :=
  match b_bc b s with Reflect => reflect_group b s g | Periodic => periodic_group b s g | _ => Ok b end.
Definition bc_update_angle (b : bsn) (s g o a : nat) : res bsn :=
  match b_bc b s with Reflect => reflect_angle b s g o a | Periodic => periodic_angle b s g o a | _ => Ok b end.
Definition bsn_set (b : bsn) (g : nat) : res bsn :=
  foldM (fun b s => bc_set b s g) (seq 0 (2 * q_dim (b_q b))) b.
Definition bsn_update (b : bsn) (g : nat) : res bsn :=
  foldM (fun b s => bc_update b s g) (seq 0 (2 * q_dim (b_q b))) b.
Definition bsn_update_angle (b : bsn) (g o a : nat) : res bsn :=
  foldM (fun b s => bc_update_angle b s g o a) (seq 0 (2 * q_dim (b_q b))) b.
(** BoundarySN.i.hh 75-101 *)
Definition bsn_clear (b : bsn) (g : nat) : res bsn :=
  foldM (fun b s => foldM (fun b n => do f <- getk b (s, g, n); setk b (s, g, n) (map (map (fun _ => 0%R)) f))
    (seq 0 (q_nang (b_q b))) b) (seq 0 (2 * q_dim (b_q b))) b.

(** ** BoundarySN.i.hh 116-225: psi *)

(** The loop over sides, octants and angles around the element loop [body]. *)
Definition psi_loop {S} (b : bsn) (out onlyref : bool) (body : S -> nat -> nat -> res S) (st : S) : res S :=
  foldM (fun st s => if negb onlyref || is_reflective b s then
    foldM (fun st o =>
        do ti <- incident_octant (b_q b) s; do oi <- rd ti o;
        do oct <- (if out then do t <- outgoing_octant (b_q b) s; rd t o else Ok oi);
        foldM (fun st a => body st s (index (b_q b) oct a)) (seq 0 (q_nao (b_q b))) st)
      (seq 0 (2 ^ (q_dim (b_q b) - 1))) st
    else Ok st) (seq 0 (2 * q_dim (b_q b))) st.
(** GET: the values written through v, in order. *)
Definition psi_get (b : bsn) (g : nat) (out onlyref : bool) : res (list R) :=
  psi_loop b out onlyref (fun v s n => do f <- getk b (s, g, n); Ok (v ++ concat f)) [].
(** SET: reads consecutive values of v; running past its end is UB. *)
Fixpoint fill_row (row v : list R) : res (list R * list R) :=
  match row, v with
  | [], _ => Ok ([], v)
  | _ :: row', x :: v' => do p <- fill_row row' v'; Ok (x :: fst p, snd p)
  | _ :: _, [] => UB
  end.
Fixpoint fill_face (f : face) (v : list R) : res (face * list R) :=
  match f with
  | [] => Ok ([], v)
  | row :: f' => do p <- fill_row row v; do q <- fill_face f' (snd p); Ok (fst p :: fst q, snd q)
  end.
Definition psi_set (b : bsn) (g : nat) (v : list R) (out onlyref : bool) : res (bsn * list R) :=
  psi_loop b out onlyref (fun st s n =>
    do f <- getk (fst st) (s, g, n);
    do p <- fill_face f (snd st);
    do b' <- setk (fst st) (s, g, n) (fst p); Ok (b', snd p)) (b, v).
