(** * Model of the multigroup diffusion solver
    Source: /repo/src/solvers/mg/MGDiffusionSolver.cc,
    /repo/src/boundary/BoundaryDiffusion.cc and
    /repo/src/boundary/BoundaryTraits.hh (BoundaryValue).
    The loss operator is the one of Diffusion_Model.v and its matrix is a
    callow::Matrix (Matrix_Model.v).
    Simplifications: [double] is [R]; unsigned and int indices are [nat]; the
    entries of the input database are the fields of the records below; the
    linear solver is a parameter (operator, right hand side, initial guess);
    source(cell, g) of an external source and source(g)[cell] of the fission
    source are functions of cell and group; the dynamic casts of the boundary
    succeed; printing is not modelled. *)
From Verif Require Import Base BaseR Util_Model Mesh_Model Material_Model Matrix_Model Matrix_Spec Diffusion_Model.
Open Scope nat_scope.

(** ** Boundary currents *)

(** One of the two tables (IN, OUT) of BoundaryDiffusion: groups, rows and
    columns of each side, and the values; a 2-D side has the single row 0, a 1-D
    side the single entry (0, 0). *)
Record btab := { b_g : nat; b_r : nat -> nat; b_c : nat -> nat; b_v : nat -> nat -> nat -> nat -> R }.

(** BoundaryDiffusion.cc 37-105: sizes and zeros. *)
Definition btab_new (m : mesh) (G : nat) : btab :=
  {| b_g := G;
     b_r := fun s => match dim m with 3 => match s / 2 with 2 => ncy m | _ => ncz m end | _ => 1 end;
     b_c := fun s => match dim m with 1 => 1 | _ => match s / 2 with 0 => ncy m | _ => ncx m end end;
     b_v := fun _ _ _ _ => 0%R |}.
(** BoundaryTraits.hh 77-137: value(b, i, j) is b[j][i] in 3-D, b[i] in 2-D and b
    in 1-D. *)
Definition brow (d i j : nat) : nat := match d with 3 => j | _ => 0 end.
Definition bcol (d i j : nat) : nat := match d with 1 => 0 | _ => i end.
Definition bin (b : btab) (s g r c : nat) : bool := (g <? b_g b) && (r <? b_r b s) && (c <? b_c b s).
Definition bget (d : nat) (b : btab) (s g i j : nat) : res R :=
  if bin b s g (brow d i j) (bcol d i j) then Ok (b_v b s g (brow d i j) (bcol d i j)) else UB.
Definition bset (d : nat) (b : btab) (s g i j : nat) (v : R) : res btab :=
  if bin b s g (brow d i j) (bcol d i j) then
    Ok {| b_g := b_g b; b_r := b_r b; b_c := b_c b;
          b_v := fun s' g' r c =>
            if (s' =? s) && (g' =? g) && (r =? brow d i j) && (c =? bcol d i j) then v else b_v b s' g' r c |}
  else UB.

(** ** The solver *)

(** Constructor arguments and input entries: mesh, material, adjoint, multiply,
    the boundary conditions read by the loss operator, "compute_boundary_flux"
    and store_current() of the state. *)
Record dprob := {
  q_mesh : mesh; q_mat : mtl; q_adj : bool; q_mult : bool;
  q_bc : nat -> option bool; q_zero : bool; q_fill : bool; q_store : bool }.
(** Members that change: d_keff, d_M and d_phi. *)
Record dstate := { s_keff : R; s_M : csr; s_x : list R }.
(** What a call of solve() reads: the external sources (None: null pointer), the
    fission source (None: null pointer) and the boundary. *)
Record dinput := { i_ext : list (option (nat -> nat -> R)); i_fis : option (nat -> nat -> R); i_in : btab; i_out : btab }.

(** The operator built with a cutoff and keff: 45-53, 88-89; scale of fission 0. *)
Definition d_loss (P : dprob) (cut : nat) (keff : R) : loss :=
  {| l_mesh := q_mesh P; l_mat := q_mat P; l_cut := cut; l_fis := q_mult P; l_adj := q_adj P; l_keff := keff; l_sf := 0;
     l_bc := q_bc P; l_zero := q_zero P |}.
Definition d_build (srt : list triplet -> list triplet) (L : loss) : res csr := build srt (loss_caps L) (loss_ops L).
(** 36 *)
Definition d_size (P : dprob) : nat := ncells (q_mesh P) * ng (q_mat P).

(** 22-78 *)
Definition d_new (srt : list triplet -> list triplet) (P : dprob) : res dstate :=
  let cut := if q_adj P then ng (q_mat P) - 1 else 0 in
  do M <- d_build srt (d_loss P cut 1);
  Ok {| s_keff := 1%R; s_M := M; s_x := repeat 0%R (d_size P) |}.

(** 82-91 *)
Definition refresh (srt : list triplet -> list triplet) (P : dprob) (keff : R) (s : dstate) : res dstate :=
  do M <- d_build srt (d_loss P 0 keff);
  Ok {| s_keff := keff; s_M := M; s_x := s_x s |}.

(** d_Q[row] += v *)
Definition bump (Q : list R) (row : nat) (v : R) : res (list R) :=
  do q <- rd Q row; wr Q row (q + v)%R.

(** 126-167 *)
Definition add_source (P : dprob) (f : nat -> nat -> R) (Q : list R) : res (list R) :=
  let n := ncells (q_mesh P) in
  foldM (fun Q g => foldM (fun Q c => bump Q (c + g * n) (f c g)) (seq 0 n) Q) (seq 0 (ng (q_mat P))) Q.
Definition build_volume_source (P : dprob) (i : dinput) (Q : list R) : res (list R) :=
  do Q <- foldM (fun Q e => match e with None => Ok Q | Some f => add_source P f Q end) (i_ext i) Q;
  match i_fis i with
  | Some f => if q_mult P then Ok Q else add_source P f Q
  | None => Ok Q
  end.

(** remdims: 180, 323 *)
Definition dim1 (a : nat) : nat := match a with 0 => 1 | _ => 0 end.
Definition dim2 (a : nat) : nat := match a with 2 => 1 | _ => 2 end.
(** The faces visited by the loops 192-238 and 335-385, in order: dimension,
    direction, the two secondary indices and the group. *)
Definition faces (P : dprob) : list (nat * nat * nat * nat * nat) :=
  let m := q_mesh P in
  flat_map (fun a => flat_map (fun dir => flat_map (fun i1 => flat_map (fun i2 =>
    map (fun g => (a, dir, i1, i2, g)) (seq 0 (ng (q_mat P))))
    (seq 0 (axis_cells m (dim2 a)))) (seq 0 (axis_cells m (dim1 a)))) (seq 0 2)) (seq 0 (dim m)).
(** ijk[dim0] = bound[dir] *)
Definition bound (m : mesh) (a dir : nat) : nat := match dir with 0 => 0 | _ => axis_cells m a - 1 end.
(** ijk *)
Definition face_pos (m : mesh) (a dir i1 i2 b : nat) : nat :=
  if b =? a then bound m a dir else if b =? dim1 a then i1 else i2.
Definition face_cell (m : mesh) (a dir i1 i2 : nat) : nat :=
  index (ncx m) (ncy m) (face_pos m a dir i1 i2 0) (face_pos m a dir i1 i2 1) (face_pos m a dir i1 i2 2).
(** width(dim0, ijk[dim0]) *)
Definition face_width (m : mesh) (a dir : nat) : res R := rd (axis_widths_of m a) (bound m a dir).

(** 171-239 *)
Definition build_boundary_source (P : dprob) (i : dinput) (Q : list R) : res (list R) :=
  let m := q_mesh P in
  foldM (fun Q '(a, dir, i1, i2, g) =>
    do W <- face_width m a dir;
    let c := face_cell m a dir i1 i2 in
    let D := dc (q_mat P) g (mt m c) in
    do J <- bget (dim m) (i_in i) (2 * a + dir) g i1 i2;
    bump Q (c + g * ncells m) ((8 * D * J) / ((4 * D + W) * W))%R) (faces P) Q.

(** 314-386 *)
Definition fill_boundary (P : dprob) (x : list R) (i : dinput) : res btab :=
  let m := q_mesh P in
  foldM (fun out '(a, dir, i1, i2, g) =>
    do W <- face_width m a dir;
    let c := face_cell m a dir i1 i2 in
    let D := dc (q_mat P) g (mt m c) in
    do J <- bget (dim m) (i_in i) (2 * a + dir) g i1 i2;
    do p <- rd x (c + g * ncells m);
    bset (dim m) out (2 * a + dir) g i1 i2 (((2 * D) * p + (W - 4 * D) * J) / (4 * D + W))%R) (faces P) (i_out i).

(** 243-254: phi(g)[cell]; the row runs through the vector. *)
Definition fill_state (P : dprob) (x : list R) : res (list (list R)) :=
  let n := ncells (q_mesh P) in
  mapM (fun g => mapM (rd x) (seq (g * n) n)) (seq 0 (ng (q_mat P))).

(** 262-352: current(g)[cell] from the flux of the group. *)
Definition face_current (P : dprob) (g : nat) (phi : nat -> R) (c leak : nat) : R :=
  let m := q_mesh P in
  let d := dtilde m (q_mat P) (albedo (dim m) (q_bc P) (q_zero P)) g c leak in
  (if on_edge m c leak then d * phi c
   else INR (leak mod 2) * d * (phi (neighbour m c leak) - phi c))%R.
Definition cell_current (P : dprob) (g : nat) (phi : nat -> R) (c : nat) : R :=
  let m := q_mesh P in
  let J := face_current P g phi c in
  let hx := hw m c 0 in let hy := hw m c 1 in let hz := hw m c 2 in
  let A := ((hy * hz + hx * hz + hx * hy) * (1 / 6))%R in
  let Jx := ((J 0%nat + J 1%nat) * hy * hz / A)%R in
  let Jy := ((J 2%nat + J 3%nat) * hx * hz / A)%R in
  let Jz := ((J 4%nat + J 5%nat) * hx * hy / A)%R in
  sqrt (Jx * Jx + Jy * Jy + Jz * Jz).
Definition fill_current (P : dprob) (phi : list (list R)) : res (list (list R)) :=
  mapM (fun g => do p <- rd phi g;
                 mapM (fun c => Ok (cell_current P g (fun c => nth c p 0%R) c)) (seq 0 (ncells (q_mesh P))))
       (seq 0 (ng (q_mat P))).

(** What solve() leaves in the solver, the state (fluxes, and currents if they
    are stored) and the OUT table of the boundary. *)
Record dresult := { r_state : dstate; r_phi : list (list R); r_cur : list (list R); r_out : btab }.

(** 95-122.  [lin M b x0] is d_solver->solve. *)
Definition d_solve (srt : list triplet -> list triplet) (lin : csr -> list R -> list R -> res (list R))
    (P : dprob) (s : dstate) (i : dinput) (keff : R) : res dresult :=
  do s <- (if Req_EM_T (s_keff s) keff then Ok s else refresh srt P keff s);
  do Q <- build_volume_source P i (repeat 0%R (d_size P));
  do Q <- build_boundary_source P i Q;
  do x <- lin (s_M s) Q (s_x s);
  do phi <- fill_state P x;
  do cur <- (if q_store P then fill_current P phi else Ok []);
  do out <- (if q_fill P then fill_boundary P x i else Ok (i_out i));
  Ok {| r_state := {| s_keff := s_keff s; s_M := s_M s; s_x := x |}; r_phi := phi; r_cur := cur; r_out := out |}.

(** Several calls of solve() on the same solver object. *)
Definition d_runs srt lin (P : dprob) (calls : list (dinput * R)) : res dstate :=
  do s <- d_new srt P;
  foldM (fun s '(i, k) => do r <- d_solve srt lin P s i k; Ok (r_state r)) calls s.
