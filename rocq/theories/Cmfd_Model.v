(** * Cmfd_Model: the coarse mesh acceleration of the multigroup iteration
    Source: /repo/src/solvers/mg/MGSolverCMFD.cc (update), with the coarse mesh of
    /repo/src/transport/CoarseMesh.cc, the homogenisation of
    /repo/src/transport/Homogenize.cc (Region_Model) and the matrix of
    /repo/src/solvers/mg/CMFDLossOperator.cc (Diffusion_Model).
    Simplifications: double is R; the values looked up in the input are fields;
    build_fixed(g) is given by its result; the currents stored in the state (used
    only for current weighting) are given; the linear solver is a parameter; the
    tally is read inside its range, so that reading it is a total function. *)
From Verif Require Import Base BaseR Loop Mesh_Model Material_Model Matrix_Model Sweep_Model Region_Model Tally_Model Diffusion_Model.
Open Scope nat_scope.

Record problem := {
  u_mesh : mesh; u_mat : mtl; u_adj : bool; u_mult : bool;
  u_bc : nat -> option bool; u_zero : bool; u_correct : bool; u_dc : dc_option; u_omega : R }.

(** The mesh and total cross sections as a sweep of group g sees them. *)
Definition grid_of (U : problem) (g : nat) : grid :=
  let m := u_mesh U in
  {| g_nx := ncx m; g_ny := ncy m; g_nz := ncz m; g_dx := mdx m; g_dy := mdy m; g_dz := mdz m;
     g_sig := map (fun c => st (u_mat U) g (mt m c)) (seq 0 (ncells m)) |}.

(** CoarseMesh.cc 101-121, with Mesh.cc 42-60: one fine cell per interval; each
    coarse cell has its own material. *)
Definition ones (C : cmesh) (d : nat) : list nat := repeat 1 (length (c_edges (cm_of C d)) - 1).
Definition coarse_cells (C : cmesh) : nat :=
  match cm_dim C with 1 => cm_n C 0 | 2 => cm_n C 0 * cm_n C 1 | _ => cm_n C 0 * cm_n C 1 * cm_n C 2 end.
Definition coarse_of (C : cmesh) : res mesh :=
  let e d := c_edges (cm_of C d) in
  let mm := map Z.of_nat (seq 0 (coarse_cells C)) in
  match cm_dim C with
  | 1 => mesh1D (ones C 0) (e 0) mm
  | 2 => mesh2D (ones C 0) (ones C 1) (e 0) (e 1) mm
  | _ => mesh3D (ones C 0) (ones C 1) (ones C 2) (e 0) (e 1) (e 2) mm
  end.
(** CoarseMesh.cc 123-141 *)
Definition coarse_map (C : cmesh) : res (list nat) := fine_to_coarse_map (cm_of C 0) (cm_of C 1) (cm_of C 2).

(** The operator of MGSolverCMFD.cc 158-166: the constructor is given keff, but
    construct(phi) is called with its default arguments (CMFDLossOperator.hh
    88-91), which set d_keff to 1 and d_initial to true.  Nothing is relaxed then,
    and the value of d_alpha (uninitialised unless given) does not matter. *)
Definition operator (U : problem) (C : cmesh) (cm : mesh) (cmat : mtl) (T : nat -> tally) (keff alpha : R) : cmfd :=
  {| k_mesh := cm; k_mat := cmat; k_fis := u_mult U; k_adj := u_adj U; k_keff := 1%R;
     k_bc := u_bc U; k_zero := u_zero U; k_correct := u_correct U; k_alpha := alpha; k_init := true;
     k_cur := fun i j k g axis sense =>
       match partial_current C (T g) i j k axis (if sense then 1 else 0) with Ok x => x | _ => 0%R end;
     k_old := fun _ _ _ => 0%R |}.

(** v[i] += x *)
Definition add_at (v : list R) (i : nat) (x : R) : res (list R) := do y <- rd v i; wr v i (y + x)%R.
Definition rd2 (v : list (list R)) (g i : nat) : res R := do r <- rd v g; rd r i.

(** MGSolverCMFD.cc 168-186: averages over the coarse cells of the fixed source
    and of the flux. *)
Definition averages (fine coarse : mesh) (cmap : list nat) (ng : nat) (q phi : list (list R)) : res (list R * list R) :=
  let nc := ncells coarse in
  for_ 0 ng (repeat 0%R (ng * nc), repeat 0%R (ng * nc)) (fun g s =>
    for_ 0 (ncells fine) s (fun i s =>
      do cc <- rd cmap i;
      let ci := cc + g * nc in
      do v <- volume fine i; do vc <- volume coarse cc;
      let v_ratio := (v / vc)%R in
      do qi <- rd2 q g i; do pi <- rd2 phi g i;
      do b <- add_at (fst s) ci (qi * v_ratio)%R;
      do x <- add_at (snd s) ci (pi * v_ratio)%R;
      Ok (b, x))).

(** MGSolverCMFD.cc 194-202: the fine flux is scaled by the change of the average. *)
Definition rescale (nf nc ng : nat) (cmap : list nat) (omega : R) (x x0 : list R) (phi : list (list R)) : res (list (list R)) :=
  for_ 0 ng phi (fun g phi =>
    for_ 0 nf phi (fun i phi =>
      do cc <- rd cmap i;
      let ci := cc + g * nc in
      do a <- rd x ci; do a0 <- rd x0 ci;
      do row <- rd phi g; do p <- rd row i;
      do row <- wr row i (p * (omega * a / a0 + (1 - omega)))%R;
      wr phi g row)).

(** MGSolverCMFD.cc 148-188: the coarse mesh, its map, and the linear system with
    its starting vector. *)
Definition coarse_problem (srt : list triplet -> list triplet)
    (U : problem) (C : cmesh) (T : nat -> tally) (q : list (list R)) (cur : option (list (list R))) (keff alpha : R)
    (phi : list (list R)) : res (mesh * list nat * (csr * list R * list R)) :=
  let m := u_mesh U in
  let G := ng (u_mat U) in
  do cm <- coarse_of C;
  do cmap <- coarse_map C;
  do vols <- mapM (volume m) (seq 0 (ncells m));
  do mf <- homogenize {| h_mat := u_mat U; h_n := ncells m; h_vol := vols; h_reg := cmap;
                         h_mmap := map (mt m) (seq 0 (ncells m)); h_w := FineMesh phi cur; h_dc := u_dc U |}
                      (repeat 1 G) 0;
  let K := operator U C cm (fst mf) T keff alpha in
  do A <- cmfd_construct srt K None (fun g c => nth c (nth g (snd mf) []) 0%R);
  do bx <- averages m cm cmap G q phi;
  Ok (cm, cmap, (A, fst bx, snd bx)).

(** MGSolverCMFD.cc 145-204.  [solve A b x] is the linear solver started from x. *)
Definition update (srt : list triplet -> list triplet) (solve : csr -> list R -> list R -> res (list R))
    (U : problem) (C : cmesh) (T : nat -> tally) (q : list (list R)) (cur : option (list (list R))) (keff alpha : R)
    (phi : list (list R)) : res (list (list R)) :=
  do s <- coarse_problem srt U C T q cur keff alpha phi;
  let '(cm, cmap, (A, b, x0)) := s in
  do x <- solve A b x0;
  rescale (ncells (u_mesh U)) (ncells cm) (ng (u_mat U)) cmap (u_omega U) x x0 phi.
