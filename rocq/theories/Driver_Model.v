(** * Model of the driver program: mesh from input, source and execution
    Source: /repo/src/drivers/StupidParser.cc (parse_mesh_text),
    Execute.cc, /repo/src/geometry/Mesh.cc, Mesh1D.cc.
    Simplifications: fine mesh counts given as ints are non-negative (a
    negative one reads as 0); int and size_t arithmetic does not overflow;
    the silo output is not modelled. *)
From Coq Require Import String.
From Verif Require Import Base BaseR Loop Util_Model Mesh_Model Manager_Model.
Open Scope string_scope.
Open Scope nat_scope.
Set Implicit Arguments.

(** Insist: always active. *)
Definition insist (b : bool) : res unit := if b then Ok tt else Err.

Definition nats (l : list Z) : list nat := map Z.to_nat l.
Definition zlen {A} (l : list A) : Z := Z.of_nat (List.length l).

(** Mesh1D.cc 36-50 with Mesh.cc 42-62 and 116-131: the constructor from fine
    mesh edges; the map is stored as it is. *)
Definition mesh1D_fine (xfme : list R) (mm : list Z) : res mesh :=
  let fm := repeat 1 (List.length xfme - 1) in
  do tx <- total xfme;
  do wx <- widths fm xfme;
  Ok {| dim := 1; xfm := fm; yfm := [1]; zfm := [1]; xcme := xfme;
        ycme := [0%R; 1%R]; zcme := [0%R; 1%R]; mdx := wx; mdy := [1%R]; mdz := [1%R];
        twx := tx; twy := 1%R; twz := 1%R; mat := mm |}.

Section Driver.
  Variable Sub : Type.

  (** StupidParser.cc 102-116: x.  Result: coarse, edges, counts, map size. *)
  Definition read_x (d : db Sub) : res (bool * list R * list Z * Z) :=
    if check d "mesh_xcme" then
      do xme <- get_vd d "mesh_xcme";
      do _ <- insist (check d "mesh_xfm");
      do xf <- get_vi d "mesh_xfm";
      do _ <- insist (List.length xme =? List.length xf + 1);
      Ok (true, xme, xf, zlen xf)
    else
      do _ <- insist (check d "mesh_xfme");
      do xme <- get_vd d "mesh_xfme";
      Ok (false, xme, [], (zlen xme - 1)%Z).

  (** StupidParser.cc 118-139: y. *)
  Definition read_y (d : db Sub) (coarse : bool) (xme : list R) : res (list R * list Z * Z) :=
    if coarse then
      do _ <- insist (check d "mesh_ycme");
      do yme <- get_vd d "mesh_ycme";
      do _ <- insist (check d "mesh_yfm");
      do yf <- get_vi d "mesh_yfm";
      do _ <- insist (List.length xme =? List.length yf + 1);
      Ok (yme, yf, zlen yf)
    else
      do _ <- insist (check d "mesh_xfme");
      do yme <- get_vd d "mesh_yfme";
      Ok (yme, [], (zlen yme - 1)%Z).

  (** StupidParser.cc 140-161: z. *)
  Definition read_z (d : db Sub) (coarse : bool) : res (list R * list Z * Z) :=
    if coarse then
      do _ <- insist (check d "mesh_zcme");
      do zme <- get_vd d "mesh_zcme";
      do _ <- insist (check d "mesh_zfm");
      do zf <- get_vi d "mesh_zfm";
      do _ <- insist (List.length zme =? List.length zf + 1);
      Ok (zme, zf, zlen zf)
    else
      do _ <- insist (check d "mesh_zfme");
      do zme <- get_vd d "mesh_zfme";
      Ok (zme, [], (zlen zme - 1)%Z).

  (** StupidParser.cc 84-187. *)
  Definition parse_mesh (d : db Sub) : res mesh :=
    do _ <- insist (check d "dimension");
    do dimension <- get_int d "dimension";
    do x <- read_x d;
    let '(coarse, xme, xf, nx) := x in
    do y <- (if (1 <? dimension)%Z then read_y d coarse xme else Ok ([], [], 1%Z));
    let '(yme, yf, ny) := y in
    do z <- (if (2 <? dimension)%Z then read_z d coarse else Ok ([], [], 1%Z));
    let '(zme, zf, nz) := z in
    do _ <- insist (check d "mesh_mat_map");
    do mm <- get_vi d "mesh_mat_map";
    do _ <- insist (zlen mm =? nx * ny * nz)%Z;
    if (dimension =? 1)%Z then
      (if coarse then mesh1D (nats xf) xme mm else mesh1D_fine xme mm)
    else if (dimension =? 2)%Z && coarse then mesh2D (nats xf) (nats yf) xme yme mm
    else if (dimension =? 3)%Z && coarse then mesh3D (nats yf) (nats zf) (nats zf) xme yme zme mm
    else Err.

  (** The external sources the driver can make (Execute.cc 84-118). *)
  Inductive esource :=
  | EConstant (groups : Z) (strength : R)
  | EIsotropic (groups : Z) (spectra : list (list R)) (map : list Z).

  (** Execute.cc 100-107: the list of values as a table; division by zero
      groups is undefined. *)
  Definition spectra_table (ng : nat) (v : list R) : res (list (list R)) :=
    if ng =? 0 then UB else
    let ns := List.length v / ng in
    do r <- for_ 0 ns (repeat (repeat 0%R ng) ns, 0) (fun n s =>
      for_ 0 ng s (fun g s =>
        do x <- rd v (snd s);
        do row <- rd (fst s) n;
        do row <- wr row g x;
        do t <- wr (fst s) n row;
        Ok (t, S (snd s))));
    Ok (fst r).

  Definition driver_source (d : db Sub) (groups : Z) : res esource :=
    do ty <- get_str d "source_type";
    if String.eqb ty "constant" then
      do s <- (if check d "source_type" then get_dbl d "source_strength" else Ok 1%R);
      Ok (EConstant groups s)
    else if String.eqb ty "isotropic" then
      do _ <- insist (check d "source_spectra");
      do v <- get_vd d "source_spectra";
      do t <- spectra_table (Z.to_nat groups) v;
      do _ <- insist (check d "source_spectra_map");
      do mp <- get_vi d "source_spectra_map";
      Ok (EIsotropic groups t mp)
    else Err.

  Variable F : Type.
  Variable parts : db Sub -> nat -> disc -> res unit.
  Variable details : db Sub -> kind -> res unit.
  Variable run : solver esource -> R -> F -> F.
  Variable zero : F.
  Variable eig : string -> manager esource F -> F.

  (** Execute.cc 60-129: any problem that is not an eigenvalue problem. *)
  Definition execute_fixed (d : db Sub) (dim : nat) (groups : Z) (ptype : string) : res (manager esource F) :=
    let mult := String.eqb ptype "multiply" in
    do keff <- (if check d "fixed_scaling_factor" then get_dbl d "fixed_scaling_factor" else Ok 1%R);
    do M <- setup parts zero d (new_manager esource zero dim mult false);
    do q <- driver_source d groups;
    do r <- solve run keff (set_source (Some q) M);
    Ok (snd r).

  (** Execute.cc 22-45 and 47-157; the result is the manager whose state is
      the answer. *)
  Definition execute (d : db Sub) : res (manager esource F) :=
    do dimension <- get_int d "dimension";
    do ptype <- str_or d "problem_type" "";
    do groups <- get_int d "number_groups";
    let dim := Z.to_nat dimension in
    if negb (String.eqb ptype "eigenvalue") then execute_fixed d dim groups ptype
    else
      do M <- eigen_manager esource parts details zero d dim;
      do r <- eigen_solve eig d M;
      Ok (snd r).
End Driver.
