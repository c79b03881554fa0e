(** * Rom_Model: the reduced order eigenvalue solver.
    Source: /repo/src/solvers/rom/OperatorProjection.cc (SetOperators, Project),
    ROMSolver.cc (Solve), ROMBasis.cc (GetBasis), with the dense matrices of Dense_Model.
    Simplifications: double is R; the full operators are functions that may fail; the
    eigensolver is a function of the reduced matrices (EigenSolverCreator is not modelled);
    the file is the list of its doubles.
    Not modelled: the choice and construction of the full operators (Set_FullOperators), a
    file that cannot be opened, printing. *)
From Verif Require Import Base BaseR Loop Matrix_Model Dense_Model Gmres_Model.
Open Scope nat_scope.

(** OperatorProjection.cc 50-53: v[j] = U(j, i) *)
Definition rom_column (U : dense) (i : nat) : res (list R) := mapM (fun j => dget U j i) (seq 0 (dm U)).
(** OperatorProjection.cc 40-61: Project; Ar is the matrix given *)
Definition project (A : vop) (U : dense) (Ar : dense) : res dense :=
  for_ 0 (dn U) Ar (fun i Ar =>
    do v <- rom_column U i;
    do y <- A v;
    do y2 <- dmultiply_transpose U y;
    dinsert_col Ar i y2 INSERT).

(** ROMSolver.cc 124-131: negative components change their sign *)
Definition rom_sign (sol : list R) : list R := map (fun s => if Rlt_dec s 0 then (s * -1)%R else s) sol.
(** ROMSolver.cc 85-133: Solve; [B] is None for the energy-independent operator.  [eig]
    gets the operators in the order of set_operators and gives the eigenvalue and vector. *)
Definition rom_solve (A : vop) (B : option vop) (eig : dense -> option dense -> res (R * list R)) (U : dense) : res (R * list R) :=
  let r := dn U in
  do Ar <- project A U (dense_new r r 0%R);
  do kx <- (match B with
            | Some B => do Br <- project B U (dense_new r r 0%R); eig Br (Some Ar)
            | None => eig Ar None
            end);
  do sol <- dmultiply U (snd kx);
  Ok (fst kx, rom_sign sol).

(** ROMBasis.cc 21-52: GetBasis from the doubles of the file *)
Definition get_basis (file : list R) (U : dense) : res dense :=
  for_ 0 (dn U * dm U) U (fun c U => do b <- rd file c; dinsert U (c / dn U) (c mod dn U) b INSERT).
