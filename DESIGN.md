# Machine-checked model of libdetran: design

## Method

* The sources under `/repo/src` are read as text and transcribed by hand, function by function, into total
  Gallina functions (`rocq/theories/*_Model.v`).  Every definition cites the file and lines it models and
  states its simplifications.
* Each area has a small specification written independently of the model's helper functions
  (`*_Spec.v`, or the statement itself when it needs no vocabulary), proofs in `*_Proofs.v` (and further
  lemma files for large areas) and a `*_Props.v` file which holds only the property theorems (`exact lemma`),
  each followed by `Print Assumptions`, and the cases.
* A property the faithful model violates is proved as `…_refuted` with a concrete witness; beside it the
  part that does hold is proved and named `…_partial`.
* Beside the theorems, `Example`s named `…_case` show concrete non-trivial data meeting the hypotheses.
* `seeded/LOG.jsonl` records edits of the model that imitate realistic bugs, made in a scratch copy, with the
  theorems that stopped proving and those that had to be tightened because they still proved.

## Numbers, undefined behaviour, contracts

* `double` is modelled by the exact reals `R` of Coq's standard library where the property is algebraic
  (conservation, adjointness, fixed points …), or by an arbitrary type with arbitrary operations where the property is
  structural (storage, indexing, ordering).  Rounding, NaN and infinities are not modelled unless a file says so.
* `int`, `unsigned` indices are modelled by `nat`/`Z` without overflow unless a file says so (the sweep index tables, the
  random number generator and the DLP recursion model the 32/64-bit wrap).
* `Require/Ensure/Assert` (`utilities/DBC.hh`) are disabled in release builds: they are *not* treated as checks; where a
  property needs them they appear as hypotheses.  `Insist`/`THROW` are always active and are modelled as an
  error result (`Err`).
* Out-of-bounds accesses, null dereferences and reads of missing map entries are a distinct `UB`
  result of the model, never a default value.
* `std::sort` is any function that returns a permutation ordered by the comparison (quantified in the theorems).
* PETSc/SLEPc/HDF5/Silo/Boost branches (`#ifdef`) are not modelled; the plain C++ branch is.
* Shared infrastructure: `Base.v` (results, checked list access), `BaseR.v` (sums over the reals), `Loop.v` (counted loops and
  their invariant rule).

## Trusted base

1. Coq 8.16.1's kernel.
2. For each theorem exactly the axioms its `Print Assumptions` prints. All come from Coq's standard library; the letters in
   brackets after each theorem below are this list:
   * `A` `ClassicalDedekindReals.sig_forall_dec`
   * `B` `ClassicalDedekindReals.sig_not_dec`
   * `C` `FunctionalExtensionality.functional_extensionality_dep`
   * `D` `Classical_Prop.classic`
   * `none`: closed under the global context.
3. The reading of the C++ sources that the comments of the model files document (this is not checked by any tool).

No axioms, parameters, functors, module types or admitted proofs are introduced.

## Properties: what is modelled, how it is proved, what holds

Status is that of MANIFEST.json. The proof idea names the main argument; the theorems are in the named `*_Props.v` file.

### C01 Sparse matrix product reflects every accepted insertion

*Modelled code:* `src/callow/matrix/Matrix.i.hh:Matrix::insert,Matrix::multiply`; `src/callow/matrix/Matrix.cc:Matrix::assemble`; `src/callow/matrix/Triplet.hh:compare_triplet`.
*Proof:* Invariant over insertion histories (row content = accepted entries); permutation invariance of sums.
*Status:* proved. All histories of scalar insertions, all capacities, any sort satisfying the standard's guarantee; exact arithmetic. A row without any accepted entry makes assemble() undefined and this is part of the theorem.
*Theorems* (`Matrix_Props.v`): `C01_multiply_reflects_insertions` [AC].

### C02 Assembled sparse structure is well formed

*Modelled code:* `src/callow/matrix/Matrix.cc:Matrix::assemble`; `src/callow/matrix/Matrix.i.hh:start,end,diagonal,column`.
*Proof:* Sortedness and induction over rows; an empty row is `UB`.
*Status:* proved. 
*Theorems* (`Matrix_Props.v`): `C02_assembled_structure` [AC].

### C03 insert() status is truthful and never overruns the row

*Modelled code:* `src/callow/matrix/Matrix.i.hh:Matrix::insert`.
*Proof:* Case analysis with the invariant counter <= capacity; witnesses for the other overloads.
*Status:* partial. Holds for the scalar form and the INSERT row form. False for the triplet and column overloads (they check each entry against the capacity separately and write past the row end); the ADD row form may return false after storing a prefix.
*Theorems* (`Matrix_Props.v`): `C03_scalar_insert_truthful_partial` [AC], `C03_row_insert_truthful_partial` [AC], `C03_triplet_insert_overruns_refuted` [A], `C03_column_insert_overruns_refuted` [A], `C03_row_add_not_atomic_refuted` [A].

### C04 Element access agrees with the matrix that multiply applies

*Modelled code:* `src/callow/matrix/Matrix.i.hh:Matrix::operator()`.
*Proof:* Witness on a 2x2 matrix; search lemma for the diagonal.
*Status:* partial. operator() searches the wrong side of the diagonal: off-diagonal entries always read 0 although multiply uses them; the diagonal is read correctly.
*Theorems* (`Matrix_Props.v`): `C04_element_access_refuted` [AC], `C04_element_access_partial` [AC].

### C05 multiply_transpose is the adjoint of multiply

*Modelled code:* `src/callow/matrix/Matrix.i.hh:Matrix::multiply,multiply_transpose`; `src/callow/matrix/MatrixDense.i.hh:multiply,multiply_transpose`.
*Proof:* Bilinearity and induction over stored entries.
*Status:* proved. 
*Theorems* (`Dense_Props.v`, `Matrix_Props.v`): `C05_sparse_transpose_adjoint` [AC], `C05_dense_transpose_adjoint` [AC].

### C06 SparseRow is an ordered finite map

*Modelled code:* `src/callow/matrix/SparseRow.cc:SparseRow::insert,find,elements,operator[],range`.
*Proof:* Refinement to `nat -> option value`.
*Status:* proved. INSERT of zero is a no-op in the code (so it does not clear a stored value); this is part of the specification used.
*Theorems* (`Dense_Props.v`): `C06_sparse_row_ordered_map` [AC].

### C07 Dense matrix storage addresses each entry once

*Modelled code:* `src/callow/matrix/MatrixDense.hh:MDIDX`; `src/callow/matrix/MatrixDense.i.hh:insert,operator()`.
*Proof:* Injectivity of i + j*m.
*Status:* proved. 
*Theorems* (`Dense_Props.v`): `C07_dense_storage` [A], `C07_dense_row_insert` [A], `C07_dense_col_insert` [A].

### C08 Stationary solvers converge only to solutions

*Modelled code:* `src/callow/solver/Jacobi.i.hh:solve_impl`; `src/callow/solver/GaussSeidel.i.hh:solve_impl`; `src/callow/solver/Richardson.i.hh:solve_impl`.
*Proof:* Algebra; induction over rows for Gauss-Seidel.
*Status:* proved. One iteration leaves x unchanged iff A x = b (relaxation factor nonzero, diagonal stored once and nonzero); complete solves return an exact initial guess unchanged. Richardson is proved for every operator, explicit or matrix free.
*Theorems* (`Solver_Props.v`): `C08_jacobi` [AC], `C08_gauss_seidel` [AC], `C08_richardson` [AC], `C08_matrix_operator` [AC], `C08_jacobi_keeps` [ABC], `C08_gauss_seidel_keeps` [ABC], `C08_richardson_keeps` [ABC].

### C09 Linear solver status is truthful

*Modelled code:* `src/callow/solver/LinearSolver.cc:monitor,monitor_init,solve`; `src/callow/solver/Richardson.i.hh:solve_impl`; `src/callow/solver/GMRES.cc:solve_impl`.
*Proof:* Invariants over the residual sequences of the driver loops; witnesses at the limits.
*Status:* partial. For limits of at least two iterations the status, iteration bound and whole residual history of the stationary solvers are proved, and SUCCESS bounds the true residual (Richardson: of the previous iterate, scaled by omega). GMRES is covered by C80_true_residual. Refuted: with a limit of one iteration a failed stationary solve is reported RUNNING; Richardson returning on the initial residual reports the iteration count of the previous solve; GMRES never reports MAXIT, it stops at two iterations below the limit with status RUNNING.
*Theorems* (`Gmres_Props.v`, `Solver_Props.v`): `C09_jacobi_partial` [ABC], `C09_gauss_seidel_partial` [ABC], `C09_richardson_partial` [ABC], `C09_jacobi_success` [ABC], `C09_gauss_seidel_success` [ABC], `C09_richardson_success` [ABC], `C09_limit_refuted` [ABC], `C09_iterations_refuted` [ABC], `C09_gmres_limit_refuted` [ABC].

### C10 GMRES least squares kernel is exact

*Modelled code:* `src/callow/solver/GMRES.cc:solve_impl,apply_givens`; `src/callow/solver/GMRES.i.hh:compute_y`.
*Proof:* Givens algebra, induction on the Hessenberg columns, back substitution by induction on the size.
*Status:* proved. Rotations preserve the norm of every column and touch no other; back substitution is exact for every size; a whole restart cycle (from arbitrary leftover arrays) returns the minimiser of the residual over the Krylov space and reports its norm.
*Theorems* (`Gmres_Props.v`): `C10_givens` [AC], `C10_back_substitution` [AC], `C10_least_squares` [ABC].

### C100 Generated tracks cover the domain in the directions of the quadrature

*Modelled code:* `src/geometry/Tracker.cc:Tracker::generate_tracks_2D_cartesian`; `src/geometry/Tracker.cc:Tracker::find_exit`; `src/geometry/Tracker.cc:Tracker::trackit`; `src/geometry/Track.cc:Track::reverse`; `src/geometry/Track.hh:Track::spatial_weight`.
*Proof:* The map is kept sorted by keys, so inserting by octants gives four concatenated lists; exits by the two plane intersections; widths are sums of the rule's weights; number of points bounded by the ceiling. Shared storage of reversed tracks by numbering the tracks. Witnesses: a rectangle 2 by 1, azimuth (4/5, 3/5), a tracker used for 1 by 1 and then for 2 by 1.
*Status:* partial. Directions, faces, mirrors, reverses and segments proved for a new tracker; sums of widths, maximum spacing and reuse refuted.
*Theorems* (`Tracker_Props.v`): `C100_tracks_partial` [ABC], `C100_trackit_partial` [ABC], `C100_mesh_partial` [ABC], `C100_widths_partial` [ABC], `C100_spacing_partial` [ABC], `C100_stale_partial` [ABC], `C100_widths_refuted` [ABC], `C100_spacing_refuted` [ABC], `C100_reuse_refuted` [ABC].

### C101 The multigroup diffusion solver returns the solution of the problem it was given

*Modelled code:* `src/solvers/mg/MGDiffusionSolver.cc:MGDiffusionSolver::solve`; `src/solvers/mg/MGDiffusionSolver.cc:MGDiffusionSolver::refresh`; `src/solvers/mg/MGDiffusionSolver.cc:MGDiffusionSolver::build_volume_source`; `src/solvers/mg/MGDiffusionSolver.cc:MGDiffusionSolver::build_boundary_source`; `src/solvers/mg/MGDiffusionSolver.cc:MGDiffusionSolver::fill_boundary`; `src/solvers/mg/MGDiffusionSolver.cc:MGDiffusionSolver::fill_current`.
*Proof:* The invariant over calls: the matrix kept is the one built for the last keff over all groups. One row of it is leakage plus reactions (Diffusion); the boundary source supplies the incident currents, so the corrected net current obeys the partial current law; net currents cancel at inner faces in the sum. Indices of faces by dimension are shown to enumerate the outer faces. Witnesses: one cell with two groups, two cells and their mirror image.
*Status:* partial. Balance per cell and over the mesh for all problems and call histories (adjoint: initial keff only), outgoing currents at vacuum sides. Refuted with witnesses: outgoing currents at reflecting sides, adjoint problems with another keff, the magnitudes of the currents stored in the state. Linear solver: any that returns only exact solutions.
*Theorems* (`Dsolve_Props.v`): `C101_balance_partial` [ABCD], `C101_safe` [ABCD], `C101_adjoint_keff_partial` [ABCD], `C101_reflect_refuted` [ABCD], `C101_adjoint_refuted` [ABCD], `C101_current_refuted` [ABC], `C101_case_solve` [ABCD].

### C102 Diffusion fluxes of absorbing problems exist, are unique, monotone and positive

*Modelled code:* `src/solvers/mg/MGDiffusionSolver.cc:MGDiffusionSolver::solve`; `src/solvers/mg/MGDiffusionSolver.cc:MGDiffusionSolver::build_volume_source`; `src/solvers/mg/DiffusionLossOperator.cc:DiffusionLossOperator::build`.
*Proof:* The operator is a weakly coupled M-matrix: reaction rows or columns with positive sums, leakage rows that sum to zero or more with non-positive neighbours. Sums over the cells where the flux is negative give monotonicity, hence injectivity, hence existence (n+1 vectors are dependent). Zero spreads from a cell to its neighbours and, by the transfer relation, to the groups that feed it. Witnesses: one cell with two groups, forward and adjoint; the same cell with more fission than absorption.
*Status:* proved. absorbing(P,k) is the condition that rows or columns of the reaction matrix have positive sums; C102_sharp shows that without it negative fluxes are returned
*Theorems* (`Dpos_Props.v`): `C102_exists` [ABCD], `C102_monotone` [ABCD], `C102_unique` [ABCD], `C102_positive` [ABCD], `C102_sharp` [ABCD].

### C103 What the power method reports about its result

*Modelled code:* `src/callow/solver/PowerIteration.i.hh:PowerIteration::solve_impl`; `src/callow/solver/EigenSolver.i.hh:EigenSolver::solve`; `src/callow/solver/EigenSolver.cc:EigenSolver::EigenSolver`; `src/callow/solver/EigenSolver.hh:EigenSolver::set_tolerances`.
*Proof:* A run is the sequence x(i+1) = T x(i) / |T x(i)|; the loop is an invariant over it; convergence from the contraction of the Hilbert-type oscillation already used for C51. Witnesses: diag(1,3) stopped after one step; a limit raised from 0 to 2; the matrix 2 1 / 1 1.
*Status:* partial. success is judged on the previous iterate (C103_residual_refuted); C103_success_partial bounds the residual of the pair returned; set_tolerances does not resize the residual storage (C103_storage_refuted)
*Theorems* (`Cpow_Props.v`): `C103_success_partial` [ABC], `C103_fixed` [ABC], `C103_converges` [ABCD], `C103_residual_refuted` [ABC], `C103_storage_refuted` [ABC].

### C104 The diffusion eigenvalue solver finds the multiplication factor

*Modelled code:* `src/solvers/eigen/EigenDiffusion.cc:EigenDiffusion::EigenDiffusion`; `src/solvers/eigen/EigenDiffusion.cc:EigenDiffusion::solve`; `src/solvers/eigen/Eigensolver.cc:Eigensolver::Eigensolver`; `src/solvers/Solver.hh:Solver`; `src/solvers/mg/DiffusionGainOperator.cc:DiffusionGainOperator::build`.
*Proof:* The iteration matrix is (flux from the fission neutrons of one cell) times (fission cross section); C102 makes the first factor positive in exactly the groups reached, so rows are alike up to a bounded factor and the convergence of C103 applies; eigenvectors and critical fluxes correspond; uniqueness of the eigenvector by subtracting the largest multiple. Witness for adjoint problems: one cell, two groups, for which (1, 1) is an eigenvector of the matrix the code uses.
*Status:* partial. forward problems proved; in adjoint problems the solver combines the adjoint loss operator with the forward gain operator and reports a wrong factor (C104_adjoint_refuted); the linear solver is any that solves the systems
*Theorems* (`Ediff_Props.v`): `C104_forward_partial` [ABCD], `C104_success_partial` [ABCD], `C104_constructs` [AC], `C104_adjoint_refuted` [ABCD].

### C105 Fission generations of a fixed source problem

*Modelled code:* `src/solvers/FixedSourceManager.cc:FixedSourceManager::iterate`; `src/transport/FissionSource.cc:FissionSource::update`; `src/transport/FissionSource.i.hh:FissionSource::setup_outer`; `src/transport/State.cc:State::clear`.
*Proof:* Generation 0 is the solver's result; afterwards the sources are gone, the boundary and flux are cleared and the stored fission source, which only setup_outer() writes and iterate() never calls, is zero: every sweep, source iteration and Gauss-Seidel step then maps zero to zero. For exact solvers: zero is the only solution of the damped problem. With setup_outer() called by the client the solver's equation is that of the next generation; sums by linearity. Witness: one fuel cell, 2 then 0 instead of 1.
*Status:* partial. Refuted: FixedSourceManager::iterate never calls setup_outer, so all generations after the first are zero (C105_all_lost, C105_exact_lost; witness C105_refuted). Generation 0 and the generations of a client that sets up the fission source are right.
*Theorems* (`Gen_Props.v`): `C105_refuted` [ABCD], `C105_first_partial` [ABC], `C105_all_lost` [ABCD], `C105_exact_lost` [ABCD], `C105_client_partial` [ABCD].

### C106 What the ILUT(p, t) factorisation keeps

*Modelled code:* `src/callow/preconditioner/PCILUT.cc:PCILUT::PCILUT`; `src/callow/preconditioner/PCILUT.cc:drop_t`; `src/callow/preconditioner/PCILUT.cc:drop_p`; `src/callow/preconditioner/PCILUT.cc:PCILUT::apply`; `src/callow/matrix/SparseRow.cc:SparseRow::insert`; `src/callow/matrix/SparseRow.cc:SparseRow::range`; `src/callow/matrix/SparseRow.cc:SparseRow::operator[]`.
*Proof:* Rows are sorted lists with values as sums; one elimination step subtracts a multiple of a finished row, so that after step k the row is a combination of the rows of U (invariant over the steps), and uniqueness of LU factors gives the entries; assembling keeps them. Without an entry in column 0 nothing is eliminated until the first stored column, whose position is 0: the test reads column 0. Witnesses for the threshold (4 by 4) and the limit (3 by 3); each side of a row is a decreasing list of which the front is erased.
*Status:* partial. Without dropping the factors are the LU factors (with no zero in L, or when stray reads are harmless); refuted: stray read for a tridiagonal matrix, wrong entries dropped by the threshold, smallest instead of largest entries kept by the limit.
*Theorems* (`Ilut_Props.v`): `C106_exact_partial` [AC], `C106_returns_partial` [AC], `C106_stray` [AC], `C106_refuted` [AC], `C106_threshold_refuted` [AC], `C106_smallest` [AC], `C106_fill_refuted` [AC].

### C107 Transfer between fine and coarse mesh conserves the flux

*Modelled code:* `src/solvers/mg/MGCoarseMeshPreconditioner.cc:MGCoarseMeshPreconditioner::build_restrict`; `src/solvers/mg/MGCoarseMeshPreconditioner.cc:MGCoarseMeshPreconditioner::build_prolong`; `src/solvers/mg/MGCoarseMeshPreconditioner.cc:MGCoarseMeshPreconditioner::build`; `src/solvers/mg/MGCMDSA.cc:MGCMDSA::apply`.
*Proof:* Both matrices are filled one column after another; a row keeps what it is offered up to its number of places, so the product is the full sum when a row is offered no more (counting fine cells of a coarse cell and fine groups of a coarse group), and less when offered more positive entries. The mesh coarsening of C41 gives the sizes: for odd plane meshes the last cell is 3 by 3 but the places are computed from the mean. Restriction after prolongation is one by the normalised spectrum.
*Status:* partial. Holds in one dimension, when the level divides the cells and when cells are even; refuted for odd plane meshes (rows of the restriction have too few places and the failed insertions are only asserted), adjoint problems (spectrum read from the cutoff upward) and group cutoffs (operator too small). Also refuted: the preconditioner is built in every solve and adds to the coarse spectrum of the last build, so after n builds the prolonged vector is the n-th part of what it should be.
*Theorems* (`Cpc_Props.v`, `Spc_Props.v`): `C107_restrict_partial` [AC], `C107_prolong_partial` [AC], `C107_apply_partial` [AC], `C107_refuted` [AC], `C107_adjoint_refuted` [A], `C107_cutoff_refuted` [none], `C107_rebuild_refuted` [AC].

### C108 Diffusion preconditioning inverts the scattering part of transport

*Modelled code:* `src/solvers/mg/MGDSA.cc:MGDSA::apply`; `src/solvers/mg/MGDSA.cc:MGDSA::build`; `src/solvers/wg/PC_DSA.i.hh:PC_DSA::apply`; `src/solvers/mg/MGSolverGMRES.i.hh:MGSolverGMRES::solve`; `src/callow/solver/GMRES.cc:GMRES::solve_impl`.
*Proof:* The loops fill a table of fluxes (zero below the cutoff) and a source vector; by C42 and C43 the source is the sum over all groups because transfers outside the bounds are zero. C(V+e) = CV + Ce by linearity of currents and reactions, and the scattering in CV cancels Ce. Infinite medium: leakage of flat fluxes is zero and the operator is injective by the maximum principle of C102. Boundary unknowns: every Krylov vector (left) or every update (right) is blank there, an invariant of all GMRES loops. Witnesses: one cell.
*Status:* partial. Proved for forward problems with keff 1 and an exact diffusion solver (MGDSA, flux moments) and for the within-group preconditioner; refuted for keff other than 1, adjoint problems and boundary unknowns of MGDSA.
*Theorems* (`Dsa_Props.v`): `C108_operator_partial` [AC], `C108_infinite_partial` [AC], `C108_within_group` [AC], `C108_keff_refuted` [AC], `C108_adjoint_refuted` [AC], `C108_boundary_stuck` [ABC], `C108_reflection_refuted` [ABC].

### C109 Each transport correction squares what the preconditioner leaves over

*Modelled code:* `src/solvers/mg/MGTCDSA.cc:MGTCDSA::apply`.
*Proof:* By induction on k: with X linear, X' = X(2I - At X) gives I - At X' = (I - At X)^2; powers add.
*Status:* proved. Operators are any linear functions on vectors of one length; the coarse quadrature that gives the approximate operator is not modelled.
*Theorems* (`Dsa_Props.v`): `C109_newton` [AC], `C109_rate` [AC].

### C11 Incomplete LU preconditioner inverts its factors

*Modelled code:* `src/callow/preconditioner/PCILU0.cc:PCILU0::PCILU0`; `src/callow/preconditioner/PCILU0.i.hh:apply`.
*Proof:* Witness; the stored factor entries by loop invariants.
*Status:* partial. Refuted: the factorisation never updates the diagonal and upper entries, and apply includes the diagonal in the backward sum, so apply never solves L U x = b for nonzero b. Exact characterisations of both are proved.
*Theorems* (`Solver_Props.v`): `C11_factor_partial` [AC], `C11_apply_partial` [AC], `C11_apply_wrong` [AC], `C11_factor_refuted` [AC], `C11_refuted` [AC].

### C110 A reduced order solution is the Galerkin solution in the given basis

*Modelled code:* `src/solvers/rom/OperatorProjection.cc:OperatorProjection::Project`; `src/solvers/rom/ROMSolver.cc:ROMSolver::Solve`; `src/solvers/rom/ROMBasis.cc:ROMBasis::GetBasis`.
*Proof:* Each column inserted is U^T A u_i (C11-style dense products), so the reduced matrix acts as U^T A U by linearity; the reduced equation read row by row is orthogonality of the residual. An orthonormal basis makes U^T U c = c. Sign change of components is the absolute value. Witnesses: one basis vector in two unknowns.
*Status:* partial. Proved for the diffusion and energy-dependent operators. Refuted for the energy-independent operator with a basis that is not orthonormal, and for the flux if the combination has both signs; the partial theorems need an orthonormal basis. An eigensolver is any function that returns an eigenpair of the reduced matrices.
*Theorems* (`Rom_Props.v`): `C110_projection` [AC], `C110_galerkin` [AC], `C110_galerkin_independent_partial` [AC], `C110_exact` [AC], `C110_exact_independent_partial` [AC], `C110_file` [A], `C110_basis_refuted` [AC], `C110_sign_refuted` [AC].

### C111 Davidson returns the Rayleigh quotient of its vector, and success means the residual it reported

*Modelled code:* `src/callow/solver/Davidson.cc:Davidson::solve_impl`; `src/callow/solver/Davidson.hh:DavidsonDefaultP`; `src/callow/solver/EigenSolver.cc:EigenSolver::monitor`.
*Proof:* invariant over inner and outer iterations: the basis is orthonormal and V_a, V_b are its images; an exact preconditioner returns the current vector, by injectivity
*Status:* partial. What a run returns is proved for every operator, preconditioner and start, and so is termination with as many vectors as unknowns. Two parts fail in the code. The default preconditioner solves (A - lambda B) w = r with r = (A - lambda B) u; solved exactly it gives u back, orthogonalising leaves zero and the code divides by its norm (C111_breakdown shows this for every problem not converged at once). A restart repeats the iteration count, so the limit is passed (C111_limit_refuted), and with one vector nothing changes at all (C111_one_vector).
*Theorems* (`Davidson_Props.v`): `C111_report` [ABC], `C111_ends` [ABC], `C111_breakdown` [ABC], `C111_one_vector` [ABC], `C111_default_refuted` [ABC], `C111_limit_refuted` [ABC].

### C112 The dense eigensolver returns an eigenpair of the operators it was last given

*Modelled code:* `src/callow/solver/Eispack.cc:Eispack::set_operators`; `src/callow/solver/Eispack.cc:Eispack::solve_impl`; `src/callow/solver/Eispack.cc:Eispack::solve_complete`; `src/callow/solver/EigenSolver.cc:EigenSolver::solve`.
*Proof:* invariant of the selection loop; scaling of an eigenvector
*Status:* partial. Selection, scaling and, for real eigenvalues, the eigenpair equation are proved from what EISPACK gives (its routine is a parameter). A complex eigenvalue is reported by its real part with the real half of its vector, without a warning. set_operators without a right-hand matrix keeps the previous one. Every solve is reported as not converged, since only monitor, which this solver never calls, sets another status.
*Theorems* (`Davidson_Props.v`, `Eis_Props.v`): `C112_dense_partial` [ABC], `C112_call_partial` [ABC], `C112_complex_refuted` [ABC], `C112_stale_refuted` [AC], `C112_status_refuted` [ABC].

### C113 The generalised Davidson eigenvalue solver is given the k-eigenvalue problem of all groups

*Modelled code:* `src/solvers/eigen/EnergyDependentEigenLHS.cc:EnergyDependentEigenLHS::multiply`; `src/solvers/mg/MGSweepOperator.cc:MGSweepOperator::multiply`; `src/solvers/mg/MGScatterFissionOperator.cc:MGScatterFissionOperator::multiply`; `src/solvers/eigen/EigenGD.cc:EigenGD::EigenGD`; `src/solvers/mg/MGTransportOperator.cc:MGTransportOperator::multiply`; `src/solvers/eigen/EigenGD.cc:EigenGD::solve`.
*Proof:* linearity and uniqueness of a sweep with nothing entering: the flux of the whole source is the sum of the scattering part and 1/k times the fission part; the short vector and the adjoint group range by induction over the groups The solve copies the vector by groups; modes of all groups and eigenpairs of C88 are the same equations, written with implicit and explicit fission sources.
*Status:* partial. Forward problems with vacuum boundaries and a block of all groups: F x = k A x exactly for the k-modes. Refuted with default input: the operator A has the groups from the material's upscatter cutoff on while F always has all, so F reads behind the vector whenever the cutoff is not 0. Refuted for adjoint problems: F works on group 0 only and leaves the rest of the output as it was. Reflective boundaries are not covered. The solve is proved for all groups (cutoff 0), forward problems and vacuum boundaries, for any eigensolver that finds a pair.
*Theorems* (`Gd_Props.v`, `Gds_Props.v`): `C113_problem_partial` [ABCD], `C113_short` [ABC], `C113_default_refuted` [ABCD], `C113_untouched` [ABCD], `C113_adjoint_refuted` [ABCD], `C113_solve_partial` [ABCD], `C113_modes` [ABC], `C113_physical_partial` [ABCD].

### C114 The coarse mesh eigenvalue update leaves a converged mode alone

*Modelled code:* `src/solvers/eigen/EigenCMFD.cc:EigenCMFD::cmfd_update`; `src/solvers/eigen/EigenCMFD.cc:EigenCMFD::solve`; `src/solvers/mg/CMFDLossOperator.cc:CMFDLossOperator::construct`; `src/solvers/mg/DiffusionGainOperator.cc:DiffusionGainOperator::construct`.
*Proof:* the sweep balance summed over a coarse cell makes the volume averages an eigenvector of the coarse operators with the same k; induction over updates: the relaxed coupling coefficients stay the same
*Status:* partial. Refuted for the default relaxation (uninitialised), in three dimensions and for fission that misses a group. Proved for one and two dimensions, forward or one group, materials that fission in all groups with one spectrum or not at all, and a relaxation that is set. Missing: the adjoint of several groups, several spectra.
*Theorems* (`Ecmfd_Props.v`): `C114_steady_partial` [ABCD], `C114_default_refuted` [ABCD], `C114_3d_refuted` [ABCD], `C114_spectrum_refuted` [ABCD].

### C115 External sources emit what they say, in all directions and at all times

*Modelled code:* `src/external_source/ConstantSource.hh:ConstantSource::source`; `src/external_source/IsotropicSource.hh:IsotropicSource::source`; `src/external_source/DiscreteSource.hh:DiscreteSource::source`; `src/kinetics/LinearExternalSource.i.hh:LinearExternalSource::source,set_time`; `src/kinetics/PulsedExternalSource.i.hh:PulsedExternalSource::source,set_time`; `src/solvers/wg/WGSolver.cc:WGSolver::WGSolver`; `src/transport/SweepSource.i.hh:SweepSource::source`.
*Proof:* induction over the nesting of sources with linearity of the sum over directions; Taylor remainder of exp and Horner's rule with rounded integers for the width constant, then a bound on the difference of two exponentials
*Status:* partial. Moments, totals and time dependence proved. Refuted for directional parts with the default flag and for time-dependent parts of time-dependent sources.
*Theorems* (`Ext_Props.v`): `C115_moment` [ABC], `C115_emission` [ABC], `C115_direction_partial` [ABC], `C115_linear_partial` [ABC], `C115_pulsed_partial` [ABCD], `C115_direction_refuted` [ABC], `C115_nested_refuted` [ABC], `C115_unset_refuted` [ABC].

### C116 A manager solves the problem that was set up, with the solver that was asked for

*Modelled code:* `src/solvers/FixedSourceManager.cc:FixedSourceManager::setup`; `src/solvers/FixedSourceManager.cc:FixedSourceManager::set_source`; `src/solvers/FixedSourceManager.cc:FixedSourceManager::set_solver`; `src/solvers/FixedSourceManager.cc:FixedSourceManager::solve`; `src/solvers/EigenvalueManager.cc:EigenvalueManager::solve`; `src/solvers/mg/MGTransportSolver.cc:MGTransportSolver::MGTransportSolver`; `src/solvers/wg/WGSolver.cc:WGSolver::set_sweep`.
*Proof:* The managers are a state machine over call sequences; the invariant links the ready flag, the solver record and the history of calls (induction over the sequence), with the unmodelled construction and the solvers as arbitrary functions.
*Status:* partial. For every call sequence, a successful solve runs the solver of the last successful set_solver since the last setup, on the current state and fission source, with the method named and the sources given up to that set_solver. Refuted: a source given after set_solver is ignored although solve succeeds; when set_solver fails for an unsupported outer solver a later solve still runs the old one and returns true; the MOC equations are accepted by setup but no solver can be built; an eigenvalue solve with an unsupported outer solver returns true although no transport solve can run.
*Theorems* (`Manager_Props.v`): `C116_solve` [none], `C116_flux` [none], `C116_eigen_partial` [none], `C116_late_source_refuted` [A], `C116_stale_solver_refuted` [A], `C116_moc_refuted` [none], `C116_eigen_refuted` [none].

### C117 The driver program solves the problem described in its input

*Modelled code:* `src/drivers/Execute.cc:Execute::solve`; `src/drivers/Execute.cc:Execute::Execute`; `src/solvers/FixedSourceManager.cc:FixedSourceManager::solve`.
*Proof:* The driver is composed from the manager model; the fixed source branch is shown never to install a solver, and the spectra loop is proved by a nested loop invariant.
*Status:* partial. The source is built as described and eigenvalue problems run the eigensolver named. Refuted: for every input that is not an eigenvalue problem the driver never builds a solver, so the state keeps the initial flux; without source_strength the constant source is undefined instead of one.
*Theorems* (`Driver_Props.v`): `C117_fixed_refuted` [A], `C117_source_partial` [A], `C117_strength_refuted` [A], `C117_eigen_partial` [A].

### C118 The mesh built from an input file is the mesh described

*Modelled code:* `src/drivers/StupidParser.cc:StupidParser::parse_mesh_text`; `src/geometry/Mesh.cc:Mesh::Mesh`; `src/geometry/Mesh1D.cc:Mesh1D::Mesh1D`.
*Proof:* The parser's checks are evaluated symbolically on a database described by its getters and the result is related to the mesh theorems of C14.
*Status:* partial. Right in one dimension, in two dimensions with equally many coarse cells along x and y, in three dimensions with the same counts along all axes. Refuted: other two-dimensional inputs are rejected and the y edges are never checked (undefined behaviour), in three dimensions the y and z counts are used for x and y, fine edges are never accepted in two and three dimensions.
*Theorems* (`Driver_Props.v`): `C118_mesh_1d` [AC], `C118_mesh_1d_fine` [AC], `C118_mesh_2d_partial` [AC], `C118_mesh_3d_partial` [AC], `C118_mesh_2d_refuted` [AC], `C118_mesh_3d_refuted` [AC], `C118_mesh_fine_refuted` [AC].

### C119 The driver's text input says what was written

*Modelled code:* `src/drivers/StupidParser.hh:StupidParser::parse_input_text`; `src/drivers/StupidParser.hh:StupidParser::parse_material_text`; `src/drivers/StupidParser.hh:StupidParser::remove_white_space`; `src/drivers/StupidParser.hh:StupidParser::read_vector`; `src/drivers/StupidParser.hh:StupidParser::read_scalar`.
*Proof:* Squeezing blanks is shown to leave the sequence of tokens unchanged by induction on the line; the line loop is then a fold compared with the list of items written.
*Status:* partial. Input lines and material lines are proved for all files. Refuted: the mesh and source lines and the nu_sigma_f lines of the documented example are discarded without error; C119_material_partial covers all cross sections except nu_sigma_f.
*Theorems* (`Parser_Props.v`): `C119_input` [none], `C119_material_partial` [AC], `C119_fission_refuted` [AC], `C119_sections_refuted` [none], `C119_documented_refuted` [AC].

### C12 Jacobi preconditioner is the inverse diagonal

*Modelled code:* `src/callow/preconditioner/PCJacobi.cc:PCJacobi`; `src/callow/preconditioner/PCJacobi.i.hh:apply`.
*Proof:* Algebra on the stored diagonal.
*Status:* proved. For assembled matrices whose diagonal is stored once.
*Theorems* (`Solver_Props.v`): `C12_apply` [AC], `C12_linear` [AC], `C12_diagonal` [AC].

### C120 A picture shows the cell or region at every pixel, in colours that follow the values

*Modelled code:* `src/ioutils/PPMOutput.cc:PPMOutput::initialize`; `src/ioutils/PPMOutput.cc:PPMOutput::write_mesh_map`; `src/ioutils/PPMOutput.cc:PPMOutput::draw_geometry`; `src/ioutils/PPMPlotter.cc:PPMPlotter::write`; `src/ioutils/ColorMap.cc:ColorMap::color`; `src/ioutils/ColorMap.cc:ColorMap::colors_function`; `src/ioutils/ColorMap.cc:ColorMap::colors_interp`.
*Proof:* The pixel loops are proved by nested loop rules with the index of a pixel split by division; every cell is met because the pixel spacing is smaller than the smallest cell; colours by monotonicity of the maps and an amplitude bound for the trigonometric one.
*Status:* partial. Proved for square meshes and geometries; refuted when width and height differ (row stride is the number of rows), for uniform positive values (0/0), at the default resolution and for the orientation. The colour map RANDOM is not modelled.
*Theorems* (`Picture_Props.v`): `C120_mesh_partial` [ABC], `C120_geometry_partial` [ABC], `C120_geometry_values_partial` [ABC], `C120_default_map` [ABC], `C120_coolwarm_map` [ABCD], `C120_interpolated_maps` [ABC], `C120_interpolated_colours` [ABC], `C120_uniform_refuted` [ABC], `C120_tall_refuted` [AC], `C120_tall_geometry_refuted` [ABC], `C120_wide_refuted` [AC], `C120_missing_cell_refuted` [AC], `C120_mirrored_refuted` [ABC].

### C121 The quadrature built is the one named

*Modelled code:* `src/angle/QuadratureFactory.cc:QuadratureFactory::build`; `src/angle/QuadratureFactory.cc:QuadratureFactory::build_base`; `src/angle/UserQuadrature.hh:UserQuadrature`; `src/angle/BaseGC.hh:BaseGC`; `src/angle/PolarQuadrature.t.hh:PolarQuadrature`; `src/angle/ProductQuadratureAP.t.hh:ProductQuadratureAP`.
*Proof:* The else-if chain is a table; every entry is compared with the grammar of names given as inductive relations, and refusal follows from the same comparison; normalised weights by positivity of the sines.
*Status:* partial. asqr-tg builds asqr-asdr; some combinations are missing; quad_chebyshev_normalize is not passed to products; a 1D user quadrature without quad_eta reads past the end of an empty vector.
*Theorems* (`Select_Props.v`): `C121_named_partial` [ABC], `C121_unknown` [ABC], `C121_polar` [ABC], `C121_product_partial` [ABC], `C121_normalized` [ABC], `C121_user_partial` [ABC], `C121_base` [none], `C121_tg_refuted` [ABC], `C121_product_refuted` [ABC], `C121_normalize_refuted` [ABCD], `C121_user_refuted` [ABC].

### C122 Solver options reach the solver

*Modelled code:* `src/callow/solver/LinearSolverCreator.cc:LinearSolverCreator::Create`; `src/callow/solver/EigenSolverCreator.cc:EigenSolverCreator::Create`; `src/utilities/InputDB.i.hh:InputDB::check`.
*Proof:* Each optional read is proved equivalent to a relation (given with its type, or absent and the default); the constructors are then compared option by option.
*Status:* partial. totality needs every given option to have the type that is read; otherwise the map iterator end() is dereferenced.
*Theorems* (`Select_Props.v`): `C122_linear` [AC], `C122_linear_total_partial` [AC], `C122_default` [AC], `C122_eigen` [AC], `C122_eigen_total_partial` [AC], `C122_type_refuted` [AC].

### C123 The LRA benchmark material

*Modelled code:* `src/solvers/time/LRA.cc:LRA::update_impl`; `src/solvers/time/LRA.cc:LRA::initialize_materials`; `src/solvers/time/LRA.cc:LRA::update_P_and_T`; `src/solvers/time/LRA.hh:LRA`; `src/solvers/time/TimeStepper.cc:TimeStepper::update_multiphysics`.
*Proof:* Case analysis over the six materials with exact rational arithmetic; a bound on the square root of 300 for positivity; the heating step through the time integration theorem of the kinetics area.
*Status:* partial. the reflector's fast group is unbalanced by 9e-15 in transport; the rod's absorption jumps by 1.7e-8 at two seconds; T() returns a vector that is never updated.
*Theorems* (`Lra_Props.v`): `C123_cells` [ABC], `C123_total` [ABC], `C123_balance_partial` [ABC], `C123_positive` [ABC], `C123_spectrum` [ABC], `C123_rod` [ABC], `C123_rod_only` [ABC], `C123_continuous_partial` [ABC], `C123_doppler` [ABC], `C123_start` [ABC], `C123_heating` [AC], `C123_first_order` [AC], `C123_area` [AC], `C123_balance_refuted` [ABC], `C123_continuous_refuted` [ABC], `C123_reported_refuted` [AC].

### C124 What is saved to an HDF5 file is read back

*Modelled code:* `src/ioutils/IO_HDF5.cc:IO_HDF5::write`; `src/ioutils/IO_HDF5.cc:IO_HDF5::read_input`; `src/ioutils/IO_HDF5.cc:IO_HDF5::read_material`; `src/ioutils/IO_HDF5.cc:IO_HDF5::read_mesh`; `src/ioutils/IO_HDF5.t.hh:IO_HDF5::write_map`; `src/ioutils/IO_HDF5.t.hh:IO_HDF5::read_map`.
*Proof:* Induction over nested databases for the tree that is written and read; maps are compared as functions so any key order will do; sessions by induction over the list of writes with the invariant that every written link restores its object.
*Status:* partial. The round trip holds but for the diffusion coefficients (saved from the absorption cross section), for replacing a file while groups leaked by an earlier write or read are open, for a second object of a kind, and for writes after a read.
*Theorems* (`Hdf_Props.v`): `C124_round_trip_partial` [AC], `C124_diffusion_refuted` [AC], `C124_replace_refuted` [A], `C124_replace_after_read_refuted` [A], `C124_replace_material_partial` [A], `C124_second_write_refuted` [A], `C124_write_after_read_refuted` [AC].

### C125 A time-dependent material is a function of time

*Modelled code:* `src/kinetics/TimeIndependentMaterial.cc:TimeIndependentMaterial::update_impl`; `src/kinetics/LinearMaterial.cc:LinearMaterial::update_impl`; `src/kinetics/TimeDependentMaterial.cc:TimeDependentMaterial::update`; `src/material/Material.cc:Material::finalize`.
*Proof:* A frame invariant (nothing outside the tables changes) makes the material before finalize the same function of the call, whatever came before; cutoffs of the constant material by idempotence of the searches; the values of interpolated materials by composing C49 and C50; two concrete updates for the refutation.
*Status:* partial. Proved in full for constant materials, and the values left in interpolated ones; for interpolated materials the upscatter cutoff and the downscatter flag depend on earlier updates because finalize never resets them.
*Theorems* (`Tmat_Props.v`): `C125_constant_history` [AC], `C125_constant_values` [AC], `C125_linear_value` [AC], `C125_linear_history_partial` [AC], `C125_linear_flags_refuted` [AC].

### C126 Walking along a track meets every segment once, in its direction

*Modelled code:* `src/utilities/Iterators.hh:Reversible::begin`; `src/utilities/Iterators.hh:Reversible::end`; `src/utilities/Iterators.i.hh:Reversible::operator++`; `src/utilities/Iterators.i.hh:Reversible::operator+`; `src/geometry/Track.cc:Track::begin`; `src/geometry/Track.cc:Track::end`.
*Proof:* walk by prefix ++ equals applying the body over the list or its reverse, by induction on the part not yet walked; the other operators refuted for all positions
*Status:* partial. The walk and indexing parts are proved in full. Refuted: postfix ++ gives the next element (past the last one it is undefined), it + k moves it, and a loop against it.end() never runs its body, because these members change the object and return it.
*Theorems* (`Walk_Props.v`): `C126_walk` [none], `C126_element` [none], `C126_postfix_refuted` [none], `C126_postfix_last_refuted` [none], `C126_plus_refuted` [none], `C126_self_end_refuted` [none].

### C127 Coarse mesh preconditioners are condensed with the spectrum of each medium

*Modelled code:* `src/solvers/mg/SpectrumGS.cc:SpectrumGS::spectrum`; `src/solvers/mg/SpectrumFS.cc:SpectrumFS::spectrum`; `src/solvers/mg/MGCoarseMeshPreconditioner.cc:MGCoarseMeshPreconditioner::build`; `src/solvers/mg/SpectrumPinCell.cc:SpectrumPinCell::spectrum`.
*Proof:* The loops that fill the matrices are reduced to closed forms (one lemma on folds that touch one row), so what the solvers get is the balance of the medium; normalisation keeps the balance up to a positive factor. Two-group media for the refutations; the overflow by following the loop to the first column that is not there.
*Status:* partial. Proved for the fixed source spectrum of all materials and the Gauss-Seidel spectrum of the first, without fission or with sigma_f equal to nu sigma_f (and k = 1 through the preconditioner). Refuted: the Gauss-Seidel spectrum of every other material is zero; fission leaves out nu and the eigenvalue; more kinds of pin cells than materials write past the table.
*Theorems* (`Spc_Props.v`): `C127_gs_partial` [AC], `C127_fs_partial` [ABC], `C127_fs_build_partial` [ABC], `C127_gs_materials_refuted` [AC], `C127_gs_fission_refuted` [ABC], `C127_fs_fission_refuted` [ABC], `C127_pins_refuted` [AC].

### C128 The Krylov route to the k-eigenvalue problem ends with the right eigenvalue and fluxes

*Modelled code:* `src/solvers/eigen/EigenArnoldi.i.hh:EigenArnoldi::solve`; `src/solvers/eigen/EigenArnoldi.cc:EigenArnoldi::EigenArnoldi`; `src/solvers/eigen/EnergyIndependentEigenOperator.cc:multiply`; `src/callow/solver/PowerIteration.i.hh:PowerIteration::solve_impl`; `src/transport/FissionSource.cc:initialize`.
*Proof:* The extra solve after the eigensolver is one application of the operator of C89, so the fission of its fluxes is k times the vector that made its source. The power method with a state refines the one of C103 on vectors supported in fissile cells; the fission matrix is connected (C88), hence mixing. The negated mode is the witness for the sign. With tolerance zero all iterations are made, which gives the limit; Gauss-Seidel and source iteration are an exact solver by C58.
*Status:* partial. Proved for any eigensolver that finds a pair; convergence and nonnegative fluxes for the default power method on physical fission chains, also for the whole code path with Gauss-Seidel and source iteration inside. Refuted: nonnegative fluxes for any eigensolver, since the sign of the eigenvector is never looked at.
*Theorems* (`Arn_Props.v`): `C128_flux` [ABC], `C128_pair` [ABCD], `C128_power` [ABCD], `C128_limit` [ABCD], `C128_gauss_seidel` [ABCD], `C128_sign_refuted` [ABCD].

### C129 The accelerated eigenvalue solve stops where a pass changes nothing, and that is a mode

*Modelled code:* `src/solvers/eigen/EigenCMFD.cc:EigenCMFD::solve`; `src/solvers/eigen/EigenCMFD.cc:EigenCMFD::cmfd_update`; `src/transport/FissionSource.i.hh:FissionSource::update`; `src/transport/FissionSource.cc:FissionSource::initialize`; `src/solvers/mg/CMFDLossOperator.cc:CMFDLossOperator`.
*Proof:* induction on the passes left gives the run; the normalised density is the share of each cell, so the source chi times share is born / total production, which makes a flux that stands still a mode with that eigenvalue; C114 gives the update; the unset factor is a distinct outcome of the second update
*Status:* partial. The run and the characterisation of standing still are proved for all problems; the return of a mode where C114 holds (one and two dimensions, forward or one group, every fissile material fissions in all groups with one spectrum). Refuted with default input: the relaxation factor is read unset in the second pass. Sweep and coarse eigensolver are parameters.
*Theorems* (`Ecl_Props.v`): `C129_run` [ABC], `C129_still` [ABC], `C129_returned_partial` [ABCD], `C129_kept_partial` [ABCD], `C129_default_pass` [ABC], `C129_default_refuted` [ABCD].

### C13 Mesh cell indexing is a bijection

*Modelled code:* `src/geometry/Mesh.i.hh:index,cell_to_i,cell_to_j,cell_to_k`.
*Proof:* `div`/`mod` arithmetic.
*Status:* proved. 
*Theorems* (`Mesh_Props.v`): `C13_index_bijection` [none].

### C130 A converged accelerated fixed source solve leaves the flux of its last sweep

*Modelled code:* `src/solvers/mg/MGSolverCMFD.cc:MGSolverCMFD::solve`; `src/solvers/mg/MGSolverCMFD.cc:MGSolverCMFD::energy_sweep`; `src/solvers/mg/MGSolverCMFD.cc:MGSolverCMFD::update`; `src/utilities/MathUtilities.hh:norm_residual`.
*Proof:* induction on the sweeps left, with the largest change below the tolerance exactly if every change is; from a solution every change is 0 and the update returns it by C96
*Status:* partial. The run is proved for all problems and sweeps that give every group a flux. The solution left alone is proved where C96 holds (one and two dimensions; no fission, or keff 1 with one spectrum; forward or one group). Refuted: limit + 1 sweeps and updates are made when the tolerance is not met. Sweep and linear solver are parameters.
*Theorems* (`Fcl_Props.v`): `C130_run` [ABC], `C130_solution_partial` [ABCD], `C130_limit_refuted` [ABCD].

### C14 Coarse specification expands to a consistent fine mesh

*Modelled code:* `src/geometry/Mesh.cc:setup,add_coarse_mesh_map`; `src/geometry/Mesh.i.hh:volume`.
*Proof:* Induction over coarse cells.
*Status:* proved. 
*Theorems* (`Mesh_Props.v`): `C14_mesh1D` [AC], `C14_mesh2D` [AC], `C14_mesh3D` [AC].

### C15 find_cell locates the enclosing cell

*Modelled code:* `src/geometry/Mesh.i.hh:find_cell`.
*Proof:* Induction over cumulative edges; witness for an offset mesh.
*Status:* partial. As stated it fails for a mesh whose first edge is not zero; proved for coordinates measured from the lower corner.
*Theorems* (`Mesh_Props.v`): `C15_offset_mesh_refuted` [AC], `C15_find_cell_partial` [AC].

### C16 Assembly and core meshes are the tiling of their parts

*Modelled code:* `src/geometry/Assembly.cc:finalize`; `src/geometry/Core.cc:finalize`.
*Proof:* Block index arithmetic; witnesses.
*Status:* partial. Proved for square arrays of square pins/assemblies; a rectangular array is laid out wrongly and a pin with more y than x cells overruns a vector.
*Theorems* (`Mesh_Props.v`): `C16_rectangular_refuted` [A], `C16_tall_pin_refuted` [none], `C16_assembly_partial` [A], `C16_core_partial` [A].

### C17 Constructive solid geometry obeys set algebra

*Modelled code:* `src/geometry/CSG.cc`; `src/geometry/Region.cc:contains`.
*Proof:* Structural induction over CSG trees.
*Status:* proved. 
*Theorems* (`Csg_Props.v`): `C17_contains_is_set` [AC], `C17_set_algebra` [AC], `C17_region_contains` [ABC], `C17_intersections_complete` [ABC], `C17_intersections_ordered` [ABC].

### C18 Ray-surface intersections are exactly the forward roots

*Modelled code:* `src/geometry/QuadraticSurface.cc:intersections,f`.
*Proof:* Quadratic root algebra; witnesses.
*Status:* partial. Proved when the ray is not tangent and the leading coefficient is zero or at least 1e-13; a tangent ray and a surface with tiny coefficients give no points.
*Theorems* (`Csg_Props.v`): `C18_tangent_refuted` [ABC], `C18_small_coefficients_refuted` [ABC], `C18_ray_surface_partial` [ABC].

### C19 Reversing a track twice restores it

*Modelled code:* `src/geometry/Track.cc:reverse`; `src/geometry/Track.hh`.
*Proof:* List reversal; witness.
*Status:* partial. One reverse and the end points of a double reverse are proved; the segment order of a double reverse stays reversed.
*Theorems* (`Csg_Props.v`): `C19_reverse_twice_refuted` [A], `C19_reverse_once_partial` [none], `C19_reverse_twice_ends_partial` [none].

### C20 Scattering bounds never lose a transfer

*Modelled code:* `src/material/Material.cc:finalize,lower,upper`.
*Proof:* Invariants of the scan loops.
*Status:* proved. 
*Theorems* (`Material_Props.v`): `C20_bounds_complete_and_attained` [AC].

### C21 finalize() is a function of the cross sections

*Modelled code:* `src/material/Material.cc:finalize,set_sigma_s,upscatter_cutoff`.
*Proof:* Scan loop invariants; witnesses for re-finalising.
*Status:* partial. The cutoff and the downscatter flag keep old values; bounds and nu*sigma_f are functions of the cross sections, and so is the cutoff whenever upscatter is present.
*Theorems* (`Material_Props.v`): `C21_cutoff_refuted` [AC], `C21_downscatter_refuted` [AC], `C21_refinalize_partial` [AC].

### C22 Absorption plus outscatter equals total

*Modelled code:* `src/material/Material.cc:compute_sigma_a,compute_diff_coef`.
*Proof:* Sums over groups.
*Status:* proved. 
*Theorems* (`Material_Props.v`): `C22_sigma_a_balance` [AC], `C22_diff_coef` [AC].

### C23 Upscatter cutoff separates the energy groups

*Modelled code:* `src/material/Material.cc:finalize,upscatter_cutoff`.
*Proof:* Scan loop invariant.
*Status:* proved. 
*Theorems* (`Material_Props.v`): `C23_cutoff` [AC].

### C24 Octants partition direction space and adjoint negates it

*Modelled code:* `src/angle/Quadrature.cc:Quadrature,set_adjoint,incident_octant,outgoing_octant`; `src/angle/Quadrature.i.hh:mu,eta,xi`.
*Proof:* Finite octant tables lifted to all cosines and histories.
*Status:* proved. any dimension 1-3, any stored positive cosines, any history of set_adjoint
*Theorems* (`Angle_Props.v`): `C24_octants_partition` [AC], `C24_side_octants` [AC], `C24_adjoint_history` [AC], `C24_adjoint_tables` [AC].

### C25 Angle indexing is a bijection

*Modelled code:* `src/angle/Quadrature.i.hh:index`; `src/angle/ProductQuadrature.cc:angle,azimuth,polar`.
*Proof:* Index arithmetic.
*Status:* proved. 
*Theorems* (`Angle_Props.v`): `C25_angle_index` [A], `C25_product_angle` [none], `C25_product_angle_onto` [none].

### C26 Spherical harmonic moment indexing is a bijection

*Modelled code:* `src/angle/MomentIndexer.cc`; `src/angle/MomentIndexer.hh`.
*Proof:* Induction over orders.
*Status:* proved. any Legendre order, dimensions 1-3
*Theorems* (`Angle_Props.v`): `C26_moment_index` [none].

### C27 Base quadrature weights integrate constants

*Modelled code:* `src/angle/BaseUniform.hh:BaseUniform,BaseSimpson`; `src/angle/BaseQuadrature.hh:build,scale_and_shift`.
*Proof:* Induction over panels; witness.
*Status:* partial. the composite Simpson rule leaves the last weight zero when the number of points is 2 modulo 3, so its weights do not sum to b-a (1/2 instead of 1 for two points); proved for every other number of points, and for the uniform rules
*Theorems* (`Angle_Props.v`): `C27_simpson_refuted` [AC], `C27_simpson_partial` [AC], `C27_uniform_weights` [AC], `C27_uniform_points` [AC], `C27_uniform_cosine_weights` [ABCD].

### C28 Product quadrature weights normalise

*Modelled code:* `src/angle/ProductQuadrature.cc:build,verify`.
*Proof:* Sums of products, normalisation algebra.
*Status:* proved. any base rules with nonzero weight sum; also UniformEqual and UserQuadrature
*Theorems* (`Angle_Props.v`): `C28_product_weights` [ABCD], `C28_product_on_sphere` [ABCD], `C28_product_verified` [AC], `C28_uniform_equal` [ABC], `C28_user_on_sphere` [ABC].

### C29 Parameter database is a typed last-write-wins map

*Modelled code:* `src/utilities/InputDB.i.hh:put,get,check`.
*Proof:* Refinement to finite maps, induction over histories.
*Status:* proved. For all put histories over the six typed maps.
*Theorems* (`Util_Props.v`): `C29_get_last_put` [none], `C29_check_iff_held` [none], `C29_size_counts_keys` [none].

### C30 Registered factories: first registration wins

*Modelled code:* `src/utilities/Factory.i.hh:Register,GetCreateFunction`.
*Proof:* Refinement to finite maps, induction over histories.
*Status:* proved. For all registration histories; also characterises the returned flags.
*Theorems* (`Util_Props.v`): `C30_first_registration_wins` [none].

### C31 Random numbers stay in the unit interval

*Modelled code:* `src/utilities/Random.hh:Random,rnd`.
*Proof:* Modular arithmetic on the 64-bit generator; witness of the overflow.
*Status:* partial. The default generator overflows a signed long on its second draw (undefined in C++). Under two's complement wrapping, every draw is in [0,1) and equals g^n S mod 2^m, m <= 53.
*Theorems* (`Util_Props.v`): `C31_random_refuted` [none], `C31_random_partial` [AC].

### C32 Group ranges enumerate exactly the requested groups

*Modelled code:* `src/utilities/MathUtilities.hh:range,linspace,linspace_center`.
*Proof:* Arithmetic on ranges.
*Status:* proved. linspace needs n >= 2 to reach b.
*Theorems* (`Util_Props.v`): `C32_range_enumerates` [none], `C32_linspace` [AC], `C32_linspace_center` [AC].

### C33 Vector norms are norms

*Modelled code:* `src/utilities/MathUtilities.hh:norm,norm_residual,norm_relative_residual,vec_max`.
*Proof:* Real analysis of sums and maxima; witness.
*Status:* partial. norm(x,"Linf") starts from the signed x[0]: wrong for a dominating negative first element. Everything else proved.
*Theorems* (`Util_Props.v`): `C33_residual_L1` [ABC], `C33_residual_L2` [ABC], `C33_residual_Linf` [ABC], `C33_norm_L1_L2` [ABC], `C33_norm_Linf_refuted` [ABC], `C33_norm_Linf_partial` [ABC].

### C34 vec_unique returns the distinct elements in order

*Modelled code:* `src/utilities/MathUtilities.hh:vec_unique`.
*Proof:* Sorting and duplicate removal.
*Status:* proved. For any sort satisfying the std::sort guarantee.
*Theorems* (`Util_Props.v`): `C34_unique_distinct_sorted` [none].

### C35 Reflection mirrors the normal direction only

*Modelled code:* `src/boundary/Reflective.i.hh:update,setup_octant`.
*Proof:* Finite tables and pack/unpack; all sides and octants.
*Status:* proved. Whole-boundary update with any mix of vacuum, reflective and fixed sides; single-angle update in C36_angle_update_partial.
*Theorems* (`Boundary_Props.v`): `C35_reflective_update` [none], `C35_octant_tables` [none], `C35_mirror_unique` [none], `C35_mirror_involution` [none].

### C36 Periodic conditions carry outgoing flux unchanged to the opposite side

*Modelled code:* `src/boundary/Periodic.i.hh:update`.
*Proof:* The same; witness for the group update.
*Status:* partial. Periodic::update(g) writes an outgoing octant of the opposite side, so no incident flux ever changes; the per-angle update used inside a sweep is correct.
*Theorems* (`Boundary_Props.v`): `C36_group_update_refuted` [AC], `C36_group_update_keeps_incident` [none], `C36_angle_update_partial` [none].

### C37 Boundary flux vector access round-trips

*Modelled code:* `src/boundary/BoundarySN.cc:psi`; `src/boundary/BoundarySN.i.hh:operator()`.
*Proof:* Buffer offsets by induction over sides and angles.
*Status:* proved. Also: the number of values equals the sum of boundary_flux_size/2 that the operators allocate.
*Theorems* (`Boundary_Props.v`): `C37_psi_round_trip` [none], `C37_psi_buffer_size` [none], `C37_initial_shape` [A].

### C38 Diamond difference conserves particles in each cell

*Modelled code:* `src/transport/Equation_DD_1D.i.hh:solve`; `src/transport/Equation_DD_2D.i.hh:solve`; `src/transport/Equation_DD_3D.i.hh:solve`.
*Proof:* Field algebra.
*Status:* proved. Cell solve equals the unique solution of balance and diamond relations; exact real arithmetic.
*Theorems* (`Cell_Props.v`): `C38_diamond_1d` [AC], `C38_diamond_2d` [AC], `C38_diamond_3d` [AC].

### C39 Step schemes conserve and stay nonnegative

*Modelled code:* `src/transport/Equation_SD_1D.i.hh:solve`; `src/transport/Equation_SD_2D.i.hh:solve`; `src/transport/Equation_SC_1D.i.hh:solve`; `src/transport/Equation_SC_MOC.i.hh:solve`.
*Proof:* Field algebra, inequalities for exp, the line flux as solution of a differential equation.
*Status:* proved. Exact real arithmetic; the characteristic schemes need a positive total cross section (they divide by it).
*Theorems* (`Cell_Props.v`): `C39_step_balance_1d` [AC], `C39_step_balance_2d` [AC], `C39_step_nonneg_1d` [AC], `C39_step_nonneg_2d` [AC], `C39_characteristic_balance_1d` [ABC], `C39_characteristic_balance_2d` [ABC], `C39_characteristic_nonneg_1d` [ABCD], `C39_characteristic_nonneg_2d` [ABCD], `C39_characteristic_exact_1d` [ABCD], `C39_segment_balance` [ABC], `C39_segment_nonneg` [ABCD], `C39_segment_exact` [ABCD], `C39_segment_accumulation` [ABC], `C39_line_flux_exists` [ABCD], `C39_line_flux_unique` [ABCD].

### C40 A sweep conserves particles over the whole mesh

*Modelled code:* `src/transport/Sweeper1D.i.hh:sweep`; `src/transport/Sweeper2D.i.hh:sweep`; `src/transport/Sweeper3D.i.hh:sweep`; `src/transport/Sweeper.cc:setup_spatial_indices`.
*Proof:* Induction over cells with the index tables; telescoping of edge fluxes; uniqueness by induction along the sweep.
*Status:* proved. Meshes with fewer than 2^32 cells along x (index wrap of unsigned sums is modelled); characteristic schemes without voids.
*Theorems* (`Sweep_Props.v`): `C40_sweep_1d` [ABCD], `C40_sweep_2d` [ABCD], `C40_sweep_3d` [AC], `C40_balance_1d` [ABCD], `C40_balance_2d` [ABC], `C40_balance_3d` [AC], `C40_unique_1d` [ABCD], `C40_unique_2d` [ABC], `C40_unique_3d` [AC], `C40_nonneg_1d` [ABCD], `C40_nonneg_2d` [ABCD], `C40_full_sweep_1d` [ABCD], `C40_full_sweep_2d` [ABCD], `C40_full_sweep_3d` [AC], `C40_face_tables` [none].

### C41 Parallel sweeps give the serial scalar flux

*Modelled code:* `src/transport/Sweeper1D.i.hh:sweep`; `src/transport/Sweeper2D.i.hh:sweep`; `src/transport/Sweeper3D.i.hh:sweep`.
*Proof:* Permutation of critical sections; witness of a lost update.
*Status:* partial. Proved for 2-D; false for 1-D and 3-D, where threads add to the shared scalar flux without synchronisation (a lost update is exhibited).
*Theorems* (`Sweep_Props.v`): `C41_shared_flux_refuted` [ABCD], `C41_threads_2d_partial` [ABCD], `C41_one_thread_partial` [AC].

### C42 Scatter source decomposition counts every transfer once

*Modelled code:* `src/transport/ScatterSource.i.hh:build_within_group_source,build_in_scatter_source,build_downscatter_source,build_total_group_source`.
*Proof:* Splitting of sums at bounds and cutoffs; witnesses.
*Status:* partial. Within-group plus in-scatter is the full sum for finalized materials without negative scattering, forward and adjoint. With a cutoff the range of groups counts backwards when the cutoff lies outside the bounds of the group, so transfers are counted twice (refuted with a witness); holds when the cutoff lies between the bounds. Negative transfers are dropped by the bounds (refuted with a witness).
*Theorems* (`Source_Props.v`): `C42_all_groups` [AC], `C42_cutoff_partial` [AC], `C42_cutoff_refuted` [AC], `C42_negative_refuted` [AC].

### C43 Fission source paths agree

*Modelled code:* `src/transport/FissionSource.i.hh:setup_outer,update,build_within_group_source,build_in_fission_source,build_total_group_source`.
*Proof:* Linearity of sums.
*Status:* proved. 
*Theorems* (`Source_Props.v`): `C43_paths` [AC], `C43_parts` [AC], `C43_linear` [AC], `C43_initial_density` [AC].

### C44 Octant sweep order visits every octant once

*Modelled code:* `src/transport/Sweeper.cc:setup_octant_indices`.
*Proof:* Sorting and finite tables.
*Status:* proved. Default orders only; prescribed orders are C75.
*Theorems* (`Sweep_Props.v`): `C44_octant_order` [none].

### C45 Coarse mesh is a partition of the fine mesh

*Modelled code:* `src/transport/CoarseMesh.cc:CoarseMesh`.
*Proof:* Counting; witness.
*Status:* partial. Refuted: when the remainder n mod level exceeds the number of coarse cells (11 cells at level 4, or 2 cells at level 3) the constructor writes past the end of the vector of coarse cell sizes. Missing from the partial theorems: those levels. For all other levels the coarse cells partition the fine cells, edges and flags agree with the fine mesh, and the cell map is the product of the axis maps.
*Theorems* (`Region_Props.v`): `C45_partition_partial` [A], `C45_map_partial` [A], `C45_width_partial` [A], `C45_level_refuted` [AC].

### C46 Homogenisation preserves reaction rates

*Modelled code:* `src/transport/Homogenize.cc:homogenize`.
*Proof:* Sums over regions; witnesses.
*Status:* partial. Rates are reproduced when every group is collapsed (offset 0), for regions with positive total rate and non-zero flux. Refuted: the production weight is overwritten in the loop over groups so only the last group counts; the spectrum is dropped in groups without fission; the coarse flux of a collapsed group is an average; with a group window the weights are read by position, so from the wrong groups. Missing: regions without reactions.
*Theorems* (`Region_Props.v`): `C46_rates_partial` [AC], `C46_spectrum_partial` [AC], `C46_spectrum_refuted` [AC], `C46_spectrum_lost_refuted` [AC], `C46_flux_partial` [AC], `C46_flux_refuted` [AC], `C46_window_refuted` [AC].

### C47 Clearing and scaling a state affects every moment

*Modelled code:* `src/transport/State.cc:clear,scale`.
*Proof:* List segments; witness.
*Status:* partial. clear and scale only touch the first number_cells entries of each moments vector: refuted for more than one moment; holds for one moment, and for the zeroth moments and the angular flux in general.
*Theorems* (`Source_Props.v`): `C47_clear_scale_refuted` [AC], `C47_clear_scale_partial` [A], `C47_clear_zeroth_partial` [A], `C47_scale_zeroth_partial` [A].

### C48 Backward difference coefficients are consistent

*Modelled code:* `src/kinetics/BDFCoefficients.hh:bdf_coefs`.
*Proof:* Computation over the rationals for each order.
*Status:* proved. Exact real arithmetic; orders 1 to 6, any other order reads outside the table.
*Theorems* (`Kinetics_Props.v`): `C48_exact` [AC], `C48_unsupported` [AC].

### C49 Time-dependent interpolation is exact at the knots and bounded

*Modelled code:* `src/kinetics/LinearMaterial.cc:update_impl`; `src/kinetics/LinearExternalSource.i.hh:set_time`.
*Proof:* Linear interpolation; witnesses.
*Status:* partial. Holds for external sources and for every cross section, spectrum and delayed fraction that the material interpolates. Refuted for nu*sigma_f (finalize multiplies the interpolants, so it can exceed both table values) and for velocities and decay constants (always those of the first table).
*Theorems* (`Kinetics_Props.v`): `C49_fission_refuted` [AC], `C49_velocity_refuted` [AC], `C49_source_partial` [AC], `C49_source_range_partial` [AC], `C49_material_partial` [AC].

### C50 Synthetic time-step source is the exact elimination of the precursors

*Modelled code:* `src/kinetics/TimeDependentMaterial.cc:update`; `src/kinetics/SyntheticMomentSource.i.hh:build`; `src/solvers/time/TimeStepper.cc:update_precursors,initialize_precursors`.
*Proof:* Algebra of the precursor elimination.
*Status:* proved. Cellwise balance with arbitrary leakage and other sources; exact arithmetic, positive velocities, decay constants and step.
*Theorems* (`Kinetics_Props.v`): `C50_elimination` [AC], `C50_elimination_angle` [AC], `C50_steady` [AC], `C50_angle_integral` [AC], `C50_material` [AC], `C50_multiphysics` [AC].

### C51 The time stepper reads only valid history

*Modelled code:* `src/solvers/time/TimeStepper.cc:solve,cycle_states_precursors`.
*Proof:* Invariant of the pointer rotation over a heap, refinement to the recurrence.
*Status:* proved. Pointer rotation over a heap refines the multistep recurrence for any step function that reads at most order slots; the synthetic sources and the precursor update are shown to be such.
*Theorems* (`Kinetics_Props.v`): `C51_history` [AC], `C51_sources_read` [AC], `C51_precursors_read` [AC], `C51_fixed_point` [none], `C51_number_steps` [AC], `C51_number_steps_cap` [AC].

### C52 Orthogonal transform inverts expansion

*Modelled code:* `src/orthog/OrthogonalBasis.cc:compute_a`; `src/orthog/OrthogonalBasis.i.hh:transform,inverse`.
*Proof:* Bilinear algebra of weighted sums; Pythagoras for the best approximation; dimension count for completeness.
*Status:* proved. Every basis with columns orthogonal for its weights, after compute_a: inverse then transform is the identity, transform then inverse is the orthogonal projection (best approximation for non-negative weights) and the identity when size = order + 1.
*Theorems* (`Orthog_Props.v`): `C52_inverts` [ABC].

### C53 Basis orthogonalisation yields an orthonormal basis

*Modelled code:* `src/orthog/TransformedBasis.cc`.
*Proof:* Gram-Schmidt invariant (orthonormal, equal spans) by induction over columns; positivity gives independence.
*Status:* partial. Without weights, for any independent vectors: orthonormal, and the first k columns span what the first k inputs span; always the case for positive x over DLP, DCT and DCP. Refuted when weights are given: Gram-Schmidt ignores them and the final scaling does not, so the result is orthonormal in neither inner product.
*Theorems* (`Orthog_Props.v`): `C53_partial` [ABC], `C53_discrete` [ABC], `C53_refuted` [ABC].

### C54 Polynomial bases follow their three-term recurrences

*Modelled code:* `src/orthog/ChebyshevU.cc`; `src/orthog/DLP.cc`.
*Proof:* Eigenvalue equation of the discrete Legendre recursion, summation by parts, degree count; trigonometric recursion; witness at 0.
*Status:* partial. DLP (sizes up to 32767, where its 32-bit products cannot overflow), DCP and CLP give the discrete and continuous Legendre polynomials for all orders. ChebyshevU is right up to degree 8 and wrong for every larger order: its recursion lacks the factor x.
*Theorems* (`Orthog_Props.v`): `C54_dlp` [ABC], `C54_dcp` [ABC], `C54_clp` [AC], `C54_chebyshev_partial` [ABC], `C54_chebyshev_refuted` [ABC].

### C55 Diffusion loss operator is conservative

*Modelled code:* `src/solvers/mg/DiffusionLossOperator.cc:build`; `src/solvers/wg/WGDiffusionLossOperator.cc:build`.
*Proof:* Invariants over the insertion list, run on the matrix model; summation by faces.
*Status:* proved. For every mesh, material with positive diffusion coefficients and completed scattering bounds, and any std::sort. C55_operator gives the product with every vector: leakage by currents obeying Fick's law with half-cell continuity inside and the albedo law outside, plus total minus scattering minus fission, and the global balance. Signs for matrices without fission and with positive removal. Exact real arithmetic.
*Theorems* (`Diffusion_Props.v`): `C55_operator` [AC], `C55_symmetric` [AC], `C55_signs` [AC], `C55_reflecting` [AC], `C55_within_group` [AC], `C55_within_group_definite` [AC], `C55_within_group_positive` [AC].

### C56 Adjoint gain operator is the transpose

*Modelled code:* `src/solvers/mg/DiffusionGainOperator.cc:build`.
*Proof:* Sums over the insertion lists.
*Status:* proved. Every mesh and material.
*Theorems* (`Diffusion_Props.v`): `C56_gain` [AC], `C56_adjoint` [AC].

### C57 CMFD coupling reproduces the tallied current

*Modelled code:* `src/solvers/mg/CMFDLossOperator.cc:build`.
*Proof:* Algebra of the coupling coefficients; the matrix model for the rebuilt operator.
*Status:* proved. Unit relaxation (first build or alpha = 1) and positive fluxes; holds with and without the correction, for the first and every later construct() on the same problem. The matrix applied to the flux gives tallied net leakage plus reactions in every cell and group.
*Theorems* (`Diffusion_Props.v`): `C57_current` [AC], `C57_balance` [AC].

### C58 Power iteration eigenvalue is the production ratio

*Modelled code:* `src/solvers/eigen/EigenPI.i.hh:solve`.
*Proof:* Invariants of the outer loop over the recorded fission densities and eigenvalues; the loop ends by its own test or its limit.
*Status:* proved. Stated for every multigroup solver that never fails (mg_solver); C58_operator gives the matrix for source-free vacuum problems solved exactly, C58_gauss_seidel shows Gauss-Seidel over source iteration is such a solver without upscatter and self-scatter. With a zero iteration limit the code reads an uninitialised error (C58_no_iterations).
*Theorems* (`Pi_Props.v`): `C58_iterates` [ABC], `C58_no_iterations` [ABC], `C58_ratio` [AC], `C58_production` [AC], `C58_fixed` [AC], `C58_residual` [AC], `C58_operator` [ABCD], `C58_gauss_seidel` [ABCD].

### C59 Source iteration stops correctly

*Modelled code:* `src/solvers/wg/WGSolverSI.i.hh:solve`.
*Proof:* Invariant of the sweep loop: each iterate is the exact sweep of the source of the one before.
*Status:* proved. Every well-posed group solve succeeds; the record `iterated` states the solver's whole history: starts from the state's flux and the fixed boundary fluxes, each iterate solves the transport equation with the scattering source of the one before, at most the limit of sweeps, stops as soon as two iterates agree, and an early stop means the last two differ by less than the tolerance in every cell.
*Theorems* (`Iter_Props.v`): `C59_iterates` [ABCD], `C59_no_iterations` [ABCD].

### C60 Region powers are normalised

*Modelled code:* `src/postprocess/ReactionRates.cc:region_power,edit`.
*Proof:* Sums over regions; witness.
*Status:* partial. Powers and integral edits are proved for all meshes, maps and fluxes. Refuted: the mean edit divides by cell rather than by region, so a region met twice among the first cells is divided twice and one not met is left undivided. The partial theorem assumes each region occurs exactly once among the first cells.
*Theorems* (`Region_Props.v`): `C60_region_power` [AC], `C60_edit_sum` [AC], `C60_edit_mean_partial` [AC], `C60_edit_mean_refuted` [AC].

### C61 SparseRow range insertion touches only the requested columns

*Modelled code:* `src/callow/matrix/SparseRow.cc:SparseRow::insert,SparseRow::range`.
*Proof:* Refinement of the range insertion; witness.
*Status:* partial. When the source row's first stored column in the range is exactly b, that column is inserted as well.
*Theorems* (`Dense_Props.v`): `C61_range_insert_partial` [AC], `C61_range_insert_refuted` [AC].

### C62 vec_min and vec_max return extreme elements

*Modelled code:* `src/utilities/MathUtilities.hh:vec_min,vec_max`.
*Proof:* Fold invariants; witness.
*Status:* partial. vec_max starts at numeric_limits<double>::min(), a positive number: wrong for all-negative vectors.
*Theorems* (`Util_Props.v`): `C62_vec_max_refuted` [AC], `C62_vec_max_partial` [AC], `C62_vec_min` [AC].

### C63 soft_equiv is the stated relative comparison

*Modelled code:* `src/utilities/SoftEquivalence.hh:soft_equiv`.
*Proof:* Case analysis over the reals.
*Status:* proved. 
*Theorems* (`Util_Props.v`): `C63_soft_equiv_relative` [AC], `C63_soft_equiv_refl` [AC], `C63_soft_equiv_field` [AC].

### C64 The relative residual norm divides every element

*Modelled code:* `src/utilities/MathUtilities.hh:norm_relative_residual`.
*Proof:* Witness and sum algebra.
*Status:* partial. The Linf branch does not divide the first difference.
*Theorems* (`Util_Props.v`): `C64_relative_residual_Linf_refuted` [ABC], `C64_relative_residual_L1_partial` [ABC].

### C65 A successful check licenses get

*Modelled code:* `src/utilities/InputDB.i.hh:InputDB::check,InputDB::get`.
*Proof:* Refinement to finite maps; witness.
*Status:* partial. check looks in all six maps, get<T> dereferences find() in one: undefined if the key is held with another type. The partial theorem says exactly when get is defined.
*Theorems* (`Util_Props.v`): `C65_check_licenses_get_refuted` [none], `C65_check_licenses_get_partial` [none].

### C66 A geometry made from a mesh is that mesh

*Modelled code:* `src/geometry/Geometry.cc:Geometry::Geometry,Geometry::find`; `src/geometry/Mesh.i.hh:Mesh::find_cell`.
*Proof:* Cumulative edges and CSG boxes.
*Status:* proved. 
*Theorems* (`Csg_Props.v`): `C66_find_is_cell` [ABC], `C66_agrees_with_mesh` [ABC].

### C67 A translated region keeps its bounding box around it

*Modelled code:* `src/geometry/RegionFactory.cc:RegionFactory::CreateTranslatedRegion`; `src/geometry/Region.cc:Region::intersects_bounding_box`.
*Proof:* Geometry algebra; witness.
*Status:* partial. The box is moved the opposite way; only the moved membership is proved.
*Theorems* (`Csg_Props.v`): `C67_translated_box_refuted` [ABC], `C67_translated_contains_partial` [ABC].

### C68 The bounding box test is exact

*Modelled code:* `src/geometry/Region.cc:Region::intersects_bounding_box`.
*Proof:* Slab intersections over the reals extended by infinities and NaN, with IEEE rules for reciprocals of zero and for comparisons.
*Status:* partial. Exact for all rays, including those parallel to axes (infinite reciprocals, IEEE rules), except rays running in a face x = const of the box: zero times infinity makes both bounds NaN and the ray is rejected.
*Theorems* (`Csg_Props.v`): `C68_bounding_box_partial` [AC], `C68_graze_refuted` [AC].

### C69 Normalised tracks reproduce the reference volumes

*Modelled code:* `src/geometry/TrackDB.cc:TrackDB::normalize,TrackDB::volume`; `src/geometry/Track.cc:Track::reverse`.
*Proof:* Sums over tracks and segments; witness.
*Status:* partial. A track and its reverse share segments, which are scaled twice; proved when no two tracks share segments. Volumes are the track lengths times widths, averaged over angles.
*Theorems* (`Csg_Props.v`): `C69_normalize_refuted` [AC], `C69_normalize_partial` [AC], `C69_swept_volume` [AC], `C69_untouched_region` [AC].

### C70 A macrobody is bounded by all its surfaces

*Modelled code:* `src/geometry/Macrobody.cc:Macrobody::contains`.
*Proof:* Set algebra; witness.
*Status:* partial. Only the last surface decides; proved for one surface.
*Theorems* (`Csg_Props.v`): `C70_macrobody_refuted` [AC], `C70_macrobody_partial` [AC].

### C71 set_downscatter changes only the selected flag

*Modelled code:* `src/material/Material.hh:Material::set_downscatter`; `src/material/Material.cc:Material::downscatter`.
*Proof:* Case analysis; witness.
*Status:* partial. Setting the adjoint flag also sets the forward one.
*Theorems* (`Material_Props.v`): `C71_set_downscatter_refuted` [AC], `C71_set_downscatter_partial` [AC].

### C72 Product quadrature side tables enumerate the directions of a side in order

*Modelled code:* `src/angle/ProductQuadrature.cc:ProductQuadrature,incident_index,outgoing_index,number_azimuths,number_polar`.
*Proof:* Index arithmetic and azimuthal cosines.
*Status:* proved. 
*Theorems* (`Angle_Props.v`): `C72_incident_bijection` [none], `C72_outgoing_bijection` [none], `C72_order` [AC], `C72_azimuth_order` [ABC], `C72_azimuth_cosines` [ABC].

### C73 Double quadrature rules are symmetric and keep the half rule's total weight

*Modelled code:* `src/angle/BaseGL.hh:BaseDGL::build_impl`; `src/angle/BaseGC.hh:BaseDGC::build_impl`; `src/angle/BaseQuadrature.hh:scale_and_shift`.
*Proof:* List reversal and sums.
*Status:* proved. the half rule (Newton iteration of Gauss-Legendre) is arbitrary
*Theorems* (`Angle_Props.v`): `C73_double_rule` [AC].

### C74 Fixed boundary conditions and clearing act on exactly the requested fluxes

*Modelled code:* `src/boundary/FixedBoundary.i.hh:set`; `src/boundary/BoundarySN.i.hh:set,clear`.
*Proof:* Pack/unpack tables.
*Status:* proved. 
*Theorems* (`Boundary_Props.v`): `C74_fixed_incident_flux` [none], `C74_clear_group` [A].

### C75 A prescribed octant order must cover every octant

*Modelled code:* `src/transport/Sweeper.cc:setup_octant_indices`.
*Proof:* Case analysis; witness.
*Status:* partial. Only the length is checked: [0,0,1,2] is accepted.
*Theorems* (`Sweep_Props.v`): `C75_user_order_refuted` [A], `C75_user_order_taken_partial` [none], `C75_user_order_length_partial` [none].

### C76 The sweep source is the complete emission density

*Modelled code:* `src/transport/SweepSource.i.hh:build_fixed,build_fixed_with_scatter,build_within_group_scatter,source`; `src/transport/ScatterSource.i.hh`; `src/transport/FissionSource.i.hh`.
*Proof:* Composition of C42, C43 and the external source.
*Status:* proved. Materials with negative scattering are excluded (see C42).
*Theorems* (`Source_Props.v`): `C76_complete_source` [AC].

### C77 Vector norms and distances obey the norm laws

*Modelled code:* `src/callow/vector/Vector.i.hh:Vector::norm`; `src/callow/vector/Vector.i.hh:Vector::norm_residual`; `src/callow/vector/Vector.i.hh:Vector::dot`; `src/callow/utils/CallowDefinitions.hh`.
*Proof:* Norm laws over the reals (Cauchy-Schwarz); witnesses.
*Status:* partial. L1, L2, LINF proved; L1REL and L2REL distances are scale invariant; refuted: LINFREL is an absolute distance, and norm() answers 0 for the relative kinds.
*Theorems* (`Vector_Props.v`): `C77_norms` [ABC], `C77_residual` [ABC], `C77_dot` [ABC], `C77_relative_partial` [ABC], `C77_relative_refuted` [ABC], `C77_norm_kind_refuted` [ABC].

### C78 ILUT apply inverts the stored factors

*Modelled code:* `src/callow/preconditioner/PCILUT.cc:PCILUT::apply`.
*Proof:* Triangular solves by induction.
*Status:* proved. The factorisation of PCILUT (dropping rules) is not modelled.
*Theorems* (`Solver_Props.v`): `C78_ilut_inverts` [AC].

### C79 A requested preconditioner is used

*Modelled code:* `src/callow/solver/LinearSolver.cc:LinearSolver::set_operators`; `src/callow/solver/LinearSolver.hh:LinearSolver::set_preconditioner`.
*Proof:* Case analysis over the set-up paths; witness.
*Status:* partial. Refuted: the side read from the database is never stored, so the preconditioner is built but not applied; set_preconditioner works.
*Theorems* (`Solver_Props.v`): `C79_direct_partial` [none], `C79_refuted` [none].

### C80 GMRES delivers the minimal residual it reports

*Modelled code:* `src/callow/solver/GMRES.cc:GMRES::solve_impl`; `src/callow/solver/GMRES.i.hh:apply_givens,compute_y`; `src/callow/solver/LinearSolver.cc:monitor,solve`.
*Proof:* Minimisation over the Krylov space, exactness of the rotated least squares problem, full-dimension termination.
*Status:* proved. Exact arithmetic; operator given by its action, linear and injective together with the preconditioners; atol > 0, rtol <= 1, limit at least three.
*Theorems* (`Gmres_Props.v`): `C80_true_residual` [ABC], `C80_minimal` [ABC], `C80_terminates` [ABC], `C80_matrix_linear` [AC].

### C81 Extrapolated half steps are the implicit midpoint rule

*Modelled code:* `src/solvers/time/TimeStepper.cc:step,extrapolate,update_precursors`.
*Proof:* Algebra.
*Status:* proved. Exact arithmetic.
*Theorems* (`Kinetics_Props.v`): `C81_midpoint` [AC], `C81_precursors` [AC], `C81_rows` [A], `C81_angular` [AC], `C81_scalar` [AC].

### C82 Adjoint diffusion operator is the transpose

*Modelled code:* `src/solvers/mg/DiffusionLossOperator.cc:build`.
*Proof:* Sums over the insertion lists.
*Status:* proved. Forward operator from group 0, adjoint from the last group.
*Theorems* (`Diffusion_Props.v`): `C82_adjoint` [AC].

### C83 Diffusion operators can be rebuilt

*Modelled code:* `src/solvers/mg/DiffusionLossOperator.cc:construct`; `src/solvers/wg/WGDiffusionLossOperator.cc:construct`; `src/solvers/mg/DiffusionGainOperator.cc:construct`; `src/solvers/mg/CMFDLossOperator.cc:construct`; `src/callow/matrix/Matrix.cc:clear`.
*Proof:* Release of the storage in the matrix model; witness.
*Status:* partial. Refuted: DiffusionLossOperator and WGDiffusionLossOperator construct() insert into storage released by assemble() (undefined behaviour for every operator); CMFDLossOperator silently drops a scattering coupling absent from the previous build. Proved: DiffusionGainOperator rebuilds with any material of the same group count, CMFD rebuilds with the same pattern (C57_balance).
*Theorems* (`Diffusion_Props.v`): `C83_loss_refuted` [AC], `C83_within_group_refuted` [AC], `C83_cmfd_refuted` [AC], `C83_gain_partial` [AC], `C57_balance` [AC].

### C84 Every built-in basis round-trips in the inner product it uses

*Modelled code:* `src/orthog/DLP.cc`; `src/orthog/DCT.cc`; `src/orthog/DCP.cc`; `src/orthog/CLP.cc`; `src/orthog/Jacobi01.cc`; `src/orthog/DDF.cc`; `src/orthog/OrthogonalBasis.i.hh:transform,inverse`.
*Proof:* Instances of C52 with the orthogonality of each basis (discrete sums, exact quadratures, integer tables for Jacobi); witnesses.
*Status:* partial. Proved for DLP, DCT, DCP without weights, Jacobi01 with an exact quadrature, CLP on intervals of length 2. Refuted for CLP on other intervals (result scaled by half the length), for user weights on the discrete bases, and for DDF, whose inverse dereferences a null pointer. ChebyshevU is not covered.
*Theorems* (`Orthog_Props.v`): `C84_discrete_partial` [ABC], `C84_jacobi_partial` [ABC], `C84_clp_partial` [AC], `C84_clp_refuted` [ABCD], `C84_weights_refuted` [ABC], `C84_ddf_refuted` [A].

### C85 All forms of the basis transforms agree

*Modelled code:* `src/orthog/OrthogonalBasis.i.hh:fold,unfold,transform,inverse`.
*Proof:* The same vocabulary; witnesses.
*Status:* partial. fold agrees with transform, and the std::vector forms and the shared-pointer transform agree with the reference forms. Refuted for unfold (undefined behaviour, exception or zero) and for the shared-pointer inverse (arguments swapped).
*Theorems* (`Orthog_Props.v`): `C85_fold_partial` [AC], `C85_overloads_partial` [A], `C85_unfold_refuted` [AC], `C85_inverse_refuted` [AC].

### C86 Source iteration converges to the one solution of the group

*Modelled code:* `src/solvers/wg/WGSolverSI.i.hh:WGSolverSI::solve`; `src/transport/Sweeper1D.i.hh`; `src/transport/Sweeper2D.i.hh`; `src/transport/Sweeper3D.i.hh`.
*Proof:* Maximum-norm contraction for the positive schemes and energy-norm contraction for the averaging schemes, from cell balances; Banach's fixed point argument gives the limit.
*Status:* proved. For boundaries that return nothing; reflective and periodic sides are outside the statement.
*Theorems* (`Iter_Props.v`): `C86_one_solution` [ABCD], `C86_error_max` [ABCD], `C86_error_energy` [ABCD], `C86_stops` [ABCD].

### C87 Gauss-Seidel multigroup solve orders, stops and solves

*Modelled code:* `src/solvers/mg/MGSolverGS.i.hh:solve`; `src/solvers/mg/MGSolverGS.cc:MGSolverGS`; `src/solvers/wg/WGSolverSI.i.hh:solve`; `src/material/Material.cc:finalize`.
*Proof:* Induction over the group list and the passes, for any group solver that meets a small contract; source iteration meets it.
*Status:* proved. C87_order holds for every within-group solver that changes only its own group; C87_solution is for source iteration. The last part is for materials finalised once after being filled (no downscatter override).
*Theorems* (`Iter_Props.v`): `C87_order` [ABC], `C87_solution` [ABCD], `C87_groups` [none], `C87_decoupled` [AC].

### C88 Power iteration converges to the eigenvalue of the discretised transport problem

*Modelled code:* `src/solvers/eigen/EigenPI.i.hh:EigenPI<D>::solve`; `src/transport/FissionSource.cc:FissionSource::setup_outer, FissionSource::update`; `src/solvers/mg/MGSolverGS.i.hh:MGSolverGS<D>::solve`.
*Proof:* The inverse of a strictly contracting map is linear and positive; Perron-style comparison of nonnegative densities.
*Status:* proved. C88_any_operator is the same for any solver acting as a matrix that connects the fissile cells. Solvers with upscatter or within-group scatter are exact only in the limit, so for them the operator is not exactly linear and the theorem does not apply.
*Theorems* (`Pi_Props.v`): `C88_converges` [ABCD], `C88_any_operator` [ABCD].

### C89 The energy-independent eigenvalue operator is the linear fission operator of the transport problem

*Modelled code:* `src/solvers/eigen/EnergyIndependentEigenOperator.cc:EnergyIndependentEigenOperator<D>::multiply`; `src/transport/FissionSource.cc:FissionSource::setup_outer, FissionSource::update`.
*Proof:* Unfolding of the operator to solves with the fission source of the vector; linearity from uniqueness of the solves.
*Status:* proved. The multigroup solver is assumed exact (C58_gauss_seidel gives an instance).
*Theorems* (`Pi_Props.v`): `C89_multiply` [AC], `C89_pairs` [ABCD].

### C90 The within-group Krylov system is the group's transport equation

*Modelled code:* `src/solvers/wg/WGTransportOperator.cc:multiply`; `src/solvers/wg/WGSolverGMRES.i.hh:build_rhs`; `src/transport/SweepSource.i.hh:source`; `src/transport/Sweeper.hh:sweep`.
*Proof:* Superposition of sweeps: operator and right hand side are sweeps of two sources which add up; uniqueness of the sweep; witness with a directional source.
*Status:* partial. Refuted: WGTransportOperator::multiply does not switch off the sources given per direction, so they enter the linear system twice; C90_refuted gives a one-cell problem whose linear system is solved by twice the right flux. C90_directed says exactly what the system means in general (the problem with directional sources doubled). C90_system_partial and C90_linear_partial are the full claim for problems without directional sources. Not covered: reflective boundaries, where boundary fluxes join the unknowns.
*Theorems* (`Wg_Props.v`): `C90_refuted` [ABCD], `C90_system_partial` [ABCD], `C90_directed` [ABCD], `C90_linear_partial` [ABCD].

### C91 The multigroup Krylov system is the coupled transport equations of its groups

*Modelled code:* `src/solvers/mg/MGTransportOperator.cc:multiply`; `src/solvers/mg/MGSolverGMRES.i.hh:build_rhs`; `src/solvers/mg/MGSolverGMRES.i.hh:group_sweep`; `src/transport/ScatterSource.i.hh:build_downscatter_source`; `src/transport/SweepSource.i.hh:build_fixed_with_downscatter`.
*Proof:* The same superposition for every group of the block, induction over the groups, index arithmetic of the packed vector; witness with a left-over flux.
*Status:* partial. Proved on boundaries without reflection whenever the scattering band of every group of the block reaches down to the cutoff (forward and adjoint, any cutoff). Refuted in general: if a group of the block takes scattering only from groups beyond the cutoff, range(lower, cutoff) runs backwards and the flux the state holds for that group enters the right hand side, so the true solution no longer solves the system. Missing: reflective boundaries, whose fluxes are part of the unknowns.
*Theorems* (`Mgk_Props.v`): `C91_system_partial` [ABCD], `C91_complete` [ABC], `C91_refuted` [ABCD].

### C92 Spherical harmonics and the moment-to-discrete matrix

*Modelled code:* `src/angle/SphericalHarmonics.cc:Y_lm`; `src/angle/SphericalHarmonics.cc:get_Y_lm`; `src/angle/MomentToDiscrete.i.hh:build`; `src/angle/MomentToDiscrete.i.hh:calc_row_3d`; `src/angle/MomentToDiscrete.i.hh:operator()`; `src/angle/MomentIndexer.i.hh:index`.
*Proof:* Harmonics as explicit polynomials; addition theorem by bounding the rounding of the constants; orthogonality by linearity over monomials with a reflective check of all pairs (l,m); the nested loops of the matrix as a table fill.
*Status:* proved. Constants of the table are the decimals written in the source, hence tolerances of 1e-13 and 1e-14. The two factors of m and -m agree to 1e-14 only, because the source rounds the (3,2) and (3,-2) constants differently.
*Theorems* (`Harm_Props.v`): `C92_harmonics` [ABC], `C92_legendre` [AC], `C92_azimuth` [ABC], `C92_addition` [AC], `C92_unsupported` [AC], `C92_matrix` [ABCD], `C92_kernel` [ABCD], `C92_orthogonal` [ABCD], `C92_levels` [ABCD], `C92_slab_matrix` [ABC], `C92_slab_orthogonal` [ABC].

### C93 Level-symmetric quadrature sets

*Modelled code:* `src/angle/LevelSymmetric.cc:LevelSymmetric`; `src/angle/LevelSymmetric.cc:set_quad_values`; `src/angle/Quadrature.cc:Quadrature`.
*Proof:* The octant signs cancel odd powers; powers of xi reduce to those of mu and eta by the unit sphere; the remaining finite table of moments is computed by the kernel in fixed point with a proved bound on its rounding.
*Status:* proved. Tables are the decimals written in the source; the finite table is checked by computation in integers inside the kernel, the extension to all monomials is proved.
*Theorems* (`Tables_Props.v`): `C93_sets` [ABCD], `C93_degree` [ABCD], `C93_weights` [ABCD].

### C94 Tabulated polar and azimuthal rules integrate what they claim

*Modelled code:* `src/angle/TabuchiYamamoto.cc:build_impl`; `src/angle/TriGauss.hh:build_impl`; `src/angle/AbuShumaysDoubleRange.cc:build_impl`; `src/angle/AbuShumaysQuadrupleRange.cc:build_impl`.
*Proof:* Integrals by a derivative recursion (Coquelicot); digits of pi from Machin's series; the moments of the tables computed by the kernel in fixed point with a proved rounding bound; ordering through monotone sqrt and acos.
*Status:* proved. An odd size of the double-range rule leaves a zero-weight direction in the middle and an odd triangle-Gauss size writes outside the table; both are outside the claim.
*Theorems* (`Tables_Props.v`): `C94_integrals` [ABCD], `C94_circle` [ABCD], `C94_tabuchi` [AC], `C94_tri_gauss` [AC], `C94_double_range` [ABCD], `C94_quadruple_range` [ABCD].

### C95 Partial currents tallied in a sweep balance every coarse cell

*Modelled code:* `src/transport/CurrentTally.i.hh:tally`; `src/transport/CurrentTally.cc:reset`; `src/transport/BoundaryTally.hh:index`; `src/transport/CoarseMesh.hh:coarse_edge_flag`; `src/transport/Sweeper1D.i.hh:sweep`; `src/transport/Sweeper2D.i.hh:sweep`; `src/transport/Sweeper3D.i.hh:sweep`.
*Proof:* One call of the tally as an added term per table entry; loop invariants for the sweep of an angle; the whole sweep by simulation against a sweep with one more cell holding the entry; sums over fine faces collapse to coarse faces; telescoping of the cell balance; witnesses in three dimensions and for one cell.
*Status:* partial. Proved in one and two dimensions with at least two cells along each axis. Refuted in three dimensions (Sweeper3D never calls the tally, every current stays zero) and for meshes with one cell along an axis (coarse edge index -1).
*Theorems* (`Tally_Props.v`): `C95_currents_1d_partial` [ABCD], `C95_balance_1d_partial` [ABCD], `C95_currents_2d_partial` [ABCD], `C95_balance_2d_partial` [ABCD], `C95_nothing_3d_partial` [AC], `C95_balance_3d_refuted` [AC], `C95_one_cell_refuted` [ABC].

### C96 The coarse mesh update leaves a converged flux alone

*Modelled code:* `src/solvers/mg/MGSolverCMFD.cc:update`; `src/solvers/mg/CMFDLossOperator.hh:construct`; `src/solvers/mg/CMFDLossOperator.cc:build`; `src/transport/CoarseMesh.cc:CoarseMesh`; `src/transport/Homogenize.cc:homogenize`.
*Proof:* The row of the assembled matrix applied to the averages is leakage plus removal minus transfer and production of the coarse cell; the coupling coefficients turn the leakage into the tallied net current (C95); homogenisation conserves the rates; the balance of the sweep gives the residual. Witnesses with one or two cells for the three failures.
*Status:* partial. Proved in one and two dimensions for data with conserving homogenisation (forward or one group; no fission, or keff 1 with one spectrum). Refuted for keff other than 1, for the adjoint of two groups, and in three dimensions. The linear solver is a parameter.
*Theorems* (`Cmfd_Props.v`): `C96_residual_partial` [ABCD], `C96_fixed_point_partial` [ABCD], `C96_keff_refuted` [ABCD], `C96_adjoint_refuted` [ABCD], `C96_3d_refuted` [ABCD].

### C97 The mesh of a pin cell covers the cell with the pin's materials

*Modelled code:* `src/geometry/PinCell.cc:PinCell::meshify`; `src/geometry/PinCell.cc:PinCell::find_region`; `src/geometry/PinCell.cc:PinCell::PinCell`; `src/geometry/Mesh2D.cc:Mesh2D`.
*Proof:* The uniform loops by an invariant on region map and edges; the best fit through the coarse map and width theorems of the mesh constructor, with the seven strips placed by the sums of the counts; the fuel area as a double sum over strips compared with proved digits of pi. Witnesses for the four failures.
*Status:* partial. Proved for square, centred pins, with the exact condition on the rounded counts for the best fit; refuted for rectangular pitch, offset pins, thin and wide pins.
*Theorems* (`Pin_Props.v`): `C97_uniform_partial` [ABC], `C97_best_fit_partial` [ABCD], `C97_fine_fits_partial` [AC], `C97_rectangular_refuted` [ABC], `C97_offset_refuted` [ABC], `C97_thin_refuted` [ABC], `C97_wide_refuted` [ABC].

### C98 The regions made for pin cells and assemblies partition them

*Modelled code:* `src/geometry/RegionFactory.cc:RegionFactory::CreatePinCell`; `src/geometry/RegionFactory.cc:RegionFactory::CreateAssembly`; `src/geometry/RegionFactory.cc:RegionFactory::CreateTranslatedRegion`; `src/geometry/Geometry.cc:Geometry::find`.
*Proof:* A region is the conjunction of its nodes; plane and cylinder forms rewritten into signs of scaled coordinates; existence and uniqueness of ring and sector by cases; concatenation and translation of lists with exactly one containing region.
*Status:* partial. Proved for centred pins (flat and inside the cell for the points outside and for assemblies); refuted for cells with height, large pins and divided off-centre pins.
*Theorems* (`Pin_Props.v`): `C98_pin_partial` [ABC], `C98_mesh_agrees_partial` [ABC], `C98_assembly_partial` [ABC], `C98_height_refuted` [ABC], `C98_large_refuted` [ABC], `C98_offset_refuted` [ABC].

### C99 The segments of a track tile it

*Modelled code:* `src/geometry/Tracker.cc:Tracker::segmentize`; `src/geometry/Region.cc:Region::intersects_bounding_box`; `src/geometry/RegionFactory.cc:RegionFactory::CreateTranslatedRegion`.
*Proof:* Along the track each region's truth value changes only at roots of its surfaces; consecutive crossings make pieces with constant value tested at the midpoint; pieces of different regions are disjoint and cover the track, so after sorting by midpoints they follow each other. The mesh satisfies the conditions by the formula for its bounding boxes. Witnesses: a track beside a pin, three pins in a row.
*Status:* partial. Proved for all geometries meeting the stated conditions and for all two-dimensional meshes; refuted for pin cells a track crosses beside the pin and for assemblies.
*Theorems* (`Tracker_Props.v`): `C99_segments_partial` [ABC], `C99_mesh_partial` [ABC], `C99_pin_refuted` [ABC], `C99_assembly_refuted` [ABC].

## Which parts of the code are modelled

Paths are relative to `/repo/src`. Everything that is not listed under "modelled" is not modelled.

| model file | modelled | not modelled in the same classes |
|---|---|---|
| `Matrix_Model.v` | callow/matrix/Matrix (COO insertion, assemble, CSR products, element access), Triplet | printing, PETSc storage, clear |
| `Dense_Model.v` | callow/matrix/MatrixDense storage and products, SparseRow | printing |
| `Vector_Model.v` | callow/vector/Vector arithmetic, norms, residual norms | constructors from raw pointers, printing |
| `Solver_Model.v` | callow/solver LinearSolver (solve, monitor), Jacobi, GaussSeidel, Richardson; preconditioner PCJacobi, PCILU0, PCILUT::apply | LinearSolverCreator, PCShell |
| `Ilut_Model.v` | callow PCILUT constructor (elimination, drop_t, drop_p), SparseRow (construction from a matrix row, find, operator[], delete_value, insert with ADD, range) | SparseRow from arrays and insert with INSERT, printing |
| `Gmres_Model.v` | callow/solver/GMRES (whole solve, restarts, Givens, preconditioning on both sides) | matrix output |
| `Mesh_Model.v` | geometry Mesh, Mesh1D, Mesh2D, Mesh3D, Assembly, Core | serialisation |
| `Csg_Model.v` | geometry Point, Ray, QuadraticSurface, Surface, CSG nodes, Region, RegionFactory (box, primitives), Geometry, Macrobody, Track, TrackDB | |
| `Pin_Model.v` | geometry PinCell (constructor, find_region, meshify uniform and best fit), RegionFactory (pin cell, assembly) | display |
| `Tracker_Model.v` | geometry Tracker (segmentize, find_exit, generate_tracks_2D_cartesian, trackit), Track storage sharing | printing; three-dimensional tracking (commented out in the code) |
| `Material_Model.v` | material/Material | serialisation, display |
| `Angle_Model.v` | angle Quadrature, ProductQuadrature, base rules (uniform, mirrored Gauss), UniformEqual, UserQuadrature, MomentIndexer | Newton iterations of the Gauss rules, QuadratureFactory |
| `Harm_Model.v` | angle SphericalHarmonics, MomentToDiscrete | the boost-based harmonics above order 3 (not compiled by default) |
| `Tables_Model.v` | angle LevelSymmetric, TabuchiYamamoto, TriGauss, AbuShumaysDoubleRange, AbuShumaysQuadrupleRange | rounding of the table entries to double |
| `Boundary_Model.v` | boundary BoundarySN, Reflective, Periodic, FixedBoundary, Vacuum | BoundaryMOC, BoundaryDiffusion |
| `Cell_Model.v` | transport Equation_DD/SD/SC in 1–3 dimensions, Equation_SC_MOC | |
| `Sweep_Model.v` | transport Sweeper, Sweeper1D/2D/3D, OpenMP schedules | Sweeper2DMOC |
| `Tally_Model.v` | transport CurrentTally, BoundaryTally, CoarseMesh as used by it, the tally calls in the sweepers | several groups at once (one tally per group in Cmfd_Model) |
| `Source_Model.v` | transport ScatterSource, FissionSource, SweepSource, State | |
| `Iter_Model.v` | solvers/wg WGSolverSI, WGTransportOperator, WGSolverGMRES::build_rhs; solvers/mg MGSolverGS; solvers/eigen EigenPI, EnergyIndependentEigenOperator | callow solver calls, diffusion preconditioners, timers, printing |
| `Mgk_Model.v` | solvers/mg MGTransportOperator, MGSolverGMRES (right hand side, group block, copy of the solution) | update of the angular flux, preconditioners |
| `Cmfd_Model.v` | solvers/mg MGSolverCMFD::update, with the coarse mesh of transport CoarseMesh | the iteration around the update, the linear solver (a parameter), compute_current |
| `Region_Model.v` | transport Homogenize, CoarseMesh; postprocess/ReactionRates | |
| `Kinetics_Model.v` | kinetics BDF coefficients, KineticsMaterial, TimeDependentMaterial, LinearMaterial, LinearExternalSource, Precursors, SyntheticSources, MultiPhysics; solvers/time/TimeStepper | Silo output |
| `Diffusion_Model.v` | solvers DiffusionLossOperator, DiffusionGainOperator, CMFDLossOperator, WGDiffusionLossOperator | |
| `Dsolve_Model.v` | solvers/mg MGDiffusionSolver (constructor, refresh, solve, volume and boundary sources, fill_state, fill_boundary, fill_current), boundary BoundaryDiffusion tables | the linear solver (any function returning only exact solutions; C07-C09, C75-C79 treat the solvers themselves), timers and printing |
| `Cpow_Model.v` | callow/solver EigenSolver (constructor, set_tolerances, solve, monitor), PowerIteration; `Dpos_*` proves more about `Dsolve_Model.v` | Davidson, EISPACK and SLEPc solvers, EigenSolverCreator |
| `Ediff_Model.v` | solvers/eigen EigenDiffusion (constructor, solve), Eigensolver (which options it reads) | update of the fission density after the solve |
| `Cpc_Model.v` | solvers/mg MGCoarseMeshPreconditioner (constructor, group map, restriction, spectrum, build, prolongation, shape) and MGCMDSA (apply, size of the operator) | the fine and coarse linear solvers (any function of the right length), spectrum codes, condensation of the material (Region_Model) |
| `Dsa_Model.v` | solvers/mg MGDSA (constructor's operator, apply), solvers/wg PC_DSA (apply), solvers/mg MGTCDSA (both apply functions) | the linear solver of the diffusion equation (any exact one, or any function), the approximate transport operator with coarse quadrature (any linear operator), counters, printing |
| `Rom_Model.v` | solvers/rom OperatorProjection::Project, ROMSolver::Solve, ROMBasis::GetBasis | the choice of the full operators, the eigensolver (any that returns an eigenpair), files that cannot be opened |
| `Davidson_Model.v` | `src/callow/solver/Davidson.cc` (`solve_impl`), `EigenSolver.cc` (`monitor`), `Eispack.cc` (`set_operators`, selection in `solve_impl`) | operators are functions on vectors, the preconditioner and the projected solver are parameters; EISPACK's `rg`/`rgg` is a parameter; division by a zero norm is UB |
| `Eis_Model.v` | `EigenSolver.cc` (`solve`) for `Eispack` objects | printing; EISPACK's `rg`/`rgg` is a parameter |
| `Gd_Model.v` | `src/solvers/eigen/EnergyDependentEigenLHS.cc`, `src/solvers/mg/MGScatterFissionOperator.cc` (fission only), `src/solvers/mg/MGSweepOperator.cc`, and which operators `EigenGD.cc` hands to the eigensolver | vector views without a size are reads of the vector behind them, UB beyond its end; the preconditioner choices are not modelled |
| `Gds_Model.v` | `src/solvers/eigen/EigenGD.cc` (`solve`) | the eigensolver is a parameter; preconditioners; printing |
| `Ecmfd_Model.v` | `src/solvers/eigen/EigenCMFD.cc` (cmfd_update, repeated), `src/solvers/mg/CMFDLossOperator.cc` with relaxation over updates, `DiffusionGainOperator.cc` as used there | the eigensolver and the sweep between updates are parameters; an unset relaxation factor read is UB |
| `Ecl_Model.v` | `EigenCMFD::solve`, `FissionSource` (`initialize`, `update`) as sums | the energy sweep is a parameter; a density of 0 is undefined behaviour at once; printing |
| `Fcl_Model.v` | `MGSolverCMFD` (`solve`, `energy_sweep`) | the energy sweep is a parameter; order of the groups in the norm; printing |
| `Ext_Model.v` | `src/external_source/{ConstantSource,IsotropicSource,DiscreteSource}`, `src/kinetics/{LinearExternalSource,PulsedExternalSource}`, their use in `WGSolver.cc` and `SweepSource.i.hh` | parts are held by value; the quadrature of a discrete source is that of the solver |
| `Manager_Model.v` | `FixedSourceManager` (constructor, setup, set_source, set_solver, solve) and `EigenvalueManager` as a state machine over call sequences | `iterate`; what quadrature, boundary and solver constructors do beyond choosing methods, and what solvers compute, are arbitrary functions; exceptions end the sequence |
| `Driver_Model.v` | `StupidParser::parse_mesh_text`, the fine mesh constructor of `Mesh1D`, `Execute` (constructor and solve) | silo output, HDF5 input |
| `Parser_Model.v` | `StupidParser::parse_input_text`, `parse_material_text`, `remove_white_space`, `read_scalar`, `read_vector`, over files as lists of lines and lines as character strings | the conversion of one number text (`istringstream >>`) is an arbitrary partial function; blanks are the character 32, no tabs; HDF5 input |
| `Picture_Model.v` | `PPMOutput` (both `initialize`, `write_mesh_map`, `write_scalar_flux`, `draw_geometry`), `PPMPlotter`, `ColorMap` | colour map RANDOM; file as width, height and pixels; 0/0 is undefined behaviour at once |
| `Select_Model.v` | `QuadratureFactory` (`build`, `build_base`), `UserQuadrature`, `BaseGC`, `LinearSolverCreator`, `EigenSolverCreator` | objects are identified by class and constructor arguments; PETSc and SLEPc not available |
| `Lra_Model.v` | `LRA` (constructor, `initialize_materials`, `update_impl`, `update_P_and_T`, accessors), `update_T_rhs` with `TimeStepper::update_multiphysics` | two groups as fields; setters as values; constant kinetics data not repeated |
| `Hdf_Model.v` | ioutils/IO_HDF5 (write and read of inputs, materials, meshes; open, close), IO_HDF5.t.hh maps, vectors and attributes | the HDF5 library is a tree of groups, tables and vectors with a count of leaked handles; a file held by leaked handles cannot be truncated; link order is any permutation; chunking, types and error codes are left out |
| `Tmat_Model.v` | kinetics/TimeIndependentMaterial, LinearMaterial constructor, KineticsMaterial constructor, sequences of TimeDependentMaterial::update | materials from Python callbacks; display |
| `Arn_Model.v` | solvers/eigen/EigenArnoldi (`solve`), callow `PowerIteration` with an operator that has a state | the other callow eigensolvers are a parameter; Krylov vectors longer than the number of cells |
| `Spc_Model.v` | solvers/mg/SpectrumGS, SpectrumFS, their use in MGCoarseMeshPreconditioner::build, repeated builds | the pin cell eigenvalue problems of SpectrumPinCell; the solvers are parameters that solve what they are given |
| `Walk_Model.v` | utilities/Iterators.{hh,i.hh}, geometry/Track::begin and end, loops over a track | operator->; comparison of iterators of different containers; the private ordering of tracks |
| `Gen_Model.v` | solvers/FixedSourceManager::iterate for the discrete ordinates solvers (generation 0, later generations, the returned norm), drop of the sources, clearing of state and boundary | set-up of the manager, diffusion and MOC |
| `Orthog_Model.v` | orthog OrthogonalBasis and all bases | Boost branches |
| `Util_Model.v` | utilities MathUtilities, SoftEquivalence, InputDB, Factory, Random | Timer, Profiler, serialisation |

Not modelled at all: ioutils other than PPM pictures and HDF5 (Silo, PostScript), the Python interface, and of the reduced order and EigenGD solvers all but the operators and solves listed above.
