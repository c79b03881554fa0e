{"id": "C01", "title": "Sparse matrix product reflects every accepted insertion", "statement": "For a callow::Matrix, after any sequence of scalar insert(i,j,v,INSERT|ADD) calls (accepted or rejected) followed by assemble(), multiply(x,y) yields y[i] = sum over the accepted insertions (i,j,v) of v*x[j]; rejected insertions contribute nothing, and the result does not depend on the order in which the sort places entries of equal column.", "quantifier": "all matrix sizes, all per-row capacities, all insertion histories and all vectors x; all comparison sorts", "why_tests_cant": "the space of insertion histories (order, duplicates, merges, rejections) is unbounded; tests only build a few fixed stencils", "anchors": ["src/callow/matrix/Matrix.i.hh:Matrix::insert,Matrix::multiply", "src/callow/matrix/Matrix.cc:Matrix::assemble", "src/callow/matrix/Triplet.hh:compare_triplet"]}
{"id": "C02", "title": "Assembled sparse structure is well formed", "statement": "After assemble() of a matrix whose every row received at least one entry: start/end partition 0..nnz contiguously, columns inside a row are in nondecreasing order, every row i below the column count holds an entry on the diagonal, and diagonal(i) is a position inside row i whose column is i. A row that received no entry makes assemble() read out of bounds.", "quantifier": "all sizes, capacities and insertion histories", "why_tests_cant": "requires every history, including rows lacking a diagonal on either side", "anchors": ["src/callow/matrix/Matrix.cc:Matrix::assemble", "src/callow/matrix/Matrix.i.hh:start,end,diagonal,column"]}
{"id": "C03", "title": "insert() status is truthful and never overruns the row", "statement": "insert returns true exactly when the entry was stored or merged; when it returns false the matrix is unchanged (single-entry and INSERT row form); no insert ever writes past the row capacity given to preallocate.", "quantifier": "all states reachable by any insertion history, all overloads of insert", "why_tests_cant": "memory overruns on repeated rows in the column/triplet overloads only appear for particular histories", "anchors": ["src/callow/matrix/Matrix.i.hh:Matrix::insert"]}
{"id": "C04", "title": "Element access agrees with the matrix that multiply applies", "statement": "A(i,j) returns the entry a user inserted at (i,j), i.e. the j-th component of row i of the operator that multiply applies (for histories without duplicate columns).", "quantifier": "all matrices, all index pairs", "why_tests_cant": "a test has to probe off-diagonal entries on both sides; all-pairs agreement is a universal statement", "anchors": ["src/callow/matrix/Matrix.i.hh:Matrix::operator()"]}
{"id": "C05", "title": "multiply_transpose is the adjoint of multiply", "statement": "For every assembled matrix, <w, A v> = <A' w, v> where A v is what multiply returns and A' w is what multiply_transpose returns; the same holds for MatrixDense.", "quantifier": "all matrices (square or not), all vectors", "why_tests_cant": "bilinear identity over all vectors", "anchors": ["src/callow/matrix/Matrix.i.hh:Matrix::multiply,multiply_transpose", "src/callow/matrix/MatrixDense.i.hh:multiply,multiply_transpose"]}
{"id": "C06", "title": "SparseRow is an ordered finite map", "statement": "After any sequence of insert operations a SparseRow's stored column indices stay strictly increasing, find(j) locates exactly the stored column j, an INSERT of a nonzero value makes that value the one read back, an ADD adds to the previous one, and no other column's value changes.", "quantifier": "all operation histories and all columns", "why_tests_cant": "map refinement over unbounded histories", "anchors": ["src/callow/matrix/SparseRow.cc:SparseRow::insert,find,elements,operator[],range"]}
{"id": "C07", "title": "Dense matrix storage addresses each entry once", "statement": "MatrixDense(m,n): insert(i,j,v,INSERT) is read back by operator()(i,j) and leaves every other in-range entry unchanged; ADD accumulates.", "quantifier": "all shapes, all index pairs", "why_tests_cant": "aliasing of a linearised index is a for-all-pairs property", "anchors": ["src/callow/matrix/MatrixDense.hh:MDIDX", "src/callow/matrix/MatrixDense.i.hh:insert,operator()"]}
{"id": "C08", "title": "Stationary solvers converge only to solutions", "statement": "For Jacobi, Gauss-Seidel (unpreconditioned) on a matrix with nonzero diagonal and Richardson: one iteration leaves x unchanged if and only if A x = b. Hence an exact solution is never perturbed and a stagnated iterate is a solution.", "quantifier": "all matrices with nonzero diagonal, all right hand sides and iterates", "why_tests_cant": "universal over real vectors", "anchors": ["src/callow/solver/Jacobi.i.hh:solve_impl", "src/callow/solver/GaussSeidel.i.hh:solve_impl", "src/callow/solver/Richardson.i.hh:solve_impl"]}
{"id": "C09", "title": "Linear solver status is truthful", "statement": "LinearSolver::solve returns SUCCESS only if the last monitored residual norm is below max(atol, rtol*r0); if the iteration limit is reached without convergence it returns MAXIT; it never performs more than the maximum number of iterations.", "quantifier": "all residual histories, all tolerances and iteration limits", "why_tests_cant": "depends on every possible residual sequence, including limits of 1", "anchors": ["src/callow/solver/LinearSolver.cc:monitor,monitor_init,solve", "src/callow/solver/Richardson.i.hh:solve_impl", "src/callow/solver/GMRES.cc:solve_impl"]}
{"id": "C10", "title": "GMRES least squares kernel is exact", "statement": "The Givens rotations applied by GMRES preserve the Euclidean norm of the residual vector and annihilate the subdiagonal; the back substitution returns the y with R y = g for every upper triangular R with nonzero diagonal.", "quantifier": "all Hessenberg columns and all restart sizes", "why_tests_cant": "universal over real data and size", "anchors": ["src/callow/solver/GMRES.cc:solve_impl,apply_givens", "src/callow/solver/GMRES.i.hh:compute_y"]}
{"id": "C100", "title": "Generated tracks cover the domain in the directions of the quadrature", "statement": "A new tracker generates, for each azimuth and each of the four octants, tracks that start on an incoming face of the rectangle, end on an outgoing face and run in the direction of that octant; the octants 2 and 3 hold the reversed tracks of 0 and 1, those of 1 the mirror images of those of 0; the starting points in the first octant are the points of the spatial rule on the west and the south face. After trackit each track lists the segments that tile it, the reversed ones in reversed order. The widths of the tracks should add up to the extent of the rectangle across the direction: they do if and only if the rectangle is a square or sine and cosine are equal (they are exchanged). Neighbours on a face are apart at most the maximum spacing times cot or tan of the azimuth, not the maximum spacing. A tracker used for a second geometry keeps the tracks of the first in all octants but one.", "quantifier": "all rectangles, azimuths, spacings, spatial rules, geometries", "why_tests_cant": "the existing test prints tracks for one pin cell; the claim is about all tracks of all azimuths and about their sums", "anchors": ["src/geometry/Tracker.cc:Tracker::generate_tracks_2D_cartesian", "src/geometry/Tracker.cc:Tracker::find_exit", "src/geometry/Tracker.cc:Tracker::trackit", "src/geometry/Track.cc:Track::reverse", "src/geometry/Track.hh:Track::spatial_weight"]}
{"id": "C101", "title": "The multigroup diffusion solver returns the solution of the problem it was given", "statement": "After every call of solve(keff), whatever calls came before, the fluxes in the state balance every cell in every group: leakage by currents that are continuous and obey Fick's law at inner faces, the incident partial currents at vacuum sides and the albedo condition at reflecting sides, plus reactions with the given keff, equals the external (and, when not multiplying, fission) sources; summed over the mesh, what leaves and reacts is what the sources make. The outgoing partial currents left in the boundary are those of the solution, and so are the currents left in the state. It fails for the outgoing currents at reflecting sides (not equal to the incoming ones), for adjoint problems with a keff other than the initial one (the rebuilt matrix covers one group and no solution can be returned), and for the currents in the state (a mirrored flux does not give mirrored magnitudes).", "quantifier": "all meshes of one to three dimensions, all materials with ordered scattering bounds, all boundary conditions, all sequences of calls, all exact linear solvers", "why_tests_cant": "tests compare a few fluxes with stored values; that the source, the boundary indexing in each dimension, the operator after each change of keff, and the written currents belong to the same solution is a relation over all inputs and call histories", "anchors": ["src/solvers/mg/MGDiffusionSolver.cc:MGDiffusionSolver::solve", "src/solvers/mg/MGDiffusionSolver.cc:MGDiffusionSolver::refresh", "src/solvers/mg/MGDiffusionSolver.cc:MGDiffusionSolver::build_volume_source", "src/solvers/mg/MGDiffusionSolver.cc:MGDiffusionSolver::build_boundary_source", "src/solvers/mg/MGDiffusionSolver.cc:MGDiffusionSolver::fill_boundary", "src/solvers/mg/MGDiffusionSolver.cc:MGDiffusionSolver::fill_current"]}
{"id": "C102", "title": "Diffusion fluxes of absorbing problems exist, are unique, monotone and positive", "statement": "In every multigroup diffusion problem, forward or adjoint, in which the materials absorb more than scattering and fission (scaled by keff) give back, the fluxes that the fixed source solver returns exist and are unique; increasing a source or an incident current nowhere decreases a flux; for non-negative sources a group has positive flux in every cell if neutrons reach it from a source or an incident current by scattering or fission, and flux zero in every cell if they do not. Without the condition the solver returns negative fluxes for positive sources and does not complain.", "quantifier": "all meshes in one to three dimensions, all materials satisfying the condition, all boundary conditions, all sources", "why_tests_cant": "tests solve a few problems; positivity in all cells and for all sources is a property of the inverse of the whole operator", "anchors": ["src/solvers/mg/MGDiffusionSolver.cc:MGDiffusionSolver::solve", "src/solvers/mg/MGDiffusionSolver.cc:MGDiffusionSolver::build_volume_source", "src/solvers/mg/DiffusionLossOperator.cc:DiffusionLossOperator::build"]}
{"id": "C103", "title": "What the power method reports about its result", "statement": "When the power method reports success, the residual of the pair it returns is below the tolerance; when it reports that the maximum of iterations was reached, no residual was. Started at an eigenvector with a positive eigenvalue it returns that pair. For a matrix with entries a(i,j) between d e(i) u(j) and e(i) u(j) (in particular every positive matrix) and a non-negative guess, it converges geometrically to the only positive eigenpair, and reports success for every tolerance if enough iterations are allowed. The number of iterations allowed may be changed after construction. (The first statement fails: the residual tested is that of the previous iterate. The last one fails too: the storage of the residuals is not enlarged.)", "quantifier": "all operators, all tolerances and limits, all initial guesses", "why_tests_cant": "tests run converging cases; that the reported residual belongs to another vector shows only when the method stops early", "anchors": ["src/callow/solver/PowerIteration.i.hh:PowerIteration::solve_impl", "src/callow/solver/EigenSolver.i.hh:EigenSolver::solve", "src/callow/solver/EigenSolver.cc:EigenSolver::EigenSolver", "src/callow/solver/EigenSolver.hh:EigenSolver::set_tolerances"]}
{"id": "C104", "title": "The diffusion eigenvalue solver finds the multiplication factor", "statement": "For every multigroup diffusion problem with absorbing materials in which the fission neutrons of all fissile cells reach the same groups and one of these has fissions, there is exactly one multiplication factor with a non-negative flux of total 1 that is its own fission source divided by the factor; the flux is positive exactly in the groups the fission neutrons reach. The diffusion eigenvalue solver, with a linear solver that solves its systems, converges to this pair geometrically, and reports success for every tolerance if enough iterations are allowed. When it reports success, flux times eigenvalue is the solution of the fixed source problem for the fissions of a flux that differs from it by less than the tolerance. In adjoint problems it gives the same factor. (The last statement fails: the adjoint flag is never handed to the gain operator.)", "quantifier": "all meshes in one to three dimensions, all materials and boundary conditions satisfying the conditions, all tolerances and limits", "why_tests_cant": "tests compare a few eigenvalues with references; uniqueness, positivity and convergence concern all problems, and the adjoint option was never compared with the forward one", "anchors": ["src/solvers/eigen/EigenDiffusion.cc:EigenDiffusion::EigenDiffusion", "src/solvers/eigen/EigenDiffusion.cc:EigenDiffusion::solve", "src/solvers/eigen/Eigensolver.cc:Eigensolver::Eigensolver", "src/solvers/Solver.hh:Solver", "src/solvers/mg/DiffusionGainOperator.cc:DiffusionGainOperator::build"]}
{"id": "C105", "title": "Fission generations of a fixed source problem", "statement": "For a fixed source problem with fission, iterate(0) of the manager leaves in the state the flux of the external sources, removes these sources, and returns the 2-norm of the change of flux; iterate(i) for i = 1, 2, ... leaves the flux of the neutrons born in the fissions caused by the flux of generation i - 1, so that the sum of the generations is the flux of the multiplying problem. The first half holds for every solver. The second half fails: iterate() updates the fission density but nothing shares it out to the groups, so that for every problem between vacua solved by Gauss-Seidel and source iteration, and for every exact solver, all generations from the second on are zero and so are all returned norms after that. A client that calls update() and setup_outer(1) on the fission source before each iterate() gets every generation, and the sum of generations 1 to k is the flux of the fissions of generations 0 to k - 1.", "quantifier": "all meshes, materials, quadratures, sources, boundary conditions under which the problem is damped, all tolerances and iteration limits, all generations", "why_tests_cant": "a test of one generation on a problem without fission, or that only looks at the decrease of the norm, passes; the loss is exact and independent of the data", "anchors": ["src/solvers/FixedSourceManager.cc:FixedSourceManager::iterate", "src/transport/FissionSource.cc:FissionSource::update", "src/transport/FissionSource.i.hh:FissionSource::setup_outer", "src/transport/State.cc:State::clear"]}
{"id": "C106", "title": "What the ILUT(p, t) factorisation keeps", "statement": "PCILUT(A, p, t) factors A as its documentation says: entries smaller than t in magnitude are dropped and, on either side of the diagonal, all but the p largest; without dropping (the default t = 0, and p at least the size minus one) the factors are the LU factors of A, and applying the preconditioner to b returns the z with A z = b. Without dropping this holds for every matrix whose LU factors exist and whose factor L has no zero below the diagonal; and for every matrix, if the constructor returns and no pivot is zero. It fails otherwise: the test against t takes a position for a column, so that for any row without an entry in column 0 and with another one left of the diagonal (every tridiagonal matrix of order three or more) the element before the first is read, also for t = 0; with t > 0 other entries than the small ones are dropped; and with a limit p the p smallest entries are kept, not the largest.", "quantifier": "all square sparse matrices, all p and t, all sorting routines", "why_tests_cant": "the existing tests factor one small matrix with and without limits and do not look at the entries dropped; a stray read in front of a vector seldom shows", "anchors": ["src/callow/preconditioner/PCILUT.cc:PCILUT::PCILUT", "src/callow/preconditioner/PCILUT.cc:drop_t", "src/callow/preconditioner/PCILUT.cc:drop_p", "src/callow/preconditioner/PCILUT.cc:PCILUT::apply", "src/callow/matrix/SparseRow.cc:SparseRow::insert", "src/callow/matrix/SparseRow.cc:SparseRow::range", "src/callow/matrix/SparseRow.cc:SparseRow::operator[]"]}
{"id": "C107", "title": "Transfer between fine and coarse mesh conserves the flux", "statement": "The restriction of the multigroup coarse mesh preconditioners gives, for every coarse cell and coarse group, the sum over its fine groups of the volume average of the fine flux; the prolongation distributes a coarse vector over the fine groups with the given spectrum so that restriction undoes it; and applying the preconditioner changes the coarse averages of a vector by exactly the solution of the coarse diffusion problem. This holds in one dimension, when the level divides the number of cells in each direction, and generally when no coarse cell has more than the average number of fine cells plus one. On every plane mesh with an odd number of cells (five or more) in both directions the default level loses part of every positive flux. For adjoint problems the spectrum is read beyond its end, and with a group cutoff the coarse diffusion operator has fewer rows than the restricted vector.", "quantifier": "all meshes, levels, numbers of groups and group cutoffs, group collapsings, spectra, fluxes and linear solvers, all sorting routines", "why_tests_cant": "tests use one mesh whose cells the level divides; the entries lost depend on how the remainders of the divisions in all directions combine, and are noticed by an assertion only", "anchors": ["src/solvers/mg/MGCoarseMeshPreconditioner.cc:MGCoarseMeshPreconditioner::build_restrict", "src/solvers/mg/MGCoarseMeshPreconditioner.cc:MGCoarseMeshPreconditioner::build_prolong", "src/solvers/mg/MGCoarseMeshPreconditioner.cc:MGCoarseMeshPreconditioner::build", "src/solvers/mg/MGCMDSA.cc:MGCMDSA::apply"]}
{"id": "C108", "title": "Diffusion preconditioning inverts the scattering part of transport", "statement": "The diffusion preconditioners turn a flux V into V + C^-1 S V, where C is the diffusion operator of the same problem and S its scattering (and fission) source. With an exact diffusion solver the result u therefore satisfies the diffusion equation with all sources, C u = leakage of V by Fick's law + total cross section times V, on every mesh, with any groups above the cutoff; in an infinite homogeneous medium that loses more than it produces it recovers the flat flux of the transport equation exactly from its residual, so the preconditioner is then the exact inverse. The within-group preconditioner does this for its group and leaves boundary unknowns unchanged. The multigroup preconditioner does not: with keff other than one the fission source and the operator disagree; in adjoint problems only the groups from the cutoff upward are read and the sources of all others are lost; and boundary unknowns are set to zero, so GMRES with this preconditioner on either side returns its initial guess for the incident fluxes of reflecting sides and may report success for a wrong flux.", "quantifier": "all meshes, materials, group cutoffs, fluxes and exact diffusion solvers; all operators and GMRES parameters for the boundary unknowns", "why_tests_cant": "tests compare iteration counts or final fluxes on a few problems; a preconditioner that is slightly wrong still converges there, and a lost boundary unknown shows only for reflecting sides", "anchors": ["src/solvers/mg/MGDSA.cc:MGDSA::apply", "src/solvers/mg/MGDSA.cc:MGDSA::build", "src/solvers/wg/PC_DSA.i.hh:PC_DSA::apply", "src/solvers/mg/MGSolverGMRES.i.hh:MGSolverGMRES::solve", "src/callow/solver/GMRES.cc:GMRES::solve_impl"]}
{"id": "C109", "title": "Each transport correction squares what the preconditioner leaves over", "statement": "The transport-corrected preconditioner with k coarse corrections is a linear operator X. For an approximate transport operator At and base preconditioner P, what it leaves over, b - At X b, is the 2^k-th power of the operator I - At P applied to b: if P leaves at most the fraction q of any vector in some measure of size, X leaves at most q^(2^k). The optional fine correction squares the same way with respect to the true operator A: I - A Y = (I - A X)^2.", "quantifier": "all linear operators A, At, P on vectors of any length, all numbers of corrections, all right-hand sides and measures of size", "why_tests_cant": "tests see iteration counts of one problem; that the corrections square the error operator is an identity of operators", "anchors": ["src/solvers/mg/MGTCDSA.cc:MGTCDSA::apply"]}
{"id": "C11", "title": "Incomplete LU preconditioner inverts its factors", "statement": "For a matrix whose exact LU factors have no fill outside the pattern (e.g. tridiagonal), PCILU0::apply(b,x) returns x with A x = b.", "quantifier": "all such matrices and right hand sides", "why_tests_cant": "exactness over all matrices is not testable by examples", "anchors": ["src/callow/preconditioner/PCILU0.cc:PCILU0::PCILU0", "src/callow/preconditioner/PCILU0.i.hh:apply"]}
{"id": "C110", "title": "A reduced order solution is the Galerkin solution in the given basis", "statement": "Projecting an operator on a basis gives the matrix of its action in that basis, for any linear operator and any number of vectors. The eigenvalue and flux that the reduced order solver returns are those of a combination v of the basis vectors with B v - k A v orthogonal to every basis vector (diffusion and energy-dependent operators), and if the basis contains an eigenvector of the full problem, it solves the reduced problem with its own eigenvalue. For the energy-independent operator both hold if the basis is orthonormal; for other bases they fail (the flat vector (1, 1) gives twice the eigenvalue). The basis read from a file has the doubles of the file row by row. The flux returned is plus or minus v if v has one sign; otherwise each component is made positive on its own and the flux is neither in the space of the basis nor an eigenvector, even if v is.", "quantifier": "all linear operators, all bases of all sizes, all eigensolvers that return an eigenpair of the reduced matrices, all file contents", "why_tests_cant": "tests use one orthonormal basis from a file and compare k with a reference; orthogonality of the residual and the role of the normalisation concern all bases", "anchors": ["src/solvers/rom/OperatorProjection.cc:OperatorProjection::Project", "src/solvers/rom/ROMSolver.cc:ROMSolver::Solve", "src/solvers/rom/ROMBasis.cc:ROMBasis::GetBasis"]}
{"id": "C111", "title": "Davidson returns the Rayleigh quotient of its vector, and success means the residual it reported", "statement": "For linear operators A and B, any preconditioner and a projected eigensolver that returns unit eigenpairs, every Davidson run that ends hands back a vector of length one, the eigenvalue for which the residual A u - lambda B u is orthogonal to that vector, and a residual history whose last entry is the norm of that residual; success is only reported when it is below the tolerance, and with at least as many basis vectors as unknowns the run reports success within that many iterations. The preconditioner of the documentation, an exact solve of (A - lambda B) w = r, must improve the vector, and no more projected problems may be solved than the iteration limit.", "quantifier": "for all problem sizes, linear operators, preconditioners, subspace sizes, limits, tolerances and start vectors", "why_tests_cant": "The tests converge on a handful of matrices with an inexact inner solve; they cannot show orthogonality or termination for every operator, nor that an exact default preconditioner reproduces the current vector and ends in a division by zero.", "anchors": ["src/callow/solver/Davidson.cc:Davidson::solve_impl", "src/callow/solver/Davidson.hh:DavidsonDefaultP", "src/callow/solver/EigenSolver.cc:EigenSolver::monitor"]}
{"id": "C112", "title": "The dense eigensolver returns an eigenpair of the operators it was last given", "statement": "The dense eigensolver returns the pair with the largest (or, on request, smallest) real part among all eigenvalues, with a vector of length one; that pair solves the problem set by the last call of set_operators. A solve that finds the wanted pair is reported as a success.", "quantifier": "for all square matrices, with or without a right-hand matrix, and both orders", "why_tests_cant": "Tests use matrices with real spectra and one call of set_operators each; complex eigenvalues and a second call without a right-hand matrix are never seen.", "anchors": ["src/callow/solver/Eispack.cc:Eispack::set_operators", "src/callow/solver/Eispack.cc:Eispack::solve_impl", "src/callow/solver/Eispack.cc:Eispack::solve_complete", "src/callow/solver/EigenSolver.cc:EigenSolver::solve"]}
{"id": "C113", "title": "The generalised Davidson eigenvalue solver is given the k-eigenvalue problem of all groups", "statement": "With the eigen solver GD, the pair of operators (fission followed by a sweep; identity minus swept scattering) satisfies F x = k A x for a flux vector x of all groups exactly when x, group by group, solves the transport equations whose only source is scattering and fission divided by k with nothing entering through vacuum boundaries, whatever the vectors written to and the earlier applications left behind. Both operators act on all groups of the problem, for default input and for adjoint problems as well. If the eigensolver finds such a pair, the solve leaves its fluxes group by group and its eigenvalue in the state, and they solve the k-eigenvalue problem; with nonnegative fission they are the eigenpair that the other eigenvalue solvers converge to.", "quantifier": "all meshes, quadratures, spatial schemes, materials, numbers of groups, k other than 0, vectors x, states reached by earlier applications", "why_tests_cant": "Tests compare k of a few problems run with the group cutoff set to 0 by hand; that an arbitrary vector is a solution of one problem exactly when it is of the other is a statement about all vectors and all problems, and reading behind a short vector or leaving entries of the output as they were need not show in a test.", "anchors": ["src/solvers/eigen/EnergyDependentEigenLHS.cc:EnergyDependentEigenLHS::multiply", "src/solvers/mg/MGSweepOperator.cc:MGSweepOperator::multiply", "src/solvers/mg/MGScatterFissionOperator.cc:MGScatterFissionOperator::multiply", "src/solvers/eigen/EigenGD.cc:EigenGD::EigenGD", "src/solvers/mg/MGTransportOperator.cc:MGTransportOperator::multiply", "src/solvers/eigen/EigenGD.cc:EigenGD::solve"]}
{"id": "C114", "title": "The coarse mesh eigenvalue update leaves a converged mode alone", "statement": "When the flux is already a mode of the transport problem (sweeping with its scattering source and its fission source divided by k gives the flux back), the coarse mesh update of the accelerated eigenvalue solver returns k as the eigenvalue and the same flux, however many updates are made, with any relaxation that is set, for any eigensolver that keeps a starting vector that is already an eigenvector. Holds in one and two dimensions for forward problems, and for adjoint problems of one group, in which every fissile material fissions in all groups with one spectrum. It fails in three dimensions (top and bottom leakage is not tallied, and the eigenvalue of the coarse problem is another), when fission misses a group (the spectrum of that group is averaged with its own production as the weight, is lost, and the eigenvalue found is 0), and with the default parameters (the relaxation factor is only assigned when the user sets it, and is read from the second update on).", "quantifier": "all meshes, coarsenings, quadratures, materials, modes, relaxation factors, numbers of updates, eigensolvers, sorting routines", "why_tests_cant": "a test compares one eigenvalue after convergence, and an acceleration with a wrong fixed point shows as slow or no convergence; that the mode is a fixed point for all problems needs the balance of every coarse cell", "anchors": ["src/solvers/eigen/EigenCMFD.cc:EigenCMFD::cmfd_update", "src/solvers/eigen/EigenCMFD.cc:EigenCMFD::solve", "src/solvers/mg/CMFDLossOperator.cc:CMFDLossOperator::construct", "src/solvers/mg/DiffusionGainOperator.cc:DiffusionGainOperator::construct"]}
{"id": "C115", "title": "External sources emit what they say, in all directions and at all times", "statement": "For every external source (constant, isotropic by spectrum and map, discrete, interpolated in time, pulsed in time, in any combination) the moment source of a cell and group is the sum over the directions of the quadrature of the discrete source, and what the solvers add to the sweep source adds up to the moment. For sources without direction dependence and for those flagged as discrete, what is added in each direction is the discrete source of that direction. After setting the time, an interpolated source is the interpolation of its parts and a pulsed source is its part times a factor within 1e-14 of the Gaussian of the given peak and full width at half maximum, in (0,1] and 1 at the peak. It fails for time-dependent sources made of directional parts with the default flag (the directions are lost), and for time-dependent sources made of time-dependent parts, which are not told the time: a pulse inside an interpolation is always 0, an interpolation inside a pulse is read uninitialised.", "quantifier": "all sources nested in any way, quadratures whose weights are normalised, cells, groups, directions, times", "why_tests_cant": "tests read a few values of single sources; the agreement of moment and discrete values and the Gaussian hold for all quadratures, nestings and times", "anchors": ["src/external_source/ConstantSource.hh:ConstantSource::source", "src/external_source/IsotropicSource.hh:IsotropicSource::source", "src/external_source/DiscreteSource.hh:DiscreteSource::source", "src/kinetics/LinearExternalSource.i.hh:LinearExternalSource::source,set_time", "src/kinetics/PulsedExternalSource.i.hh:PulsedExternalSource::source,set_time", "src/solvers/wg/WGSolver.cc:WGSolver::WGSolver", "src/transport/SweepSource.i.hh:SweepSource::source"]}
{"id": "C116", "title": "A manager solves the problem that was set up, with the solver that was asked for", "statement": "For every sequence of setup, set_source, set_solver and solve calls on a FixedSourceManager, with any input at each call: solve returns true exactly when a set_solver call has succeeded since the last setup; then the solver that runs is the one built by the last such call, of the outer, inner and spatial method named in the input at that time (documented defaults otherwise), works on the state, boundary and fission source of the last setup, uses the multiplication flag of the manager and every external source given so far. Otherwise solve returns false and changes nothing, and the flux is only ever changed by a successful solve or reset by setup. An EigenvalueManager whose solve returns true has run the eigensolver named on a ready fixed source problem without external sources.", "quantifier": "for all call sequences of any length, all inputs at each call, all dimensions, multiplication and fission flags, all external sources and all behaviours of the solvers and of the unmodelled parts of construction", "why_tests_cant": "Tests run the one call order of the examples; the property concerns every interleaving of set-up, source and solver calls with changed inputs.", "anchors": ["src/solvers/FixedSourceManager.cc:FixedSourceManager::setup", "src/solvers/FixedSourceManager.cc:FixedSourceManager::set_source", "src/solvers/FixedSourceManager.cc:FixedSourceManager::set_solver", "src/solvers/FixedSourceManager.cc:FixedSourceManager::solve", "src/solvers/EigenvalueManager.cc:EigenvalueManager::solve", "src/solvers/mg/MGTransportSolver.cc:MGTransportSolver::MGTransportSolver", "src/solvers/wg/WGSolver.cc:WGSolver::set_sweep"]}
{"id": "C117", "title": "The driver program solves the problem described in its input", "statement": "For every input, running the driver builds the external source described (constant strength, default one; isotropic spectra reshaped by group) and solves the fixed source, multiplying or eigenvalue problem with it, so that the state it outputs is the solution rather than the initial guess.", "quantifier": "for all input databases, all dimensions and numbers of groups, all lists of spectra, and all behaviours of the solvers", "why_tests_cant": "The driver has no numerical test; a test of one input could not show that no input at all is solved.", "anchors": ["src/drivers/Execute.cc:Execute::solve", "src/drivers/Execute.cc:Execute::Execute", "src/solvers/FixedSourceManager.cc:FixedSourceManager::solve"]}
{"id": "C118", "title": "The mesh built from an input file is the mesh described", "statement": "For every input giving a dimension, coarse edges with fine counts (or fine edges) for each axis and a material map of the right size, the parser builds the mesh with these cells, widths and materials in one, two and three dimensions, and rejects inputs whose sizes do not agree.", "quantifier": "for all dimensions, edges, counts and maps of any length", "why_tests_cant": "Sizes and counts along the axes are unbounded and independent; a square test mesh cannot distinguish the axes.", "anchors": ["src/drivers/StupidParser.cc:StupidParser::parse_mesh_text", "src/geometry/Mesh.cc:Mesh::Mesh", "src/geometry/Mesh1D.cc:Mesh1D::Mesh1D"]}
{"id": "C119", "title": "The driver's text input says what was written", "statement": "A text input whose lines are flush left, with entries separated by any number of blanks, is read into a database in which every int, dbl, str, vec_int and vec_dbl line has been put in the order of the file; comments, blank lines and lines of other sections have no effect. Its material lines give the material that results from setting, in the order of the file, each row of cross sections and each row of the scattering matrix, and finalizing. It fails for the input the documentation gives as a working example: lines of the mesh and source sections are discarded without an error, so that its mesh is rejected as missing, and the fission cross section nu_sigma_f is discarded without an error, leaving a material without fission.", "quantifier": "all input files made of such lines, all numbers of blanks, all conversions of number texts", "why_tests_cant": "tests read one or two fixed files; that blanks, order and unrelated lines never matter concerns all files, and silently discarded lines are seen only by comparing with the file without them", "anchors": ["src/drivers/StupidParser.hh:StupidParser::parse_input_text", "src/drivers/StupidParser.hh:StupidParser::parse_material_text", "src/drivers/StupidParser.hh:StupidParser::remove_white_space", "src/drivers/StupidParser.hh:StupidParser::read_vector", "src/drivers/StupidParser.hh:StupidParser::read_scalar"]}
{"id": "C12", "title": "Jacobi preconditioner is the inverse diagonal", "statement": "PCJacobi::apply(b,x) gives x[i]=b[i]/a_ii for every matrix with nonzero diagonal (zero diagonals are replaced by one), so apply is linear and, for diagonal A, A x = b.", "quantifier": "all matrices and vectors", "why_tests_cant": "universal over data", "anchors": ["src/callow/preconditioner/PCJacobi.cc:PCJacobi", "src/callow/preconditioner/PCJacobi.i.hh:apply"]}
{"id": "C120", "title": "A picture shows the cell or region at every pixel, in colours that follow the values", "statement": "A picture of values per cell of a square mesh, at two or more pixels per smallest cell, has as many rows as columns; each pixel has the colour of the value of a cell containing its point, every cell appears, equal values have equal colours, red grows and blue falls with the value, the smallest value is blue and the largest red. A picture of a square geometry shows at each pixel the region found at its point, the highest row on top. All colour maps give proper colours. It fails for a mesh or geometry that is higher than wide (memory beyond the image is written) or wider than high (pixels show other cells), for values that are all the same (undefined conversion), at one pixel per smallest cell, the default (cells can be missing), and mesh pictures are upside down compared with geometry pictures.", "quantifier": "all meshes, geometries, resolutions and values", "why_tests_cant": "the existing tests only write a picture of square parts and look at it; the row stride error shows only when width and height differ, and missing cells depend on the ratios of cell widths", "anchors": ["src/ioutils/PPMOutput.cc:PPMOutput::initialize", "src/ioutils/PPMOutput.cc:PPMOutput::write_mesh_map", "src/ioutils/PPMOutput.cc:PPMOutput::draw_geometry", "src/ioutils/PPMPlotter.cc:PPMPlotter::write", "src/ioutils/ColorMap.cc:ColorMap::color", "src/ioutils/ColorMap.cc:ColorMap::colors_function", "src/ioutils/ColorMap.cc:ColorMap::colors_interp"]}
{"id": "C121", "title": "The quadrature built is the one named", "statement": "The quadrature factory builds the quadrature named by quad_type (in one dimension the name of a polar rule; otherwise an azimuthal name, a hyphen and a polar name, or levelsymmetric, uniformequal or user) with the numbers of azimuthal and polar angles asked for, uses Gauss-Legendre (1D) and uniform times double Gauss-Legendre (2D, 3D) with one angle by default, refuses every other name, uses the directions and weights of a user quadrature as given, and normalises Chebyshev weights if told so; the base rules for tracking are also the ones named. It fails for asqr-tg (a different polar rule is used without notice), for combinations of available rules that the factory does not know, for normalisation in two and three dimensions (the option is ignored and the weights do not sum to four pi) and for user quadratures in one dimension without quad_eta (undefined behaviour).", "quantifier": "all input databases with integer counts, all names, all dimensions, any number of angles", "why_tests_cant": "tests build a few of the named rules; that every name leads to its rule and no other name is accepted is a statement about all strings", "anchors": ["src/angle/QuadratureFactory.cc:QuadratureFactory::build", "src/angle/QuadratureFactory.cc:QuadratureFactory::build_base", "src/angle/UserQuadrature.hh:UserQuadrature", "src/angle/BaseGC.hh:BaseGC", "src/angle/PolarQuadrature.t.hh:PolarQuadrature", "src/angle/ProductQuadratureAP.t.hh:ProductQuadratureAP"]}
{"id": "C122", "title": "Solver options reach the solver", "statement": "The linear and eigenvalue solvers made from a database are of the kind named and carry the tolerances, iteration limits, monitor settings, relaxation factor, restart and subspace size given there, each option that is not given having its documented default; without a database the defaults hold; relaxation factors only affect the method they belong to; unknown names, unavailable packages and a too small restart are refused. It fails if an option is stored with another type than the one read, such as a tolerance stored as an integer: the behaviour is then undefined.", "quantifier": "all input databases, all solver names", "why_tests_cant": "tests set a few options of one solver; that no option is swapped, lost or applied to another solver is a statement about all databases", "anchors": ["src/callow/solver/LinearSolverCreator.cc:LinearSolverCreator::Create", "src/callow/solver/EigenSolverCreator.cc:EigenSolverCreator::Create", "src/utilities/InputDB.i.hh:InputDB::check"]}
{"id": "C123", "title": "The LRA benchmark material", "statement": "The LRA material gives each cell cross sections that depend only on its base material, its temperature and the time: total is absorption plus scattering to within 1e-14, all data are nonnegative for nonnegative times and temperatures, the fission spectrum sums to one; before the transient they equal the steady ones. Withdrawing the rod lowers the thermal absorption of the rod's cells linearly during two seconds and then keeps it, changing the total alike and nothing else; the fast absorption of the fuel, and only of the fuel, grows with the temperature. Each time step heats a cell according to the time integration method with the heating rate proportional to its fission rate, and the power is proportional to it; the core area is the volume of the cells that are not reflector. It fails exactly for: the balance of the fast group of the reflector in transport (a digit is missing in the table), continuity in time at two seconds (the final value is not the end of the ramp), and the temperatures reported by the material, which never change.", "quantifier": "all maps of materials, all times, temperatures, fluxes, step sizes and orders one to six", "why_tests_cant": "tests run one transient and compare a power; balance, monotonicity and continuity are statements for all times and temperatures", "anchors": ["src/solvers/time/LRA.cc:LRA::update_impl", "src/solvers/time/LRA.cc:LRA::initialize_materials", "src/solvers/time/LRA.cc:LRA::update_P_and_T", "src/solvers/time/LRA.hh:LRA", "src/solvers/time/TimeStepper.cc:TimeStepper::update_multiphysics"]}
{"id": "C124", "title": "What is saved to an HDF5 file is read back", "statement": "An input database, a material and a mesh written to an HDF5 file, in any order and in any selection, are read back the same: every get of the database at every depth of nesting, every cross section and the scattering bounds of the finalized material, the dimension, widths, material map and all mesh maps. This holds for reads through the same object before or after closing, from another process, and in any order of the keys; reading changes nothing in the file, and reading what was not saved is an error. It holds for every database whose strings are nonempty and without zero bytes. It fails for the diffusion coefficients, which come back as the absorption cross sections; a file with an input or a mesh cannot be replaced by the process that wrote it, nor one with an input by the process that read it, because groups stay open; a second object of the same kind written to the same open file is dropped without an error; and so is everything written after a read. Materials alone can be replaced.", "quantifier": "all nested databases, all materials, all meshes the constructors make with any maps, all orders of writing, all states of the reading session, all key orders", "why_tests_cant": "tests save one database and one material and read them once; they do not compare diffusion coefficients, do not reopen a file in the same process, and cannot cover all nestings and orders", "anchors": ["src/ioutils/IO_HDF5.cc:IO_HDF5::write", "src/ioutils/IO_HDF5.cc:IO_HDF5::read_input", "src/ioutils/IO_HDF5.cc:IO_HDF5::read_material", "src/ioutils/IO_HDF5.cc:IO_HDF5::read_mesh", "src/ioutils/IO_HDF5.t.hh:IO_HDF5::write_map", "src/ioutils/IO_HDF5.t.hh:IO_HDF5::read_map"]}
{"id": "C125", "title": "A time-dependent material is a function of time", "statement": "The data of a time-dependent material after an update depend on the arguments of that update only and not on earlier ones. A constant material wrapped for time stepping keeps all its data through any number of updates, with any step sizes, orders, eigenvalues and with or without synthetic terms in between, including the upscatter cutoff and the downscatter flag; without synthetic terms and with eigenvalue one it is the wrapped material. An update of a material interpolated in a table leaves the table's values at that time, fission divided by the eigenvalue, and total cross sections and spectra changed by the synthetic terms only if those are asked for. For materials interpolated in a table the cross sections, kinetics data and scattering bounds have no memory, but the upscatter cutoff and the downscatter flag do: a material without upscatter at first and with upscatter later keeps the flag that says there is none, so multigroup solvers skip the iteration on upscatter.", "quantifier": "all materials and tables, all sequences of updates, all times, steps, orders and eigenvalues", "why_tests_cant": "tests update a material a few times in increasing time and compare single cross sections; memory of an earlier update shows only in particular sequences", "anchors": ["src/kinetics/TimeIndependentMaterial.cc:TimeIndependentMaterial::update_impl", "src/kinetics/LinearMaterial.cc:LinearMaterial::update_impl", "src/kinetics/TimeDependentMaterial.cc:TimeDependentMaterial::update", "src/material/Material.cc:Material::finalize"]}
{"id": "C126", "title": "Walking along a track meets every segment once, in its direction", "statement": "Looping from a track's begin() to its end() with prefix ++ meets each segment exactly once, in the order of the track, or in the opposite order for a reversed track; changes made through the iterator land in the segment met; a track without segments is not walked; begin() + k is the k-th segment met. The iterator also behaves like any C++ iterator: *it++ gives the current element, it + k leaves it alone, and it.end() can be compared against it.", "quantifier": "all numbers and contents of segments, both directions, all loop bodies, including ones that fail or change segments", "why_tests_cant": "the tests walk one track of a few segments with prefix ++ only; the order for every length, the empty track and the other operators of the iterator are not tried", "anchors": ["src/utilities/Iterators.hh:Reversible::begin", "src/utilities/Iterators.hh:Reversible::end", "src/utilities/Iterators.i.hh:Reversible::operator++", "src/utilities/Iterators.i.hh:Reversible::operator+", "src/geometry/Track.cc:Track::begin", "src/geometry/Track.cc:Track::end"]}
{"id": "C127", "title": "Coarse mesh preconditioners are condensed with the spectrum of each medium", "statement": "The spectrum a multigroup coarse mesh preconditioner is condensed with is that of the infinite medium of each material (or kind of pin cell): for the fixed source option the unit vector that balances loss, scattering and, if asked for, fission nu Sigma_f / k against the given source, up to a positive factor; for the Gauss-Seidel option the slowest mode of Gauss-Seidel iteration over the groups of that medium. Every material has one, it follows the eigenvalue the preconditioner is built with, and any number of kinds of pin cells may be used.", "quantifier": "all numbers of groups and materials, all cross sections and sources, with and without fission, all eigenvalues, all linear and eigenvalue solvers that solve what they are given", "why_tests_cant": "the test looks at the first material only, with reference numbers made by the same formulas, and leaves the eigenvalue at one", "anchors": ["src/solvers/mg/SpectrumGS.cc:SpectrumGS::spectrum", "src/solvers/mg/SpectrumFS.cc:SpectrumFS::spectrum", "src/solvers/mg/MGCoarseMeshPreconditioner.cc:MGCoarseMeshPreconditioner::build", "src/solvers/mg/SpectrumPinCell.cc:SpectrumPinCell::spectrum"]}
{"id": "C128", "title": "The Krylov route to the k-eigenvalue problem ends with the right eigenvalue and fluxes", "statement": "Solving an eigenvalue problem through the callow eigensolvers (the Arnoldi route) starts them from a guess of Euclidean norm one in proportion to the fission of a flat flux; if the eigensolver returns a pair of the fission operator, the solve does not fail and the eigenvalue and fluxes left in the state solve the transport equations with the fluxes' own fission neutrons divided by the eigenvalue as only source, and the fission is not zero. If that fission is nonnegative, the pair is the physical eigenpair. With the power method, the eigensolver made by default, for a physical fission chain and an iteration limit within the storage for residuals, the eigenvalue and the fission of the fluxes converge geometrically to the only eigenpair, the fluxes are nonnegative in every group and cell however few iterations are made, and for every positive tolerance success is reported once the limit is high enough. The fluxes are nonnegative whatever the sign of the eigenvector the eigensolver returns.", "quantifier": "all meshes, materials, quadratures, boundary fluxes of zero, multigroup solvers that solve their equations, eigensolvers that find a pair, tolerances and iteration limits", "why_tests_cant": "the tests compare one keff with a reference for one slab; that the extra solve after the eigensolver makes eigenvalue and flux consistent, for every problem and eigensolver, and that the default method converges, are statements over all operators; the sign shows only with eigensolvers that return the other representative", "anchors": ["src/solvers/eigen/EigenArnoldi.i.hh:EigenArnoldi::solve", "src/solvers/eigen/EigenArnoldi.cc:EigenArnoldi::EigenArnoldi", "src/solvers/eigen/EnergyIndependentEigenOperator.cc:multiply", "src/callow/solver/PowerIteration.i.hh:PowerIteration::solve_impl", "src/transport/FissionSource.cc:initialize"]}
{"id": "C129", "title": "The accelerated eigenvalue solve stops where a pass changes nothing, and that is a mode", "statement": "A solve by the coarse mesh accelerated eigenvalue solver starts from the fission density of nu sigma_f, makes passes (a sweep with the density as fission source, the coarse mesh update, the new normalised density), makes at most the allowed number of them, and stops earlier exactly at the first pass that changes no cell's share of fission by the tolerance or more; it reports the eigenvalue and leaves the flux of the last pass. A flux that a sweep with its own fission shares gives back is a mode of the transport problem whose eigenvalue is the total production, and the solver returns it with that eigenvalue. With default input this fails: the relaxation factor of the coarse operator is read without having been set from the second pass on, so no solve gets beyond one pass.", "quantifier": "all meshes, materials, fluxes, sweeps, coarse eigensolvers, tolerances and iteration limits; the returned mode in one and two dimensions, forward or of one group", "why_tests_cant": "A test compares k of one problem with a reference after some number of passes; it neither shows where passes stand still for every problem and eigensolver, nor notices that an uninitialised factor happens to have a harmless value.", "anchors": ["src/solvers/eigen/EigenCMFD.cc:EigenCMFD::solve", "src/solvers/eigen/EigenCMFD.cc:EigenCMFD::cmfd_update", "src/transport/FissionSource.i.hh:FissionSource::update", "src/transport/FissionSource.cc:FissionSource::initialize", "src/solvers/mg/CMFDLossOperator.cc:CMFDLossOperator"]}
{"id": "C13", "title": "Mesh cell indexing is a bijection", "statement": "For an nx*ny*nz mesh, index(i,j,k) is below the cell count, cell_to_i/j/k invert it, and every cell is index(cell_to_i, cell_to_j, cell_to_k); so no two (i,j,k) share a cell.", "quantifier": "all mesh shapes, all cells", "why_tests_cant": "all shapes", "anchors": ["src/geometry/Mesh.i.hh:index,cell_to_i,cell_to_j,cell_to_k"]}
{"id": "C130", "title": "A converged accelerated fixed source solve leaves the flux of its last sweep", "statement": "The coarse mesh accelerated multigroup solver alternates sweeps and coarse mesh updates. If it stops early, the last thing done is the first sweep that moves no group's flux in any cell by the tolerance or more, and the flux of that sweep is left in the state; a solution of the transport problem is left as it is, for any tolerance and limit. The number of sweeps should not exceed the outer iteration limit: it does, one more is made, and a solve that runs out leaves the flux of an update that was not swept.", "quantifier": "all meshes, materials, sources, fluxes, sweeps, coarse linear solvers, tolerances and limits; the solution left alone in one and two dimensions where C96 holds", "why_tests_cant": "Tests compare converged fluxes of one problem with huge limits; they show neither which flux is left for every history of sweeps nor what happens when the limit is reached.", "anchors": ["src/solvers/mg/MGSolverCMFD.cc:MGSolverCMFD::solve", "src/solvers/mg/MGSolverCMFD.cc:MGSolverCMFD::energy_sweep", "src/solvers/mg/MGSolverCMFD.cc:MGSolverCMFD::update", "src/utilities/MathUtilities.hh:norm_residual"]}
{"id": "C14", "title": "Coarse specification expands to a consistent fine mesh", "statement": "Given coarse edges and fine counts, the fine mesh has sum(fine counts) cells, all widths are those of the enclosing coarse cell divided by its count, the widths add up to the last edge minus the first and the cell volumes add up to the domain volume; a coarse mesh map assigns each fine cell the value of the coarse cell that encloses it.", "quantifier": "all coarse subdivisions, all dimensions", "why_tests_cant": "all subdivisions", "anchors": ["src/geometry/Mesh.cc:setup,add_coarse_mesh_map", "src/geometry/Mesh.i.hh:volume"]}
{"id": "C15", "title": "find_cell locates the enclosing cell", "statement": "find_cell(p) returns the cell whose closed box contains p for every p inside the mesh, and -1 for points outside.", "quantifier": "all meshes, all points", "why_tests_cant": "continuum of points", "anchors": ["src/geometry/Mesh.i.hh:find_cell"]}
{"id": "C16", "title": "Assembly and core meshes are the tiling of their parts", "statement": "After Assembly::finalize (and Core::finalize) the material of fine cell (i,j) is the material of the corresponding cell of the pin (assembly) placed at the corresponding location of the pin (assembly) map, and no other.", "quantifier": "all pin/assembly maps and pin meshes", "why_tests_cant": "all lattices", "anchors": ["src/geometry/Assembly.cc:finalize", "src/geometry/Core.cc:finalize"]}
{"id": "C17", "title": "Constructive solid geometry obeys set algebra", "statement": "contains() of a union/intersection/difference node is the or/and/and-not of contains() of its children; translation moves the set by the offset; consequently De Morgan and distributivity laws hold for any tree, and a region contains exactly the points its tree contains.", "quantifier": "all CSG trees, all points", "why_tests_cant": "all trees", "anchors": ["src/geometry/CSG.cc", "src/geometry/Region.cc:contains"]}
{"id": "C18", "title": "Ray-surface intersections are exactly the forward roots", "statement": "For a quadratic surface, intersections(r,max_length) returns, in ascending order, exactly the points at positive distance not exceeding the limit where the surface function vanishes along the ray, when the ray crosses transversally.", "quantifier": "all quadric coefficients, all rays", "why_tests_cant": "continuum of rays", "anchors": ["src/geometry/QuadraticSurface.cc:intersections,f"]}
{"id": "C19", "title": "Reversing a track twice restores it", "statement": "Track reverse(): the reversed track swaps entry and exit points and lists the same segments in opposite order; reversing twice gives the original track.", "quantifier": "all tracks", "why_tests_cant": "all segment lists", "anchors": ["src/geometry/Track.cc:reverse", "src/geometry/Track.hh"]}
{"id": "C20", "title": "Scattering bounds never lose a transfer", "statement": "After finalize(), every material and pair with positive sigma_s(m,g,gp) satisfies lower(g) <= gp <= upper(g) (and lower/upper adjoint bounds likewise), and every group at which a bound is attained really has such a transfer; so sources summed over [lower,upper] are complete.", "quantifier": "all group structures and scattering matrices", "why_tests_cant": "all matrices", "anchors": ["src/material/Material.cc:finalize,lower,upper"]}
{"id": "C21", "title": "finalize() is a function of the cross sections", "statement": "Calling finalize() again after changing cross sections gives the same bounds, upscatter cutoff and downscatter flag as finalizing a fresh material with those cross sections.", "quantifier": "all sequences of setter calls and finalize", "why_tests_cant": "histories", "anchors": ["src/material/Material.cc:finalize,set_sigma_s,upscatter_cutoff"]}
{"id": "C22", "title": "Absorption plus outscatter equals total", "statement": "After compute_sigma_a(), sigma_a(m,g) + sum_g' sigma_s(m,g',g) = sigma_t(m,g) for every material and group, and compute_diff_coef gives 3 D sigma_tr = 1.", "quantifier": "all materials, groups and cross sections", "why_tests_cant": "universal identity", "anchors": ["src/material/Material.cc:compute_sigma_a,compute_diff_coef"]}
{"id": "C23", "title": "Upscatter cutoff separates the energy groups", "statement": "For a freshly finalized material, groups below upscatter_cutoff(false) receive no scatter from any higher group index, and upscatter_cutoff is the smallest group that does (or the group count).", "quantifier": "all scattering matrices", "why_tests_cant": "universal", "anchors": ["src/material/Material.cc:finalize,upscatter_cutoff"]}
{"id": "C24", "title": "Octants partition direction space and adjoint negates it", "statement": "The octant sign table takes every sign combination of the dimension once; in a forward quadrature incident octants of a side are exactly those whose direction points inward on that side and outgoing octants are the others; after any sequence of set_adjoint calls every direction cosine is the forward one, negated exactly when the last call asked for adjoint (so the side tables then list outward directions).", "quantifier": "all dimensions, sides, octants, angles, call histories", "why_tests_cant": "cross-table consistency for every side and octant; adjoint toggling is a history property", "anchors": ["src/angle/Quadrature.cc:Quadrature,set_adjoint,incident_octant,outgoing_octant", "src/angle/Quadrature.i.hh:mu,eta,xi"]}
{"id": "C25", "title": "Angle indexing is a bijection", "statement": "Quadrature::index(octant, angle) enumerates each (octant, angle) pair once in 0..number_angles-1; ProductQuadrature::angle(azimuth,polar) is inverted by azimuth(angle), polar(angle).", "quantifier": "all quadrature orders", "why_tests_cant": "all orders", "anchors": ["src/angle/Quadrature.i.hh:index", "src/angle/ProductQuadrature.cc:angle,azimuth,polar"]}
{"id": "C26", "title": "Spherical harmonic moment indexing is a bijection", "statement": "MomentIndexer for any legendre order and dimension gives number_moments moments with l(index) and m(index) such that index(l,m) inverts them, and number_moments has the closed form of the dimension.", "quantifier": "all orders, dimensions", "why_tests_cant": "all orders", "anchors": ["src/angle/MomentIndexer.cc", "src/angle/MomentIndexer.hh"]}
{"id": "C27", "title": "Base quadrature weights integrate constants", "statement": "Every equally spaced base quadrature (uniform, composite Simpson) on [a,b] has weights summing to b-a for every admissible number of points.", "quantifier": "all numbers of points and intervals", "why_tests_cant": "all sizes", "anchors": ["src/angle/BaseUniform.hh:BaseUniform,BaseSimpson", "src/angle/BaseQuadrature.hh:build,scale_and_shift"]}
{"id": "C28", "title": "Product quadrature weights normalise", "statement": "A product quadrature built from azimuth and polar rules with normalised weights has octant weights summing to the octant's share of the total solid angle and its cosines lie on the unit sphere.", "quantifier": "all rule orders", "why_tests_cant": "all sizes", "anchors": ["src/angle/ProductQuadrature.cc:build,verify"]}
{"id": "C29", "title": "Parameter database is a typed last-write-wins map", "statement": "InputDB::get<T>(key) after any sequence of put calls returns the value of the last put<T>(key,..) of the same type, put never affects another key or another type, check(key) is true exactly if some type holds the key.", "quantifier": "all put histories", "why_tests_cant": "histories", "anchors": ["src/utilities/InputDB.i.hh:put,get,check"]}
{"id": "C30", "title": "Registered factories: first registration wins", "statement": "A creation key resolves to the first function registered under it whatever is registered later; an unknown key throws.", "quantifier": "all registration histories", "why_tests_cant": "histories", "anchors": ["src/utilities/Factory.i.hh:Register,GetCreateFunction"]}
{"id": "C31", "title": "Random numbers stay in the unit interval", "statement": "Every number produced by Random::rnd() for any seed lies in [0,1) and the sequence is a function of the seed.", "quantifier": "all seeds and all positions of the stream", "why_tests_cant": "unbounded stream", "anchors": ["src/utilities/Random.hh:Random,rnd"]}
{"id": "C32", "title": "Group ranges enumerate exactly the requested groups", "statement": "range(a,b,inclusive) visits, each once and in order, exactly the integers from a towards b, excluding b unless inclusive; linspace(a,b,n) is an arithmetic progression from a to b and linspace_center the midpoints of n equal cells.", "quantifier": "all a,b,n", "why_tests_cant": "all integers, both directions", "anchors": ["src/utilities/MathUtilities.hh:range,linspace,linspace_center"]}
{"id": "C33", "title": "Vector norms are norms", "statement": "norm(x,L1|L2|Linf) and norm_residual are nonnegative, zero exactly on the zero vector (difference) and the Linf one is the largest magnitude.", "quantifier": "all vectors", "why_tests_cant": "all vectors incl. negative leading entries", "anchors": ["src/utilities/MathUtilities.hh:norm,norm_residual,norm_relative_residual,vec_max"]}
{"id": "C34", "title": "vec_unique returns the distinct elements in order", "statement": "vec_unique(v) is strictly increasing and contains exactly the elements of v.", "quantifier": "all vectors", "why_tests_cant": "all vectors", "anchors": ["src/utilities/MathUtilities.hh:vec_unique"]}
{"id": "C35", "title": "Reflection mirrors the normal direction only", "statement": "A reflective condition on a side returns the outgoing flux of each octant to the incident octant whose direction differs only in the sign of the component normal to that side, same angle and cell; the map is an involution and incident entries of other sides are untouched.", "quantifier": "all dimensions, sides, octants, angles, cells", "why_tests_cant": "cross-table over every side and dimension", "anchors": ["src/boundary/Reflective.i.hh:update,setup_octant"]}
{"id": "C36", "title": "Periodic conditions carry outgoing flux unchanged to the opposite side", "statement": "After a periodic update the incident flux of each inward octant on the opposite side equals the outgoing flux of the same octant on this side.", "quantifier": "all sides, octants, angles", "why_tests_cant": "every octant", "anchors": ["src/boundary/Periodic.i.hh:update"]}
{"id": "C37", "title": "Boundary flux vector access round-trips", "statement": "BoundarySN::psi: packing the incident fluxes into a vector (GET) and unpacking it (SET) leaves the boundary unchanged; unpacking then packing returns the same vector; entries outside the selected sides and direction are not modified.", "quantifier": "all boundary contents, all selections", "why_tests_cant": "all contents", "anchors": ["src/boundary/BoundarySN.cc:psi", "src/boundary/BoundarySN.i.hh:operator()"]}
{"id": "C38", "title": "Diamond difference conserves particles in each cell", "statement": "For the 1-D, 2-D and 3-D diamond difference cell solve: (sum over axes of |mu| (out - in) / width) + sigma_t psi = source, and psi is the average of in and out on each axis, for all positive widths and nonvanishing removal.", "quantifier": "all cell data", "why_tests_cant": "real identity", "anchors": ["src/transport/Equation_DD_1D.i.hh:solve", "src/transport/Equation_DD_2D.i.hh:solve", "src/transport/Equation_DD_3D.i.hh:solve"]}
{"id": "C39", "title": "Step schemes conserve and stay nonnegative", "statement": "Step difference and step characteristic cell solves satisfy the cell balance and give nonnegative center and outgoing fluxes whenever incoming fluxes and source are nonnegative.", "quantifier": "all nonnegative cell data", "why_tests_cant": "real inequality for all data", "anchors": ["src/transport/Equation_SD_1D.i.hh:solve", "src/transport/Equation_SD_2D.i.hh:solve", "src/transport/Equation_SC_1D.i.hh:solve", "src/transport/Equation_SC_MOC.i.hh:solve"]}
{"id": "C40", "title": "A sweep conserves particles over the whole mesh", "statement": "For one angle, a full mesh sweep satisfies outgoing - incoming boundary current + total collisions = total source, for any number of cells, cross sections and incoming boundary fluxes, and visits each cell exactly once after its upwind neighbours.", "quantifier": "all meshes, data and both directions", "why_tests_cant": "induction over mesh", "anchors": ["src/transport/Sweeper1D.i.hh:sweep", "src/transport/Sweeper2D.i.hh:sweep", "src/transport/Sweeper3D.i.hh:sweep", "src/transport/Sweeper.cc:setup_spatial_indices"]}
{"id": "C41", "title": "Parallel sweeps give the serial scalar flux", "statement": "Whatever order threads finish their angles, the scalar flux after a sweep is the one the serial loop computes.", "quantifier": "all schedules and thread counts", "why_tests_cant": "schedules", "anchors": ["src/transport/Sweeper1D.i.hh:sweep", "src/transport/Sweeper2D.i.hh:sweep", "src/transport/Sweeper3D.i.hh:sweep"]}
{"id": "C42", "title": "Scatter source decomposition counts every transfer once", "statement": "Within-group plus in-scatter source equals the full scattering sum over all groups; for a Krylov cutoff, downscatter from below the cutoff plus the total source above it equals the full scattering sum.", "quantifier": "all group counts, cutoffs and scattering matrices", "why_tests_cant": "all bound configurations, incl. lower bound above cutoff", "anchors": ["src/transport/ScatterSource.i.hh:build_within_group_source,build_in_scatter_source,build_downscatter_source,build_total_group_source"]}
{"id": "C43", "title": "Fission source paths agree", "statement": "The fission source obtained by updating the density and setting up the outer iteration equals the one built directly from group fluxes, and within-group plus in-fission sources equal the total; the source is linear in the scale factor.", "quantifier": "all fluxes and cross sections", "why_tests_cant": "universal", "anchors": ["src/transport/FissionSource.i.hh:setup_outer,update,build_within_group_source,build_in_fission_source,build_total_group_source"]}
{"id": "C44", "title": "Octant sweep order visits every octant once", "statement": "Unless the input prescribes an order, the order of octants a sweeper uses is a permutation of all octants, and an octant never comes before one that enters through more non-reflective sides, whatever the boundary conditions.", "quantifier": "all boundary condition combinations and dimensions 1, 2, 3", "why_tests_cant": "all combinations of conditions; ordering over every pair", "anchors": ["src/transport/Sweeper.cc:setup_octant_indices"]}
{"id": "C45", "title": "Coarse mesh is a partition of the fine mesh", "statement": "CoarseMesh(mesh, level) groups fine cells contiguously: every fine cell belongs to exactly one coarse cell, the fine counts sum to the fine mesh size, coarse edges are fine edges.", "quantifier": "all mesh sizes and levels", "why_tests_cant": "all sizes/levels, incl. levels larger than the mesh", "anchors": ["src/transport/CoarseMesh.cc:CoarseMesh"]}
{"id": "C46", "title": "Homogenisation preserves reaction rates", "statement": "Homogenized total, scattering, fission cross sections times the region-group flux reproduce the fine reaction rates; the fission spectrum is weighted by total fission production.", "quantifier": "all fluxes, maps and group collapses", "why_tests_cant": "universal", "anchors": ["src/transport/Homogenize.cc:homogenize"]}
{"id": "C47", "title": "Clearing and scaling a state affects every moment", "statement": "State::clear sets all stored flux moments to zero; State::scale(f) multiplies all of them by f.", "quantifier": "all states, any moment count", "why_tests_cant": "all states", "anchors": ["src/transport/State.cc:clear,scale"]}
{"id": "C48", "title": "Backward difference coefficients are consistent", "statement": "For every supported order q the BDF coefficients differentiate polynomials of degree <= q exactly on a uniform grid.", "quantifier": "all orders, all polynomials of that degree, all step sizes", "why_tests_cant": "all polynomials", "anchors": ["src/kinetics/BDFCoefficients.hh:bdf_coefs"]}
{"id": "C49", "title": "Time-dependent interpolation is exact at the knots and bounded", "statement": "Linear interpolated materials and sources take the tabulated value at each tabulated time, are constant outside the table and lie between neighbouring table values in between.", "quantifier": "all tables, all times", "why_tests_cant": "continuum of times", "anchors": ["src/kinetics/LinearMaterial.cc:update_impl", "src/kinetics/LinearExternalSource.i.hh:set_time"]}
{"id": "C50", "title": "Synthetic time-step source is the exact elimination of the precursors", "statement": "The time-step equations with synthetic material and source are algebraically equivalent to the coupled BDF flux/precursor equations, and a steady state is preserved by a step.", "quantifier": "all orders, precursor data, fluxes", "why_tests_cant": "universal identity", "anchors": ["src/kinetics/TimeDependentMaterial.cc:update", "src/kinetics/SyntheticMomentSource.i.hh:build", "src/solvers/time/TimeStepper.cc:update_precursors,initialize_precursors"]}
{"id": "C51", "title": "The time stepper reads only valid history", "statement": "At step n the stepper of order q uses order min(n,q) and previous-state slot j holds the solution of step n-1-j, for every number of steps.", "quantifier": "all step counts and orders", "why_tests_cant": "history invariant", "anchors": ["src/solvers/time/TimeStepper.cc:solve,cycle_states_precursors"]}
{"id": "C52", "title": "Orthogonal transform inverts expansion", "statement": "For any orthogonal basis with its normalisation coefficients, transform(inverse(c)) = c for every coefficient vector; truncated expansions are projections.", "quantifier": "all bases and coefficient vectors", "why_tests_cant": "universal", "anchors": ["src/orthog/OrthogonalBasis.cc:compute_a", "src/orthog/OrthogonalBasis.i.hh:transform,inverse"]}
{"id": "C53", "title": "Basis orthogonalisation yields an orthonormal basis", "statement": "TransformedBasis turns any linearly independent vectors into orthonormal ones spanning the same space.", "quantifier": "all input vectors", "why_tests_cant": "universal", "anchors": ["src/orthog/TransformedBasis.cc"]}
{"id": "C54", "title": "Polynomial bases follow their three-term recurrences", "statement": "ChebyshevU and discrete Legendre bases evaluate the polynomials they are named after at every order.", "quantifier": "all orders and points", "why_tests_cant": "all orders", "anchors": ["src/orthog/ChebyshevU.cc", "src/orthog/DLP.cc"]}
{"id": "C55", "title": "Diffusion loss operator is conservative", "statement": "The diffusion loss matrix couples neighbours symmetrically after volume weighting, has nonpositive off-diagonal and positive diagonal entries, and with reflecting boundaries its row sums equal the removal cross section (no net leakage).", "quantifier": "all meshes, diffusion coefficients and boundary conditions", "why_tests_cant": "all meshes", "anchors": ["src/solvers/mg/DiffusionLossOperator.cc:build", "src/solvers/wg/WGDiffusionLossOperator.cc:build"]}
{"id": "C56", "title": "Adjoint gain operator is the transpose", "statement": "The adjoint fission gain matrix is the transpose of the forward one.", "quantifier": "all meshes and materials", "why_tests_cant": "all entries", "anchors": ["src/solvers/mg/DiffusionGainOperator.cc:build"]}
{"id": "C57", "title": "CMFD coupling reproduces the tallied current", "statement": "With unit relaxation the coarse operator's face current computed from the coarse fluxes equals the tallied net current, with and without the positivity correction.", "quantifier": "all fluxes, currents", "why_tests_cant": "universal", "anchors": ["src/solvers/mg/CMFDLossOperator.cc:build"]}
{"id": "C58", "title": "Power iteration eigenvalue is the production ratio", "statement": "In EigenPI with unit relaxation the reported keff after n iterations is the ratio of successive productions of the linear fission operator, and equals norm(F_n)/norm(F_0); an exact eigenpair is a fixed point.", "quantifier": "all linear operators and iteration counts", "why_tests_cant": "all iterations", "anchors": ["src/solvers/eigen/EigenPI.i.hh:solve"]}
{"id": "C59", "title": "Source iteration stops correctly", "statement": "WGSolverSI::solve returns the flux of the last sweep; if it stopped before the iteration limit the last two iterates differ by less than the tolerance in every component; it performs at most the limit of sweeps.", "quantifier": "all sweep operators, tolerances and limits", "why_tests_cant": "all operators", "anchors": ["src/solvers/wg/WGSolverSI.i.hh:solve"]}
{"id": "C60", "title": "Region powers are normalised", "statement": "ReactionRates::region_power(map, scale) returns per-region powers proportional to the fission rate that sum to scale; edit() returns the sum, or the volume-weighted mean, over each region.", "quantifier": "all maps and fluxes", "why_tests_cant": "all maps", "anchors": ["src/postprocess/ReactionRates.cc:region_power,edit"]}
{"id": "C61", "title": "SparseRow range insertion touches only the requested columns", "statement": "SparseRow::insert(a,b,r,v,ADD) adds v*r[j] to every column a<=j<b and leaves every other column, and the ordering of the row, unchanged.", "quantifier": "all ordered rows, all ranges a<b, all factors v", "why_tests_cant": "which columns the iterator range picks depends on where the stored columns fall relative to a and b", "anchors": ["src/callow/matrix/SparseRow.cc:SparseRow::insert,SparseRow::range"]}
{"id": "C62", "title": "vec_min and vec_max return extreme elements", "statement": "For a nonempty vector, vec_min(v) (vec_max(v)) is an element of v and no element is smaller (larger).", "quantifier": "all nonempty vectors of any sign", "why_tests_cant": "the starting value of the search decides the answer only for vectors of particular sign", "anchors": ["src/utilities/MathUtilities.hh:vec_min,vec_max"]}
{"id": "C63", "title": "soft_equiv is the stated relative comparison", "statement": "soft_equiv(v,r,p) for a reference not below 1e-14 in magnitude is true exactly if |v-r| < p|r|; every value is soft-equal to itself; the field form is true exactly if lengths agree and every element passes.", "quantifier": "all values, references, precisions and field lengths", "why_tests_cant": "ranges over real values and all positions of a mismatch", "anchors": ["src/utilities/SoftEquivalence.hh:soft_equiv"]}
{"id": "C64", "title": "The relative residual norm divides every element", "statement": "norm_relative_residual(x,y,flag) is the norm of the elementwise relative differences (x_i-y_i)/y_i, zero exactly when x = y.", "quantifier": "all vectors of equal length with nonzero reference y", "why_tests_cant": "an undivided element only matters when it dominates", "anchors": ["src/utilities/MathUtilities.hh:norm_relative_residual"]}
{"id": "C65", "title": "A successful check licenses get", "statement": "If check(key) returns true then get<T>(key) is well defined for the type being requested.", "quantifier": "all put histories, keys and types", "why_tests_cant": "the failing case is an undefined dereference that may silently return garbage", "anchors": ["src/utilities/InputDB.i.hh:InputDB::check,InputDB::get"]}
{"id": "C66", "title": "A geometry made from a mesh is that mesh", "statement": "Geometry(mesh): find(p) returns the region with the index of the mesh cell whose half-open box holds p and -1 when no cell does; that region carries the cell's material; away from cell faces it agrees with Mesh::find_cell.", "quantifier": "all consistent meshes of any dimension and all points", "why_tests_cant": "all meshes and a continuum of points, including points on faces", "anchors": ["src/geometry/Geometry.cc:Geometry::Geometry,Geometry::find", "src/geometry/Mesh.i.hh:Mesh::find_cell"]}
{"id": "C67", "title": "A translated region keeps its bounding box around it", "statement": "RegionFactory::CreateTranslatedRegion moves a region and its bounding box by the same vector: a region inside its box stays inside its box, so a ray that meets the moved region passes the bounding box test.", "quantifier": "all regions, translations and rays", "why_tests_cant": "needs a translation and a ray for which the misplaced box matters", "anchors": ["src/geometry/RegionFactory.cc:RegionFactory::CreateTranslatedRegion", "src/geometry/Region.cc:Region::intersects_bounding_box"]}
{"id": "C68", "title": "The bounding box test is exact", "statement": "intersects_bounding_box(r, L) is true exactly if the line of the ray is in the box for some parameter below L and for some not smaller parameter that is positive.", "quantifier": "all boxes, ray origins and directions, and lengths", "why_tests_cant": "continuum of rays; eight sign patterns of the direction", "anchors": ["src/geometry/Region.cc:Region::intersects_bounding_box"]}
{"id": "C69", "title": "Normalised tracks reproduce the reference volumes", "statement": "After TrackDB::normalize(ref), TrackDB::volume() equals ref in every region.", "quantifier": "all track databases and reference volumes", "why_tests_cant": "depends on which tracks share storage with their reverses", "anchors": ["src/geometry/TrackDB.cc:TrackDB::normalize,TrackDB::volume", "src/geometry/Track.cc:Track::reverse"]}
{"id": "C70", "title": "A macrobody is bounded by all its surfaces", "statement": "Macrobody::contains(p) is true exactly if p is on the inner side of every bounding surface.", "quantifier": "all surface lists and points", "why_tests_cant": "continuum of points and any number of surfaces", "anchors": ["src/geometry/Macrobody.cc:Macrobody::contains"]}
{"id": "C71", "title": "set_downscatter changes only the selected flag", "statement": "set_downscatter(v, tran) sets the downscatter-only flag of the selected mode (forward or adjoint) and leaves the flag of the other mode unchanged.", "quantifier": "all material states and both modes", "why_tests_cant": "ranges over states; the wrong effect is on the mode not looked at", "anchors": ["src/material/Material.hh:Material::set_downscatter", "src/material/Material.cc:Material::downscatter"]}
{"id": "C72", "title": "Product quadrature side tables enumerate the directions of a side in order", "statement": "For every side, incident_index(side, azimuth, polar) and outgoing_index(side, azimuth, polar) are bijections between the azimuth/polar slots of the side and the (octant, angle) pairs entering or leaving through it; along a vertical side the directions run right to left with the azimuth index, along a horizontal side counter-clockwise, and in three dimensions top to bottom with the polar index.", "quantifier": "all dimensions 2-3, numbers of azimuths and polar angles, sides", "why_tests_cant": "a table built by per-side index arithmetic for all orders; tests print or check one order", "anchors": ["src/angle/ProductQuadrature.cc:ProductQuadrature,incident_index,outgoing_index,number_azimuths,number_polar"]}
{"id": "C73", "title": "Double quadrature rules are symmetric and keep the half rule's total weight", "statement": "A double Gauss rule built on [a,b] from any half rule has twice its points, is symmetric about the middle of the interval (mirrored points with equal weights), and its weights sum to (b-a)/2 times the half rule's total on [-1,1].", "quantifier": "all intervals and half rules", "why_tests_cant": "all orders and intervals", "anchors": ["src/angle/BaseGL.hh:BaseDGL::build_impl", "src/angle/BaseGC.hh:BaseDGC::build_impl", "src/angle/BaseQuadrature.hh:scale_and_shift"]}
{"id": "C74", "title": "Fixed boundary conditions and clearing act on exactly the requested fluxes", "statement": "BoundarySN::set(g) makes the incident flux of every fixed side equal to the flux stored with FixedBoundary(o,a,g) for each incident octant, and changes nothing else; BoundarySN::clear(g) zeroes every flux of group g and changes no other group.", "quantifier": "all boundaries, mixes of conditions, groups", "why_tests_cant": "frame property over all sides, octants, angles and groups", "anchors": ["src/boundary/FixedBoundary.i.hh:set", "src/boundary/BoundarySN.i.hh:set,clear"]}
{"id": "C75", "title": "A prescribed octant order must cover every octant", "statement": "The sweeper accepts a user's octant order (sweeper_ordered_octants) only if it is a permutation of all octants.", "quantifier": "all integer vectors given by the user", "why_tests_cant": "quantifies over all user inputs", "anchors": ["src/transport/Sweeper.cc:setup_octant_indices"]}
{"id": "C76", "title": "The sweep source is the complete emission density", "statement": "After building the fixed source with scatter for a group and the within-group scatter from that group's flux, the source handed to the sweeper for a direction is, in every cell, the moment-to-discrete factor times the sum of all external moment sources, the fission source (explicit, or implicit summed over all groups) and the scattering from all groups, plus every discrete external source for that direction; whatever the source buffers held before.", "quantifier": "all group counts, materials without negative scattering, fluxes, source lists, fission modes, forward and adjoint", "why_tests_cant": "any number of sources and any previous buffer contents", "anchors": ["src/transport/SweepSource.i.hh:build_fixed,build_fixed_with_scatter,build_within_group_scatter,source", "src/transport/ScatterSource.i.hh", "src/transport/FissionSource.i.hh"]}
{"id": "C77", "title": "Vector norms and distances obey the norm laws", "statement": "Vector::norm for L1, L2 and LINF is non-negative, vanishes only on the zero vector, scales with |c| and satisfies the triangle inequality; norm_residual is the norm of the difference and vanishes only on equal vectors; dot obeys Cauchy-Schwarz and dot(v,v) is the squared L2 norm; the relative kinds are invariant when both vectors are scaled by the same factor.", "quantifier": "all vectors of equal length, all scale factors", "why_tests_cant": "Norm axioms quantify over all vectors and factors; tests check a few numeric values.", "anchors": ["src/callow/vector/Vector.i.hh:Vector::norm", "src/callow/vector/Vector.i.hh:Vector::norm_residual", "src/callow/vector/Vector.i.hh:Vector::dot", "src/callow/utils/CallowDefinitions.hh"]}
{"id": "C78", "title": "ILUT apply inverts the stored factors", "statement": "For every stored pattern of a unit lower and an upper factor with nonzero pivots, PCILUT::apply(b,x) returns x with L U x = b.", "quantifier": "all sparsity patterns, factors with nonzero diagonal and right hand sides", "why_tests_cant": "Triangular solves on arbitrary sparsity patterns cannot be enumerated.", "anchors": ["src/callow/preconditioner/PCILUT.cc:PCILUT::apply"]}
{"id": "C79", "title": "A requested preconditioner is used", "statement": "If the parameter database given to set_operators asks for a preconditioner and a side, the solver applies that preconditioner on that side; a preconditioner given to set_preconditioner is applied.", "quantifier": "all preconditioner types and sides", "why_tests_cant": "An ignored preconditioner changes only the number of iterations, not the answer, so value tests pass.", "anchors": ["src/callow/solver/LinearSolver.cc:LinearSolver::set_operators", "src/callow/solver/LinearSolver.hh:LinearSolver::set_preconditioner"]}
{"id": "C80", "title": "GMRES delivers the minimal residual it reports", "statement": "For every nonsingular (possibly preconditioned) linear operator, right hand side and initial guess, a GMRES solve never divides by zero; the last residual it reports equals the Euclidean norm of the preconditioned residual of the vector it returns; reported residuals never grow; SUCCESS means that norm is below max(atol, rtol*r0). Without restart the returned vector minimises that norm over the initial guess plus the Krylov space, and with a restart size and iteration limit no smaller than the problem size the solve succeeds in at most n iterations.", "quantifier": "all sizes, operators, left and right preconditioners, right hand sides, initial guesses, reorthogonalisation modes, restart sizes, tolerances and limits of at least three", "why_tests_cant": "Minimality and finite termination quantify over all systems and all vectors of the Krylov space; the reported residual comes from a recurrence, never from the returned vector.", "anchors": ["src/callow/solver/GMRES.cc:GMRES::solve_impl", "src/callow/solver/GMRES.i.hh:apply_givens,compute_y", "src/callow/solver/LinearSolver.cc:monitor,solve"]}
{"id": "C81", "title": "Extrapolated half steps are the implicit midpoint rule", "statement": "A half-size first-order step followed by the stepper's extrapolation is exactly one full step of the implicit midpoint rule for every unknown (flux, precursors, multiphysics); the extrapolated scalar flux is the quadrature sum of the extrapolated angular fluxes, which with the fixup are never negative and without it extrapolate the scalar flux too.", "quantifier": "all step sizes, fluxes, precursor data, quadratures and meshes", "why_tests_cant": "An identity between two discretisations for all right hand sides; a test compares single numbers.", "anchors": ["src/solvers/time/TimeStepper.cc:step,extrapolate,update_precursors"]}
{"id": "C82", "title": "Adjoint diffusion operator is the transpose", "statement": "The adjoint multigroup diffusion loss operator over all groups is the transpose of the forward one in the volume-weighted inner product, with or without scattering and fission.", "quantifier": "all meshes, materials, boundary conditions and pairs of fluxes", "why_tests_cant": "all entries and group structures", "anchors": ["src/solvers/mg/DiffusionLossOperator.cc:build"]}
{"id": "C83", "title": "Diffusion operators can be rebuilt", "statement": "Calling construct() on a diffusion operator that has already been built yields the matrix of the current data (new keff, materials, currents) instead of failing or silently dropping couplings.", "quantifier": "all operators and sequences of construct() calls", "why_tests_cant": "all histories", "anchors": ["src/solvers/mg/DiffusionLossOperator.cc:construct", "src/solvers/wg/WGDiffusionLossOperator.cc:construct", "src/solvers/mg/DiffusionGainOperator.cc:construct", "src/solvers/mg/CMFDLossOperator.cc:construct", "src/callow/matrix/Matrix.cc:clear"]}
{"id": "C84", "title": "Every built-in basis round-trips in the inner product it uses", "statement": "For every basis the library can build (discrete Legendre, discrete Chebyshev/cosine, continuous Legendre, shifted Jacobi, discrete delta) with admissible order, size, positive weights, interval and quadrature, transforming the expansion of a coefficient vector returns that vector.", "quantifier": "all basis classes, orders, sizes, weights, intervals and coefficient vectors", "why_tests_cant": "universal over orders, weights and intervals; the tests use one size, no weights and the interval [-1,1]", "anchors": ["src/orthog/DLP.cc", "src/orthog/DCT.cc", "src/orthog/DCP.cc", "src/orthog/CLP.cc", "src/orthog/Jacobi01.cc", "src/orthog/DDF.cc", "src/orthog/OrthogonalBasis.i.hh:transform,inverse"]}
{"id": "C85", "title": "All forms of the basis transforms agree", "statement": "fold of a column is that entry of the transform, unfold of a row is that entry of the inverse, and the reference, shared-pointer and std::vector forms of transform and inverse take their arguments in the same order and give the same results.", "quantifier": "all bases and vectors", "why_tests_cant": "universal over bases and vectors; unfold and the shared-pointer form of inverse are not called by the tests", "anchors": ["src/orthog/OrthogonalBasis.i.hh:fold,unfold,transform,inverse"]}
{"id": "C86", "title": "Source iteration converges to the one solution of the group", "statement": "For a group solve with no reflective or periodic side in which at most a fraction r < 1 of the collisions of each cell return neutrons to the group, the discretised group equation has exactly one solution; each sweep of source iteration reduces the error by the factor r (in every cell's maximum for the step and characteristic schemes, in the norm weighted by the total cross section for diamond difference), the solver stops by itself for every positive tolerance, and when it stops before its limit the returned flux is within r/(1-r) times the tolerance of the solution.", "quantifier": "all meshes, cross sections, quadratures with nonnegative weights, sources, boundary fluxes, starting fluxes and tolerances; all 1-D, 2-D and 3-D schemes", "why_tests_cant": "tests run a few benchmark problems to convergence and compare to stored numbers; they cannot show that every admissible problem converges or bound the error of the returned flux", "anchors": ["src/solvers/wg/WGSolverSI.i.hh:WGSolverSI::solve", "src/transport/Sweeper1D.i.hh", "src/transport/Sweeper2D.i.hh", "src/transport/Sweeper3D.i.hh"]}
{"id": "C87", "title": "Gauss-Seidel multigroup solve orders, stops and solves", "statement": "MGSolverGS::solve visits every group once (increasing energy index forward, decreasing in adjoint), each group solve seeing the new fluxes of the groups before it and the old ones of those after it; it then repeats passes over the upscatter block only (all groups when multiplying), stopping exactly when two passes agree to the tolerance or at the limit. Fresh finalised materials make the groups left out of the block independent of later groups, so when it (and source iteration inside it) stops before its limits, every group's returned flux solves that group's transport equation with a source made from fluxes that agree with the returned ones to the two tolerances and with the prescribed incoming boundary fluxes.", "quantifier": "all meshes, quadratures, schemes, materials, group counts, forward and adjoint, norms, tolerances and limits", "why_tests_cant": "tests compare a few converged fluxes; they cannot show that no coupling to an unsolved group was dropped for any scattering structure", "anchors": ["src/solvers/mg/MGSolverGS.i.hh:solve", "src/solvers/mg/MGSolverGS.cc:MGSolverGS", "src/solvers/wg/WGSolverSI.i.hh:solve", "src/material/Material.cc:finalize"]}
{"id": "C88", "title": "Power iteration converges to the eigenvalue of the discretised transport problem", "statement": "For a vacuum-bounded problem without external sources, with nonnegative cross sections, a step or step-characteristic (1-D) or step (2-D) scheme, scattering that removes neutrons in every group, groups solved in an order without upscatter, and neutrons born in any fissile cell reaching every group that causes fission, there is exactly one eigenvalue with a nonnegative fission density; EigenPI started from its flat guess with unit relaxation reports a keff and a fission density whose errors shrink geometrically with the number of iterations, and with any positive tolerance it stops after finitely many.", "quantifier": "all such problems, sizes, materials, meshes, quadratures with positive weights, tolerances and iteration limits", "why_tests_cant": "Tests compare one keff with a reference value for a few inputs; existence and uniqueness of the eigenvalue and the geometric rate for every problem are limits over unboundedly many iterations.", "anchors": ["src/solvers/eigen/EigenPI.i.hh:EigenPI<D>::solve", "src/transport/FissionSource.cc:FissionSource::setup_outer, FissionSource::update", "src/solvers/mg/MGSolverGS.i.hh:MGSolverGS<D>::solve"]}
{"id": "C89", "title": "The energy-independent eigenvalue operator is the linear fission operator of the transport problem", "statement": "EnergyIndependentEigenOperator::multiply applied to a fission density returns the production of the fluxes that solve the multigroup problem with that density as source; as a function of the density it is one fixed matrix, and a nonnegative nonzero density is multiplied by k exactly when k is an eigenvalue of the discretised transport problem with that density.", "quantifier": "all vacuum-bounded source-free problems whose multigroup solver is exact, all densities", "why_tests_cant": "Linearity and the equivalence with the transport eigenproblem quantify over all densities; tests only see the eigenvalue found from one starting vector.", "anchors": ["src/solvers/eigen/EnergyIndependentEigenOperator.cc:EnergyIndependentEigenOperator<D>::multiply", "src/transport/FissionSource.cc:FissionSource::setup_outer, FissionSource::update"]}
{"id": "C90", "title": "The within-group Krylov system is the group's transport equation", "statement": "For the within-group Krylov solver, the operator it applies and the right hand side it builds belong together: applying the operator to a flux gives the right hand side exactly when that flux is the group's flux, that is, when it solves the discretised transport equation with all external, directional, fission and scattering sources (including the scattering the flux itself makes) and the fluxes given on the boundary. The operator is linear and applying it does not disturb the problem or other groups' boundary fluxes.", "quantifier": "all meshes, materials, quadratures, sources, spatial schemes, groups, vectors and sequences of operator applications, on boundaries without reflection", "why_tests_cant": "a test solves a few problems to a tolerance; here the equivalence holds for every vector and every problem, and the tests that exist use isotropic sources only, so a directional source that enters the operator as well as the right hand side stays unseen", "anchors": ["src/solvers/wg/WGTransportOperator.cc:multiply", "src/solvers/wg/WGSolverGMRES.i.hh:build_rhs", "src/transport/SweepSource.i.hh:source", "src/transport/Sweeper.hh:sweep"]}
{"id": "C91", "title": "The multigroup Krylov system is the coupled transport equations of its groups", "statement": "For the multigroup Krylov solver, the operator it applies and the right hand side it builds belong together: applying the operator to a vector gives the right hand side exactly when the group fluxes in that vector, with the fluxes already found for the groups before the cutoff, solve the discretised transport equations of all groups from the cutoff on, each with all external, directional, fission and scattering sources the fluxes make and the fluxes given on the boundary. Fluxes left over in the state for groups of the block do not matter, applying the operator does not disturb the problem, and copying the solution into the state completes the solution of all groups when the earlier groups take nothing from the block.", "quantifier": "all meshes, materials, quadratures, sources, spatial schemes, group cutoffs, forward and adjoint problems, vectors and sequences of operator applications, on boundaries without reflection", "why_tests_cant": "tests solve a few problems to a tolerance starting from zero flux; the equivalence must hold for every vector, every scattering band and every flux left in the state, and a band that starts above the cutoff only goes wrong when the state already holds a flux", "anchors": ["src/solvers/mg/MGTransportOperator.cc:multiply", "src/solvers/mg/MGSolverGMRES.i.hh:build_rhs", "src/solvers/mg/MGSolverGMRES.i.hh:group_sweep", "src/transport/ScatterSource.i.hh:build_downscatter_source", "src/transport/SweepSource.i.hh:build_fixed_with_downscatter"]}
{"id": "C92", "title": "Spherical harmonics and the moment-to-discrete matrix", "statement": "The real spherical harmonics offered for orders up to three are the harmonics: order l with m = 0 is the Legendre polynomial of the polar cosine, m and -m depend on the azimuth as the cosine and sine of m times the azimuth with one common factor, each has the parity of its order, and the addition theorem holds to thirteen digits; higher orders raise an error. The matrix which turns flux or source moments into angular values holds (2l+1)/(4 pi) Y_lm (in slabs (2l+1)/2 P_l) at every direction and every moment the indexer lists, in two dimensions with the polar cosine completed to a unit vector; multiplied with the harmonics of a second direction it sums to the truncated Legendre expansion of the scattering kernel, and projecting its columns back onto the harmonics with any quadrature gives the identity as far as the quadrature integrates polynomials of the combined degree; for the level-symmetric set of order N this holds whenever N is at least the sum of the two orders.", "quantifier": "all directions, all orders up to three and all m, all quadratures whose directions are unit vectors, dimensions one, two and three, all moment orders", "why_tests_cant": "the unit tests compare a few harmonics at single directions with stored numbers and check orthogonality for one level-symmetric set; a swapped sign or factor in one (l,m) entry only shows up for anisotropic scattering of that order, and the statement is about all directions and all quadratures", "anchors": ["src/angle/SphericalHarmonics.cc:Y_lm", "src/angle/SphericalHarmonics.cc:get_Y_lm", "src/angle/MomentToDiscrete.i.hh:build", "src/angle/MomentToDiscrete.i.hh:calc_row_3d", "src/angle/MomentToDiscrete.i.hh:operator()", "src/angle/MomentIndexer.i.hh:index"]}
{"id": "C93", "title": "Level-symmetric quadrature sets", "statement": "The level-symmetric quadrature can be built with 1 to 12 levels per axis and octant, in two and three dimensions, and raises an error for any other number. Every direction is a unit vector, the weights of all directions sum to 4 pi, and the set does not prefer an axis: for every direction there is one with the roles of two axes exchanged and the same weight. The set with N = 2 np levels integrates every polynomial in the direction cosines over the sphere up to degree N when np is at most 5 or equal to 7 and up to degree N - 2 otherwise, to sixteen digits, and no set does so for two degrees more. The weights are all positive exactly for np up to 9.", "quantifier": "all numbers of levels, both dimensions, all monomials of the stated degree, all directions", "why_tests_cant": "tests compare a few entries and the weight sum; a wrong digit or a wrong weight index anywhere in the tables spoils the integration of some polynomial only, and exactness up to a degree is a statement about a whole space of functions", "anchors": ["src/angle/LevelSymmetric.cc:LevelSymmetric", "src/angle/LevelSymmetric.cc:set_quad_values", "src/angle/Quadrature.cc:Quadrature"]}
{"id": "C94", "title": "Tabulated polar and azimuthal rules integrate what they claim", "statement": "The tabulated polar rules (Tabuchi-Yamamoto, triangle Gauss, Abu-Shumays double range) give, at every supported even size, cosines symmetric about zero, strictly increasing and inside (-1, 1), with positive symmetric weights that sum to one on each half (to seven places for Tabuchi-Yamamoto, fourteen otherwise); the double-range rule of size 2m integrates every power of the sine of the polar angle below 2m over the half range to fourteen places, and the quadruple-range azimuthal rule of size 2m integrates every power of the cosine below 2m over the quarter circle to fourteen places, with angles increasing inside (0, pi/2) and mirrored about pi/4. Unsupported sizes are refused.", "quantifier": "every size, supported or not, and every power", "why_tests_cant": "Hundreds of sixteen-digit constants: tests that sum the weights cannot see a swapped digit that only spoils a high moment, nor can they cover every size and every power at once.", "anchors": ["src/angle/TabuchiYamamoto.cc:build_impl", "src/angle/TriGauss.hh:build_impl", "src/angle/AbuShumaysDoubleRange.cc:build_impl", "src/angle/AbuShumaysQuadrupleRange.cc:build_impl"]}
{"id": "C95", "title": "Partial currents tallied in a sweep balance every coarse cell", "statement": "Tallying partial currents on a coarse mesh does not change the result of a transport sweep: boundary fluxes, scalar and angular flux are those of the sweep without tally. After the sweep the partial current on each coarse face, in each sense, is the sum over the directions travelling in that sense of weight times direction cosine times the flux on the fine faces covering it times their areas, where these fluxes are those of the discretised equations of the sweep. Hence in every coarse cell net leakage plus total reaction rate equals the total source. This holds in one and two dimensions for meshes with at least two cells along each axis; in three dimensions no current is ever tallied, and a mesh with one cell along an axis makes the tally read outside its tables.", "quantifier": "all meshes, coarsening levels, quadratures, boundary conditions, spatial schemes, cross sections, sources and previous contents of the tally", "why_tests_cant": "a test compares a few currents of a few meshes; the balance over arbitrary coarsenings, octant orders and reflecting boundaries, and that the tally never disturbs the sweep, are statements about all executions", "anchors": ["src/transport/CurrentTally.i.hh:tally", "src/transport/CurrentTally.cc:reset", "src/transport/BoundaryTally.hh:index", "src/transport/CoarseMesh.hh:coarse_edge_flag", "src/transport/Sweeper1D.i.hh:sweep", "src/transport/Sweeper2D.i.hh:sweep", "src/transport/Sweeper3D.i.hh:sweep"]}
{"id": "C96", "title": "The coarse mesh update leaves a converged flux alone", "statement": "The coarse mesh finite difference system built from a swept flux and the currents tallied in that sweep has, at the coarse averages of that flux, in every coarse cell and group exactly the residual of the fine problem: cell volume times (right hand side minus matrix times averages) is the sum over the fine cells of volume times (the source belonging to the flux minus the source it was swept with), whatever the boundary conditions, the diffusion coefficients used or the relaxation of the nonlinear coupling. Hence a solution of the transport problem is a fixed point of the update, for any under-relaxation factor. This holds for fixed source problems in one and two dimensions, with fission for keff 1 and one fission spectrum; it fails for keff other than 1 (the operator is built with keff 1), for the adjoint of several groups (the homogenised transfer is weighted with the flux of the wrong group), and in three dimensions (no currents are tallied): there the update moves a converged flux.", "quantifier": "all meshes, coarsening levels, materials, group structures, quadratures, spatial schemes, sources, positive fluxes, weightings of the diffusion coefficient, sorts and linear solvers that keep a solution", "why_tests_cant": "a test that compares a converged accelerated flux to an unaccelerated one sees agreement within a tolerance for one problem; consistency of the coarse system with the transport sweep is an algebraic identity over all problems, and the ignored keff only shows in multiplying problems with keff away from one", "anchors": ["src/solvers/mg/MGSolverCMFD.cc:update", "src/solvers/mg/CMFDLossOperator.hh:construct", "src/solvers/mg/CMFDLossOperator.cc:build", "src/transport/CoarseMesh.cc:CoarseMesh", "src/transport/Homogenize.cc:homogenize"]}
{"id": "C97", "title": "The mesh of a pin cell covers the cell with the pin's materials", "statement": "Meshing a pin cell with n cells per side gives an n by n mesh of exactly the pitch with every cell carrying the material of its region and the region map having all symmetries of the square. The uniform mesh marks each cell with the ring its centre lies in. The best fit mesh of a pin with one radius puts mesh lines on the staircase of the documented proportions, marks exactly the cells inside it as fuel, and their area is pi r squared within 1e-15 r squared; it exists whenever the rounded cell counts of the strips leave enough for the middle, in particular for fine enough meshes. It fails for a pitch with different x and y (y is ignored), for a pin off the centre (offset ignored), for coarse best fit meshes of thin pins (the middle strip is lost and the mesh is narrower than the pitch) and of wide ones (one cell too many).", "quantifier": "all pitches, radii, materials, divisions, pin centres and cell counts", "why_tests_cant": "tests mesh one or two pins; the rounding of strip counts depends on the ratio of radius, pitch and cell count, and the area claim is about pi", "anchors": ["src/geometry/PinCell.cc:PinCell::meshify", "src/geometry/PinCell.cc:PinCell::find_region", "src/geometry/PinCell.cc:PinCell::PinCell", "src/geometry/Mesh2D.cc:Mesh2D"]}
{"id": "C98", "title": "The regions made for pin cells and assemblies partition them", "statement": "The regions built for a pin cell are one per ring and sector of the division scheme; every point of the cell is in exactly one of them, namely that of its ring and sector in counter-clockwise order, the geometry finds it, and its material is that of the ring; points outside a flat cell that contains its pin are in none. The same holds for an assembly of such pins: every point is in exactly one region, that of the pin the map puts in its place, and points outside the assembly are in none. At the centre of every cell of the uniform mesh of the pin, mesh and regions agree on the material. It fails for cells with height (the pin continues above and below), for pins larger than the cell (they cover parts of the neighbours), and for divided pins off the centre (dividing planes are moved opposite to the pin; regions overlap).", "quantifier": "all pin cells the constructor accepts, all division schemes, all assemblies, all points", "why_tests_cant": "a test finds a few points; that regions neither overlap nor leave gaps concerns all points, including those on the surfaces", "anchors": ["src/geometry/RegionFactory.cc:RegionFactory::CreatePinCell", "src/geometry/RegionFactory.cc:RegionFactory::CreateAssembly", "src/geometry/RegionFactory.cc:RegionFactory::CreateTranslatedRegion", "src/geometry/Geometry.cc:Geometry::find"]}
{"id": "C99", "title": "The segments of a track tile it", "statement": "Segmentizing a track through a geometry gives segments that follow each other without gap or overlap from the entry to the exit: each has a positive length, all its inner points lie in the region it names, and the lengths add up to the distance between entry and exit. This holds for any geometry in which each point of the track is in one region, points just outside in none, the bounding boxes of the regions are consistent with them, and crossings of one region are not closer than the tolerance; these conditions hold for the geometry of every two-dimensional mesh and every track that is not parallel to an axis and passes no mesh corner at less than the tolerance unless through it. It fails for a pin cell whose pin the track misses (the box of the pin is that of the cell, the list of crossings is empty and the loop bound wraps around), and for assemblies (boxes of the translated pins are wrong and segments are lost).", "quantifier": "all geometries, all tracks between two points, all sorting routines", "why_tests_cant": "tests follow a few tracks through one geometry; gaps and overlaps depend on the positions of all surfaces along the track", "anchors": ["src/geometry/Tracker.cc:Tracker::segmentize", "src/geometry/Region.cc:Region::intersects_bounding_box", "src/geometry/RegionFactory.cc:RegionFactory::CreateTranslatedRegion"]}
