{
 "claims": [
  {
   "property": "C01",
   "status": "proved",
   "theorems": [
    "C01_multiply_reflects_insertions"
   ],
   "note": "All histories of scalar insertions, all capacities, any sort satisfying the standard's guarantee; exact arithmetic. A row without any accepted entry makes assemble() undefined and this is part of the theorem."
  },
  {
   "property": "C02",
   "status": "proved",
   "theorems": [
    "C02_assembled_structure"
   ],
   "note": ""
  },
  {
   "property": "C03",
   "status": "partial",
   "theorems": [
    "C03_scalar_insert_truthful_partial",
    "C03_row_insert_truthful_partial",
    "C03_triplet_insert_overruns_refuted",
    "C03_column_insert_overruns_refuted",
    "C03_row_add_not_atomic_refuted"
   ],
   "note": "Holds for the scalar form and the INSERT row form. False for the triplet and column overloads (they check each entry against the capacity separately and write past the row end); the ADD row form may return false after storing a prefix."
  },
  {
   "property": "C04",
   "status": "partial",
   "theorems": [
    "C04_element_access_refuted",
    "C04_element_access_partial"
   ],
   "note": "operator() searches the wrong side of the diagonal: off-diagonal entries always read 0 although multiply uses them; the diagonal is read correctly."
  },
  {
   "property": "C05",
   "status": "proved",
   "theorems": [
    "C05_sparse_transpose_adjoint",
    "C05_dense_transpose_adjoint"
   ],
   "note": ""
  },
  {
   "property": "C06",
   "status": "proved",
   "theorems": [
    "C06_sparse_row_ordered_map"
   ],
   "note": "INSERT of zero is a no-op in the code (so it does not clear a stored value); this is part of the specification used."
  },
  {
   "property": "C07",
   "status": "proved",
   "theorems": [
    "C07_dense_storage",
    "C07_dense_row_insert",
    "C07_dense_col_insert"
   ],
   "note": ""
  },
  {
   "property": "C08",
   "status": "proved",
   "theorems": [
    "C08_jacobi",
    "C08_gauss_seidel",
    "C08_richardson",
    "C08_matrix_operator",
    "C08_jacobi_keeps",
    "C08_gauss_seidel_keeps",
    "C08_richardson_keeps"
   ],
   "note": "One iteration leaves x unchanged iff A x = b (relaxation factor nonzero, diagonal stored once and nonzero); complete solves return an exact initial guess unchanged. Richardson is proved for every operator, explicit or matrix free."
  },
  {
   "property": "C09",
   "status": "partial",
   "theorems": [
    "C09_jacobi_partial",
    "C09_gauss_seidel_partial",
    "C09_richardson_partial",
    "C09_jacobi_success",
    "C09_gauss_seidel_success",
    "C09_richardson_success",
    "C09_limit_refuted",
    "C09_iterations_refuted",
    "C09_gmres_limit_refuted"
   ],
   "note": "For limits of at least two iterations the status, iteration bound and whole residual history of the stationary solvers are proved, and SUCCESS bounds the true residual (Richardson: of the previous iterate, scaled by omega). GMRES is covered by C80_true_residual. Refuted: with a limit of one iteration a failed stationary solve is reported RUNNING; Richardson returning on the initial residual reports the iteration count of the previous solve; GMRES never reports MAXIT, it stops at two iterations below the limit with status RUNNING."
  },
  {
   "property": "C10",
   "status": "proved",
   "theorems": [
    "C10_givens",
    "C10_back_substitution",
    "C10_least_squares"
   ],
   "note": "Rotations preserve the norm of every column and touch no other; back substitution is exact for every size; a whole restart cycle (from arbitrary leftover arrays) returns the minimiser of the residual over the Krylov space and reports its norm."
  },
  {
   "property": "C100",
   "status": "partial",
   "theorems": [
    "C100_tracks_partial",
    "C100_trackit_partial",
    "C100_mesh_partial",
    "C100_widths_partial",
    "C100_spacing_partial",
    "C100_stale_partial",
    "C100_widths_refuted",
    "C100_spacing_refuted",
    "C100_reuse_refuted"
   ],
   "note": "Directions, faces, mirrors, reverses and segments proved for a new tracker; sums of widths, maximum spacing and reuse refuted."
  },
  {
   "property": "C101",
   "status": "partial",
   "theorems": [
    "C101_balance_partial",
    "C101_safe",
    "C101_adjoint_keff_partial",
    "C101_reflect_refuted",
    "C101_adjoint_refuted",
    "C101_current_refuted",
    "C101_case_solve"
   ],
   "note": "Balance per cell and over the mesh for all problems and call histories (adjoint: initial keff only), outgoing currents at vacuum sides. Refuted with witnesses: outgoing currents at reflecting sides, adjoint problems with another keff, the magnitudes of the currents stored in the state. Linear solver: any that returns only exact solutions."
  },
  {
   "property": "C102",
   "status": "proved",
   "theorems": [
    "C102_exists",
    "C102_monotone",
    "C102_unique",
    "C102_positive",
    "C102_sharp"
   ],
   "note": "absorbing(P,k) is the condition that rows or columns of the reaction matrix have positive sums; C102_sharp shows that without it negative fluxes are returned"
  },
  {
   "property": "C103",
   "status": "partial",
   "theorems": [
    "C103_success_partial",
    "C103_fixed",
    "C103_converges",
    "C103_residual_refuted",
    "C103_storage_refuted"
   ],
   "note": "success is judged on the previous iterate (C103_residual_refuted); C103_success_partial bounds the residual of the pair returned; set_tolerances does not resize the residual storage (C103_storage_refuted)"
  },
  {
   "property": "C104",
   "status": "partial",
   "theorems": [
    "C104_forward_partial",
    "C104_success_partial",
    "C104_constructs",
    "C104_adjoint_refuted"
   ],
   "note": "forward problems proved; in adjoint problems the solver combines the adjoint loss operator with the forward gain operator and reports a wrong factor (C104_adjoint_refuted); the linear solver is any that solves the systems"
  },
  {
   "property": "C105",
   "status": "partial",
   "theorems": [
    "C105_refuted",
    "C105_first_partial",
    "C105_all_lost",
    "C105_exact_lost",
    "C105_client_partial"
   ],
   "note": "Refuted: FixedSourceManager::iterate never calls setup_outer, so all generations after the first are zero (C105_all_lost, C105_exact_lost; witness C105_refuted). Generation 0 and the generations of a client that sets up the fission source are right."
  },
  {
   "property": "C106",
   "status": "partial",
   "theorems": [
    "C106_exact_partial",
    "C106_returns_partial",
    "C106_stray",
    "C106_refuted",
    "C106_threshold_refuted",
    "C106_smallest",
    "C106_fill_refuted"
   ],
   "note": "Without dropping the factors are the LU factors (with no zero in L, or when stray reads are harmless); refuted: stray read for a tridiagonal matrix, wrong entries dropped by the threshold, smallest instead of largest entries kept by the limit."
  },
  {
   "property": "C107",
   "status": "partial",
   "theorems": [
    "C107_restrict_partial",
    "C107_prolong_partial",
    "C107_apply_partial",
    "C107_refuted",
    "C107_adjoint_refuted",
    "C107_cutoff_refuted",
    "C107_rebuild_refuted"
   ],
   "note": "Holds in one dimension, when the level divides the cells and when cells are even; refuted for odd plane meshes (rows of the restriction have too few places and the failed insertions are only asserted), adjoint problems (spectrum read from the cutoff upward) and group cutoffs (operator too small). Also refuted: the preconditioner is built in every solve and adds to the coarse spectrum of the last build, so after n builds the prolonged vector is the n-th part of what it should be."
  },
  {
   "property": "C108",
   "status": "partial",
   "theorems": [
    "C108_operator_partial",
    "C108_infinite_partial",
    "C108_within_group",
    "C108_keff_refuted",
    "C108_adjoint_refuted",
    "C108_boundary_stuck",
    "C108_reflection_refuted"
   ],
   "note": "Proved for forward problems with keff 1 and an exact diffusion solver (MGDSA, flux moments) and for the within-group preconditioner; refuted for keff other than 1, adjoint problems and boundary unknowns of MGDSA."
  },
  {
   "property": "C109",
   "status": "proved",
   "theorems": [
    "C109_newton",
    "C109_rate"
   ],
   "note": "Operators are any linear functions on vectors of one length; the coarse quadrature that gives the approximate operator is not modelled."
  },
  {
   "property": "C11",
   "status": "partial",
   "theorems": [
    "C11_factor_partial",
    "C11_apply_partial",
    "C11_apply_wrong",
    "C11_factor_refuted",
    "C11_refuted"
   ],
   "note": "Refuted: the factorisation never updates the diagonal and upper entries, and apply includes the diagonal in the backward sum, so apply never solves L U x = b for nonzero b. Exact characterisations of both are proved."
  },
  {
   "property": "C110",
   "status": "partial",
   "theorems": [
    "C110_projection",
    "C110_galerkin",
    "C110_galerkin_independent_partial",
    "C110_exact",
    "C110_exact_independent_partial",
    "C110_file",
    "C110_basis_refuted",
    "C110_sign_refuted"
   ],
   "note": "Proved for the diffusion and energy-dependent operators. Refuted for the energy-independent operator with a basis that is not orthonormal, and for the flux if the combination has both signs; the partial theorems need an orthonormal basis. An eigensolver is any function that returns an eigenpair of the reduced matrices."
  },
  {
   "property": "C111",
   "status": "partial",
   "theorems": [
    "C111_report",
    "C111_ends",
    "C111_breakdown",
    "C111_one_vector",
    "C111_default_refuted",
    "C111_limit_refuted"
   ],
   "note": "What a run returns is proved for every operator, preconditioner and start, and so is termination with as many vectors as unknowns. Two parts fail in the code. The default preconditioner solves (A - lambda B) w = r with r = (A - lambda B) u; solved exactly it gives u back, orthogonalising leaves zero and the code divides by its norm (C111_breakdown shows this for every problem not converged at once). A restart repeats the iteration count, so the limit is passed (C111_limit_refuted), and with one vector nothing changes at all (C111_one_vector)."
  },
  {
   "property": "C112",
   "status": "partial",
   "theorems": [
    "C112_dense_partial",
    "C112_call_partial",
    "C112_complex_refuted",
    "C112_stale_refuted",
    "C112_status_refuted"
   ],
   "note": "Selection, scaling and, for real eigenvalues, the eigenpair equation are proved from what EISPACK gives (its routine is a parameter). A complex eigenvalue is reported by its real part with the real half of its vector, without a warning. set_operators without a right-hand matrix keeps the previous one. Every solve is reported as not converged, since only monitor, which this solver never calls, sets another status."
  },
  {
   "property": "C113",
   "status": "partial",
   "theorems": [
    "C113_problem_partial",
    "C113_short",
    "C113_default_refuted",
    "C113_untouched",
    "C113_adjoint_refuted",
    "C113_solve_partial",
    "C113_modes",
    "C113_physical_partial"
   ],
   "note": "Forward problems with vacuum boundaries and a block of all groups: F x = k A x exactly for the k-modes. Refuted with default input: the operator A has the groups from the material's upscatter cutoff on while F always has all, so F reads behind the vector whenever the cutoff is not 0. Refuted for adjoint problems: F works on group 0 only and leaves the rest of the output as it was. Reflective boundaries are not covered. The solve is proved for all groups (cutoff 0), forward problems and vacuum boundaries, for any eigensolver that finds a pair."
  },
  {
   "property": "C114",
   "status": "partial",
   "theorems": [
    "C114_steady_partial",
    "C114_default_refuted",
    "C114_3d_refuted",
    "C114_spectrum_refuted"
   ],
   "note": "Refuted for the default relaxation (uninitialised), in three dimensions and for fission that misses a group. Proved for one and two dimensions, forward or one group, materials that fission in all groups with one spectrum or not at all, and a relaxation that is set. Missing: the adjoint of several groups, several spectra."
  },
  {
   "property": "C115",
   "status": "partial",
   "theorems": [
    "C115_moment",
    "C115_emission",
    "C115_direction_partial",
    "C115_linear_partial",
    "C115_pulsed_partial",
    "C115_direction_refuted",
    "C115_nested_refuted",
    "C115_unset_refuted"
   ],
   "note": "Moments, totals and time dependence proved. Refuted for directional parts with the default flag and for time-dependent parts of time-dependent sources."
  },
  {
   "property": "C116",
   "status": "partial",
   "theorems": [
    "C116_solve",
    "C116_flux",
    "C116_eigen_partial",
    "C116_late_source_refuted",
    "C116_stale_solver_refuted",
    "C116_moc_refuted",
    "C116_eigen_refuted"
   ],
   "note": "For every call sequence, a successful solve runs the solver of the last successful set_solver since the last setup, on the current state and fission source, with the method named and the sources given up to that set_solver. Refuted: a source given after set_solver is ignored although solve succeeds; when set_solver fails for an unsupported outer solver a later solve still runs the old one and returns true; the MOC equations are accepted by setup but no solver can be built; an eigenvalue solve with an unsupported outer solver returns true although no transport solve can run."
  },
  {
   "property": "C117",
   "status": "partial",
   "theorems": [
    "C117_fixed_refuted",
    "C117_source_partial",
    "C117_strength_refuted",
    "C117_eigen_partial"
   ],
   "note": "The source is built as described and eigenvalue problems run the eigensolver named. Refuted: for every input that is not an eigenvalue problem the driver never builds a solver, so the state keeps the initial flux; without source_strength the constant source is undefined instead of one."
  },
  {
   "property": "C118",
   "status": "partial",
   "theorems": [
    "C118_mesh_1d",
    "C118_mesh_1d_fine",
    "C118_mesh_2d_partial",
    "C118_mesh_3d_partial",
    "C118_mesh_2d_refuted",
    "C118_mesh_3d_refuted",
    "C118_mesh_fine_refuted"
   ],
   "note": "Right in one dimension, in two dimensions with equally many coarse cells along x and y, in three dimensions with the same counts along all axes. Refuted: other two-dimensional inputs are rejected and the y edges are never checked (undefined behaviour), in three dimensions the y and z counts are used for x and y, fine edges are never accepted in two and three dimensions."
  },
  {
   "property": "C119",
   "status": "partial",
   "theorems": [
    "C119_input",
    "C119_material_partial",
    "C119_fission_refuted",
    "C119_sections_refuted",
    "C119_documented_refuted"
   ],
   "note": "Input lines and material lines are proved for all files. Refuted: the mesh and source lines and the nu_sigma_f lines of the documented example are discarded without error; C119_material_partial covers all cross sections except nu_sigma_f."
  },
  {
   "property": "C12",
   "status": "proved",
   "theorems": [
    "C12_apply",
    "C12_linear",
    "C12_diagonal"
   ],
   "note": "For assembled matrices whose diagonal is stored once."
  },
  {
   "property": "C120",
   "status": "partial",
   "theorems": [
    "C120_mesh_partial",
    "C120_geometry_partial",
    "C120_geometry_values_partial",
    "C120_default_map",
    "C120_coolwarm_map",
    "C120_interpolated_maps",
    "C120_interpolated_colours",
    "C120_uniform_refuted",
    "C120_tall_refuted",
    "C120_tall_geometry_refuted",
    "C120_wide_refuted",
    "C120_missing_cell_refuted",
    "C120_mirrored_refuted"
   ],
   "note": "Proved for square meshes and geometries; refuted when width and height differ (row stride is the number of rows), for uniform positive values (0/0), at the default resolution and for the orientation. The colour map RANDOM is not modelled."
  },
  {
   "property": "C121",
   "status": "partial",
   "theorems": [
    "C121_named_partial",
    "C121_unknown",
    "C121_polar",
    "C121_product_partial",
    "C121_normalized",
    "C121_user_partial",
    "C121_base",
    "C121_tg_refuted",
    "C121_product_refuted",
    "C121_normalize_refuted",
    "C121_user_refuted"
   ],
   "note": "asqr-tg builds asqr-asdr; some combinations are missing; quad_chebyshev_normalize is not passed to products; a 1D user quadrature without quad_eta reads past the end of an empty vector."
  },
  {
   "property": "C122",
   "status": "partial",
   "theorems": [
    "C122_linear",
    "C122_linear_total_partial",
    "C122_default",
    "C122_eigen",
    "C122_eigen_total_partial",
    "C122_type_refuted"
   ],
   "note": "totality needs every given option to have the type that is read; otherwise the map iterator end() is dereferenced."
  },
  {
   "property": "C123",
   "status": "partial",
   "theorems": [
    "C123_cells",
    "C123_total",
    "C123_balance_partial",
    "C123_positive",
    "C123_spectrum",
    "C123_rod",
    "C123_rod_only",
    "C123_continuous_partial",
    "C123_doppler",
    "C123_start",
    "C123_heating",
    "C123_first_order",
    "C123_area",
    "C123_balance_refuted",
    "C123_continuous_refuted",
    "C123_reported_refuted"
   ],
   "note": "the reflector's fast group is unbalanced by 9e-15 in transport; the rod's absorption jumps by 1.7e-8 at two seconds; T() returns a vector that is never updated."
  },
  {
   "property": "C124",
   "status": "partial",
   "theorems": [
    "C124_round_trip_partial",
    "C124_diffusion_refuted",
    "C124_replace_refuted",
    "C124_replace_after_read_refuted",
    "C124_replace_material_partial",
    "C124_second_write_refuted",
    "C124_write_after_read_refuted"
   ],
   "note": "The round trip holds but for the diffusion coefficients (saved from the absorption cross section), for replacing a file while groups leaked by an earlier write or read are open, for a second object of a kind, and for writes after a read."
  },
  {
   "property": "C125",
   "status": "partial",
   "theorems": [
    "C125_constant_history",
    "C125_constant_values",
    "C125_linear_value",
    "C125_linear_history_partial",
    "C125_linear_flags_refuted"
   ],
   "note": "Proved in full for constant materials, and the values left in interpolated ones; for interpolated materials the upscatter cutoff and the downscatter flag depend on earlier updates because finalize never resets them."
  },
  {
   "property": "C126",
   "status": "partial",
   "theorems": [
    "C126_walk",
    "C126_element",
    "C126_postfix_refuted",
    "C126_postfix_last_refuted",
    "C126_plus_refuted",
    "C126_self_end_refuted"
   ],
   "note": "The walk and indexing parts are proved in full. Refuted: postfix ++ gives the next element (past the last one it is undefined), it + k moves it, and a loop against it.end() never runs its body, because these members change the object and return it."
  },
  {
   "property": "C127",
   "status": "partial",
   "theorems": [
    "C127_gs_partial",
    "C127_fs_partial",
    "C127_fs_build_partial",
    "C127_gs_materials_refuted",
    "C127_gs_fission_refuted",
    "C127_fs_fission_refuted",
    "C127_pins_refuted"
   ],
   "note": "Proved for the fixed source spectrum of all materials and the Gauss-Seidel spectrum of the first, without fission or with sigma_f equal to nu sigma_f (and k = 1 through the preconditioner). Refuted: the Gauss-Seidel spectrum of every other material is zero; fission leaves out nu and the eigenvalue; more kinds of pin cells than materials write past the table."
  },
  {
   "property": "C128",
   "status": "partial",
   "theorems": [
    "C128_flux",
    "C128_pair",
    "C128_power",
    "C128_limit",
    "C128_gauss_seidel",
    "C128_sign_refuted"
   ],
   "note": "Proved for any eigensolver that finds a pair; convergence and nonnegative fluxes for the default power method on physical fission chains, also for the whole code path with Gauss-Seidel and source iteration inside. Refuted: nonnegative fluxes for any eigensolver, since the sign of the eigenvector is never looked at."
  },
  {
   "property": "C129",
   "status": "partial",
   "theorems": [
    "C129_run",
    "C129_still",
    "C129_returned_partial",
    "C129_kept_partial",
    "C129_default_pass",
    "C129_default_refuted"
   ],
   "note": "The run and the characterisation of standing still are proved for all problems; the return of a mode where C114 holds (one and two dimensions, forward or one group, every fissile material fissions in all groups with one spectrum). Refuted with default input: the relaxation factor is read unset in the second pass. Sweep and coarse eigensolver are parameters."
  },
  {
   "property": "C13",
   "status": "proved",
   "theorems": [
    "C13_index_bijection"
   ],
   "note": ""
  },
  {
   "property": "C130",
   "status": "partial",
   "theorems": [
    "C130_run",
    "C130_solution_partial",
    "C130_limit_refuted"
   ],
   "note": "The run is proved for all problems and sweeps that give every group a flux. The solution left alone is proved where C96 holds (one and two dimensions; no fission, or keff 1 with one spectrum; forward or one group). Refuted: limit + 1 sweeps and updates are made when the tolerance is not met. Sweep and linear solver are parameters."
  },
  {
   "property": "C14",
   "status": "proved",
   "theorems": [
    "C14_mesh1D",
    "C14_mesh2D",
    "C14_mesh3D"
   ],
   "note": ""
  },
  {
   "property": "C15",
   "status": "partial",
   "theorems": [
    "C15_offset_mesh_refuted",
    "C15_find_cell_partial"
   ],
   "note": "As stated it fails for a mesh whose first edge is not zero; proved for coordinates measured from the lower corner."
  },
  {
   "property": "C16",
   "status": "partial",
   "theorems": [
    "C16_rectangular_refuted",
    "C16_tall_pin_refuted",
    "C16_assembly_partial",
    "C16_core_partial"
   ],
   "note": "Proved for square arrays of square pins/assemblies; a rectangular array is laid out wrongly and a pin with more y than x cells overruns a vector."
  },
  {
   "property": "C17",
   "status": "proved",
   "theorems": [
    "C17_contains_is_set",
    "C17_set_algebra",
    "C17_region_contains",
    "C17_intersections_complete",
    "C17_intersections_ordered"
   ],
   "note": ""
  },
  {
   "property": "C18",
   "status": "partial",
   "theorems": [
    "C18_tangent_refuted",
    "C18_small_coefficients_refuted",
    "C18_ray_surface_partial"
   ],
   "note": "Proved when the ray is not tangent and the leading coefficient is zero or at least 1e-13; a tangent ray and a surface with tiny coefficients give no points."
  },
  {
   "property": "C19",
   "status": "partial",
   "theorems": [
    "C19_reverse_twice_refuted",
    "C19_reverse_once_partial",
    "C19_reverse_twice_ends_partial"
   ],
   "note": "One reverse and the end points of a double reverse are proved; the segment order of a double reverse stays reversed."
  },
  {
   "property": "C20",
   "status": "proved",
   "theorems": [
    "C20_bounds_complete_and_attained"
   ],
   "note": ""
  },
  {
   "property": "C21",
   "status": "partial",
   "theorems": [
    "C21_cutoff_refuted",
    "C21_downscatter_refuted",
    "C21_refinalize_partial"
   ],
   "note": "The cutoff and the downscatter flag keep old values; bounds and nu*sigma_f are functions of the cross sections, and so is the cutoff whenever upscatter is present."
  },
  {
   "property": "C22",
   "status": "proved",
   "theorems": [
    "C22_sigma_a_balance",
    "C22_diff_coef"
   ],
   "note": ""
  },
  {
   "property": "C23",
   "status": "proved",
   "theorems": [
    "C23_cutoff"
   ],
   "note": ""
  },
  {
   "property": "C24",
   "status": "proved",
   "theorems": [
    "C24_octants_partition",
    "C24_side_octants",
    "C24_adjoint_history",
    "C24_adjoint_tables"
   ],
   "note": "any dimension 1-3, any stored positive cosines, any history of set_adjoint"
  },
  {
   "property": "C25",
   "status": "proved",
   "theorems": [
    "C25_angle_index",
    "C25_product_angle",
    "C25_product_angle_onto"
   ],
   "note": ""
  },
  {
   "property": "C26",
   "status": "proved",
   "theorems": [
    "C26_moment_index"
   ],
   "note": "any Legendre order, dimensions 1-3"
  },
  {
   "property": "C27",
   "status": "partial",
   "theorems": [
    "C27_simpson_refuted",
    "C27_simpson_partial",
    "C27_uniform_weights",
    "C27_uniform_points",
    "C27_uniform_cosine_weights"
   ],
   "note": "the composite Simpson rule leaves the last weight zero when the number of points is 2 modulo 3, so its weights do not sum to b-a (1/2 instead of 1 for two points); proved for every other number of points, and for the uniform rules"
  },
  {
   "property": "C28",
   "status": "proved",
   "theorems": [
    "C28_product_weights",
    "C28_product_on_sphere",
    "C28_product_verified",
    "C28_uniform_equal",
    "C28_user_on_sphere"
   ],
   "note": "any base rules with nonzero weight sum; also UniformEqual and UserQuadrature"
  },
  {
   "property": "C29",
   "status": "proved",
   "theorems": [
    "C29_get_last_put",
    "C29_check_iff_held",
    "C29_size_counts_keys"
   ],
   "note": "For all put histories over the six typed maps."
  },
  {
   "property": "C30",
   "status": "proved",
   "theorems": [
    "C30_first_registration_wins"
   ],
   "note": "For all registration histories; also characterises the returned flags."
  },
  {
   "property": "C31",
   "status": "partial",
   "theorems": [
    "C31_random_refuted",
    "C31_random_partial"
   ],
   "note": "The default generator overflows a signed long on its second draw (undefined in C++). Under two's complement wrapping, every draw is in [0,1) and equals g^n S mod 2^m, m <= 53."
  },
  {
   "property": "C32",
   "status": "proved",
   "theorems": [
    "C32_range_enumerates",
    "C32_linspace",
    "C32_linspace_center"
   ],
   "note": "linspace needs n >= 2 to reach b."
  },
  {
   "property": "C33",
   "status": "partial",
   "theorems": [
    "C33_residual_L1",
    "C33_residual_L2",
    "C33_residual_Linf",
    "C33_norm_L1_L2",
    "C33_norm_Linf_refuted",
    "C33_norm_Linf_partial"
   ],
   "note": "norm(x,\"Linf\") starts from the signed x[0]: wrong for a dominating negative first element. Everything else proved."
  },
  {
   "property": "C34",
   "status": "proved",
   "theorems": [
    "C34_unique_distinct_sorted"
   ],
   "note": "For any sort satisfying the std::sort guarantee."
  },
  {
   "property": "C35",
   "status": "proved",
   "theorems": [
    "C35_reflective_update",
    "C35_octant_tables",
    "C35_mirror_unique",
    "C35_mirror_involution"
   ],
   "note": "Whole-boundary update with any mix of vacuum, reflective and fixed sides; single-angle update in C36_angle_update_partial."
  },
  {
   "property": "C36",
   "status": "partial",
   "theorems": [
    "C36_group_update_refuted",
    "C36_group_update_keeps_incident",
    "C36_angle_update_partial"
   ],
   "note": "Periodic::update(g) writes an outgoing octant of the opposite side, so no incident flux ever changes; the per-angle update used inside a sweep is correct."
  },
  {
   "property": "C37",
   "status": "proved",
   "theorems": [
    "C37_psi_round_trip",
    "C37_psi_buffer_size",
    "C37_initial_shape"
   ],
   "note": "Also: the number of values equals the sum of boundary_flux_size/2 that the operators allocate."
  },
  {
   "property": "C38",
   "status": "proved",
   "theorems": [
    "C38_diamond_1d",
    "C38_diamond_2d",
    "C38_diamond_3d"
   ],
   "note": "Cell solve equals the unique solution of balance and diamond relations; exact real arithmetic."
  },
  {
   "property": "C39",
   "status": "proved",
   "theorems": [
    "C39_step_balance_1d",
    "C39_step_balance_2d",
    "C39_step_nonneg_1d",
    "C39_step_nonneg_2d",
    "C39_characteristic_balance_1d",
    "C39_characteristic_balance_2d",
    "C39_characteristic_nonneg_1d",
    "C39_characteristic_nonneg_2d",
    "C39_characteristic_exact_1d",
    "C39_segment_balance",
    "C39_segment_nonneg",
    "C39_segment_exact",
    "C39_segment_accumulation",
    "C39_line_flux_exists",
    "C39_line_flux_unique"
   ],
   "note": "Exact real arithmetic; the characteristic schemes need a positive total cross section (they divide by it)."
  },
  {
   "property": "C40",
   "status": "proved",
   "theorems": [
    "C40_sweep_1d",
    "C40_sweep_2d",
    "C40_sweep_3d",
    "C40_balance_1d",
    "C40_balance_2d",
    "C40_balance_3d",
    "C40_unique_1d",
    "C40_unique_2d",
    "C40_unique_3d",
    "C40_nonneg_1d",
    "C40_nonneg_2d",
    "C40_full_sweep_1d",
    "C40_full_sweep_2d",
    "C40_full_sweep_3d",
    "C40_face_tables"
   ],
   "note": "Meshes with fewer than 2^32 cells along x (index wrap of unsigned sums is modelled); characteristic schemes without voids."
  },
  {
   "property": "C41",
   "status": "partial",
   "theorems": [
    "C41_shared_flux_refuted",
    "C41_threads_2d_partial",
    "C41_one_thread_partial"
   ],
   "note": "Proved for 2-D; false for 1-D and 3-D, where threads add to the shared scalar flux without synchronisation (a lost update is exhibited)."
  },
  {
   "property": "C42",
   "status": "partial",
   "theorems": [
    "C42_all_groups",
    "C42_cutoff_partial",
    "C42_cutoff_refuted",
    "C42_negative_refuted"
   ],
   "note": "Within-group plus in-scatter is the full sum for finalized materials without negative scattering, forward and adjoint. With a cutoff the range of groups counts backwards when the cutoff lies outside the bounds of the group, so transfers are counted twice (refuted with a witness); holds when the cutoff lies between the bounds. Negative transfers are dropped by the bounds (refuted with a witness)."
  },
  {
   "property": "C43",
   "status": "proved",
   "theorems": [
    "C43_paths",
    "C43_parts",
    "C43_linear",
    "C43_initial_density"
   ],
   "note": ""
  },
  {
   "property": "C44",
   "status": "proved",
   "theorems": [
    "C44_octant_order"
   ],
   "note": "Default orders only; prescribed orders are C75."
  },
  {
   "property": "C45",
   "status": "partial",
   "theorems": [
    "C45_partition_partial",
    "C45_map_partial",
    "C45_width_partial",
    "C45_level_refuted"
   ],
   "note": "Refuted: when the remainder n mod level exceeds the number of coarse cells (11 cells at level 4, or 2 cells at level 3) the constructor writes past the end of the vector of coarse cell sizes. Missing from the partial theorems: those levels. For all other levels the coarse cells partition the fine cells, edges and flags agree with the fine mesh, and the cell map is the product of the axis maps."
  },
  {
   "property": "C46",
   "status": "partial",
   "theorems": [
    "C46_rates_partial",
    "C46_spectrum_partial",
    "C46_spectrum_refuted",
    "C46_spectrum_lost_refuted",
    "C46_flux_partial",
    "C46_flux_refuted",
    "C46_window_refuted"
   ],
   "note": "Rates are reproduced when every group is collapsed (offset 0), for regions with positive total rate and non-zero flux. Refuted: the production weight is overwritten in the loop over groups so only the last group counts; the spectrum is dropped in groups without fission; the coarse flux of a collapsed group is an average; with a group window the weights are read by position, so from the wrong groups. Missing: regions without reactions."
  },
  {
   "property": "C47",
   "status": "partial",
   "theorems": [
    "C47_clear_scale_refuted",
    "C47_clear_scale_partial",
    "C47_clear_zeroth_partial",
    "C47_scale_zeroth_partial"
   ],
   "note": "clear and scale only touch the first number_cells entries of each moments vector: refuted for more than one moment; holds for one moment, and for the zeroth moments and the angular flux in general."
  },
  {
   "property": "C48",
   "status": "proved",
   "theorems": [
    "C48_exact",
    "C48_unsupported"
   ],
   "note": "Exact real arithmetic; orders 1 to 6, any other order reads outside the table."
  },
  {
   "property": "C49",
   "status": "partial",
   "theorems": [
    "C49_fission_refuted",
    "C49_velocity_refuted",
    "C49_source_partial",
    "C49_source_range_partial",
    "C49_material_partial"
   ],
   "note": "Holds for external sources and for every cross section, spectrum and delayed fraction that the material interpolates. Refuted for nu*sigma_f (finalize multiplies the interpolants, so it can exceed both table values) and for velocities and decay constants (always those of the first table)."
  },
  {
   "property": "C50",
   "status": "proved",
   "theorems": [
    "C50_elimination",
    "C50_elimination_angle",
    "C50_steady",
    "C50_angle_integral",
    "C50_material",
    "C50_multiphysics"
   ],
   "note": "Cellwise balance with arbitrary leakage and other sources; exact arithmetic, positive velocities, decay constants and step."
  },
  {
   "property": "C51",
   "status": "proved",
   "theorems": [
    "C51_history",
    "C51_sources_read",
    "C51_precursors_read",
    "C51_fixed_point",
    "C51_number_steps",
    "C51_number_steps_cap"
   ],
   "note": "Pointer rotation over a heap refines the multistep recurrence for any step function that reads at most order slots; the synthetic sources and the precursor update are shown to be such."
  },
  {
   "property": "C52",
   "status": "proved",
   "theorems": [
    "C52_inverts"
   ],
   "note": "Every basis with columns orthogonal for its weights, after compute_a: inverse then transform is the identity, transform then inverse is the orthogonal projection (best approximation for non-negative weights) and the identity when size = order + 1."
  },
  {
   "property": "C53",
   "status": "partial",
   "theorems": [
    "C53_partial",
    "C53_discrete",
    "C53_refuted"
   ],
   "note": "Without weights, for any independent vectors: orthonormal, and the first k columns span what the first k inputs span; always the case for positive x over DLP, DCT and DCP. Refuted when weights are given: Gram-Schmidt ignores them and the final scaling does not, so the result is orthonormal in neither inner product."
  },
  {
   "property": "C54",
   "status": "partial",
   "theorems": [
    "C54_dlp",
    "C54_dcp",
    "C54_clp",
    "C54_chebyshev_partial",
    "C54_chebyshev_refuted"
   ],
   "note": "DLP (sizes up to 32767, where its 32-bit products cannot overflow), DCP and CLP give the discrete and continuous Legendre polynomials for all orders. ChebyshevU is right up to degree 8 and wrong for every larger order: its recursion lacks the factor x."
  },
  {
   "property": "C55",
   "status": "proved",
   "theorems": [
    "C55_operator",
    "C55_symmetric",
    "C55_signs",
    "C55_reflecting",
    "C55_within_group",
    "C55_within_group_definite",
    "C55_within_group_positive"
   ],
   "note": "For every mesh, material with positive diffusion coefficients and completed scattering bounds, and any std::sort. C55_operator gives the product with every vector: leakage by currents obeying Fick's law with half-cell continuity inside and the albedo law outside, plus total minus scattering minus fission, and the global balance. Signs for matrices without fission and with positive removal. Exact real arithmetic."
  },
  {
   "property": "C56",
   "status": "proved",
   "theorems": [
    "C56_gain",
    "C56_adjoint"
   ],
   "note": "Every mesh and material."
  },
  {
   "property": "C57",
   "status": "proved",
   "theorems": [
    "C57_current",
    "C57_balance"
   ],
   "note": "Unit relaxation (first build or alpha = 1) and positive fluxes; holds with and without the correction, for the first and every later construct() on the same problem. The matrix applied to the flux gives tallied net leakage plus reactions in every cell and group."
  },
  {
   "property": "C58",
   "status": "proved",
   "theorems": [
    "C58_iterates",
    "C58_no_iterations",
    "C58_ratio",
    "C58_production",
    "C58_fixed",
    "C58_residual",
    "C58_operator",
    "C58_gauss_seidel"
   ],
   "note": "Stated for every multigroup solver that never fails (mg_solver); C58_operator gives the matrix for source-free vacuum problems solved exactly, C58_gauss_seidel shows Gauss-Seidel over source iteration is such a solver without upscatter and self-scatter. With a zero iteration limit the code reads an uninitialised error (C58_no_iterations)."
  },
  {
   "property": "C59",
   "status": "proved",
   "theorems": [
    "C59_iterates",
    "C59_no_iterations"
   ],
   "note": "Every well-posed group solve succeeds; the record `iterated` states the solver's whole history: starts from the state's flux and the fixed boundary fluxes, each iterate solves the transport equation with the scattering source of the one before, at most the limit of sweeps, stops as soon as two iterates agree, and an early stop means the last two differ by less than the tolerance in every cell."
  },
  {
   "property": "C60",
   "status": "partial",
   "theorems": [
    "C60_region_power",
    "C60_edit_sum",
    "C60_edit_mean_partial",
    "C60_edit_mean_refuted"
   ],
   "note": "Powers and integral edits are proved for all meshes, maps and fluxes. Refuted: the mean edit divides by cell rather than by region, so a region met twice among the first cells is divided twice and one not met is left undivided. The partial theorem assumes each region occurs exactly once among the first cells."
  },
  {
   "property": "C61",
   "status": "partial",
   "theorems": [
    "C61_range_insert_partial",
    "C61_range_insert_refuted"
   ],
   "note": "When the source row's first stored column in the range is exactly b, that column is inserted as well."
  },
  {
   "property": "C62",
   "status": "partial",
   "theorems": [
    "C62_vec_max_refuted",
    "C62_vec_max_partial",
    "C62_vec_min"
   ],
   "note": "vec_max starts at numeric_limits<double>::min(), a positive number: wrong for all-negative vectors."
  },
  {
   "property": "C63",
   "status": "proved",
   "theorems": [
    "C63_soft_equiv_relative",
    "C63_soft_equiv_refl",
    "C63_soft_equiv_field"
   ],
   "note": ""
  },
  {
   "property": "C64",
   "status": "partial",
   "theorems": [
    "C64_relative_residual_Linf_refuted",
    "C64_relative_residual_L1_partial"
   ],
   "note": "The Linf branch does not divide the first difference."
  },
  {
   "property": "C65",
   "status": "partial",
   "theorems": [
    "C65_check_licenses_get_refuted",
    "C65_check_licenses_get_partial"
   ],
   "note": "check looks in all six maps, get<T> dereferences find() in one: undefined if the key is held with another type. The partial theorem says exactly when get is defined."
  },
  {
   "property": "C66",
   "status": "proved",
   "theorems": [
    "C66_find_is_cell",
    "C66_agrees_with_mesh"
   ],
   "note": ""
  },
  {
   "property": "C67",
   "status": "partial",
   "theorems": [
    "C67_translated_box_refuted",
    "C67_translated_contains_partial"
   ],
   "note": "The box is moved the opposite way; only the moved membership is proved."
  },
  {
   "property": "C68",
   "status": "partial",
   "theorems": [
    "C68_bounding_box_partial",
    "C68_graze_refuted"
   ],
   "note": "Exact for all rays, including those parallel to axes (infinite reciprocals, IEEE rules), except rays running in a face x = const of the box: zero times infinity makes both bounds NaN and the ray is rejected."
  },
  {
   "property": "C69",
   "status": "partial",
   "theorems": [
    "C69_normalize_refuted",
    "C69_normalize_partial",
    "C69_swept_volume",
    "C69_untouched_region"
   ],
   "note": "A track and its reverse share segments, which are scaled twice; proved when no two tracks share segments. Volumes are the track lengths times widths, averaged over angles."
  },
  {
   "property": "C70",
   "status": "partial",
   "theorems": [
    "C70_macrobody_refuted",
    "C70_macrobody_partial"
   ],
   "note": "Only the last surface decides; proved for one surface."
  },
  {
   "property": "C71",
   "status": "partial",
   "theorems": [
    "C71_set_downscatter_refuted",
    "C71_set_downscatter_partial"
   ],
   "note": "Setting the adjoint flag also sets the forward one."
  },
  {
   "property": "C72",
   "status": "proved",
   "theorems": [
    "C72_incident_bijection",
    "C72_outgoing_bijection",
    "C72_order",
    "C72_azimuth_order",
    "C72_azimuth_cosines"
   ],
   "note": ""
  },
  {
   "property": "C73",
   "status": "proved",
   "theorems": [
    "C73_double_rule"
   ],
   "note": "the half rule (Newton iteration of Gauss-Legendre) is arbitrary"
  },
  {
   "property": "C74",
   "status": "proved",
   "theorems": [
    "C74_fixed_incident_flux",
    "C74_clear_group"
   ],
   "note": ""
  },
  {
   "property": "C75",
   "status": "partial",
   "theorems": [
    "C75_user_order_refuted",
    "C75_user_order_taken_partial",
    "C75_user_order_length_partial"
   ],
   "note": "Only the length is checked: [0,0,1,2] is accepted."
  },
  {
   "property": "C76",
   "status": "proved",
   "theorems": [
    "C76_complete_source"
   ],
   "note": "Materials with negative scattering are excluded (see C42)."
  },
  {
   "property": "C77",
   "status": "partial",
   "theorems": [
    "C77_norms",
    "C77_residual",
    "C77_dot",
    "C77_relative_partial",
    "C77_relative_refuted",
    "C77_norm_kind_refuted"
   ],
   "note": "L1, L2, LINF proved; L1REL and L2REL distances are scale invariant; refuted: LINFREL is an absolute distance, and norm() answers 0 for the relative kinds."
  },
  {
   "property": "C78",
   "status": "proved",
   "theorems": [
    "C78_ilut_inverts"
   ],
   "note": "The factorisation of PCILUT (dropping rules) is not modelled."
  },
  {
   "property": "C79",
   "status": "partial",
   "theorems": [
    "C79_direct_partial",
    "C79_refuted"
   ],
   "note": "Refuted: the side read from the database is never stored, so the preconditioner is built but not applied; set_preconditioner works."
  },
  {
   "property": "C80",
   "status": "proved",
   "theorems": [
    "C80_true_residual",
    "C80_minimal",
    "C80_terminates",
    "C80_matrix_linear"
   ],
   "note": "Exact arithmetic; operator given by its action, linear and injective together with the preconditioners; atol > 0, rtol <= 1, limit at least three."
  },
  {
   "property": "C81",
   "status": "proved",
   "theorems": [
    "C81_midpoint",
    "C81_precursors",
    "C81_rows",
    "C81_angular",
    "C81_scalar"
   ],
   "note": "Exact arithmetic."
  },
  {
   "property": "C82",
   "status": "proved",
   "theorems": [
    "C82_adjoint"
   ],
   "note": "Forward operator from group 0, adjoint from the last group."
  },
  {
   "property": "C83",
   "status": "partial",
   "theorems": [
    "C83_loss_refuted",
    "C83_within_group_refuted",
    "C83_cmfd_refuted",
    "C83_gain_partial",
    "C57_balance"
   ],
   "note": "Refuted: DiffusionLossOperator and WGDiffusionLossOperator construct() insert into storage released by assemble() (undefined behaviour for every operator); CMFDLossOperator silently drops a scattering coupling absent from the previous build. Proved: DiffusionGainOperator rebuilds with any material of the same group count, CMFD rebuilds with the same pattern (C57_balance)."
  },
  {
   "property": "C84",
   "status": "partial",
   "theorems": [
    "C84_discrete_partial",
    "C84_jacobi_partial",
    "C84_clp_partial",
    "C84_clp_refuted",
    "C84_weights_refuted",
    "C84_ddf_refuted"
   ],
   "note": "Proved for DLP, DCT, DCP without weights, Jacobi01 with an exact quadrature, CLP on intervals of length 2. Refuted for CLP on other intervals (result scaled by half the length), for user weights on the discrete bases, and for DDF, whose inverse dereferences a null pointer. ChebyshevU is not covered."
  },
  {
   "property": "C85",
   "status": "partial",
   "theorems": [
    "C85_fold_partial",
    "C85_overloads_partial",
    "C85_unfold_refuted",
    "C85_inverse_refuted"
   ],
   "note": "fold agrees with transform, and the std::vector forms and the shared-pointer transform agree with the reference forms. Refuted for unfold (undefined behaviour, exception or zero) and for the shared-pointer inverse (arguments swapped)."
  },
  {
   "property": "C86",
   "status": "proved",
   "theorems": [
    "C86_one_solution",
    "C86_error_max",
    "C86_error_energy",
    "C86_stops"
   ],
   "note": "For boundaries that return nothing; reflective and periodic sides are outside the statement."
  },
  {
   "property": "C87",
   "status": "proved",
   "theorems": [
    "C87_order",
    "C87_solution",
    "C87_groups",
    "C87_decoupled"
   ],
   "note": "C87_order holds for every within-group solver that changes only its own group; C87_solution is for source iteration. The last part is for materials finalised once after being filled (no downscatter override)."
  },
  {
   "property": "C88",
   "status": "proved",
   "theorems": [
    "C88_converges",
    "C88_any_operator"
   ],
   "note": "C88_any_operator is the same for any solver acting as a matrix that connects the fissile cells. Solvers with upscatter or within-group scatter are exact only in the limit, so for them the operator is not exactly linear and the theorem does not apply."
  },
  {
   "property": "C89",
   "status": "proved",
   "theorems": [
    "C89_multiply",
    "C89_pairs"
   ],
   "note": "The multigroup solver is assumed exact (C58_gauss_seidel gives an instance)."
  },
  {
   "property": "C90",
   "status": "partial",
   "theorems": [
    "C90_refuted",
    "C90_system_partial",
    "C90_directed",
    "C90_linear_partial"
   ],
   "note": "Refuted: WGTransportOperator::multiply does not switch off the sources given per direction, so they enter the linear system twice; C90_refuted gives a one-cell problem whose linear system is solved by twice the right flux. C90_directed says exactly what the system means in general (the problem with directional sources doubled). C90_system_partial and C90_linear_partial are the full claim for problems without directional sources. Not covered: reflective boundaries, where boundary fluxes join the unknowns."
  },
  {
   "property": "C91",
   "status": "partial",
   "theorems": [
    "C91_system_partial",
    "C91_complete",
    "C91_refuted"
   ],
   "note": "Proved on boundaries without reflection whenever the scattering band of every group of the block reaches down to the cutoff (forward and adjoint, any cutoff). Refuted in general: if a group of the block takes scattering only from groups beyond the cutoff, range(lower, cutoff) runs backwards and the flux the state holds for that group enters the right hand side, so the true solution no longer solves the system. Missing: reflective boundaries, whose fluxes are part of the unknowns."
  },
  {
   "property": "C92",
   "status": "proved",
   "theorems": [
    "C92_harmonics",
    "C92_legendre",
    "C92_azimuth",
    "C92_addition",
    "C92_unsupported",
    "C92_matrix",
    "C92_kernel",
    "C92_orthogonal",
    "C92_levels",
    "C92_slab_matrix",
    "C92_slab_orthogonal"
   ],
   "note": "Constants of the table are the decimals written in the source, hence tolerances of 1e-13 and 1e-14. The two factors of m and -m agree to 1e-14 only, because the source rounds the (3,2) and (3,-2) constants differently."
  },
  {
   "property": "C93",
   "status": "proved",
   "theorems": [
    "C93_sets",
    "C93_degree",
    "C93_weights"
   ],
   "note": "Tables are the decimals written in the source; the finite table is checked by computation in integers inside the kernel, the extension to all monomials is proved."
  },
  {
   "property": "C94",
   "status": "proved",
   "theorems": [
    "C94_integrals",
    "C94_circle",
    "C94_tabuchi",
    "C94_tri_gauss",
    "C94_double_range",
    "C94_quadruple_range"
   ],
   "note": "An odd size of the double-range rule leaves a zero-weight direction in the middle and an odd triangle-Gauss size writes outside the table; both are outside the claim."
  },
  {
   "property": "C95",
   "status": "partial",
   "theorems": [
    "C95_currents_1d_partial",
    "C95_balance_1d_partial",
    "C95_currents_2d_partial",
    "C95_balance_2d_partial",
    "C95_nothing_3d_partial",
    "C95_balance_3d_refuted",
    "C95_one_cell_refuted"
   ],
   "note": "Proved in one and two dimensions with at least two cells along each axis. Refuted in three dimensions (Sweeper3D never calls the tally, every current stays zero) and for meshes with one cell along an axis (coarse edge index -1)."
  },
  {
   "property": "C96",
   "status": "partial",
   "theorems": [
    "C96_residual_partial",
    "C96_fixed_point_partial",
    "C96_keff_refuted",
    "C96_adjoint_refuted",
    "C96_3d_refuted"
   ],
   "note": "Proved in one and two dimensions for data with conserving homogenisation (forward or one group; no fission, or keff 1 with one spectrum). Refuted for keff other than 1, for the adjoint of two groups, and in three dimensions. The linear solver is a parameter."
  },
  {
   "property": "C97",
   "status": "partial",
   "theorems": [
    "C97_uniform_partial",
    "C97_best_fit_partial",
    "C97_fine_fits_partial",
    "C97_rectangular_refuted",
    "C97_offset_refuted",
    "C97_thin_refuted",
    "C97_wide_refuted"
   ],
   "note": "Proved for square, centred pins, with the exact condition on the rounded counts for the best fit; refuted for rectangular pitch, offset pins, thin and wide pins."
  },
  {
   "property": "C98",
   "status": "partial",
   "theorems": [
    "C98_pin_partial",
    "C98_mesh_agrees_partial",
    "C98_assembly_partial",
    "C98_height_refuted",
    "C98_large_refuted",
    "C98_offset_refuted"
   ],
   "note": "Proved for centred pins (flat and inside the cell for the points outside and for assemblies); refuted for cells with height, large pins and divided off-centre pins."
  },
  {
   "property": "C99",
   "status": "partial",
   "theorems": [
    "C99_segments_partial",
    "C99_mesh_partial",
    "C99_pin_refuted",
    "C99_assembly_refuted"
   ],
   "note": "Proved for all geometries meeting the stated conditions and for all two-dimensional meshes; refuted for pin cells a track crosses beside the pin and for assemblies."
  }
 ]
}