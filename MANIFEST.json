{
 "claims": [
  {
   "property": "C01",
   "status": "proved",
   "theorems": [
    "mesh_accepted_iff",
    "layout_chain_complete",
    "layout_meshes_use_all_processes",
    "transpose_uses_its_own_communicator"
   ],
   "note": ""
  },
  {
   "property": "C02",
   "status": "proved",
   "theorems": [
    "change_layout_reaches_target",
    "require_grid_space_reaches_grid",
    "require_coeff_space_reaches_coeff",
    "require_local_reaches_local"
   ],
   "note": ""
  },
  {
   "property": "C03",
   "status": "proved",
   "theorems": [
    "block_distribution_partitions",
    "block_distribution_whole_chunks",
    "block_distribution_overflow_refuted"
   ],
   "note": ""
  },
  {
   "property": "C04",
   "status": "proved",
   "theorems": [
    "slabs_tile_global_array",
    "slices_select_owned_elements"
   ],
   "note": ""
  },
  {
   "property": "C05",
   "status": "proved",
   "theorems": [
    "allgather_after_load",
    "gather_after_load",
    "remesh_preserves_data"
   ],
   "note": ""
  },
  {
   "property": "C06",
   "status": "proved",
   "theorems": [
    "transpose_to_columns",
    "transpose_to_rows",
    "transpose_round_trip",
    "transpose_counts_match",
    "fftw_blocks_are_layout_blocks",
    "mpi_blocks_are_layout_blocks",
    "mpi_blocks_chunked_refuted",
    "mpi_plan_constructed_refuted"
   ],
   "note": ""
  },
  {
   "property": "C07",
   "status": "proved",
   "theorems": [
    "increment_group_is_pointwise",
    "decrement_group_is_pointwise",
    "decrement_group_label_refuted"
   ],
   "note": ""
  },
  {
   "property": "C08",
   "status": "proved",
   "theorems": [
    "complex_fft_forward",
    "complex_fft_backward",
    "complex_fft_round_trip"
   ],
   "note": ""
  },
  {
   "property": "C09",
   "status": "proved",
   "theorems": [
    "real_fft_forward",
    "real_fft_backward",
    "real_fft_round_trip"
   ],
   "note": ""
  },
  {
   "property": "C10",
   "status": "proved",
   "theorems": [
    "halfcomplex_forward",
    "halfcomplex_backward",
    "halfcomplex_degenerate_refuted"
   ],
   "note": ""
  },
  {
   "property": "C100",
   "status": "proved",
   "theorems": [
    "disk_low_orders",
    "disk_resolved",
    "disk_shifted",
    "disk_unresolved_refuted",
    "disk_sine_part_refuted",
    "disk_truncation_exact",
    "disk_truncation_refuted",
    "disk_unmatched",
    "disk_complex_product",
    "disk_complex_unresolved"
   ],
   "note": "disk_truncation_exact and disk_truncation_refuted: the matrices are not padded, so entries are those of the product only away from the last modes. disk_shifted: what the code does for all functions. disk_unresolved_refuted: from the order 2 on, a mode of the function that the order does not have appears as a spurious sine part and couples cosines and sines. disk_sine_part_refuted: for orders with at most half of the modes the sine part has no effect. disk_complex_product and disk_complex_unresolved: for complex fields, modes of the function that the order does not have are left out."
  },
  {
   "property": "C101",
   "status": "proved",
   "theorems": [
    "ball_real_product",
    "ball_complex_product",
    "ball_unmatched",
    "ball_padding_exact"
   ],
   "note": "ball_padding_exact: the padding loses nothing if the matrices have the stated bandwidths. Contrast with C100: the flattening of coefficients on disks is not used in balls."
  },
  {
   "property": "C11",
   "status": "proved",
   "theorems": [
    "chebyshev_forward",
    "chebyshev_backward",
    "chebyshev_round_trip",
    "chebyshev_forward_degenerate_refuted",
    "chebyshev_backward_degenerate_refuted"
   ],
   "note": "Chebyshev (a=b=-1/2) fast transform without basis conversion; DCT kernels as their defining sums."
  },
  {
   "property": "C12",
   "status": "proved",
   "theorems": [
    "complex_mmt_forward",
    "complex_mmt_backward",
    "complex_mmt_round_trip",
    "real_mmt_forward",
    "real_mmt_backward",
    "real_mmt_round_trip",
    "real_mmt_odd_refuted"
   ],
   "note": "Real matrices cannot be built for odd M >= 3 (shape mismatch)."
  },
  {
   "property": "C13",
   "status": "proved",
   "theorems": [
    "multistep_order"
   ],
   "note": "Exact real arithmetic; CNAB1, SBDF1, CNAB2, MCNAB2, SBDF2, CNLF2, SBDF3, SBDF4."
  },
  {
   "property": "C14",
   "status": "proved",
   "theorems": [
    "multistep_equation",
    "multistep_step_succeeds"
   ],
   "note": ""
  },
  {
   "property": "C15",
   "status": "proved",
   "theorems": [
    "rk_tableaus",
    "RKSMR_explicit_third_order",
    "RKSMR_third_order_refuted"
   ],
   "note": "Order conditions stated over all coloured rooted trees up to the order."
  },
  {
   "property": "C16",
   "status": "proved",
   "theorems": [
    "rk_stage_equations",
    "rk_time_advances",
    "rk_step_succeeds"
   ],
   "note": ""
  },
  {
   "property": "C17",
   "status": "proved",
   "theorems": [
    "multistep_lhs_current",
    "rk_lhs_current"
   ],
   "note": ""
  },
  {
   "property": "C18",
   "status": "proved",
   "theorems": [
    "row_ordering_permutation",
    "column_ordering_permutation",
    "positions_number_dofs"
   ],
   "note": ""
  },
  {
   "property": "C19",
   "status": "proved",
   "theorems": [
    "gather_after_scatter",
    "scatter_after_gather",
    "subsystem_modes_partition",
    "subsystem_views_disjoint"
   ],
   "note": "Disjointness and covering for Cartesian domains (one basis per axis); the round trips for any views."
  },
  {
   "property": "C20",
   "status": "proved",
   "theorems": [
    "compressed_vectors",
    "compressed_rows",
    "compressed_matrices",
    "pencil_solution_set",
    "pencil_square",
    "preconditioners_pseudoinverse",
    "build_succeeds"
   ],
   "note": ""
  },
  {
   "property": "C21",
   "status": "proved",
   "theorems": [
    "iteration_output",
    "wall_output",
    "sim_output_at_most_once",
    "sim_output_each_target",
    "sim_output_ties_refuted",
    "cadences_independent",
    "handlers_independent",
    "time_cadence_without_time",
    "no_cadence_no_output"
   ],
   "note": "Rational times; floating point rounding not modelled."
  },
  {
   "property": "C22",
   "status": "proved",
   "theorems": [
    "run_files",
    "full_set_frozen",
    "append_keeps_files",
    "append_runs_consecutive",
    "overwrite_restarts",
    "zero_max_writes_raises"
   ],
   "note": "File system and HDF5 operations as atomic steps in program order; one process writes."
  },
  {
   "property": "C23",
   "status": "proved",
   "theorems": [
    "append_after_crash",
    "append_value_error",
    "append_key_error"
   ],
   "note": ""
  },
  {
   "property": "C24",
   "status": "proved",
   "theorems": [
    "merge_complete",
    "merge_keeps_original",
    "merge_after_crash_refuted",
    "merge_after_move",
    "merge_handler_files_refuted",
    "merge_analysis_stops",
    "merge_distributed_refuted"
   ],
   "note": "HDF5 and file system calls atomic; hash function arbitrary."
  },
  {
   "property": "C25",
   "status": "proved",
   "theorems": [
    "each_write_visited_once",
    "one_call_per_set",
    "visit_loads",
    "each_set_assigned_once",
    "assigned_sets_balanced"
   ],
   "note": "The rounding of sum/size in floating point is taken exact."
  },
  {
   "property": "C26",
   "status": "proved",
   "theorems": [
    "oscillation",
    "evaluator_sweep",
    "evaluator_completes",
    "deep_nesting_refuted"
   ],
   "note": "Operators are pure functions; outputs are in the layout of the operands; the limit of ten passes is the code's."
  },
  {
   "property": "C27",
   "status": "proved",
   "theorems": [
    "evaluation_value",
    "evaluation_succeeds",
    "attempts_compute_once",
    "abandoned_attempt_refuted",
    "reused_number_refuted"
   ],
   "note": ""
  },
  {
   "property": "C28",
   "status": "proved",
   "theorems": [
    "cached_function_value",
    "cached_function_value_other",
    "computed_once",
    "cache_size",
    "tuple_arguments_refuted",
    "max_size_refuted",
    "max_size_zero_refuted",
    "missing_argument_refuted",
    "unknown_keyword_refuted"
   ],
   "note": "Equal keys are equal values: Python's 1 == 1.0 == True is not modelled."
  },
  {
   "property": "C29",
   "status": "proved",
   "theorems": [
    "cached_method_value",
    "overridden_method_value",
    "super_cached_method_refuted",
    "cached_attribute_value",
    "stale_attribute_refuted",
    "cached_class_objects",
    "cached_class_succeeds",
    "collected_during_lookup_refuted"
   ],
   "note": ""
  },
  {
   "property": "C30",
   "status": "proved",
   "theorems": [
    "dispatch_instance",
    "dispatch_errors",
    "dispatch_order",
    "dispatch_skip_order_refuted",
    "dispatch_skip",
    "distinct_kinds",
    "differentiate_dispatch"
   ],
   "note": ""
  },
  {
   "property": "C31",
   "status": "proved",
   "theorems": [
    "domain_accepted",
    "domain_contents",
    "domain_order",
    "domain_idempotent",
    "domain_combination",
    "domain_get_basis",
    "domain_axis_values",
    "domain_substitute",
    "shared_coordinate_refuted",
    "same_axis_order_refuted"
   ],
   "note": ""
  },
  {
   "property": "C32",
   "status": "proved",
   "theorems": [
    "random_elements_value",
    "random_element_value",
    "random_positions",
    "random_array_slice",
    "fill_random_local",
    "fill_random_mesh_independent",
    "fill_random_division_refuted",
    "random_chunk_zero"
   ],
   "note": ""
  },
  {
   "property": "C33",
   "status": "proved",
   "theorems": [
    "split_equation_sides",
    "split_equation_errors",
    "split_equation_join",
    "split_equation_literal_refuted",
    "split_call_join",
    "lambdify_call",
    "lambdify_name",
    "split_call_nested_refuted"
   ],
   "note": ""
  },
  {
   "property": "C34",
   "status": "proved",
   "theorems": [
    "split_value",
    "split_second_without",
    "split_first_with",
    "split_returns",
    "split_returns_refuted",
    "split_nothing_refuted"
   ],
   "note": ""
  },
  {
   "property": "C35",
   "status": "proved",
   "theorems": [
    "linear_sound",
    "affine_sound",
    "independent_sound",
    "independent_spec",
    "first_order_spec"
   ],
   "note": ""
  },
  {
   "property": "C36",
   "status": "proved",
   "theorems": [
    "frechet_is_derivative",
    "frechet_linear",
    "frechet_overlap_refuted"
   ],
   "note": ""
  },
  {
   "property": "C37",
   "status": "proved",
   "theorems": [
    "function_derivative",
    "power_derivative",
    "derivatives_listed"
   ],
   "note": ""
  },
  {
   "property": "C38",
   "status": "proved",
   "theorems": [
    "replace_variable_value",
    "replace_variable_removes",
    "replace_operator_value",
    "replace_operator_removes",
    "replace_nested_refuted",
    "replace_nested_raises"
   ],
   "note": ""
  },
  {
   "property": "C39",
   "status": "proved",
   "theorems": [
    "sum_value",
    "sum_of_list_value",
    "product_value",
    "negation_value",
    "difference_value",
    "power_value",
    "sum_drops_zero",
    "sum_folds_numbers",
    "product_drops_one",
    "product_with_zero",
    "product_folds_numbers",
    "power_shortcuts",
    "operands_combine"
   ],
   "note": ""
  },
  {
   "property": "C40",
   "status": "proved",
   "theorems": [
    "cfl_within_bounds",
    "cfl_changes",
    "cfl_holds",
    "cfl_limit",
    "cfl_initial_refuted",
    "cfl_infinite_refuted"
   ],
   "note": "Exact real arithmetic with infinities and not-a-number; rounding not modelled."
  },
  {
   "property": "C41",
   "status": "proved",
   "theorems": [
    "proceed_limits",
    "step_advances",
    "step_refuses",
    "loop_ends_iterations",
    "loop_ends_time",
    "loop_ends_refuted",
    "loop_history",
    "evolve_needs_limit",
    "evolve_returns",
    "evolve_returns_refuted",
    "evolve_raises",
    "load_restores",
    "load_returns",
    "load_atomic_refuted"
   ],
   "note": "Any wall clock, any user step function."
  },
  {
   "property": "C42",
   "status": "proved",
   "theorems": [
    "enforcement_iterations",
    "enforcement_count",
    "enforcement_extremes",
    "enforcement_restart_refuted"
   ],
   "note": ""
  },
  {
   "property": "C43",
   "status": "proved",
   "theorems": [
    "sparse_apply_value",
    "dense_apply_value",
    "sparse_apply_axis_refuted"
   ],
   "note": "Entries of any field (reals and complex numbers are instances); contiguous arrays."
  },
  {
   "property": "C44",
   "status": "proved",
   "theorems": [
    "upper_solve_value",
    "upper_solve_unique",
    "upper_solve_returned_refuted",
    "upper_solve_output",
    "upper_solve_stored_zero_refuted"
   ],
   "note": ""
  },
  {
   "property": "C45",
   "status": "proved",
   "theorems": [
    "woodbury_solves",
    "woodbury_base",
    "woodbury_succeeds",
    "woodbury_rank_refuted",
    "woodbury_named_refuted",
    "plain_named"
   ],
   "note": ""
  },
  {
   "property": "C46",
   "status": "proved",
   "theorems": [
    "banded_value",
    "banded_solves",
    "banded_unused_column",
    "banded_first_column_refuted",
    "superlu_solves"
   ],
   "note": ""
  },
  {
   "property": "C47",
   "status": "proved",
   "theorems": [
    "clenshaw_scalar",
    "clenshaw_matrix",
    "clenshaw_kronecker",
    "clenshaw_jacobi_scalar",
    "clenshaw_jacobi",
    "clenshaw_jacobi_excess"
   ],
   "note": "Exact arithmetic in any field."
  },
  {
   "property": "C48",
   "status": "proved",
   "theorems": [
    "complex_product",
    "complex_product_constant",
    "complex_product_single_refuted",
    "complex_product_permuted_refuted",
    "real_product",
    "real_product_constant",
    "real_product_constant_refuted",
    "real_product_single_refuted",
    "real_product_permuted_refuted",
    "complex_ncc",
    "real_ncc"
   ],
   "note": "Exact arithmetic. The refuted theorems are cases in which the code stops or gives another matrix: modes in the permuted order of azimuthal bases, bases with one wavenumber, and constants times nonconstant real modes."
  },
  {
   "property": "C49",
   "status": "proved",
   "theorems": [
    "complex_basis_wavenumbers",
    "real_basis_wavenumbers",
    "complex_differentiation",
    "real_differentiation",
    "complex_interpolated",
    "real_interpolated",
    "interpolation_names",
    "complex_integrated",
    "complex_averaged",
    "real_integrated",
    "real_averaged",
    "complex_constants",
    "real_constants",
    "integration_groups"
   ],
   "note": "Exact real and complex arithmetic.  The Hilbert transform is not modelled."
  },
  {
   "property": "C50",
   "status": "proved",
   "theorems": [
    "jacobi_A",
    "jacobi_B",
    "jacobi_C",
    "jacobi_D",
    "jacobi_parity",
    "jacobi_B_classical_refuted",
    "jacobi_adjoint",
    "jacobi_Z",
    "jacobi_matrix_value",
    "polynomials_value",
    "polynomials_init",
    "polynomials_classical_refuted",
    "conversion_value",
    "conversion_errors",
    "differentiation_value",
    "integration_value"
   ],
   "note": "Exact real arithmetic; the mass is any function with the ratios of the beta function, the Gauss-Legendre quadrature is exact by hypothesis.  That polynomials are orthonormal for the weight is not stated (only the symmetry of the Jacobi matrix)."
  },
  {
   "property": "C51",
   "status": "proved",
   "theorems": [
    "cov_exists",
    "cov_points",
    "cov_inverse",
    "cov_stretch",
    "cov_inside",
    "cov_degenerate_refuted",
    "fourier_grid"
   ],
   "note": "Exact real arithmetic."
  },
  {
   "property": "C52",
   "status": "proved",
   "theorems": [
    "plus_defined",
    "plus_value",
    "plus_idem",
    "plus_none",
    "plus_comm",
    "plus_comm_refuted",
    "plus_assoc",
    "sum_order",
    "sum_bounds",
    "times_none",
    "times_comm",
    "times_defined",
    "times_value",
    "times_square",
    "times_assoc",
    "times_shell",
    "times_shell_radial",
    "times_resolution_refuted",
    "times_assoc_refuted",
    "matmul_value",
    "matmul_defined",
    "convert_sum",
    "convert_shape_refuted",
    "convert_sphere_refuted",
    "convert_jacobi_size_refuted",
    "product_bases_value"
   ],
   "note": "Bases of one kind. The refuted theorems are cases in which the code departs from the laws: radial bases of different data types, shells times radial bases of larger size, and conversions between bases of different resolutions, which are skipped, missing or of the wrong size."
  },
  {
   "property": "C53",
   "status": "proved",
   "theorems": [
    "coordsys_eq",
    "coordsys_eq_complete",
    "coordsys_eq_refuted",
    "direct_product_accepted",
    "direct_product_repeat_refuted",
    "coordsys_by_axis",
    "coordsys_by_axis_refuted"
   ],
   "note": ""
  },
  {
   "property": "C54",
   "status": "proved",
   "theorems": [
    "complex_forward_components",
    "complex_backward_components",
    "real_forward_components",
    "real_backward_components",
    "complex_round_trip",
    "complex_round_trip_back",
    "real_round_trip",
    "real_round_trip_back",
    "spin_norm",
    "coordinate_norm",
    "spin_matrix_components",
    "spin_matrix_keeps_cache",
    "spin_matrix_cache_refuted",
    "U_forward_orders"
   ],
   "note": "Exact arithmetic; direct products are not nested. The refuted theorem: making the recombination matrix changes the cached factors of a tensor with an index that has no angular coordinates, and later real transforms raise."
  },
  {
   "property": "C55",
   "status": "proved",
   "theorems": [
    "regularity_rows",
    "regularity_columns",
    "regularity_entries",
    "regularity_tests",
    "regularity_there_and_back",
    "regularity_back_and_there",
    "regularity_forward",
    "regularity_backward",
    "regularity_cases",
    "xi_normalised"
   ],
   "note": "Exact arithmetic; tensors over the spherical coordinates; slices of different degrees do not overlap."
  },
  {
   "property": "C56",
   "status": "proved",
   "theorems": [
    "dot_accepts",
    "dot_refuses",
    "cross_accepts",
    "dot_contracts",
    "dot_dimensions",
    "multiply_components",
    "cross_components",
    "dot_coefficients",
    "multiply_coefficients",
    "cross_coefficients",
    "coefficients_transform",
    "product_matrix",
    "dot_matrix",
    "multiply_matrix",
    "cross_matrix",
    "mode_matrix_entries"
   ],
   "note": "Exact arithmetic; the operands have at most 25 indices together. Matrices are those of Cartesian domains, from the product matrices of the axes and the modes of the coefficient field. An index equal to the rank fails with IndexError rather than ValueError; one-dimensional indices are broadcast."
  },
  {
   "property": "C57",
   "status": "proved",
   "theorems": [
    "ghosts_complete",
    "subcommunicator"
   ],
   "note": "For every mesh, process and history of operands; MPI calls match in order. The reuse of the receive buffer is not modelled."
  },
  {
   "property": "C58",
   "status": "proved",
   "theorems": [
    "global_max_value",
    "global_min_value",
    "global_mean_value",
    "global_empty",
    "volume_integral_value",
    "data_norm_value",
    "data_max_value",
    "initial_time_refuted"
   ],
   "note": ""
  },
  {
   "property": "C59",
   "status": "proved",
   "theorems": [
    "codomain_value",
    "codomain_compose",
    "codomain_compose_refuted",
    "codomain_assoc",
    "codomain_inverse",
    "codomain_multiples",
    "codomain_positive_multiple_refuted",
    "codomain_or",
    "arrow_algebra",
    "operator_product",
    "operator_sum",
    "operator_multiple",
    "operator_transpose",
    "operator_power"
   ],
   "note": "Exact real arithmetic."
  },
  {
   "property": "C60",
   "status": "proved",
   "theorems": [
    "index_bounds",
    "index_onto",
    "index_injective",
    "index_order",
    "index_unknown",
    "index_eleven_refuted",
    "index2tuple_refuted",
    "index2tuple_inverse"
   ],
   "note": "For index sets of two to ten different numbers; the code uses two or three. index2tuple raises NameError for all arguments, because its module does not import numpy; with the import it is the inverse."
  },
  {
   "property": "C61",
   "status": "proved",
   "theorems": [
    "rotation_in_order",
    "rotation_exclusive",
    "rotation_completes",
    "sync_enters_together",
    "sync_leaves_together",
    "sync_completes",
    "mkdir_before_use",
    "mkdir_completes",
    "rotation_with_collective_refuted",
    "sync_flags_refuted"
   ],
   "note": "For every schedule and number of processes. The guarded blocks do not communicate: the two counterexamples show that a block with a barrier of its own is not exclusive, and that flags differing between processes hang."
  },
  {
   "property": "C62",
   "status": "proved",
   "theorems": [
    "solver_sees_the_field",
    "placed_taken",
    "detached_gather_refuted",
    "detached_scatter_refuted"
   ],
   "note": "One field, any layouts, transforms and subproblems. The last two theorems are the case outside the proviso."
  },
  {
   "property": "C63",
   "status": "proved",
   "theorems": [
    "newton_step",
    "newton_affine",
    "newton_affine_once",
    "sparse_eigs_sound",
    "sparse_eigs_complete",
    "sparse_eigs_left_sound",
    "sparse_eigs_nearest",
    "right_eigenvectors_value",
    "left_eigenvectors_value",
    "eigenvectors_biorthonormal",
    "set_state_value",
    "lbvp_solution",
    "lbvp_rebuild",
    "lbvp_unselected",
    "lbvp_grid_refuted"
   ],
   "note": "Exact linear algebra libraries are hypotheses, stated for invertible matrices."
  },
  {
   "property": "C64",
   "status": "proved",
   "theorems": [
    "change_scales_keeps_matching_axes"
   ],
   "note": ""
  },
  {
   "property": "C65",
   "status": "proved",
   "theorems": [
    "set_global_data_scalar",
    "set_global_data_vector_refuted"
   ],
   "note": ""
  },
  {
   "property": "C66",
   "status": "proved",
   "theorems": [
    "ivp_matrices_value",
    "ivp_given_field_refuted",
    "evp_matrices_value"
   ],
   "note": ""
  },
  {
   "property": "C67",
   "status": "proved",
   "theorems": [
    "apply_positions",
    "array_entries",
    "identity_acts",
    "metric_acts",
    "transpose_acts",
    "transpose_rank_refuted",
    "trace_acts",
    "left_product_acts",
    "right_product_acts"
   ],
   "note": "Integer entries."
  },
  {
   "property": "C68",
   "status": "proved",
   "theorems": [
    "jacobi_convert",
    "jacobi_convert_errors",
    "jacobi_differentiate",
    "jacobi_interpolate",
    "jacobi_interpolate_errors",
    "jacobi_integrate",
    "jacobi_average",
    "jacobi_fundamental",
    "jacobi_constants",
    "jacobi_lift",
    "lift_past_the_end_refuted",
    "jacobi_subproblem"
   ],
   "note": "For all real parameters above -1 and all sizes. Exact real arithmetic; the mass of the weight and Gauss-Legendre quadrature are oracles with stated rules."
  },
  {
   "property": "C69",
   "status": "proved",
   "theorems": [
    "coefficients_unique",
    "jacobi_ncc",
    "jacobi_product",
    "jacobi_ncc_errors",
    "jacobi_constant_operand",
    "component_block",
    "component_block_errors",
    "jacobi_ncc_larger_refuted"
   ],
   "note": "For all sizes, parameters and cutoffs, exact real arithmetic. The last theorem is the case of a larger coefficient basis, which is outside the positive theorem."
  },
  {
   "property": "C70",
   "status": "proved",
   "theorems": [
    "lhs_matrices",
    "solver_coupling_right",
    "curl_operand_refuted"
   ],
   "note": "For all expressions, any field of numbers and any discretisation whose operators respect their declared coupling. The last theorem is the refused case: a derived operator applied to a Cartesian curl."
  },
  {
   "property": "C71",
   "status": "proved",
   "theorems": [
    "component_matrix_selects",
    "component_evaluation",
    "component_evaluation_refuted",
    "component_evaluation_raises",
    "component_negative_refuted",
    "direct_components",
    "skew_turns",
    "trace_sums",
    "transposition",
    "transposition_errors",
    "transposition_negative_refuted",
    "spins_complex",
    "spins_real",
    "spins_real_refuted"
   ],
   "note": "For all signatures, ranks, indices and shapes, over any field. The theorems ending in _refuted and _raises are the cases where the code departs from the operation it names."
  },
  {
   "property": "C72",
   "status": "proved",
   "theorems": [
    "sphere_resolutions",
    "sphere_modes_stored",
    "sphere_elements",
    "sphere_packed",
    "sphere_pieces",
    "sphere_order_rows",
    "sphere_order_table",
    "sphere_forward",
    "sphere_backward",
    "sphere_overresolved_refuted",
    "sphere_negative_orders_refuted",
    "sphere_coarse_grid_refuted"
   ],
   "note": "The values of harmonics and the quadrature weights are arbitrary. Azimuthal resolutions above twice the colatitudinal one make the transforms raise, and coarse grids leave unresolved degrees that are not zero: the theorems ending in _refuted."
  },
  {
   "property": "C73",
   "status": "proved",
   "theorems": [
    "ell_table",
    "ell_table_usual",
    "ell_table_refuted",
    "ell_operator",
    "ell_operator_refuted",
    "regularity_forward",
    "regularity_backward",
    "regularity_round_trips",
    "regularity_refuted",
    "ball_radial"
   ],
   "note": "The condition under which slices by degree hold other degrees is exact: ell_table and ell_table_refuted. Matrices are arbitrary, for the round trips orthogonal."
  },
  {
   "property": "C74",
   "status": "proved",
   "theorems": [
    "sphere_gradient",
    "sphere_divergence",
    "sphere_laplacian",
    "sphere_laplacian_scalar",
    "sphere_divergence_gradient",
    "sphere_adjoint",
    "sphere_curvature",
    "sphere_scalar_symmetric",
    "sphere_matrix",
    "sphere_matrices",
    "sphere_average",
    "sphere_average_scalar",
    "sphere_average_vector_refuted"
   ],
   "note": "Real arithmetic; that the ladder factors are derivatives of harmonics is C83 and C84. Averages of vectors raise: sphere_average_vector_refuted."
  },
  {
   "property": "C75",
   "status": "proved",
   "theorems": [
    "ball_values",
    "ball_D_plus",
    "ball_D_minus",
    "ball_laplacian",
    "ball_conversion",
    "ball_multiplication",
    "ball_R_plus",
    "ball_R_minus",
    "ball_E_minus",
    "disk_values",
    "disk_D",
    "disk_laplacian",
    "disk_conversion",
    "disk_multiplication",
    "ball_factors",
    "shell_values",
    "shell_D_degree",
    "shell_laplacian",
    "annulus_D",
    "annulus_laplacian",
    "shell_conversion",
    "shell_jacobi",
    "shell_radius",
    "shell_native",
    "shell_conversion_refuted",
    "shell_factors"
   ],
   "note": "Real arithmetic; masses of weights by their recurrences. Square matrices of conversion in shells drop the highest power: shell_conversion_refuted."
  },
  {
   "property": "C76",
   "status": "proved",
   "theorems": [
    "spherical_gradient",
    "spherical_divergence",
    "spherical_curl",
    "spherical_laplacian",
    "spherical_div_grad",
    "spherical_curl_grad",
    "spherical_div_curl",
    "spherical_curl_curl",
    "spherical_real",
    "spherical_subproblems",
    "spherical_curl_real_subproblem"
   ],
   "note": "Real arithmetic. At one azimuthal order and degree; the loop over orders and degrees is C73. That regularity components of harmonics combine to tensor fields, and what that makes of these operators, is C85. The real matrix of a curl is for one degree and one pair of azimuthal elements, which is what subproblems have; with coupled degrees the code of that matrix is not usable."
  },
  {
   "property": "C77",
   "status": "proved",
   "theorems": [
    "polar_gradient",
    "polar_divergence",
    "polar_laplacian",
    "polar_div_grad",
    "polar_div_skew_grad",
    "polar_real",
    "polar_real_skew",
    "polar_subproblems",
    "polar_empty"
   ],
   "note": "Real arithmetic. At one azimuthal order. Skews are along the first index; skews along any index are C71. That spin components combine to tensor fields is C54."
  },
  {
   "property": "C78",
   "status": "proved",
   "theorems": [
    "gauss_of_exact",
    "jacobi_transforms",
    "jacobi_dealias_before",
    "jacobi_dealias_after",
    "disk_transforms",
    "ball_transforms",
    "ball_forbidden",
    "disk_round_trip_refuted",
    "shell_forward_exact",
    "shell_transforms"
   ],
   "note": "Real arithmetic. That the points are Gauss points (discrete orthonormality below twice their number, strictly inside) is a hypothesis: the points come from scipy and Newton steps. One line of data and one component; the loops over orders and degrees and the recombinations are other claims. disk_round_trip_refuted: on a disk with as many points as coefficients one coefficient of spin +1 at odd orders does not survive a round trip."
  },
  {
   "property": "C79",
   "status": "proved",
   "theorems": [
    "polar_resolutions",
    "polar_modes_stored",
    "polar_elements",
    "polar_order_table",
    "polar_overresolved_refuted",
    "polar_resolved",
    "polar_disk_backward",
    "polar_disk_forward",
    "polar_disk_round_trip",
    "polar_scalar_round_trip",
    "disk_top_order_refuted",
    "polar_annulus_round_trip"
   ],
   "note": "Two azimuthal points are excluded: then the azimuthal transform leaves a row unset. Real arithmetic; Gauss points as in C78. polar_overresolved_refuted: a process with an order whose first degree is past the last one cannot make the table, although the basis only warns. disk_top_order_refuted: order 2 Nr - 1 has a stored, valid coefficient that transforms skip. The recombination of spins is another claim."
  },
  {
   "property": "C80",
   "status": "proved",
   "theorems": [
    "disk_integral_value",
    "disk_field_integral",
    "annulus_integral_value",
    "annulus_field_integral",
    "shell_integral_value",
    "shell_field_integral",
    "ball_integral_value",
    "ball_field_integral",
    "polar_first_row",
    "spherical_first_row",
    "annulus_large_power_refuted",
    "shell_large_power_refuted"
   ],
   "note": "Gauss points and weights are arguments, assumed exact up to degree 2 n - 1. The angular functions of balls and shells are arguments, integrable, 1/sqrt 2 for degree zero, and orthogonal to that for others of order zero. Fields are real; polar_first_row and spherical_first_row hold for complex data too. annulus_large_power_refuted and shell_large_power_refuted: with level 2 on annuli and level 3 on shells the matrix is not exact."
  },
  {
   "property": "C81",
   "status": "proved",
   "theorems": [
    "azimuthal_average_value",
    "usually_aligned",
    "azimuthal_average_refuted",
    "polar_average_value",
    "spherical_average_value",
    "sphere_average_value",
    "sphere_tensor_average_refuted",
    "sphere_azimuthal_mean",
    "spherical_azimuthal_mean",
    "polar_azimuthal_mean",
    "sphere_mean",
    "ball_shell_mean"
   ],
   "note": "The coefficient theorems hold for real and complex data, the statements about functions for real data. azimuthal_average_refuted: if columns are not dealt out alike, the first process raises. sphere_tensor_average_refuted: tensors on spheres raise, as the slices for rows and columns are applied to components."
  },
  {
   "property": "C82",
   "status": "proved",
   "theorems": [
    "disk_interpolation_value",
    "annulus_interpolation_value",
    "disk_interpolation_field",
    "annulus_interpolation_field",
    "ball_interpolation_value",
    "shell_interpolation_value",
    "ball_interpolation_field",
    "shell_interpolation_field",
    "lift_defined",
    "lift_function",
    "disk_lift_last",
    "disk_lift_second_refuted",
    "edge_radius",
    "new_disk_edge",
    "inner_edge_refuted",
    "disk_edge_refuted"
   ],
   "note": "Positions are positive; in a ball or shell the table of degrees must not be straddled (C73). The statements about functions are for scalars of real data; spin components of disks and annuli are before the recombination to coordinates. disk_lift_second_refuted: a lift to the second last place raises at the largest order if there are four azimuthal points per radial one. inner_edge_refuted and disk_edge_refuted: circles are shared, so their radius is that of the last new request."
  },
  {
   "property": "C83",
   "status": "proved",
   "theorems": [
    "polynomials_orthonormal",
    "gauss_natural",
    "harmonics_values",
    "harmonics_orthonormal",
    "harmonics_conjugate",
    "harmonics_raised",
    "harmonics_lowered",
    "colatitude_values",
    "colatitude_round_trip",
    "colatitude_interpolated",
    "colatitude_coefficients",
    "interpolation_high_spin_refuted"
   ],
   "note": "The Gauss points and weights are those of a rule exact below twice its number of points, and the mass follows the rules of the beta function (both from scipy). One spin component and real numbers; recombination of spins is C54. As in C72, at most twice as many azimuths as colatitudes. interpolation_high_spin_refuted: with a spin above every degree, interpolation raises, transforms do not."
  },
  {
   "property": "C84",
   "status": "proved",
   "theorems": [
    "parts_components",
    "parts_components_tensor",
    "sphere_gradient_calculus",
    "sphere_scalar_gradient",
    "sphere_vector_gradient",
    "sphere_divergence_calculus",
    "sphere_vector_divergence",
    "sphere_laplacian_calculus",
    "sphere_scalar_laplacian"
   ],
   "note": "Derivatives are those of Coquelicot, in azimuth and colatitude, of the sums of modes. The mass follows the rules of the beta function (scipy). Poles are excluded: the unit vectors are not defined there."
  },
  {
   "property": "C85",
   "status": "proved",
   "theorems": [
    "volume_gradient",
    "volume_scalar_gradient",
    "volume_vector_gradient",
    "volume_divergence",
    "volume_vector_divergence",
    "volume_curl",
    "volume_vector_curl",
    "volume_scalar_laplacian",
    "volume_div_grad",
    "volume_curl_grad",
    "volume_div_curl",
    "volume_operators"
   ],
   "note": "Derivatives are those of Coquelicot, of the sums of modes. The mass follows the rules of the beta function (scipy). Poles and the centre are excluded: the unit vectors are not defined there. The curl is that of the first index."
  },
  {
   "property": "C86",
   "status": "proved",
   "theorems": [
    "polar_parts",
    "polar_parts_tensor",
    "plane_gradient",
    "plane_scalar_gradient",
    "plane_vector_gradient",
    "plane_divergence",
    "plane_vector_divergence",
    "plane_skew",
    "plane_laplacian",
    "plane_scalar_laplacian",
    "plane_operators"
   ],
   "note": "Derivatives are those of Coquelicot, of the sums of modes. The mass follows the rules of the beta function (scipy). The centre is excluded: the unit vectors are not defined there."
  },
  {
   "property": "C87",
   "status": "proved",
   "theorems": [
    "cartesian_crossings",
    "grid_points",
    "fourier_spacing",
    "chebyshev_spacing",
    "grid_spacing",
    "chebyshev_offset_refuted",
    "azimuth_spacing_value",
    "polar_crossings",
    "polar_again",
    "azimuth_spacing_refuted",
    "sphere_crossings",
    "sphere_again",
    "volume_crossings",
    "axisymmetric_refuted",
    "product_crossings",
    "systems_add",
    "direction_below",
    "no_crossing"
   ],
   "note": "Grids have at least three points. Three refutations mark the limits: a Chebyshev velocity whose system is not on the first axes (a cylinder with the height last) raises, because elements of axis i of the system are used instead of its axis; disks, annuli and spheres with one point in azimuth raise, because differences need three points; and computing frequencies on a disk or sphere writes into the cached spacing in azimuth, so that the basis reports another spacing afterwards. Spacings by differences are shown positive between the ends of the grid, not at the ends."
  },
  {
   "property": "C88",
   "status": "proved",
   "theorems": [
    "low_pass_modes",
    "low_pass_shape",
    "low_pass_both",
    "low_pass_twice",
    "low_pass_order",
    "high_pass_modes",
    "real_low_pass",
    "complex_low_pass",
    "real_high_pass"
   ],
   "note": "For transforms along single axes that lose exactly the modes not resolved; shown of real and complex Fourier series and of Chebyshev series with two points or more (one point leaves old data, see C11). The sine of wavenumber zero counts as not resolved. Transforms of disks, spheres and balls, which couple axes, are not instantiated."
  },
  {
   "property": "C89",
   "status": "proved",
   "theorems": [
    "cosine_product",
    "product_places",
    "cosine_group_product",
    "cosine_high_spin_refuted"
   ],
   "note": "With no more than two azimuths per colatitude and spins up to the largest degree. cosine_high_spin_refuted: for components of larger spin, which have no harmonics, the matrix cannot be made and the operator raises instead of giving zero."
  },
  {
   "property": "C90",
   "status": "proved",
   "theorems": [
    "spherical_trace_value",
    "spherical_transpose_value",
    "spherical_transpose_coefficients",
    "spherical_transpose_grid",
    "regularity_parts_unique",
    "polar_trace_value",
    "spherical_spin_trace",
    "polar_spin_trace",
    "spherical_mixed",
    "spherical_transpose_negative_refuted"
   ],
   "note": "For tensors all of whose indices are over the spherical coordinates; others are rejected (spherical_mixed). spherical_transpose_negative_refuted: with the indices -2 and -1 the matrix leaves the tensor as it is."
  },
  {
   "property": "C91",
   "status": "proved",
   "theorems": [
    "radial_on_sphere",
    "angular_on_sphere",
    "components_on_circle",
    "angular_on_circle",
    "angular_on_circle_refuted",
    "radial_spins",
    "angular_spins",
    "last_index_refuted",
    "far_index_refuted",
    "high_index_raises"
   ],
   "note": "Proved for the place of an index and for its place counted from the end unless it is the last. last_index_refuted: with index -1 the signature is wrong, the matrix for a vector is zero and the evaluation fills all components. far_index_refuted: index -2 of a vector is accepted. angular_on_circle_refuted: for tensors the matrix has the wrong size."
  },
  {
   "property": "C92",
   "status": "proved",
   "theorems": [
    "locked_request",
    "stays_locked",
    "axis_locked_to_grid",
    "lock_takes_closest",
    "lock_group_refuted",
    "lock_stays",
    "locked_scales",
    "locked_set_refuted",
    "unlock_frees"
   ],
   "note": "lock_group_refuted, lock_stays: the result of Lock raises on every change of layout, also between layouts it was given, as the list of layouts is passed as one layout. locked_set_refuted: setting data in a layout ignores the lock."
  },
  {
   "property": "C93",
   "status": "proved",
   "theorems": [
    "azimuth_grid",
    "complex_azimuth",
    "real_azimuth",
    "complex_azimuth_exact",
    "real_azimuth_exact",
    "azimuth_other_grid",
    "real_azimuth_odd_refuted"
   ],
   "note": "real_azimuth_odd_refuted: with an odd number of points larger than one the matrix of the real transform cannot be built."
  },
  {
   "property": "C94",
   "status": "proved",
   "theorems": [
    "files_hold_global_data",
    "slabs_lie_in_file",
    "load_grid_data",
    "load_coefficients",
    "load_mixed_raises",
    "load_constant_refuted",
    "complete_writes_survive",
    "last_after_crash",
    "last_write_refuted"
   ],
   "note": "last_write_refuted: after a crash inside a write, loading the last write takes the new time with the old fields. load_constant_refuted: a field that is constant along an axis silently takes the first point of data with more points."
  },
  {
   "property": "C95",
   "status": "proved",
   "theorems": [
    "product_gradient_is",
    "product_divergence_is",
    "product_laplacian_is",
    "product_div_grad",
    "product_trace_is",
    "product_curl_declared",
    "product_curl_default",
    "product_curl_grad",
    "product_curl_order_refuted",
    "product_curl_dimension"
   ],
   "note": "product_curl_order_refuted: with the plane system first, which the code provides for, building a curl raises AttributeError, since the test for this order reads an attribute that operands lack."
  },
  {
   "property": "C96",
   "status": "proved",
   "theorems": [
    "shell_unique",
    "shell_ncc_product",
    "annulus_ncc_product",
    "shell_real_product",
    "annulus_real_product",
    "shell_complex_product",
    "annulus_complex_product",
    "shell_ncc_excess",
    "shell_ncc_size_refuted"
   ],
   "note": "shell_ncc_size_refuted: with an operand of twice the radial size the matrix has the size of the coefficient and is repeated along the diagonal, so products between the halves are lost without an error."
  },
  {
   "property": "C97",
   "status": "proved",
   "theorems": [
    "meridional_product"
   ],
   "note": "The matrices of the radial modes, built from products on the sphere and recombinations, are taken as given."
  },
  {
   "property": "C98",
   "status": "proved",
   "theorems": [
    "dictionary_shows",
    "file_shows",
    "right_hand_sides",
    "dictionary_persists",
    "repeated_right_hand_side_refuted",
    "dictionary_persistence_refuted"
   ],
   "note": "repeated_right_hand_side_refuted: with the same expression object as right-hand side of two equations the field of the first one is never written and stays zero. dictionary_persistence_refuted: with stored outputs an entry of a dictionary follows later evaluations of the same expression by other handlers. One transformed axis; locked fields are left out."
  },
  {
   "property": "C99",
   "status": "proved",
   "theorems": [
    "rhs_fresh",
    "rhs_fresh_without_loading",
    "rhs_fresh_restart",
    "later_stages_fresh",
    "evaluation_refreshes",
    "loading_back_stale",
    "loading_back_refuted"
   ],
   "note": "loading_back_stale and loading_back_refuted: after loading a state of an earlier iteration into a solver that has made steps, multistep schemes use the last right-hand side from before loading until the iteration is passed again."
  }
 ]
}