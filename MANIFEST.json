{
 "claims": [
  {
   "property": "C01",
   "status": "proved",
   "theorems": [
    "C01_triplet_history"
   ],
   "note": ""
  },
  {
   "property": "C02",
   "status": "proved",
   "theorems": [
    "C02_capacity",
    "C02_nzmax_never_decreases",
    "C02_insert_throws_iff",
    "C02_throw_leaves_unchanged",
    "C02_undefined_iff_out_of_range_write"
   ],
   "note": ""
  },
  {
   "property": "C03",
   "status": "proved",
   "theorems": [
    "C03_inserts_move_linearly_many",
    "C03_inserts_move_linearly_many_any_state"
   ],
   "note": ""
  },
  {
   "property": "C04",
   "status": "proved",
   "theorems": [
    "C04_dense_to_triplet",
    "C04_kept_positions",
    "C04_row_major_once_each",
    "C04_too_many_nonzeros_throws"
   ],
   "note": ""
  },
  {
   "property": "C05",
   "status": "proved",
   "theorems": [
    "C05_triplet_to_csc",
    "C05_same_matrix",
    "C05_negative_index_throws",
    "C05_large_index_enlarges"
   ],
   "note": ""
  },
  {
   "property": "C06",
   "status": "proved",
   "theorems": [
    "C06_transpose",
    "C06_same_entries_swapped",
    "C06_transposed_values",
    "C06_twice"
   ],
   "note": ""
  },
  {
   "property": "C07",
   "status": "proved",
   "theorems": [
    "C07_multiply",
    "C07_mismatch_throws"
   ],
   "note": ""
  },
  {
   "property": "C08",
   "status": "proved",
   "theorems": [
    "C08_removeDuplicates",
    "C08_idempotent"
   ],
   "note": ""
  },
  {
   "property": "C09",
   "status": "proved",
   "theorems": [
    "C09_prune"
   ],
   "note": ""
  },
  {
   "property": "C10",
   "status": "proved",
   "theorems": [
    "C10_validity_preserved",
    "C10_never_undefined",
    "C10_swap_exchanges",
    "C10_others_untouched",
    "C10_no_shared_storage",
    "C10_no_double_free",
    "C10_no_leak",
    "C10_swap_after_move_undefined"
   ],
   "note": ""
  },
  {
   "property": "C11",
   "status": "proved",
   "theorems": [
    "C11_flatten_positions",
    "C11_unflatten_positions",
    "C11_matrix_round_trip",
    "C11_array_round_trip",
    "C11_vector_full_round_trip",
    "C11_applyIndexMap"
   ],
   "note": ""
  },
  {
   "property": "C12",
   "status": "proved",
   "theorems": [
    "C12_kron_is_kronecker_of_transpose",
    "C12_kron_correct_iff",
    "C12_kron_nonsquare_writes_out_of_bounds",
    "C12_kron_documented_contract_refuted"
   ],
   "note": ""
  },
  {
   "property": "C13",
   "status": "proved",
   "theorems": [
    "C13_unique",
    "C13_unique_zero_rows_refuted"
   ],
   "note": ""
  },
  {
   "property": "C14",
   "status": "proved",
   "theorems": [
    "C14_uniquetol",
    "C14_equal_rows",
    "C14_uniquetol_nonpositive_is_unique"
   ],
   "note": ""
  },
  {
   "property": "C16",
   "status": "proved",
   "theorems": [
    "C16_reader_history",
    "C16_specification_deterministic",
    "C16_rows_in_order",
    "C16_csvread_exact"
   ],
   "note": ""
  },
  {
   "property": "C17",
   "status": "proved",
   "theorems": [
    "C17_parse_iterator",
    "C17_parse_values",
    "C17_whole_field",
    "C17_generic_conversion_ignores_rest_refuted"
   ],
   "note": ""
  },
  {
   "property": "C18",
   "status": "proved",
   "theorems": [
    "C18_blank_delimiter_round_trip",
    "C18_visible_delimiter_fails"
   ],
   "note": ""
  },
  {
   "property": "C19",
   "status": "proved",
   "theorems": [
    "C19_count_leaves_reader_at_end",
    "C19_reset_restores",
    "C19_documented_reset_refuted"
   ],
   "note": ""
  },
  {
   "property": "C20",
   "status": "proved",
   "theorems": [
    "C20_connectivity",
    "C20_neighbour_unique",
    "C20_large_meshes_overflow"
   ],
   "note": ""
  },
  {
   "property": "C21",
   "status": "proved",
   "theorems": [
    "C21_following_twice",
    "C21_opposite_directions",
    "C21_oriented_conforming",
    "C21_nonconforming_refuted"
   ],
   "note": ""
  },
  {
   "property": "C22",
   "status": "proved",
   "theorems": [
    "C22_boundary_table",
    "C22_boundary_faces"
   ],
   "note": ""
  },
  {
   "property": "C23",
   "status": "proved",
   "theorems": [
    "C23_orientation",
    "C23_clockwise_quadrilateral_crosses",
    "C23_after_reading"
   ],
   "note": ""
  },
  {
   "property": "C24",
   "status": "proved",
   "theorems": [
    "C24_read_mesh",
    "C24_vertex_columns",
    "C24_fewer_tags_out_of_range",
    "C24_wrong_header",
    "C24_other_tag_counts_refuted"
   ],
   "note": ""
  },
  {
   "property": "C25",
   "status": "proved",
   "theorems": [
    "C25_connectivity",
    "C25_size_limit",
    "C25_maps"
   ],
   "note": ""
  },
  {
   "property": "C26",
   "status": "proved",
   "theorems": [
    "C26_grid"
   ],
   "note": ""
  },
  {
   "property": "C27",
   "status": "proved",
   "theorems": [
    "C27_success",
    "C27_success_double",
    "C27_nan_residual_reported_as_success_refuted"
   ],
   "note": ""
  },
  {
   "property": "C28",
   "status": "proved",
   "theorems": [
    "C28_recording_is_transparent",
    "C28_bad_parameters",
    "C28_bounded",
    "C28_nan_tolerance_reads_uninitialised_refuted"
   ],
   "note": ""
  },
  {
   "property": "C29",
   "status": "proved",
   "theorems": [
    "C29_flags",
    "C29_failure_is_final",
    "C29_x_unchanged"
   ],
   "note": ""
  },
  {
   "property": "C30",
   "status": "proved",
   "theorems": [
    "C30_exact",
    "C30_basis"
   ],
   "note": ""
  },
  {
   "property": "C31",
   "status": "proved",
   "theorems": [
    "C31_gradient",
    "C31_chebyshev_nan"
   ],
   "note": ""
  },
  {
   "property": "C32",
   "status": "proved",
   "theorems": [
    "C32_parity",
    "C32_legendre",
    "C32_value_at_one",
    "C32_orthonormal"
   ],
   "note": ""
  },
  {
   "property": "C33",
   "status": "proved",
   "theorems": [
    "C33_one_point_weight_refuted",
    "C33_first_entry_refuted"
   ],
   "note": ""
  },
  {
   "property": "C34",
   "status": "proved",
   "theorems": [
    "C34_simplex_gradient"
   ],
   "note": "exact arithmetic, order N>=1, libraries specified by TriSetup.built; IEEE rounding not analysed"
  },
  {
   "property": "C35",
   "status": "proved",
   "theorems": [
    "C35_equilateral_map",
    "C35_collapsed_coordinates"
   ],
   "note": "exact arithmetic, order N>=1, libraries specified by TriSetup.built; IEEE rounding not analysed"
  },
  {
   "property": "C36",
   "status": "proved",
   "theorems": [
    "C36_affine_grid",
    "C36_normals",
    "C36_shared_face"
   ],
   "note": "exact arithmetic, order N>=1, libraries specified by TriSetup.built; IEEE rounding not analysed"
  },
  {
   "property": "C37",
   "status": "proved",
   "theorems": [
    "C37_gauss_maps",
    "C37_involution"
   ],
   "note": ""
  },
  {
   "property": "C38",
   "status": "proved",
   "theorems": [
    "C38_defined",
    "C38_trace_maps",
    "C38_boundary_nodes",
    "C38_involution",
    "C38_unmatched_nodes_refuted",
    "C38_quadrilateral_provisioner",
    "C38_triangle_provisioner"
   ],
   "note": ""
  },
  {
   "property": "C39",
   "status": "proved",
   "theorems": [
    "C39_one_call",
    "C39_accumulates",
    "C39_retagging_refuted",
    "C39_short_table"
   ],
   "note": ""
  },
  {
   "property": "C40",
   "status": "proved",
   "theorems": [
    "C40_quadrilateral_refuted",
    "C40_triangle_pieces",
    "C40_quad_pieces",
    "C40_tiling",
    "C40_square_tiling",
    "C40_triangle"
   ],
   "note": ""
  },
  {
   "property": "C41",
   "status": "proved",
   "theorems": [
    "C41_filter",
    "C41_cutoff_equals_order_refuted"
   ],
   "note": "triangle filter in exact arithmetic for a cutoff different from N; for cutoff = N every entry is NaN in doubles (refuted)"
  },
  {
   "property": "C42",
   "status": "proved",
   "theorems": [
    "C42_line",
    "C42_quadrilateral",
    "C42_triangle"
   ],
   "note": "Exact arithmetic. Line, triangle and quadrilateral; the dense solver is a hypothesis (solver_ok) that C61 proves for the wrapper."
  },
  {
   "property": "C43",
   "status": "proved",
   "theorems": [
    "C43_nodes_masks",
    "C43_mapping"
   ],
   "note": ""
  },
  {
   "property": "C44",
   "status": "proved",
   "theorems": [
    "C44_filter_refuted",
    "C44_interp_refuted",
    "C44_interp_point_count_refuted"
   ],
   "note": ""
  },
  {
   "property": "C45",
   "status": "proved",
   "theorems": [
    "C45_history",
    "C45_solve_needs_factorize",
    "C45_failed_factorize",
    "C45_release_once",
    "C45_copy_double_release_refuted",
    "C45_matrix_lifetime_refuted"
   ],
   "note": "All histories of any number of solver objects with arbitrary library return codes; UMFPACK's numbers are a parameter. Copying and outliving the matrix are refuted."
  },
  {
   "property": "C46",
   "status": "proved",
   "theorems": [
    "C46_builds",
    "C46_shape",
    "C46_one_sided",
    "C46_form",
    "C46_symmetric",
    "C46_bordered",
    "C46_skip",
    "C46_mass",
    "C46_mass_symmetric",
    "C46_mass_positive",
    "C46_accessors_refuted",
    "C46_untagged_boundary_refuted"
   ],
   "note": ""
  },
  {
   "property": "C47",
   "status": "proved",
   "theorems": [
    "C47_constants_in_kernel"
   ],
   "note": ""
  },
  {
   "property": "C48",
   "status": "proved",
   "theorems": [
    "C48_scheme",
    "C48_total",
    "C48_residual_irrelevant",
    "C48_constant",
    "C48_linear",
    "C48_double_coefficients",
    "C48_time_loop",
    "C48_time_loop_ends"
   ],
   "note": "Exact arithmetic for the step; coefficients also checked as doubles. The time loop is that of the advection and Burgers drivers; the right-hand side and the instability test are parameters."
  },
  {
   "property": "C49",
   "status": "proved",
   "theorems": [
    "C49_simple_scheme",
    "C49_simple_no_wall_throws",
    "C49_full_scheme",
    "C49_full_missing_tag_throws",
    "C49_single_valued",
    "C49_consistent",
    "C49_wall_impermeable",
    "C49_full_wall_impermeable",
    "C49_mass_conserved",
    "C49_still_water"
   ],
   "note": "Exact arithmetic. The Python right-hand side (same flux, plus a tracer) is not modelled beyond its source terms (C50)."
  },
  {
   "property": "C50",
   "status": "proved",
   "theorems": [
    "C50_drag_dissipates",
    "C50_drag_never_gains",
    "C50_python_drag_power",
    "C50_python_drag_refuted",
    "C50_limiter_keeps_means",
    "C50_limiter_inert",
    "C50_limiter_positivity_refuted",
    "C50_limiter_overturns_refuted",
    "C50_limiter_keeps_positive",
    "C50_minmod_values",
    "C50_minmod_refuted"
   ],
   "note": "Exact arithmetic; entrywise expressions of numpy and blitz. Findings: Python y-drag has the wrong sign; the limiter is inert when a column has a depth below 1e-3 and turns nearly dry columns over; minmod is wrong for negative and for equal arguments."
  },
  {
   "property": "C51",
   "status": "proved",
   "theorems": [
    "C51_join",
    "C51_empty"
   ],
   "note": "All strings; empty arguments are shown to be undefined."
  },
  {
   "property": "C52",
   "status": "proved",
   "theorems": [
    "C52_format",
    "C52_distinct",
    "C52_distinct_pairs",
    "C52_distinct_pairs_refuted",
    "C52_sorted",
    "C52_sorted_limit",
    "C52_fields",
    "C52_run",
    "C52_unwritable_silent"
   ],
   "note": "All names and ints; pairs collide past 9999999 (refuted); writing whole runs never overwrites up to that step; unwritable files are skipped silently."
  },
  {
   "property": "C53",
   "status": "proved",
   "theorems": [
    "C53_rules",
    "C53_double_literals",
    "C53_range",
    "C53_orders_3_4_refuted"
   ],
   "note": "Orders 1, 2, 5..28 proved for exact and for double literals; orders 3 and 4 refuted (missing commas leave the last point uninitialised); orders outside 1..28 undefined."
  },
  {
   "property": "C54",
   "status": "proved",
   "theorems": [
    "C54_cells",
    "C54_triangle_file",
    "C54_quad_file"
   ],
   "note": ""
  },
  {
   "property": "C55",
   "status": "proved",
   "theorems": [
    "C55_uniquetolMatlab",
    "C55_representative_within_tolerance_refuted"
   ],
   "note": ""
  },
  {
   "property": "C56",
   "status": "proved",
   "theorems": [
    "C56_copy_is_faithful",
    "C56_assign_is_copy",
    "C56_copy_large_undefined",
    "C56_copy_keeps_shape_refuted",
    "C56_sized_ctor_zero_refuted"
   ],
   "note": ""
  },
  {
   "property": "C57",
   "status": "proved",
   "theorems": [
    "C57_dense_to_csc",
    "C57_kept_entries",
    "C57_sorted_once_each"
   ],
   "note": ""
  },
  {
   "property": "C58",
   "status": "proved",
   "theorems": [
    "C58_segment_table",
    "C58_quadrilaterals_out_of_range",
    "C58_interior_faces_untagged_refuted"
   ],
   "note": ""
  },
  {
   "property": "C59",
   "status": "proved",
   "theorems": [
    "C59_gauss_nodes",
    "C59_gauss_exact"
   ],
   "note": ""
  },
  {
   "property": "C60",
   "status": "proved",
   "theorems": [
    "C60_symmetric",
    "C60_determined",
    "C60_gauss_lobatto"
   ],
   "note": ""
  },
  {
   "property": "C61",
   "status": "proved",
   "theorems": [
    "C61_direct_solve",
    "C61_inverse",
    "C61_cholesky",
    "C61_eigen",
    "C61_failure_throws"
   ],
   "note": ""
  },
  {
   "property": "C62",
   "status": "proved",
   "theorems": [
    "C62_unique",
    "C62_linear",
    "C62_lift_line"
   ],
   "note": ""
  },
  {
   "property": "C63",
   "status": "proved",
   "theorems": [
    "C63_full_space_converges"
   ],
   "note": ""
  },
  {
   "property": "C64",
   "status": "proved",
   "theorems": [
    "C64_orthonormal_basis"
   ],
   "note": "exact arithmetic, order N>=1, libraries specified by TriSetup.built; IEEE rounding not analysed"
  },
  {
   "property": "C65",
   "status": "proved",
   "theorems": [
    "C65_lift"
   ],
   "note": "exact arithmetic, order N>=1, libraries specified by TriSetup.built; IEEE rounding not analysed"
  },
  {
   "property": "C66",
   "status": "proved",
   "theorems": [
    "C66_weak_matrices"
   ],
   "note": "exact arithmetic, order N>=1, libraries specified by TriSetup.built; IEEE rounding not analysed"
  },
  {
   "property": "C67",
   "status": "proved",
   "theorems": [
    "C67_edge_nodes"
   ],
   "note": "exact arithmetic, order N>=1, libraries specified by TriSetup.built; IEEE rounding not analysed"
  },
  {
   "property": "C68",
   "status": "proved",
   "theorems": [
    "C68_rows",
    "C68_interpolation"
   ],
   "note": "exact arithmetic, order N>=1, libraries specified by TriSetup.built; IEEE rounding not analysed"
  },
  {
   "property": "C69",
   "status": "proved",
   "theorems": [
    "C69_gather_scatter",
    "C69_coincident"
   ],
   "note": ""
  },
  {
   "property": "C70",
   "status": "proved",
   "theorems": [
    "C70_gradient",
    "C70_metric",
    "C70_normals",
    "C70_shared_face"
   ],
   "note": ""
  },
  {
   "property": "C71",
   "status": "proved",
   "theorems": [
    "C71_lift"
   ],
   "note": ""
  },
  {
   "property": "C72",
   "status": "proved",
   "theorems": [
    "C72_weak_matrices"
   ],
   "note": ""
  },
  {
   "property": "C73",
   "status": "proved",
   "theorems": [
    "C73_vandermonde"
   ],
   "note": ""
  },
  {
   "property": "C74",
   "status": "proved",
   "theorems": [
    "C74_unix_root",
    "C74_windows_root",
    "C74_unix_root_refuted"
   ],
   "note": "Unix roots with '.exe' or a backslash are refuted."
  },
  {
   "property": "C75",
   "status": "proved",
   "theorems": [
    "C75_advection_weak_form",
    "C75_advection_mass",
    "C75_advection_energy",
    "C75_advection_energy_leftward",
    "C75_leftward_stability_refuted",
    "C75_advection_stable",
    "C75_leftward_driver_refuted"
   ],
   "note": ""
  },
  {
   "property": "C76",
   "status": "proved",
   "theorems": [
    "C76_burgers_weak_form",
    "C76_burgers_conserves"
   ],
   "note": ""
  },
  {
   "property": "C79",
   "status": "proved",
   "theorems": [
    "C79_coercive",
    "C79_semidefinite",
    "C79_kernel",
    "C79_definite",
    "C79_dirichlet_nonsingular",
    "C79_neumann_kernel",
    "C79_bordered_nonsingular"
   ],
   "note": ""
  },
  {
   "property": "C77",
   "status": "proved",
   "theorems": [
    "C77_weak_form",
    "C77_interior_penalty",
    "C77_symmetric",
    "C77_negative_definite",
    "C77_symmetric_refuted"
   ],
   "note": "Exact arithmetic. C77_weak_form for every element width; the symmetric form, symmetry and definiteness for width 2; C77_symmetric_refuted shows the missing face scale breaks symmetry for any other width (K >= 2, order >= 2)."
  },
  {
   "property": "C80",
   "status": "proved",
   "theorems": [
    "C80_nodes_always_built"
   ],
   "note": "Exact arithmetic; the solver's success on invertible matrices is a hypothesis, met by Cramer's rule in C80_witness."
  },
  {
   "property": "C78",
   "status": "proved",
   "theorems": [
    "C78_filter_in_place",
    "C78_filter_product_iff",
    "C78_product_filter_keeps_volume",
    "C78_step_keeps_volume",
    "C78_run_keeps_volume",
    "C78_time_step",
    "C78_driver_filter_refuted",
    "C78_second_order",
    "C78_sponge",
    "C78_clock",
    "C78_guard",
    "C78_output",
    "C78_all_nan_caught",
    "C78_nan_undetected_refuted"
   ],
   "note": "Volume conservation is proved for steps and whole runs with a filter cutoff above the order (identity filter); with the shipped cutoff the in-place filter statement is not a matrix product and changes the volume (C78_driver_filter_refuted). Clock drift is stated exactly (C78_clock); NaN fields are caught only when every entry is NaN (C78_nan_undetected_refuted)."
  },
  {
   "property": "C81",
   "status": "proved",
   "theorems": [
    "C81_data",
    "C81_load",
    "C81_builds",
    "C81_exact",
    "C81_solution",
    "C81_oversized"
   ],
   "note": ""
  },
  {
   "property": "C82",
   "status": "proved",
   "theorems": [
    "C82_builds",
    "C82_shape",
    "C82_padding",
    "C82_form",
    "C82_continuous",
    "C82_all_continuous",
    "C82_symmetric",
    "C82_semidefinite",
    "C82_kernel",
    "C82_bordered",
    "C82_bordered_nonsingular",
    "C82_mass",
    "C82_mass_symmetric",
    "C82_mass_definite",
    "C82_fewer",
    "C82_singular",
    "C82_repeated",
    "C82_solvable_refuted"
   ],
   "note": "Exact arithmetic; std::sort enters through its contract (is_sort). C82_singular, C82_repeated and C82_solvable_refuted record what the function gets wrong."
  },
  {
   "property": "C83",
   "status": "proved",
   "theorems": [
    "C83_depth",
    "C83_depth_floor",
    "C83_depth_too_long_refuted",
    "C83_depth_bad",
    "C83_depth_missing",
    "C83_bed_slopes",
    "C83_slopes_unfiltered",
    "C83_tags",
    "C83_scheme",
    "C83_sponge",
    "C83_sponge_bounds",
    "C83_sponge_no_open_throws",
    "C83_sponge_overflow_refuted",
    "C83_interior_side_refuted"
   ],
   "note": ""
  },
  {
   "property": "C84",
   "status": "proved",
   "theorems": [
    "C84_weak_form",
    "C84_no_wall_throws",
    "C84_exact",
    "C84_neumann_flux",
    "C84_interior_penalty_refuted",
    "C84_driver_rhs_refuted"
   ],
   "note": ""
  },
  {
   "property": "C85",
   "status": "proved",
   "theorems": [
    "C85_points",
    "C85_interpolation",
    "C85_geometry",
    "C85_quadrature",
    "C85_matching"
   ],
   "note": ""
  },
  {
   "property": "C86",
   "status": "proved",
   "theorems": [
    "C86_points",
    "C86_interpolation",
    "C86_geometry",
    "C86_quadrature",
    "C86_mass",
    "C86_definite",
    "C86_nodal",
    "C86_clockwise",
    "C86_too_few",
    "C86_too_many"
   ],
   "note": "Exact arithmetic; the solver, the inverter and the factorizer are specified as in C61. Orders 3 and 4 are excluded because their tables are wrong (C53)."
  },
  {
   "property": "C87",
   "status": "proved",
   "theorems": [
    "C87_builds",
    "C87_form",
    "C87_mass",
    "C87_natural",
    "C87_ones",
    "C87_constants_refuted",
    "C87_symmetry_refuted"
   ],
   "note": "the form the matrix represents, exactly; symmetry and the kernel of constants hold with natural sides only and are refuted otherwise (C87_symmetry_refuted, C87_constants_refuted)"
  },
  {
   "property": "C88",
   "status": "proved",
   "theorems": [
    "C88_reads",
    "C88_accepts",
    "C88_blank_lines_refuted",
    "C88_windows_value",
    "C88_extra_fields_refuted",
    "C88_settings",
    "C88_missing_file"
   ],
   "note": "std::stof and std::stoi are parameters; locale is the classic one"
  },
  {
   "property": "C89",
   "status": "proved",
   "theorems": [
    "C89_runs",
    "C89_scheme",
    "C89_consistent",
    "C89_uninitialised_refuted",
    "C89_rest_refuted",
    "C89_walls_refuted",
    "C89_filter_constants",
    "C89_free_fall_refuted",
    "C89_free_fall_runs",
    "C89_time_step_refuted",
    "C89_fast_flow_refuted",
    "C89_first_step_refuted",
    "C89_clock_refuted",
    "C89_guard",
    "C89_output",
    "C89_second_order",
    "C89_wave_bound"
   ],
   "note": "Exact arithmetic. The claims that fail are proved as refutations: uninitialised vorticity, no pressure, walls without effect, inverted time step, clock ahead of the solution."
  },
  {
   "property": "C90",
   "status": "proved",
   "theorems": [
    "C90_getters",
    "C90_gauss_sx_refuted",
    "C90_arguments",
    "C90_round_trip",
    "C90_too_large_refuted",
    "C90_transposed_refuted",
    "C90_small_items_refuted",
    "C90_wide_items_refuted",
    "C90_operator",
    "C90_vandermonde",
    "C90_vandermonde_inverse",
    "C90_vandermonde_refuted"
   ],
   "note": ""
  },
  {
   "property": "C91",
   "status": "proved",
   "theorems": [
    "C91_scheme",
    "C91_determined",
    "C91_no_wall_entry",
    "C91_conservation",
    "C91_wall",
    "C91_tracer",
    "C91_still_water",
    "C91_built",
    "C91_mass",
    "C91_still_water_built"
   ],
   "note": "Exact arithmetic. scipy.linalg.solve_triangular is an assumption (triangular_solver), met by a substitution solver in the witness. The driver loop around it is not modelled; curved element geometry itself (moved nodes) enters only through the tables."
  },
  {
   "property": "C92",
   "status": "proved",
   "theorems": [
    "C92_same_as_driver",
    "C92_uniform_concentration",
    "C92_no_wall_throws",
    "C92_scheme",
    "C92_conservation",
    "C92_still_water"
   ],
   "note": "sw2dComputeRHS as whole-array expressions over the arithmetic record; np.float is taken to exist; dry face nodes (0/0) are outside the theorems"
  },
  {
   "property": "C93",
   "status": "proved",
   "theorems": [
    "C93_only_partners",
    "C93_pairs",
    "C93_no_partner_throws",
    "C93_choice",
    "C93_succeeds",
    "C93_shared_corner_refuted",
    "C93_duplicates_refuted",
    "C93_open_sides",
    "C93_open_sides_in_strip",
    "C93_crossing_side_refuted"
   ],
   "note": "both functions on lists over the arithmetic record, with Python's IndexError, ValueError and dictionary order"
  },
  {
   "property": "C94",
   "status": "proved",
   "theorems": [
    "C94_values",
    "C94_positive",
    "C94_level_surface",
    "C94_level_bed",
    "C94_surface_raised",
    "C94_two_sides_refuted"
   ],
   "note": "entrywise model including the change of the caller's array; the function is imported by the curved driver and its only call is commented out"
  },
  {
   "property": "C95",
   "status": "proved",
   "theorems": [
    "C95_adjust",
    "C95_adjust_order",
    "C95_library_no_effect_refuted",
    "C95_off_curve_throws",
    "C95_returns",
    "C95_others_stay",
    "C95_same_sample_stays",
    "C95_follows",
    "C95_lands_on_curve",
    "C95_other_sides_stay"
   ],
   "note": "curved.py: snapping and blending; refuted: no effect with the library's own context"
  },
  {
   "property": "C96",
   "status": "proved",
   "theorems": [
    "C96_states_exist",
    "C96_output",
    "C96_boundary_load_unscaled_refuted",
    "C96_stable",
    "C96_converges",
    "C96_time_step"
   ],
   "note": "Exact arithmetic; splu is a parameter trusted to solve nonsingular systems. The finding (boundary load not scaled) is C96_boundary_load_unscaled_refuted."
  },
  {
   "property": "C97",
   "status": "proved",
   "theorems": [
    "C97_returns",
    "C97_neumann",
    "C97_balanced",
    "C97_unbalanced_refuted"
   ],
   "note": "Exact arithmetic; splu is a parameter trusted to solve nonsingular systems. C97_unbalanced_refuted records which problem is not solved."
  },
  {
   "property": "C98",
   "status": "proved",
   "theorems": [
    "C98_build_mesh",
    "C98_orientation",
    "C98_doubles",
    "C98_integer_table_refuted",
    "C98_narrow_items_refuted",
    "C98_transposed_refuted",
    "C98_documented_shape_refuted"
   ],
   "note": "buildMesh from numpy arrays: the intended use, and the four ways in which the unchecked layout goes wrong (refuted theorems)."
  },
  {
   "property": "C99",
   "status": "proved",
   "theorems": [
    "C99_vertices",
    "C99_triangles",
    "C99_quadrilaterals_refuted",
    "C99_elements_first_refuted",
    "C99_failed_read_refuted",
    "C99_sizes",
    "C99_partition",
    "C99_failure_unreported_refuted",
    "C99_stale_partition_refuted"
   ],
   "note": "Item conversion is a parameter (kind), as in C30/C71; METIS is a parameter with its contract as hypothesis. Refuted parts: quadrilateral tables, order of reads, half-way failures, unreported METIS failures, stale partition maps."
  },
  {
   "property": "C100",
   "status": "proved",
   "theorems": [
    "C100_transport",
    "C100_shift",
    "C100_linear_profile",
    "C100_local",
    "C100_mass",
    "C100_time_step",
    "C100_python_same_built",
    "C100_python_rhs",
    "C100_python_run",
    "C100_stage_time_refuted"
   ],
   "note": "Real arithmetic for the transport, locality and mass theorems; any arithmetic for the script against the C++ program, with np.dot taken to add from left to right and the instability test the same function. C100_stage_time_refuted: the stages are all evaluated at the time of the start of the step."
  },
  {
   "property": "C101",
   "status": "proved",
   "theorems": [
    "C101_scheme",
    "C101_step_runs",
    "C101_midpoint",
    "C101_keeps_water_and_tracer",
    "C101_uniform_concentration",
    "C101_still_water",
    "C101_time_step",
    "C101_still_run",
    "C101_run",
    "C101_few_steps_refuted",
    "C101_nan_caught"
   ],
   "note": "script_run, script_loop and script_rhs model sw2d.py; conservation is stated for histories of steps with water at every node, C101_run links a returned run to such a history. C101_few_steps_refuted is the failing case of the output schedule."
  },
  {
   "property": "C102",
   "status": "proved",
   "theorems": [
    "C102_drag",
    "C102_no_walls_throws",
    "C102_balance",
    "C102_start",
    "C102_rates",
    "C102_drag_accelerates_refuted",
    "C102_level_bottom",
    "C102_vorticity",
    "C102_time_step",
    "C102_deeper_water_refuted",
    "C102_run",
    "C102_last_state_lost_refuted",
    "C102_nan_caught"
   ],
   "note": "The spline, mesh deformation and periodic maps before it are C95 and C93; np.mean is summed from the left; the literal 0.1 is exact. The curved context itself is C91's."
  },
  {
   "property": "C103",
   "status": "proved",
   "theorems": [
    "C103_runs",
    "C103_scheme",
    "C103_consistent",
    "C103_midpoint",
    "C103_rest",
    "C103_rest_run",
    "C103_run",
    "C103_last_state_lost_refuted",
    "C103_nan_caught"
   ],
   "note": "General convex quadrilaterals: the scheme is collocation, so the theorems give its formula, its exactness for polynomial fluxes and the rest state. Conservation of volume is C104."
  },
  {
   "property": "C104",
   "status": "proved",
   "theorems": [
    "C104_volume",
    "C104_conservation",
    "C104_conserved",
    "C104_run_conserves"
   ],
   "note": "Walls all round, wet states (also half way through a step), exact arithmetic. At order one the claim is limited to parallelograms. Momentum and energy are not claimed."
  },
  {
   "property": "C105",
   "status": "proved",
   "theorems": [
    "C105_exact_solution",
    "C105_alpha_refuted",
    "C105_time_step",
    "C105_diffusive_limit_refuted",
    "C105_consistent",
    "C105_balance",
    "C105_run",
    "C105_ends",
    "C105_last_state_refuted",
    "C105_nan_undetected_refuted"
   ],
   "note": "Exact arithmetic on the built node tables (the constructor returning Throw aside), tanh and the start of blitz's maximum as parameters; the NaN statement is for IEEE doubles with the reduction starting at -DBL_MAX. Findings: alpha does not enter the rates; sqrt(nu) in the diffusive limit; the last state is never written; NaN fields pass the instability test."
  },
  {
   "property": "C106",
   "status": "proved",
   "theorems": [
    "C106_one_solution",
    "C106_right_side",
    "C106_exact_solution",
    "C106_run",
    "C106_definite_refuted"
   ],
   "note": "Exact real arithmetic; LAPACK and BLAS by their specification. Finding: indefinite for small element widths; the flag of the solver is never looked at."
  },
  {
   "property": "C107",
   "status": "proved",
   "theorems": [
    "C107_linear",
    "C107_no_wall_throws",
    "C107_run"
   ],
   "note": "Exact real arithmetic; LAPACK and BLAS by their specification. Invertibility of this operator is a hypothesis where it is needed (it is not symmetric: C84)."
  },
  {
   "property": "C108",
   "status": "proved",
   "theorems": [
    "C108_any_arithmetic_refuted",
    "C108_operator_refuted",
    "C108_never_runs_refuted",
    "C108_throws_refuted",
    "C108_initial"
   ],
   "note": "InsRunModel.v models the program with the missing fourth constructor argument taken as 0 (the source as committed calls a constructor the header does not declare). C108_any_arithmetic_refuted covers doubles; the others are over the reals."
  },
  {
   "property": "C109",
   "status": "proved",
   "theorems": [
    "C109_shared_storage_refuted",
    "C109_first_order_error_refuted",
    "C109_turns",
    "C109_run",
    "C109_written",
    "C109_too_fast_refuted",
    "C109_guard",
    "C109_late_test_refuted",
    "C109_nan_caught",
    "C109_tide",
    "C109_start",
    "C109_program",
    "C109_other_mesh_refuted",
    "C109_rates",
    "C109_first_turn"
   ],
   "note": "That the copy constructor of blitz::Array shares storage is a fact about the library, which is not in this sandbox; computeRHS takes its struct by value and returns results through it, so the driver depends on it. C109_start, C109_tide and the step theorems are over the reals."
  },
  {
   "property": "C110",
   "status": "proved",
   "theorems": [
    "C110_start",
    "C110_run",
    "C110_volume",
    "C110_no_wall_refuted",
    "C110_level_run"
   ],
   "note": "Exact arithmetic. Termination is proved where the start is level; elsewhere the theorems are about runs that end. The program's filter (order one, cutoff below one) is not among those for which the volume is kept (C78_driver_filter_refuted)."
  },
  {
   "property": "C111",
   "status": "proved",
   "theorems": [
    "C111_exact_solution",
    "C111_run",
    "C111_ends",
    "C111_inflow_refuted"
   ],
   "note": "Exact arithmetic, the real exponential, c > 0. Failing part: C111_inflow_refuted."
  },
  {
   "property": "C112",
   "status": "proved",
   "theorems": [
    "C112_flags",
    "C112_lines",
    "C112_recoverable",
    "C112_message_refuted",
    "C112_format_refuted"
   ],
   "note": "The conversion of floating point numbers to text is an arbitrary function. Failing parts: C112_message_refuted, C112_format_refuted."
  },
  {
   "property": "C113",
   "status": "proved",
   "theorems": [
    "C113_exact",
    "C113_double",
    "C113_overflow_refuted"
   ],
   "note": "Two runs compared by relational induction, in exact arithmetic and on IEEE doubles; the callbacks and BLAS routines are arbitrary subject to the reads stated in GmresMemSpec.v, which the reference routines meet. The case of a NaN tolerance is refuted."
  },
  {
   "property": "C114",
   "status": "proved",
   "theorems": [
    "C114_assignment",
    "C114_bcmap",
    "C114_fields",
    "C114_order",
    "C114_bad_item",
    "C114_zero_byte_refuted"
   ],
   "note": "Dictionaries as lists of items in order of insertion; arrays as in C90 (NumpyModel.v), files as in C52 (PathModel.v). Reference counting is not modelled."
  }
 ]
}