# Axioms of each property theorem

Generated by `tools/axioms.py` from `Print Assumptions` in a finished build. Every axiom below is one of the standard library.

## Closed under the global context

`C142_schedule`, `C142_worker`, `C21_members`, `C21_no_duplicates`, `C21_sorted`, `C21_size`, `C155_nozzle_partial`, `C155_nozzle_random_refuted`, `C141_returns`, `C141_recurses`, `C141_pairs`, `C141_predict`, `C141_call_only`, `C141_keywords_refuted`, `C141_classes`, `C141_gradient_refuted`, `C141_merge`, `C141_search_order`, `C141_override_wins`, `C08_nonpositive`, `C08_wrapper`, `C149_rows_evaluated`, `C149_kept_second`, `C149_failed_sticks`, `C149_kept_unnamed`, `C149_keywords`, `C149_level`, `C149_level_refuted`, `C149_log`, `C149_log_refuted`, `C147_nested`, `C147_prod`, `C152_kept`, `C152_grads_only`, `C152_column`, `C152_shapes`, `C152_grads_accepted`, `C152_transposed`, `C152_empty`, `C152_flat`, `C152_half`, `C28_empty`, `C150_default`, `C143_constructor`, `C143_rejects`, `C143_product`, `C143_associative`, `C143_slices`, `C143_normalized`, `C143_distinct`, `C143_default_clash`, `C143_unique_refuted`, `C127_is_unbounded_line_raises`, `C125_solver_exists`, `C125_assumptions`, `C125_assumptions_keep`, `C153_no_iterations`, `C95_count`, `C95_enough_rows`, `C95_count_refuted`, `C96_vector_init_raises`, `C89_queries`, `C144_dispatch_1d`, `C40_numbering`, `C40_numbering_inverse`, `C40_numbering_bijection`, `C40_sound`, `C40_complete`, `C40_read`, `C40_solution`, `C40_block`, `C40_blocked_never`, `C40_blocked_keeps`, `C63_aligned`, `C63_init`, `C63_unbound_refuted`, `C36_zero`, `C146_resp_ext`, `C146_resp_last`, `C146_resp_new`, `C146_resp_inj`, `C146_resp_dir`, `C146_resp_refuted`, `C145_kcall_runs`, `C145_kcall_refuses`, `C145_samplers_raise`, `C62_round_trip`, `C62_contents`, `C62_lengths_partial`, `C62_table`, `C62_lookup`, `C62_length_refuted`, `C62_surplus_refuted`, `C62_name_refuted`, `C88_consistent`, `C88_rejects`, `C09_dimension`, `C09_associative`, `C83_index`

## `ClassicalDedekindReals.sig_forall_dec`

`C154_prepared`, `C149_oas_point`, `C149_oas_rows`, `C149_oas_rowwise`, `C149_oas_single_raises`, `C149_kept_rows_refuted`, `C19_vec_values_refuted`, `C98_tril_bijective`, `C152_mismatch_refuted`, `C115_angles`, `C115_lengths_refuted`, `C119_returns`, `C120_returns`, `C140_unbounded_queries_refuted`, `C93_constraints_one`, `C39_correct`, `C39_terminates`, `C39_diverges`, `C146_base_iff`, `C145_nonempty`, `C88_drop_refuted`, `C89_span`, `C96_vector_values_refuted`, `C149_vector_file`

## `ClassicalDedekindReals.sig_forall_dec`, `FunctionalExtensionality.functional_extensionality_dep`

`C142_schedules_agree`, `C142_values`, `C142_global`, `C142_parameter`, `C142_gradients`, `C142_unscaled`, `C142_gradient_refuted`, `C142_call_refuted`, `C142_global_refuted`, `C142_lambda_refuted`, `C22_families`, `C155_control_points_refuted`, `C155_wing`, `C155_airfoil`, `C155_clip_refuted`, `C111_value`, `C112_gradient`, `C113_value`, `C154_roundtrip_partial`, `C154_empty_refuted`, `C154_curved`, `C151_scalars`, `C151_again`, `C151_empty_refuted`, `C151_ball`, `C103_gradient`, `C103_formula`, `C103_object`, `C103_domain_refuted`, `C107_redundant`, `C110_affine`, `C110_affine_object`, `C110_quad_iff`, `C110_quad_object`, `C110_quad_refuted`, `C137_uniform_divisor`, `C137_weights_sum`, `C08_reject`, `C08_hit_and_run_chord`, `C08_hull_two_points`, `C16_empty`, `C16_point`, `C16_unbounded`, `C16_history_partial`, `C16_history_empty`, `C16_history_refuted`, `C17_monte_carlo`, `C68_step`, `C02_unnormalize_normalize`, `C02_normalize_unnormalize`, `C03_unit_cube`, `C03_end_points`, `C13_infinite_kept`, `C13_proper`, `C149_oas_single_refuted`, `C19_eval`, `C19_chain_rule`, `C19_scalar_rows`, `C19_call_consistent`, `C19_call_consistent_rows`, `C19_vectorized_rows`, `C19_vectorized_grad_rows`, `C19_vec_grad_refuted`, `C20_entries`, `C20_points`, `C20_affine`, `C20_kwargs_refuted`, `C20_multi_refuted`, `C20_outside_refuted`, `C69_returns`, `C69_thin_refuted`, `C156_antiderivative`, `C156_returns_partial`, `C156_constant_refuted`, `C156_grid`, `C147_dims_unique`, `C147_dims_times`, `C138_scale`, `C138_shift`, `C138_monotone`, `C138_samples_refuted`, `C138_gradients_upper`, `C138_active_subspace`, `C138_convex`, `C138_unique_refuted`, `C30_duplicate_refuted`, `C30_nan_refuted`, `C30_single_refuted`, `C31_feasible_monotone`, `C31_slow_refuted`, `C32_sorted`, `C32_refit_refuted`, `C56_samples`, `C56_monotone`, `C56_gradients`, `C56_gradients_refuted`, `C74_sign`, `C74_refuted`, `C74_singular_refuted`, `C76_members`, `C76_count`, `C76_spans`, `C76_diagonal`, `C76_objective`, `C78_optimize_monotone`, `C78_linearization`, `C78_linearization_when`, `C78_search`, `C78_progress`, `C78_linearization_refuted`, `C78_epsilon_refuted`, `C116_range`, `C116_upper`, `C116_lower`, `C116_share_refuted`, `C150_cluster`, `C150_zero`, `C129_exact_ranges`, `C129_empty_raises_once`, `C117_row`, `C117_kept`, `C118_rows`, `C118_slopes`, `C118_returns`, `C118_zero_pair`, `C118_doubled_throat`, `C118_flat_throat`, `C118_nothroat_refuted`, `C118_lowest_refuted`, `C119_rows`, `C119_angles_refuted`, `C119_single_refuted`, `C120_rows`, `C121_rows`, `C121_shape`, `C121_drops_refuted`, `C122_wall`, `C122_wall_nominal_refuted`, `C122_wall_rows_refuted`, `C122_wall_bounds`, `C122_layer_rows`, `C122_layer`, `C122_layer_box`, `C122_load`, `C122_thermal_gap`, `C122_thermal_coupled`, `C122_stringers`, `C122_stringers_reduced`, `C122_baffles`, `C122_dimension`, `C122_inhabited`, `C122_corners_exist`, `C122_random`, `C140_conservation`, `C140_first_operations`, `C140_settled`, `C140_unbounded`, `C51_monotone`, `C52_constraint_solver_exact`, `C132_lstsq_contract_met`, `C127_is_empty`, `C127_is_point_single`, `C127_is_point_segment`, `C127_is_point_refuted`, `C127_is_point_far_refuted`, `C128_random_direction_free`, `C128_sample_boundary`, `C128_sample_boundary_vertices`, `C82_design_single_raises`, `C82_sample_neighbours`, `C82_sample_ties_refuted`, `C82_sample_single_raises`, `C82_sample_planar_raises`, `C82_lhs_slices`, `C82_lhs_one_per_slice`, `C125_sweep`, `C125_sweep_stationary`, `C130_triangular_inverse`, `C130_factor_unique`, `C93_constraints_refuted`, `C96_join`, `C59_orth_keeps`, `C59_orth_full_rank`, `C59_orth_rank_refuted`, `C125_sweeps`, `C52_linf`, `C45_correct`, `C45_asserts`, `C45_increasing`, `C45_smallest_partial`, `C45_zero_refuted`, `C45_decreasing_refuted`, `C63_missing_refuted`, `C79_full_partial`, `C79_zero_refuted`, `C33_latin`, `C34_swap_changes`, `C39_scaling`, `C43_simplex`, `C43_simplex_zero_refuted`, `C146_curve_profile`, `C146_mesh_profile`, `C146_curve_covers`, `C146_curve_line`, `C146_points_profile`, `C146_curve_refuted`, `C146_default_refuted`, `C146_doc_shape_refuted`, `C146_lip_sorted`, `C146_lip_mid`, `C65_solvable`, `C55_solvable`, `C65_rows`, `C65_bins`, `C65_search`, `C65_encloses`, `C65_pieces`, `C65_tight`, `C65_default_refuted`, `C10_normalize_blocks`, `C10_unnormalize_blocks`, `C10_inverse`, `C65_solvers`, `C144_truncation`, `C80_stops`

## `ClassicalDedekindReals.sig_forall_dec`, `ClassicalDedekindReals.sig_not_dec`, `FunctionalExtensionality.functional_extensionality_dep`

`C22_V`, `C22_DV`, `C22_DDV`, `C22_poly_grad`, `C22_poly_hessian`, `C23_VC`, `C24_orthonormal`, `C24_vandermonde`, `C24_span`, `C24_DV`, `C24_polyval`, `C24_breakdown_refuted`, `C25_range`, `C25_invertible`, `C25_hermite_moments`, `C25_roots`, `C25_laguerre_refuted`, `C25_constant_refuted`, `C25_roots_noscale_refuted`, `C60_poly_bound`, `C155_truncate`, `C112_is_derivative`, `C112_value`, `C112_masked`, `C151_points`, `C151_accepts`, `C151_linineq`, `C151_box`, `C151_point`, `C151_add`, `C151_row_refuted`, `C151_crossing_refuted`, `C104_gradient`, `C104_formula`, `C104_object`, `C104_range`, `C105_gradient`, `C105_formula`, `C105_object`, `C105_bound`, `C105_range`, `C105_rotation`, `C107_gradient`, `C107_object`, `C107_feasible`, `C109_gradient`, `C109_formula`, `C109_object`, `C109_default`, `C109_values`, `C109_feasible`, `C137_box_set`, `C137_volume_sampled`, `C137_volume_unbounded`, `C137_normal_weights_infinite`, `C137_volume_equality`, `C137_equality_refuted`, `C08_box`, `C08_point`, `C08_normal`, `C08_hit_and_run`, `C08_tensor`, `C08_hull_refuted`, `C11_sweep_partial`, `C11_corner_sweep`, `C11_refuted`, `C12_exact`, `C12_box_count`, `C14_actual_minimiser`, `C14_partial`, `C14_refuted`, `C15_complete`, `C15_sound_partial`, `C15_refuted`, `C05_hull_add`, `C05_and_hull_refuted`, `C17_gauss`, `C17_rule_inside`, `C17_box`, `C18_untruncated_partial`, `C18_refuted`, `C66_closest_point`, `C67_corner_partial`, `C67_refuted`, `C68_partial`, `C68_refuted`, `C69_collinear_partial`, `C69_refuted`, `C71_inside`, `C71_largest`, `C71_empty_refuted`, `C01_membership_exact`, `C01_membership_rows`, `C01_tolerance_monotone`, `C01_exact_set`, `C01_wrong_dimension`, `C01_point_ignores_tolerance`, `C01_point_refuted`, `C04_normalized_domain_partial`, `C04_normalized_domain_refuted`, `C05_add_constraints_conj`, `C05_and_commutes`, `C05_and_associates`, `C06_extent_partial`, `C06_extent_box`, `C06_extent_leaves_equality`, `C06_extent_face_refuted`, `C06_extent_tolerance_refuted`, `C06_extent_equality_refuted`, `C06_extent_ellipsoid_refuted`, `C07_corner_optimal`, `C07_corner_empty`, `C13_half_infinite_refuted`, `C13_half_infinite_partial`, `C133_attained`, `C133_below_exact`, `C133_starts_partial`, `C133_starts_refuted`, `C157_returns`, `C157_correct`, `C157_span_only`, `C157_orthonormal_refuted`, `C157_determined_refuted`, `C157_columns`, `C157_erases`, `C148_linear`, `C148_order`, `C148_more_samples`, `C61_interp`, `C61_interp_plain`, `C61_residual`, `C61_trend`, `C61_cov_range`, `C61_interp_refuted`, `C91_psd`, `C91_pd`, `C91_singular`, `C91_eigenvalues`, `C91_distinct_const`, `C91_distinct_diag`, `C98_kernel_derivative`, `C99_data_term`, `C100_best`, `C101_start`, `C69_exact`, `C69_to_linineq`, `C69_domain`, `C69_near_refuted`, `C123_linear`, `C123_tensor`, `C123_hull_raises`, `C123_hull_refuted`, `C124_projection`, `C124_differences`, `C147_box`, `C147_linineq`, `C147_hull_refuted`, `C147_affine_dims`, `C147_intrinsic`, `C147_prod_exact`, `C147_intrinsic_refuted`, `C138_rotate`, `C138_kernel`, `C138_ridge`, `C138_constant`, `C138_one_dimension`, `C138_single_gradient`, `C138_gradients_orthogonal`, `C138_fit_H`, `C138_fit`, `C138_zero_column`, `C138_U_refuted`, `C26_sound`, `C26_rows`, `C26_sharp`, `C27_collapse`, `C27_monotone`, `C27_nonempty_iff_consistent`, `C28_lipschitz`, `C28_constraints`, `C28_interpolates`, `C28_reproduces`, `C28_error`, `C28_optimal`, `C29_least`, `C29_exact`, `C29_feasible_small_scale`, `C29_scale`, `C29_single_refuted`, `C29_epsilon_large_refuted`, `C29_epsilon_small_refuted`, `C30_terminates_feasible`, `C30_keeps`, `C30_fixed`, `C30_idempotent`, `C30_exact_refuted`, `C73_distance`, `C74_secular`, `C74_total`, `C75_constraints`, `C75_root`, `C75_diagonal`, `C75_scale`, `C75_sign_refuted`, `C76_feasible_iff`, `C76_optimal`, `C76_duplicate_refuted`, `C77_gradient`, `C77_gradient_zero`, `C77_attained`, `C77_starts`, `C77_epsilon_refuted`, `C78_root`, `C78_fit`, `C78_constraints`, `C78_geodesic`, `C78_objective`, `C114_optimal`, `C114_growth`, `C114_unique`, `C114_radius`, `C114_default`, `C150_exact`, `C150_transposed`, `C150_smallest_partial`, `C150_one_dimension_refuted`, `C150_metric_refuted`, `C150_raises_refuted`, `C129_domain_ranges`, `C129_domain_predicates`, `C129_empty_domain_raises_once`, `C129_off_centre_refuted`, `C129_mixed_bounds_refuted`, `C140_product_attempts`, `C140_product_never`, `C140_lognormal_unscaled`, `C140_closest_point`, `C48_armijo`, `C48_decrease`, `C49_monotone`, `C49_status`, `C49_default_total`, `C50_verbose_gradient`, `C50_silent_never_converges`, `C50_refuted`, `C51_feasible`, `C52_correct_partial`, `C52_feasible`, `C52_objective`, `C52_stuck`, `C52_bounds_refuted`, `C52_constraint_refuted`, `C52_verbose_refuted`, `C72_affine_partial`, `C72_refuted`, `C72_gn_refuted`, `C132_breakdown_arnoldi`, `C132_breakdown_vandermonde`, `C132_least_squares`, `C132_reproduces`, `C127_is_unbounded`, `C127_is_point_small`, `C127_is_point_not_empty`, `C128_random_direction`, `C128_random_direction_ends`, `C128_random_direction_refuted`, `C128_random_direction_hangs`, `C128_random_direction_point_refuted`, `C128_corner_center`, `C128_corner_center_stop`, `C82_design_rows`, `C82_design_cell`, `C82_sample_cell_rows`, `C82_sample_asserts`, `C82_sample_subdomain`, `C82_cover`, `C82_overlap`, `C82_combinations_cover`, `C82_lhs_offset_raises`, `C82_lhs_narrow_raises`, `C82_design_objective`, `C82_design_nearest`, `C125_sample_terminates`, `C125_sample_best`, `C125_sample_keeps`, `C125_sample_bound_variable`, `C125_zero_score`, `C125_sample_unbound_refuted`, `C125_sample_projects`, `C125_sample_latin`, `C125_design_terminates`, `C125_design_best`, `C125_design_keeps`, `C125_design_found`, `C125_design_bound_variable`, `C125_design_projects`, `C125_design_infeasible_hangs`, `C125_design_far_refuted`, `C125_design_exhausted_refuted`, `C153_best_partial`, `C153_initial_refuted`, `C153_box_partial`, `C153_domain_refuted`, `C153_convex_partial`, `C153_init`, `C153_init_refuted`, `C153_local`, `C153_replaced`, `C126_gauss_nodes`, `C139_correct`, `C139_recovers`, `C139_affine`, `C139_stored_basis`, `C139_square_raises`, `C139_square_refuted`, `C139_jacobian_contract`, `C139_erases`, `C139_erases_refuted`, `C139_first_step`, `C139_final_basis`, `C139_line_search`, `C130_normal_normalized`, `C130_normal_bounds`, `C130_normal_range`, `C130_normal_unit`, `C130_solver_exists`, `C130_covariances`, `C130_cholesky`, `C130_determinant`, `C60_ridge_bound`, `C60_affine_side`, `C60_affine_bound_refuted`, `C92_unique`, `C92_finish`, `C92_slope`, `C92_stale_refuted`, `C92_zero_slope_refuted`, `C93_jacobian`, `C95_dimension`, `C96_jacobian`, `C97_exact`, `C58_invariant`, `C58_gradient`, `C58_hessian`, `C59_trajectory`, `C59_start`, `C59_start_matrix_refuted`, `C59_alternating`, `C90_subspace`, `C90_jacobian`, `C90_kernel`, `C94_horizontal`, `C94_minimises`, `C85_domains`, `C81_stops`, `C49_no_iterations`, `C144_walk_keeps`, `C144_rows_inside`, `C144_rows_keep`, `C144_nudge_nearest`, `C144_update_inside`, `C144_update_owns`, `C144_estimate`, `C144_design`, `C144_step`, `C144_full`, `C144_estimates`, `C144_dispatch_full`, `C144_dispatch_sampled`, `C144_result`, `C144_errors`, `C144_rows_zero`, `C144_outside_refuted`, `C144_unowned_refuted`, `C144_integer_refuted`, `C144_rows_refuted`, `C46_best_partial`, `C46_rows`, `C46_score`, `C46_single`, `C46_moves_refuted`, `C46_single_refuted`, `C47_inside`, `C47_identity`, `C47_distinct_refuted`, `C79_metric`, `C80_apart_partial`, `C80_walk_call`, `C80_apart_refuted`, `C80_row_optimal`, `C81_step_fill`, `C81_step_monotone_partial`, `C81_fill`, `C81_vertices_cover`, `C81_kept_vertices_cover`, `C84_discrete`, `C84_feasible`, `C84_domain`, `C85_select`, `C85_new`, `C85_inside`, `C85_stretch_first`, `C85_stretch_overwritten_refuted`, `C85_stretch_unbound_refuted`, `C85_stretch_stale_refuted`, `C87_inside`, `C87_score_refuted`, `C33_inside`, `C34_best_visited`, `C34_monotone`, `C34_distances`, `C34_score`, `C34_no_iterations_refuted`, `C34_single_point_refuted`, `C34_start_not_scored_refuted`, `C35_correct`, `C35_domain`, `C35_terminates`, `C35_exhausted`, `C35_packing`, `C35_bounded`, `C35_bounded_domain`, `C35_unbounded_refuted`, `C36_optimal`, `C36_domains_convex`, `C37_optimal`, `C38_two_optimal`, `C38_line`, `C38_voronoi`, `C38_zero_refuted`, `C41_step`, `C41_walk_inside`, `C41_walk_far_partial`, `C41_walk_far_refuted`, `C42_kept_apart`, `C42_dropped_near`, `C42_near_partial`, `C42_chain_refuted`, `C42_last_kept`, `C43_sphere`, `C43_sphere_defined`, `C44_farthest`, `C44_exact`, `C44_outside_refuted`, `C83_refines`, `C83_covers`, `C83_neighbours`, `C83_diameter`, `C83_face_refuted`, `C83_wrap_refuted`, `C83_centre_refuted`, `C86_exact`, `C134_grid`, `C134_attained`, `C134_encloses_partial`, `C134_endpoint_refuted`, `C134_single_refuted`, `C134_epsilon_refuted`, `C67_solvable_linear`, `C67_unbounded`, `C71_solvable`, `C71_equality_refuted`, `C68_solvable`, `C64_solvable`, `C54_qr_exists`, `C145_constraints`, `C145_returns`, `C145_keeps`, `C145_keeps_mind`, `C145_single`, `C145_two_refuted`, `C145_sample`, `C53_outer_product`, `C53_columns_partial`, `C53_optimal`, `C53_ky_fan`, `C53_zero_columns`, `C53_sign_refuted`, `C54_rank_one`, `C64_measure`, `C64_affine`, `C64_sign_refuted`, `C09_membership_blockwise`, `C04_tensor_partial`, `C05_tensor_add_constraints_partial`, `C05_tensor_refuted`, `C06_tensor_extent`, `C46_members`, `C46_cost`, `C46_fill`, `C46_stops`, `C81_collapse`, `C81_monotone_refuted`, `C133_line`, `C133_line_refuted`, `C54_standardize`, `C54_covariance_refuted`, `C135_best`, `C135_same_residual`, `C135_same_subspace`, `C135_jacobian`, `C135_same_jacobian`, `C135_kernel`, `C135_breakdown`, `C135_enough_refuted`, `C136_best`, `C136_subspace`, `C136_jacobian`, `C136_kernel`, `C136_arnoldi_residual`, `C136_arnoldi_jacobian`, `C136_arnoldi_same_jacobian`, `C136_arnoldi_kernel`, `C136_step`, `C136_arnoldi_step`, `C136_fixed_jacobian`, `C136_fixed_step`, `C136_arnoldi_fixed_jacobian`, `C136_arnoldi_fixed_step`, `C136_rank`, `C136_few_samples`, `C136_arnoldi_rank`, `C136_divides_refuted`

## `ClassicalDedekindReals.sig_forall_dec`, `Classical_Prop.classic`, `FunctionalExtensionality.functional_extensionality_dep`

`C86_vertices`, `C86_cells`

## `ClassicalDedekindReals.sig_forall_dec`, `ClassicalDedekindReals.sig_not_dec`, `Classical_Prop.classic`, `FunctionalExtensionality.functional_extensionality_dep`

`C131_integral`, `C131_kernel`, `C131_constant_directions`, `C131_active_coordinates_partial`, `C131_rule_points`, `C131_rule_monte_carlo`, `C131_rule_point`, `C131_points_per_axis`, `C131_active_coordinates_refuted`, `C111_complete`, `C111_sound`, `C111_exact`, `C111_steps`, `C111_default`, `C111_tolerance_refuted`, `C112_gradient_refuted`, `C112_sound`, `C112_complete`, `C112_jacobian_refuted`, `C113_steps`, `C113_complete`, `C113_sound`, `C102_gradient`, `C102_formula`, `C102_object`, `C105_fold_refuted`, `C106_gradient`, `C106_formula`, `C106_object`, `C106_range`, `C108_gradient`, `C108_object`, `C108_positive`, `C137_integral_unique`, `C137_uniform`, `C137_uniform_tolerance`, `C137_normal`, `C137_lognormal`, `C137_lognormal_truncated_refuted`, `C137_volume_box`, `C17_points_per_axis`, `C18_truncated_partial`, `C18_negative_scaling`, `C70_density_iff`, `C149_printing_error`, `C149_printing_refuted`, `C20_error`, `C148_trend_added`, `C148_translate`, `C148_isometry`, `C148_far`, `C148_units_refuted`, `C148_documented_refuted`, `C98_logdet`, `C98_gradient`, `C98_gradient_plain`, `C101_start_refuted`, `C69_oracles`, `C124_oracles`, `C156_density`, `C156_mass_refuted`, `C156_mass_sharp`, `C138_solvable`, `C138_not_orthonormal`, `C129_solver_answers`, `C140_lognormal_truncated`, `C140_borehole`, `C140_evaluation_refuted`, `C126_gauss_exact`, `C126_gauss_riemann`, `C126_gauss_sharp`, `C126_eigenvectors_exist`, `C126_tensor_exact`, `C126_box_exact`, `C126_box_integral_exists`, `C126_box_integral_unique`, `C130_lognormal_normalized`, `C130_lognormal_density`, `C130_lognormal_density_refuted`, `C95_dimension_least`, `C14_solvable`, `C66_solvable`, `C67_solvable`, `C60_solvable`, `C60_poly_solvable`, `C60_ridge_solvable`, `C60_affine_solvable`, `C15_solvable`, `C114_solvable`, `C81_centre_solvable`, `C17_solvable`, `C53_svd_exists`, `C79_svd_exists`, `C98_eigh_exists`, `C54_linear`, `C54_standardized`, `C54_equal_spread`, `C54_standardize_refuted`, `C55_affine`, `C55_shape`, `C55_returns`, `C55_gradients`, `C55_weighted`, `C55_row_length`, `C55_bandwidth_refuted`, `C55_rows_refuted`, `C55_many_refuted`, `C55_default_refuted`, `C57_entropy`, `C57_entropy_bounds`, `C57_entropy_decreasing`, `C57_entropy_derivative`, `C57_unique`, `C57_bracket_partial`, `C57_correct_partial`, `C57_grid_refuted`, `C57_isolated_refuted`, `C57_scale_refuted`, `C89_affine`, `C89_minimal_refuted`, `C70_refuted`, `C108_equations`, `C55_perplexity`, `C55_default`
