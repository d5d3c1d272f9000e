@import RVec Num Sums DomModel DomMoreModel SweepProofs HullProofs HullIneqProofs MatLib SpecProofs BasisModel LipModel LipConstProofs LipFitProofs GrassLib SubModel ShadowProofs ActiveProofs EntropyProofs LocalLinProofs LeastSq NonlinProofs InitProofs PgfProofs MoreCases
@require Permutation ZArith Ascii
@scope R
# C53: active subspace
C53_outer_product = as_C_correct
C53_columns_partial = as_U_partial
C53_optimal = as_fit_optimal
C53_ky_fan = as_optimal
C53_zero_columns = as_zero_columns
C53_sign_refuted = as_sign_refuted
?C53_case = as_U_case
?C53_few_case = as_few_case
# C54: outer product of gradients
C54_rank_one = as_rank_one
C54_linear = opg_linear
C54_standardized = opg_standardized
C54_equal_spread = opg_equal_spread
C54_standardize_refuted = opg_standardize_refuted
?C54_case = opg_case
# C55: local linear fits
C55_affine = ll_affine
C55_shape = ll_shape
C55_returns = ll_returns
C55_gradients = ll_grads_affine
C55_weighted = ll_weighted
C55_row_length = ll_row_length
C55_solvable = lstsq_post_exists
C55_bandwidth_refuted = ll_bandwidth_refuted
C55_rows_refuted = ll_rows_refuted
C55_many_refuted = ll_many_refuted
C55_default_refuted = ll_default_refuted
?C55_case = ll_case
# C57: perplexity bandwidth
C57_entropy = entropy_shannon
C57_entropy_bounds = entropy_bounds
C57_entropy_decreasing = entropy_decreasing
C57_entropy_derivative = entropy_derivative
C57_unique = bandwidth_unique
C57_bracket_partial = bandwidth_bracket_partial
C57_correct_partial = bandwidth_correct_partial
C57_grid_refuted = bandwidth_grid_refuted
C57_isolated_refuted = bandwidth_isolated_refuted
C57_scale_refuted = bandwidth_scale_refuted
?C57_case = bandwidth_case
# C62: PGF tables
@scope nat
C62_round_trip = pgf_round_trip
C62_contents = pgf_adds_keep
C62_lengths_partial = pgf_lengths_partial
C62_table = pgf_adds_table
C62_lookup = pgf_lookup
C62_length_refuted = pgf_add_refuted
C62_surplus_refuted = pgf_surplus_refuted
C62_name_refuted = pgf_name_refuted
?C62_case = pgf_case
@scope R
# C64: measure of nonlinearity
C64_measure = nl_measure
C64_affine = nl_affine
C64_sign_refuted = nl_sign_refuted
?C64_case = nl_case
# C65: shadow envelope
C65_rows = rows_partition
C65_bins = bins_range
C65_search = search_bins
C65_encloses = envelope_encloses
C65_pieces = envelope_pieces
C65_tight = envelope_tight
C65_default_refuted = envelope_default_refuted
?C65_rows_case = rows_case
?C65_case = envelope_case
# C88: checking samples and gradients
C88_consistent = csi_consistent
C88_rejects = csi_rejects
C88_drop_refuted = csi_drop_refuted
?C88_case = csi_case
# C89: initial subspace
C89_span = init_span
C89_affine = init_affine
C89_minimal_refuted = init_minimal_refuted
?C89_case = init_case
