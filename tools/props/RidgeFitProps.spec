@import RVec Num Sums DomModel DomMoreModel SweepProofs HullProofs HullIneqProofs Deriv MatLib SpecProofs BasisModel IndexProofs PolyProofs LipModel LipFitProofs GrassLib SubModel ActiveProofs RidgeModel RidgeProofs TrajProofs PolySpan VarproLib VarproProofs GnStep VarproCases RidgeFitProofs RidgeAffine RidgeFinish FinishCases RidgeFitCases RidgeDim
@require ZArith
@scope R
# C60: bounds
C60_ridge_bound = ridge_coef_bound
C60_affine_side = affine_fit_spec
C60_affine_bound_refuted = affine_bound_refuted
?C60_case = coef_case
# C92: _finish
C92_unique = ridge_fit_unique
C92_finish = finish_correct
C92_slope = finish_slope
C92_stale_refuted = finish_stale_refuted
C92_zero_slope_refuted = finish_zero_refuted
?C92_case = finish_case
?C92_slope_case = finish_slope_case
# C93: alternating fit
C93_jacobian = pr_jac_correct
C93_constraints_one = constraints_one
C93_constraints_refuted = constraints_refuted
?C93_case = pr_jac_case
?C93_constraints_case = constraints_case
# C95: number of samples
C95_count = n_param_count
C95_enough_rows = enough_for_svd
C95_count_refuted = n_param_refuted
C95_dimension = pr_dim_enough
C95_dimension_least = pr_dim_least
?C95_case = n_param_case
?C95_dimension_case = pr_dim_case
# C96: fixed subspace
C96_jacobian = fixed_jacobian_correct
C96_join = fixed_join
C96_vector_init_raises = vector_init_raises
?C96_case = fixed_case
?C96_vector_init_case = vector_init_case
# C97: affine initialization
C97_exact = affine_exact
?C97_case = affine_case
