@import RVec Num Sums DomModel DomMoreModel BasisModel MatLib SpecProofs LipModel GrassLib SubModel GpModel GpKernel GpProofs GpFit GpLml GpCases GpPred GpOrder GpPredCases
@require Permutation
@scope R
# C148: the fitted predictor as a function of its data
C148_linear = pred_linear
C148_trend_added = fit_shift
C148_translate = fit_translate
C148_isometry = fit_isometry
C148_order = pred_order
C148_far = pred_far
C148_more_samples = cov_more
C148_units_refuted = units_refuted
C148_documented_refuted = documented_refuted
?C148_trend_added_case = shift_case
?C148_translate_case = translate_case
?C148_isometry_case = isometry_case
?C148_order_case = order_case
?C148_far_case = far_case
?C148_more_case = more_case
