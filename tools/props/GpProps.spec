@import RVec Num Sums DomModel DomMoreModel BasisModel MatLib SpecProofs LipModel GrassLib SubModel Deriv VarproLib GpModel GpKernel GpProofs GpFit GpGrad GpLml GpCases GpTril MoreCases
@scope R
# C61: predictions at the training points, trend, covariance
C61_interp = gp_interp
C61_interp_plain = gp_interp_plain
C61_residual = gp_residual
C61_trend = gp_trend
C61_cov_range = gp_cov_range
C61_interp_refuted = interp_refuted
?C61_case = interp_case
?C61_trend_case = trend_case
?C61_cov_case = cov_case
# C91: the kernel matrix
C91_psd = kernel_psd
C91_pd = kernel_pd
C91_singular = kernel_singular
C91_eigenvalues = Kt_eigs
C91_distinct_const = distinct_const
C91_distinct_diag = distinct_diag
?C91_case = kernel_case
# C98: gradient of the objective
C98_kernel_derivative = dK_correct
C98_logdet = logdet_derivative
C98_gradient = gp_gradient
C98_gradient_plain = gp_gradient_plain
?C98_case = gradient_case
C98_tril_bijective = tril_bijective
?C98_tril_case = tril_case
?C98_tril_bijective_case = tril_bij_case
# C99: data term
C99_data_term = gp_data_term
?C99_case = trend_case
# C100: covariance
C100_best = gp_cov_best
?C100_case = cov_case
# C101: starting value
C101_start_refuted = start_refuted
C101_start = start_value
?C101_case = start_case
