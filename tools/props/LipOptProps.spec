@import RVec Num Sums DomModel DomMoreModel SweepProofs HullProofs MatLib SpecProofs LipModel LipProofs LipConstProofs ProjProofs ProjGradProofs GrassLib LipFitProofs SdpProofs LipOpt LipOpt2 LipOptEx
@scope R
# C138: minimisers of the Lipschitz matrix program
C138_solvable = best_exists
?C138_solvable_case = ex_best_exists
C138_scale = best_scale
C138_shift = best_shift
C138_rotate = best_rotate
?C138_rotate_case = ex_best_rotate
C138_monotone = best_monotone
?C138_monotone_case = ex_best_monotone
C138_kernel = best_kernel
?C138_kernel_case = ex_best_single
C138_ridge = best_ridge
?C138_ridge_case = ex_best_ridge
C138_samples_refuted = best_samples_refuted
C138_constant = best_constant
C138_one_dimension = best_one
?C138_constant_case = ex_best_constant
C138_single_gradient = best_single
C138_gradients_upper = best_grads_upper
C138_gradients_orthogonal = best_grads_orthogonal
C138_active_subspace = feasible_active
?C138_gradients_case = ex_best_orthogonal
C138_convex = best_convex
C138_unique_refuted = best_unique_refuted
C138_fit_H = fit_H
C138_fit = fit_best
C138_zero_column = fit_zero_column
C138_not_orthonormal = fit_not_orthonormal
?C138_fit_case = ex_fit_best
C138_U_refuted = fit_U_refuted
