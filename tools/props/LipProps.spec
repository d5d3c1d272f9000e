@import RVec Num Sums NormProofs DomMoreModel MatLib SpecProofs LipModel LipProofs LipConstProofs ProjProofs ProjGradProofs GrassLib LipFitProofs SdpProofs LipMoreProofs PartialProofs MoreCases LipTight
@require Permutation
@scope R
# C26: soundness of the uncertainty interval
C26_sound = unc_sound
C26_rows = unc_rows
C26_sharp = unc_sharp
?C26_case = ex_lip
# C27: collapse, monotonicity
C27_collapse = unc_collapse
C27_monotone = unc_monotone
C27_nonempty_iff_consistent = unc_nonempty_iff
?C27_case_interval = ex_unc
?C27_case_consistent = ex_consistent
?C27_case_inconsistent = ex_inconsistent
# C28: Lipschitz approximation
C28_lipschitz = approx_lipschitz
C28_constraints = compat_con_iff
C28_interpolates = approx_interpolates
C28_reproduces = approx_reproduces
C28_error = approx_error
C28_optimal = approx_optimal
C28_empty = approx_empty
?C28_case_within = ex_within
?C28_case = ex_compat
# C29: scalar Lipschitz constant
C29_least = lc_fit_least
C29_exact = lc_fit_exact
C29_feasible_small_scale = lc_fit_feasible_small_scale
C29_scale = lip_scale_least
?C29_case = ex_apart
?C29_scale_case = scale_case
C29_single_refuted = lc_single_refuted
C29_epsilon_large_refuted = lc_eps_large_refuted
C29_epsilon_small_refuted = lc_eps_small_refuted
# C30: project_evals
C30_terminates_feasible = project_evals_correct
C30_keeps = project_evals_keeps
C30_fixed = project_evals_fixed
C30_idempotent = project_evals_idempotent
?C30_fixed_case = fixed_case
?C30_case = ex_project
C30_exact_refuted = project_evals_exact_refuted
C30_duplicate_refuted = project_evals_dup_refuted
C30_nan_refuted = project_evals_nan_refuted
C30_single_refuted = project_evals_single_refuted
# C31: project_grads
C31_feasible_monotone = project_grads_correct
?C31_case = ex_project_grads
C31_slow_refuted = project_grads_slow_refuted
# C32: coordinate subspaces
C32_sorted = coord_U_sorted
?C32_case = isort_ok
C32_refit_refuted = coord_U_refit_refuted
?C32_given_L_raises = coord_U_given_refuted
# C56: signs
C56_samples = fix_signs_samps
C56_monotone = fix_signs_monotone
C56_gradients = fix_signs_grads
C56_gradients_refuted = fix_signs_grads_refuted
?C56_monotone_case = monotone_case
?C56_samples_case = signs_samples_case
?C56_gradients_case = signs_grads_case
# C73: distance to the sample constraints
C73_distance = dist_eval_correct
?C73_case = dist_case
# C74: distance to the gradient constraints
C74_secular = dist_slow_correct
C74_sign = dist_slow_sign
C74_total = dist_slow_total
?C74_case = ex_eigh2
C74_refuted = dist_slow_refuted
C74_singular_refuted = dist_slow_singular_refuted
# C75: LipschitzMatrix._fit
C75_constraints = lm_fit_constraints
C75_root = lm_fit_root
C75_diagonal = dlm_fit_correct
C75_scale = lip_scale_pos
?C75_case = ex_fit_case
C75_sign_refuted = lm_fit_sign_refuted
# C76: semidefinite program
C76_members = sdp_basis_members
C76_count = sdp_basis_count
C76_spans = sdp_basis_span
C76_diagonal = sdp_basis_diag
C76_objective = sdp_objective
C76_feasible_iff = sdp_feasible_iff
C76_optimal = sdp_optimal
?C76_case = ex_sdp
C76_duplicate_refuted = sdp_duplicate_refuted
# C77: bounds over a domain
C77_gradient = bound_grad_correct
C77_gradient_zero = bound_grad_zero
C77_attained = unc_domain_attained
C77_starts = unc_domain_starts
?C77_case = ex_bound_grad
C77_epsilon_refuted = unc_domain_epsilon_refuted
# C78: PartialLipschitzMatrix
C78_root = pl_root
C78_fit = pl_fit_correct
C78_constraints = pl_fit_constraints
C78_optimize_monotone = pl_optimize_monotone
C78_geodesic = pl_geo_manifold
C78_linearization = pl_lin_true
C78_linearization_when = pl_lin_when
C78_objective = pl_fit_trace
C78_search = pl_search_first
C78_progress = pl_optimize_progress
?C78_case = ex_pl
?C78_progress_case = progress_case
?C78_svd_case = ex_svd
C78_linearization_refuted = pl_lin_refuted
C78_epsilon_refuted = pl_epsilon_refuted
