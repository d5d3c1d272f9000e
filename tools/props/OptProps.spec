@import RVec Num Sums DomModel DomSpec DomProofs DomExamples DomMoreModel DomMoreExamples SweepProofs HullProofs HullIneqProofs OptModel OptProofs SeqProofs
@require Sorted
# C48: Armijo line search
C48_armijo = armijo_correct
C48_decrease = armijo_decrease
?C48_case = ex_ls1
# C49: Gauss-Newton is monotone and always has a status
C49_monotone = gn_monotone_all
C49_status = gn_status_all
C49_default_total = gn_default_total
?C49_case = ex_gn_case
# C50: the result depends on verbosity: without printing the gradient norm is never updated
C50_verbose_gradient = gn_converged_gradient
C50_silent_never_converges = gn_silent_all
?C50_case = ex_silent_case
C50_refuted = verbosity_refuted
# C51: minimax
C51_monotone = minimax_monotone
C51_feasible = minimax_feasible
?C51_case = ex_minimax_case
?C51_contract_case = ex_step_contract
# C52: sequential LP
C52_correct_partial = seqlp_correct
C52_feasible = seqlp_feasible
?C52_contract_case = ex_step_contract
C52_objective = objfun_spec
?C52_objective_case = ex_objfun
C52_stuck = seqlp_stuck
?C52_stuck_case = ex_stuck_case
C52_bounds_refuted = seqlp_bounds_refuted
C52_constraint_solver_exact = nl_solve_exact
C52_constraint_refuted = seqlp_constraint_refuted
C52_verbose_refuted = seqlp_verbose_refuted
# C72: Gauss-Newton on affine residuals
C72_affine_partial = affine_step_partial
?C72_case = ex_affine_case
C72_refuted = affine_step_refuted
C72_gn_refuted = gn_large_refuted
