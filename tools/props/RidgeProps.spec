@import RVec Num Sums DomModel DomMoreModel SweepProofs HullProofs Deriv MatLib SpecProofs BasisModel IndexProofs PolyProofs LipModel LipFitProofs GrassLib SubModel ActiveProofs RidgeModel RidgeProofs TrajProofs TrajCases PolySpan VarproLib VarproProofs GnStep VarproCases
@require ZArith
@scope R
# C58: ridge functions
C58_invariant = ridge_invariant
C58_gradient = ridge_grad_correct
C58_hessian = ridge_hess_correct
?C58_case = ridge_case
# C59: trajectories on the Grassmann manifold
C59_orth_keeps = orth_keeps
C59_orth_full_rank = orth_full_rank
C59_orth_rank_refuted = orth_rank_refuted
C59_trajectory = traj_orthonormal
C59_start = traj_start
C59_start_matrix_refuted = traj_matrix_refuted
C59_alternating = alt_traj_orthonormal
?C59_case = traj_case
?C59_alternating_case = alt_case
# C90: variable projection
C90_subspace = varpro_subspace
C90_jacobian = varpro_jacobian_correct
C90_kernel = jac_kernel
?C90_subspace_case = subspace_case
?C90_case = jac_case
# C94: Gauss-Newton step
C94_horizontal = gn_step_horizontal
C94_minimises = gn_step_minimises
?C94_case = step_case
