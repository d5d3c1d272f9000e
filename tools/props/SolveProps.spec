@import RVec Num DomModel DomSpec DomMoreModel LipModel LipProofs CvxProofs MatLib SpecProofs LinProg Spectral Decomp SubModel BasisModel RidgeModel ShadowProofs HullProofs NonlinProofs MiniModel LloydProofs VoronoiProofs SolveFit SolveDom SolveMore Minkowski HullConvCases SolveCases
@scope R
# the optimization problems handed to the solvers have solutions: the contracts of the solvers can be met
C14_solvable = cls_exists
C66_solvable = closest_exists
C67_solvable = corner_exists_bounded
C67_solvable_linear = corner_exists_linear
C67_unbounded = corner_unbounded
C71_solvable = cheb_exists_bounded
C71_equality_refuted = cheb_equality_refuted
?C66_solvable_case = usq_case
?C67_unbounded_case = half_case
C60_solvable = linear_fit_const
C60_poly_solvable = poly_fit_exists
C60_ridge_solvable = ridge_coef_exists
C60_affine_solvable = aff_fit_exists
?C60_solvable_case = fit_case
?C60_poly_case = poly_case
C15_solvable = nnls_exists
C68_solvable = hull_extent_exists
?C68_solvable_case = step_case
C64_solvable = nl_exists
C114_solvable = miniball_solvable
C81_centre_solvable = lloyd_solvable
?C114_solvable_case = pts_case
C65_solvable = envelope_solvable
?C65_solvable_case = env_case
C86_vertices = hsi_exists
C86_cells = cell_vertices_exist
?C86_vertices_case = sq_rows_case
C17_solvable = gauss_solvable
C53_svd_exists = svd_full_exists
C54_qr_exists = qr_exists
C79_svd_exists = svd_rows_exists
C98_eigh_exists = eigh_exists
?C98_eigh_case = mat_case
