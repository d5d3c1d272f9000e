@import RVec Num Sums DomModel DomMoreModel SweepProofs HullProofs HullIneqProofs Deriv ArnoldiMoreProofs BasisModel IndexProofs PolyProofs MatLib SpecProofs GrassLib LipModel LipFitProofs PartialProofs SubModel ActiveProofs RidgeModel RidgeProofs TrajProofs PolySpan VarproLib VarproProofs VarproCases GnStep RidgeFitProofs RidgeAffine RidgeFinish FinishCases OptModel OptProofs SeqProofs SolveFit RFitModel RFitProofs RFitMore RFitEx RFitEx2 RFitTight
@scope R
# C139: PolynomialRidgeApproximation.fit from the arguments to the stored U and coef
C139_correct = fit_correct
?C139_correct_case_sup = fit_case_inf
?C139_correct_case_two = fit_case_two
C139_recovers = fit_recovers
?C139_recovers_case = fit_case_recovers
C139_affine = fit_affine_optimal
?C139_affine_case = fit_case_affine
C139_stored_basis = alt_stored_basis
?C139_stored_case = fit_case_stored
C139_square_raises = fit_square_raises
?C139_square_case = fit_case_square
C139_square_refuted = fit_square_refuted
C139_jacobian_contract = varpro_jac_contract
?C139_jacobian_case = fit_case_jac
C139_erases = fit_erases
C139_erases_refuted = fit_erases_refuted
# the steps taken and the basis stored at the end
C139_first_step = alt_first_step
?C139_first_step_case = first_step_case
C139_final_basis = alt_final_basis
?C139_final_basis_case = final_basis_case
C139_line_search = varpro_line_search
?C139_line_search_case = line_search_case
