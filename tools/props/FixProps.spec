@import RVec Num Sums DomModel DomMoreModel SweepProofs HullProofs HullIneqProofs Deriv ArnoldiMoreProofs BasisModel IndexProofs PolyProofs MatLib SpecProofs GrassLib LipModel LipFitProofs PartialProofs SubModel ActiveProofs RidgeModel RidgeProofs TrajProofs PolySpan VarproLib VarproProofs VarproCases GnStep RidgeFitProofs RidgeAffine RidgeFinish FinishCases OptModel OptProofs SeqProofs SolveFit RFitModel RFitProofs RFitMore RFitEx FixModel FixProofs
@scope R
# C157: PolynomialRidgeApproximation.fit_fixed_subspace
C157_returns = fixed_returns
C157_correct = fixed_correct
?C157_correct_case = fixed_case
C157_span_only = fixed_span_only
?C157_span_case = fixed_span_case
C157_orthonormal_refuted = fixed_orthonormal_refuted
C157_determined_refuted = fixed_determined_refuted
C157_columns = fixed_columns
C157_erases = fixed_erases
?C157_erases_case = fixed_erases_case
