@import RVec Sums Num DomModel DomMoreModel SweepProofs HullProofs Deriv BasisModel IndexProofs PolyProofs MatLib SpecProofs GrassLib LipModel RidgeModel RidgeProofs SubModel TrajProofs PolySpan VarproLib VarproProofs ArnoldiProofs ArnoldiMoreProofs PolyfitModel PolyfitProofs LsqAlg VarproCases VarArnModel VarArnProofs VarArnDeriv VarArnMain VarArnCases
@scope R
# C135: variable projection with the Arnoldi basis
C135_best = arn_residual_best
C135_same_residual = arn_same_residual
C135_same_subspace = arn_same_subspace
?C135_residual_case = arn_residual_case
C135_jacobian = arn_jacobian
C135_same_jacobian = arn_same_jacobian
?C135_jacobian_case = arn_jacobian_case
C135_kernel = arn_kernel
?C135_kernel_case = arn_kernel_case
C135_breakdown = arn_breakdown
C135_enough_refuted = arn_enough_refuted
