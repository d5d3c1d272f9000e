@import RVec Sums Num DomModel DomMoreModel SweepProofs HullProofs Deriv BasisModel IndexProofs PolyProofs MatLib SpecProofs GrassLib LipModel RidgeModel RidgeProofs SubModel TrajProofs PolySpan VarproLib VarproProofs GnStep RidgeFitProofs ArnoldiProofs ArnoldiMoreProofs PolyfitModel PolyfitProofs LsqAlg VarproCases RidgeFitCases VarAffine VarArnModel VarArnProofs VarArnDeriv VarArnMain VarArnCases VarVecModel VarVecProofs VarVecMain VarVecStep VarVecInst VarVecRank VarVecCases
@scope R
# C136: several outputs
C136_best = vec_best
?C136_residual_case = vec_residual_case
C136_subspace = vec_subspace
?C136_subspace_case = vec_subspace_case
C136_jacobian = vec_jacobian
?C136_jacobian_case = vec_jacobian_case
C136_kernel = vec_kernel
C136_arnoldi_residual = arn_vec_same
C136_arnoldi_jacobian = arn_vec_jacobian
C136_arnoldi_same_jacobian = arn_vec_same_jacobian
C136_arnoldi_kernel = arn_vec_kernel
?C136_arnoldi_case = arn_vec_case
C136_step = vec_step
C136_arnoldi_step = arn_vec_step
?C136_step_case = vec_step_case
C136_fixed_jacobian = vec_fixed_jacobian
C136_fixed_step = vec_fixed_step
?C136_fixed_case = vec_fixed_case
C136_arnoldi_fixed_jacobian = arn_fixed_jacobian
C136_arnoldi_fixed_step = arn_fixed_step
?C136_arnoldi_fixed_case = arn_fixed_case
C136_rank = vec_rank
C136_few_samples = vec_few_samples
?C136_rank_case = vec_rank_case
?C136_few_case = vec_few_case
C136_arnoldi_rank = arn_vec_rank
?C136_arnoldi_rank_case = arn_rank_case
C136_divides_refuted = vec_divides_refuted
