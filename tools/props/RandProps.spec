@import RVec Num Sums MatLib SpecProofs DomModel DomSpec DomProofs NormProofs DomMoreModel CvxProofs QuadProofs PredModel PredProofs NbModel NbProofs CholProofs RandModel RandProofs RandBounds CholAlg RandCases
@scope R
# C130: normalized random domains keep membership, samples and measure
C130_normal_normalized = normalized_normal
C130_normal_bounds = normal_code_bounds
C130_normal_range = normal_range
C130_normal_unit = normal_normalized_unit
C130_solver_exists = normal_solver_exists
C130_covariances = factors_iff
C130_cholesky = cholesky_spec
C130_triangular_inverse = tri_inv_spec
C130_determinant = det_chol_spec
C130_factor_unique = chol_unique
?C130_normal_case = normal_case
?C130_unit_case = normal_unit_case
?C130_bounds_case = normal_bounds_case
?C130_factors_case = factors_case
C130_lognormal_normalized = logn_normalized_spec
?C130_lognormal_case = logn_case
C130_lognormal_density = logn_normalized_density
C130_lognormal_density_refuted = logn_normalized_refuted
