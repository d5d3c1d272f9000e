@import RVec Num Sums MatLib GrassLib SpecProofs DomModel DomSpec DomProofs DomMoreModel QuadProofs PredModel CholProofs RandModel RandProofs CholAlg DensModel DensProofs DensRand DensVol DensCases
@scope R
# C137: densities integrate to one; volume
C137_integral_unique = is_iint_unique
C137_uniform = unif_integral
C137_uniform_tolerance = unif_integral_tol
?C137_uniform_case = unif_case
C137_uniform_divisor = unif_divisor
?C137_uniform_divisor_case = unif_divisor_case
C137_normal = normal_integral
?C137_normal_case = normal_integral_case
C137_lognormal = logn_integral
?C137_lognormal_case = logn_case
C137_lognormal_truncated_refuted = logn_truncated_refuted
C137_volume_box = vol_box
?C137_volume_box_case = vol_box_case
C137_box_set = box_set
C137_weights_sum = weights_sum
?C137_weights_case = box_weights_case
C137_volume_sampled = vol_mc
?C137_volume_sampled_case = vol_mc_case
C137_volume_unbounded = vol_unbounded
?C137_volume_unbounded_case = vol_unbounded_case
C137_normal_weights_infinite = vol_normal_infinite
C137_volume_equality = vol_equality
C137_equality_refuted = mc_equality_refuted
