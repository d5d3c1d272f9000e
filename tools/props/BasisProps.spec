@import RVec Num Sums NormProofs DomMoreModel ChebProofs Deriv BasisModel IndexProofs PolyProofs PolyMoreProofs ArnoldiProofs ArnoldiMoreProofs ArnoldiCases
@require Sorted Factorial
@scope nat
# C21: the index set
C21_members = index_set_in
C21_no_duplicates = index_set_nodup
C21_sorted = index_set_sorted
C21_size = index_set_size
?C21_case = index_set_case
@scope R
# C22: derivative matrices
C22_families = families_ok
C22_V = V_entries
C22_DV = DV_is_derivative
C22_DDV = DDV_is_derivative
?C22_case = ex_tb_case
C22_poly_grad = poly_grad_correct
C22_poly_hessian = poly_hess_correct
# C23: fused product
C23_VC = VC_correct
?C23_case = ex_vc_case
# C24: Vandermonde with Arnoldi
C24_orthonormal = arnoldi_correct
C24_vandermonde = vandermonde_correct
C24_span = arnoldi_span
C24_DV = arnoldi_DV_correct
C24_polyval = polyvalA_correct
?C24_case = ex_arnoldi
# finding: too few samples always lead to a division by zero
C24_breakdown_refuted = arnoldi_breakdown
?C24_breakdown_case = ex_breakdown
# C25: scaling and roots
C25_range = scale_range
C25_invertible = scale_invertible
C25_hermite_moments = hermite_scale_moments
?C25_hermite_case = ex_herm_case
C25_roots = roots_correct
?C25_case = ex_roots_case
C25_laguerre_refuted = laguerre_scale_refuted
C25_constant_refuted = constant_coordinate_refuted
C25_roots_noscale_refuted = roots_noscale_refuted
# C60 (polynomial fits)
C60_poly_bound = poly_fit_bound
?C60_poly_case = ex_fit_case
