@import RVec Num Sums DomModel DomSpec DomProofs NormProofs DomOpsProofs DomExamples DomMoreModel SweepProofs QuadProofs QuadExact
@scope R
# C126: exactness of the Gauss rule
C126_gauss_exact = gauss_exact
?C126_gauss_exact_case = gauss_exact_case
C126_gauss_riemann = gauss_riemann
?C126_gauss_riemann_case = gauss_riemann_case
C126_gauss_sharp = gauss_sharp
?C126_gauss_sharp_case = gauss_sharp_case
C126_gauss_nodes = gauss_nodes
C126_eigenvectors_exist = eigh_full_solvable
C126_tensor_exact = cub_exact
C126_box_exact = quadrature_box_exact
?C126_box_exact_case = quadrature_box_exact_case
C126_box_integral_exists = boxint_exists
C126_box_integral_unique = boxint_unique
