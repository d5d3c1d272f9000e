@import RVec Sums Num MatLib GrassLib SpecProofs Decomp DomModel DomSpec DomProofs NormProofs DomOpsProofs DomExamples DomMoreModel SweepProofs QuadProofs QuadExact LipModel LipFitProofs SubModel ActiveProofs AsFunModel AsFunProofs AsFunCases
@scope R
# C131: the active subspace of a function from a quadrature rule
C131_integral = fit_function_integral
C131_kernel = fit_function_kernel
C131_constant_directions = fit_function_constant
C131_active_coordinates_partial = fit_function_active
C131_rule_points = rule_points
C131_rule_monte_carlo = rule_monte_carlo
?C131_rule_case = rule_case
C131_rule_point = rule_point
C131_points_per_axis = quad_q_pow
?C131_case = fit_function_case
C131_active_coordinates_refuted = fit_function_refuted
