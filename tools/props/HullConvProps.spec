@import RVec Num DomModel DomSpec DomMoreModel LipModel LipProofs HullProofs MatLib SpecProofs PartialProofs VoronoiProofs GeoModel HullConvModel HullConvProofs HullConvMore HullBasis HullConvCases SweepProofs SolveCases
@scope R
# C69: conversion of a hull to inequalities, all branches of _hull_to_linineq
C69_exact = hull_to_linineq_exact
C69_returns = hull_to_linineq_returns
C69_to_linineq = to_linineq_exact
C69_domain = to_linineq_member
C69_oracles = conv_oracles_exist
C69_thin_refuted = thin_refuted
C69_near_refuted = near_refuted
?C69_square_case = sq_conv
?C69_segment_case = sg_to_linineq
?C69_returns_case = sg_returns
# C123: constraints handed to the convex solvers
C123_linear = build_lin_exact
C123_tensor = build_tensor_exact
C123_hull_raises = build_hull_raises
C123_hull_refuted = build_hull_refuted
?C123_tensor_case = sq_build
?C123_linear_case = usq_build
# C124: equality basis of a hull
C124_projection = hull_eq_basis_projects
C124_differences = basis_keeps_differences
C124_oracles = basis_oracles_exist
?C124_case = sg_basis
