@import RVec Num Sums DomModel DomSpec DomProofs NormProofs DomOpsProofs DomExamples DomMoreModel SweepProofs CvxProofs HullProofs BoxPredProofs SampleProofs QuadProofs DomMoreExamples ChebProofs HullIneqProofs TensorModel TensorProofs MoreCases
@require Permutation
# C08: samples of every domain class lie in the domain, as many as asked for
C08_nonpositive = sample_nonpositive
C08_wrapper = sample_wrapper
C08_box = box_sample_inside
?C08_box_case = ex_box_sample
C08_point = point_sample_inside
C08_normal = normal_sample_inside
?C08_normal_case = ex_normal
C08_reject = reject_first
?C08_reject_case = ex_reject
# Hit and run: with an exact closest point solver every sample is inside within the tolerance.
C08_hit_and_run = linquad_sample_in
?C08_hit_and_run_case = ex_hitrun_hyp
?C08_hit_and_run_run = ex_hitrun
C08_hit_and_run_chord = hit_run_chord
?C08_hit_and_run_chord_case = ex_hit_run_chord
C08_tensor = tensor_rows_in
?C08_tensor_case = ex_tensor_rows
C08_hull_two_points = hull_two_in
# Sampling a low dimensional hull goes through to_linineq, which forgets lb and ub: points outside the
# hull domain pass the membership test of the domain being sampled.
C08_hull_refuted = to_linineq_refuted
# C11: sweeps stay in the domain
C11_sweep_partial = sweep_correct
?C11_case = ex_sweep_case
C11_corner_sweep = sweep_points_member
C11_refuted = sweep_refuted
# C12: grids
C12_exact = sample_grid_exact
?C12_case = ex_grid
C12_box_count = sample_grid_box
?C12_box_case = ex_grid_box
# C14: constrained least squares
C14_actual_minimiser = cls_actual
C14_partial = cls_correct_if_centred
C14_refuted = cls_refuted
?C14_case = ex_cls_returns
# C15: hull membership
C15_complete = hull_complete
C15_sound_partial = hull_sound_partial
C15_refuted = hull_refuted
?C15_case = ex_hull_case
# C05 for hulls
C05_hull_add = hull_add_conj
C05_and_hull_refuted = and_hull_refuted
# C16: predicates of box domains
C16_empty = is_empty_spec
C16_point = is_point_spec
C16_unbounded = is_unbounded_spec
C16_history_partial = history_partial
C16_history_empty = history_empty
C16_history_refuted = history_refuted
?C16_case = box_pred_case
# C17: quadrature
C17_gauss = gauss_correct
?C17_gauss_case = ex_gauss2
?C17_gauss_rule_case = ex_gauss2_rule
C17_rule_inside = quadrature_gauss_correct
C17_box = quadrature_box
?C17_box_case = ex_quad_box
C17_points_per_axis = quad_q_bound
C17_monte_carlo = mc_weights_sum
# C18: lognormal domains
C18_truncated_partial = logn_truncated
C18_untruncated_partial = logn_untruncated
?C18_case = ex_logn
C18_negative_scaling = logn_negative_scaling
C18_refuted = logn_refuted
# C66: closest point
C66_closest_point = closest_correct
?C66_case = ex_closest
# C67: corners of constraint defined domains
C67_corner_partial = corner_correct
?C67_case = ex_corner
C67_refuted = corner_offcentre_refuted
# C68: extent of a hull
C68_step = hull_step_spec
C68_partial = hull_extent_partial
C68_refuted = hull_extent_refuted
# C69: conversion of a hull to inequalities
C69_collinear_partial = interval_exact
?C69_case = ex_collinear
C69_refuted = to_linineq_refuted
# C70: lognormal density
C70_density_iff = logn_pdf_spec
?C70_case = ex_logn_pdf
# C71: Chebyshev center
C71_inside = cheb_inside
C71_largest = cheb_largest
?C71_case = ex_cheb
C71_empty_refuted = cheb_empty_refuted
