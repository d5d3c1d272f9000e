@import RVec Num Sums MatLib SpecProofs DomModel DomSpec DomProofs DomOpsProofs DomMoreModel GeoModel HullBasis PredModel PredProofs PredDirs PredCases
@scope R
# C127: the predicates of a general domain
C127_is_empty = is_empty_exact
C127_is_unbounded = is_unbounded_exact
C127_is_unbounded_line_raises = is_unbounded_1d
C127_is_point_single = is_point_single
C127_is_point_small = is_point_small
C127_is_point_not_empty = is_point_not_empty
C127_is_point_segment = seg_is_point
C127_is_point_refuted = is_point_refuted
C127_is_point_far_refuted = is_point_far
?C127_square_case = unit_square_case
?C127_half_plane_case = half_plane_case
?C127_empty_case = empty_case
# C128: random directions, boundary samples, starting point
C128_random_direction = random_direction_sound
C128_random_direction_ends = random_direction_ends
C128_random_direction_free = random_direction_free
?C128_random_direction_case = random_direction_case
C128_random_direction_refuted = random_direction_refuted
C128_random_direction_hangs = random_direction_hangs
C128_random_direction_point_refuted = random_direction_point
C128_sample_boundary = sample_boundary_spec
C128_sample_boundary_vertices = sample_boundary_vertices
?C128_sample_boundary_case = boundary_case
C128_corner_center = corner_center_spec
?C128_corner_center_case = corner_center_case
C128_corner_center_stop = cc_stop
?C128_corner_center_stop_case = cc_stop_case
