@import RVec Num DomMoreModel NozModel NozProofs NozMore NozCases NozData NozDomain NozParts NozWhole NozCorner
@scope R
# C117: elimination of the fixed entries
C117_row = reduce_row_spec
C117_kept = finish_kept
?C117_case = elimination_instance
# C118: control points of the wall
C118_rows = bspline_spec
C118_slopes = bspline_slopes
C118_returns = bspline_returns
C118_zero_pair = bspline_zero_pair
C118_doubled_throat = bspline_doubled_throat
C118_flat_throat = bspline_flat_throat
C118_nothroat_refuted = bspline_nothroat_refuted
C118_lowest_refuted = bspline_lowest_refuted
?C118_case = bspline_instance
?C118_doubled_case = bspline_doubled_instance
# C119: piecewise bilinear layers
C119_rows = pba_spec
C119_returns = pba_returns
C119_angles_refuted = pba_angles_refuted
C119_single_refuted = pba_single_refuted
?C119_case = thermal_case
# C120: baffles
C120_rows = baffles_spec
C120_returns = baffles_returns
?C120_case = baffles_instance
# C121: cleanup
C121_rows = cleanup_spec
C121_shape = cleanup_shape
C121_drops_refuted = cleanup_refuted
?C121_case = cleanup_instance
# C122: the design domain
C122_wall = wall_iff
C122_wall_nominal_refuted = wall_nominal_outside
C122_wall_rows_refuted = wall_rows_unsatisfiable
C122_wall_bounds = wall_bounds_redundant
C122_layer_rows = layer_iff
C122_layer = layer_reduced
C122_layer_box = layer_is_box
C122_load = load_layers
C122_thermal_gap = thermal_gap
C122_thermal_coupled = thermal_coupled
C122_stringers = stringers_iff
C122_stringers_reduced = stringers_reduced
C122_baffles = baffles_iff
C122_dimension = design_dimension
C122_inhabited = design_inhabited
C122_corners_exist = corners_exist
C122_random = random_parts_ok
?C122_wall_case = wall_point_ok
