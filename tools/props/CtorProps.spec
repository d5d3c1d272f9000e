@import RVec Num DomModel DomSpec DomProofs DomOpsProofs CtorModel CtorProofs
@scope R
# C151: constructing domains from their arguments
C151_points = new_points
?C151_case = disc_case
C151_accepts = new_accepts
C151_linineq = linineq_points
?C151_linineq_case = linineq_case
C151_box = box_points
?C151_box_case = box_case
C151_point = point_points
C151_scalars = new_scalars
C151_again = new_again
?C151_again_case = again_case
C151_add = add_args_points
?C151_add_case = add_case
# a single inequality as a vector: accepted beside bounds, TypeError without
C151_row_refuted = row_refuted
# no rows at all
C151_empty_refuted = empty_refuted
# accepted arguments may describe the empty set
C151_crossing_refuted = crossing_refuted
# a ball of radius zero is refused although it is a point
C151_ball = degenerate_ball
