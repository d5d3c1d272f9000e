@import RVec Num Sums DomModel DomSpec DomProofs DomMoreModel SweepProofs HullProofs HullIneqProofs LipModel LipProofs MatLib GrassLib SampModel PigeonLib LatinProofs PoissonProofs PoissonCases DesignProofs CoffeeProofs GeoModel GeoProofs VoronoiProofs WalkProofs SampMoreModel MinimaxProofs LloydProofs SLloydModel SLloydProofs SLloydCases
@scope R
# a walk started in the cell of a node ends in the cell of that node, and in the domain
C144_walk_keeps = walk_keeps
?C144_walk_keeps_ex = ex_keeps
C144_rows_inside = rows_inside
C144_rows_keep = rows_keep
# a perturbed copy of a node is nearest to that node if the other nodes are farther than twice the perturbation
C144_nudge_nearest = nudge_nearest
?C144_nudge_nearest_ex = ex_nudge
# the vertices of a pass
C144_update_inside = update_inside
C144_update_owns = update_owns
?C144_update_owns_ex = ex_owns
# the printed estimate is at most the fill distance if the vertices lie in the domain
C144_estimate = estimate_le
?C144_estimate_ex = ex_estimate
# designs
C144_design = sl_design
C144_step = sl_found
?C144_step_ex = ex_found
C144_full = sl_full
C144_estimates = sl_estimates
C144_dispatch_full = lloyd_full
C144_dispatch_sampled = lloyd_sampled
C144_dispatch_1d = lloyd_1d
?C144_dispatch_ex = ex_estimates
C144_result = lloyd_result
C144_errors = lloyd_errors
C144_rows_zero = sl_rows_zero
# what fails
C144_outside_refuted = outside_refuted
C144_unowned_refuted = unowned_refuted
C144_integer_refuted = integer_refuted
C144_rows_refuted = rows_refuted
