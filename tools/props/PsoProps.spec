@import RVec Num Sums DomModel DomMoreModel LipModel SampModel GeoModel SampMoreModel MinimaxProofs MmcTight PsoModel PsoProofs
@scope R
# C153: clustering with a swarm of designs
C153_best_partial = pso_best_partial
?C153_best_case = best_case
C153_initial_refuted = pso_initial_refuted
C153_box_partial = pso_box_partial
?C153_box_case = box_case
C153_domain_refuted = pso_domain_refuted
C153_convex_partial = pso_convex_partial
?C153_convex_case = convex_case
C153_init = init_first
?C153_init_case = init_case
C153_init_refuted = init_refuted
C153_no_iterations = pso_none
# the particles: own best designs, replacement of the worst
C153_local = pso_local
?C153_local_case = local_case
C153_replaced = pso_replaced
?C153_replaced_case = replaced_case
