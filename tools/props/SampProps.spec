@import RVec Num Sums DomModel DomSpec DomProofs DomMoreModel SweepProofs HullProofs HullIneqProofs LipModel LipProofs MatLib SampModel PigeonLib LatinProofs PoissonProofs PoissonGrid PoissonCases DesignProofs CoffeeProofs GeoModel GeoProofs VoronoiProofs WalkProofs VoronoiCases MoreCases
@require Permutation Sorted ZArith
@scope R
# C33: Latin hypercube
C33_latin = lhs_latin
C33_inside = lhs_inside
?C33_case = ex_perms_ok
# C34: maximin Latin hypercube search
C34_best_visited = lhs_maximin_correct
C34_monotone = lhs_score_monotone
C34_distances = min_dists_spec
C34_score = score_spec
C34_swap_changes = swap_changes
?C34_swap_case = ex_swapped
C34_no_iterations_refuted = lhs_maximin_none_refuted
C34_single_point_refuted = lhs_maximin_single_refuted
C34_start_not_scored_refuted = lhs_start_refuted
?C34_case = ex_lhs_search
# C35: Poisson disk sampling
C35_correct = poisson_correct
C35_domain = poisson_domain
C35_terminates = poisson_terminates
C35_exhausted = poisson_spent
?C35_exhausted_case = ex_spent
C35_packing = packing
C35_bounded = poisson_bounded
C35_bounded_domain = poisson_bounded_domain
C35_unbounded_refuted = poisson_unbounded_refuted
?C35_case = ex_poisson
# C36: minimax design on a line
C36_optimal = minimax_1d_optimal
C36_zero = minimax_1d_none
C36_domains_convex = member_convexP
?C36_case = ex_corners
# C37: maximin design on a line
C37_optimal = maximin_1d_optimal
?C37_case = ex_corners
# C38: coffeehouse design
C38_two_optimal = coffeehouse_2opt
C38_line = coffeehouse_1d
C38_voronoi = coffeehouse_vor
C38_zero_refuted = coffeehouse_zero_refuted
?C38_case = ex_voronoi
# C39: Sobol sequence
C39_correct = sobol_correct
C39_terminates = sobol_terminates
C39_diverges = sobol_diverges
C39_scaling = sobol_in_box
?C39_case = ex_sobol
?C39_case_empty = ex_sobol_empty
# C41: Voronoi vertex walk
C41_step = vv_step_correct
C41_walk_inside = walk_inside
C41_walk_far_partial = walk_far_partial
C41_walk_far_refuted = walk_far_refuted
?C41_case = ex_walk
# C42: unique points
C42_kept_apart = unique_kept_apart
C42_dropped_near = unique_dropped
C42_near_partial = unique_near_partial
C42_chain_refuted = unique_chain_refuted
C42_last_kept = unique_last
?C42_case = unique_case
# C43: simplex and sphere
C43_simplex = simplex_weights
C43_simplex_zero_refuted = simplex_zero_refuted
C43_sphere = sphere_correct
C43_sphere_defined = sphere_defined
?C43_case_simplex = ex_simplex
?C43_case_sphere = ex_sphere
# C44: fill distance in one dimension
C44_farthest = vor1d_farthest
C44_exact = fill_1d_exact
C44_outside_refuted = fill_1d_outside_refuted
?C44_case = ex_fill
# C83: the background grid of the Poisson sampler
C83_refines = poisson_grid_refines
C83_covers = grid_covers
C83_neighbours = grid_near
C83_diameter = grid_same
C83_face_refuted = poisson_grid_face_refuted
C83_wrap_refuted = poisson_grid_wrap_refuted
C83_centre_refuted = poisson_grid_centre_refuted
?C83_case = ex_grid
# C86: fill distance in any dimension
C86_exact = fill_exact
?C86_case = ex_voronoi
