@import RVec Num Sums DomModel DomSpec DomProofs DomMoreModel SweepProofs HullProofs HullIneqProofs ArnoldiMoreProofs LipModel LipProofs MatLib SpecProofs GrassLib SampModel PigeonLib LatinProofs PoissonProofs PoissonCases DesignProofs CoffeeProofs GeoModel GeoProofs VoronoiProofs WalkProofs ProjSatProofs SampMoreModel MinimaxProofs LloydProofs BlockProofs BlockCases SeqSampProofs
@require Permutation Sorted ZArith
@scope nat
# C40: the SAT encoding of projection_sample
C40_numbering = enc_dec
C40_numbering_inverse = dec_enc
C40_numbering_bijection = enc_bijection
C40_sound = cnf_sound
C40_complete = cnf_complete
C40_read = perm_read
C40_solution = solution_is_permutations
C40_block = blocked_iff
C40_blocked_never = blocked_never
C40_blocked_keeps = blocked_keeps
?C40_case = ex_family
@scope R
# C45: integer bisection
C45_correct = int_bisect_correct
C45_asserts = int_bisect_asserts
C45_increasing = int_bisect_increasing
C45_smallest_partial = int_bisect_smallest_partial
C45_zero_refuted = int_bisect_zero_refuted
C45_decreasing_refuted = int_bisect_decreasing_refuted
?C45_case = ex_bisect
# C46: clustering minimax design
C46_best_partial = cluster_best_partial
C46_rows = cluster_rows
C46_score = cluster_dist
C46_single = cluster_single
C46_moves_refuted = cluster_moves_refuted
C46_single_refuted = cluster_single_refuted
?C46_case = ex_cluster
# C47: initial_sample
C47_inside = initial_inside
C47_identity = initial_identity
C47_distinct_refuted = initial_distinct_refuted
?C47_case = ex_initial
# C63: sampler
C63_aligned = sampler_aligned
C63_init = sampler_init_spec
C63_unbound_refuted = sampler_unbound_refuted
C63_missing_refuted = sampler_missing_refuted
?C63_case = ex_sampler
# C79: low_rank_L
C79_metric = low_rank_metric
C79_full_partial = low_rank_full_partial
C79_zero_refuted = low_rank_zero_refuted
?C79_case = ex_low_rank
# C80: maximin_block
C80_apart_partial = block_apart_partial
C80_walk_call = block_walk_call
C80_apart_refuted = block_apart_refuted
C80_row_optimal = block_row_optimal
?C80_case = ex_block
# C81: Lloyd's algorithm
C81_step_fill = lloyd_step_fill
C81_step_monotone_partial = lloyd_step_monotone_partial
C81_fill = lloyd_fill
C81_vertices_cover = vor_all_cover
C81_kept_vertices_cover = voronoi_vertex_cover
?C81_case = ex_lloyd
# C84: minimax covering
C84_discrete = covering_discrete
C84_feasible = covering_feasible
C84_domain = covering_domain
?C84_case = ex_covering
# C85: sequential maximin and stretched sampling
C85_select = select_best
C85_new = select_new
C85_inside = seq_inside
C85_stretch_first = stretch_first
C85_stretch_overwritten_refuted = stretch_overwritten_refuted
C85_stretch_unbound_refuted = stretch_unbound_refuted
C85_stretch_stale_refuted = stretch_stale_refuted
?C85_case = ex_select
?C85_case_domain = ex_seq_inside
?C85_case_stretch = ex_stretch
# C87: minimax_scale
C87_inside = scale_inside
C87_score_refuted = scale_score_refuted
?C87_case = ex_scale
