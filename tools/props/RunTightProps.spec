@import RVec Num Sums DomModel DomMoreModel LipModel MatLib GeoModel SampModel SampMoreModel ProjModel OptModel RunTight SubModel InitTight
@require Permutation
@scope R
# C85: the domains visited
C85_domains = seq_domains
?C85_domains_case = domains_case
# C81: when the iteration stops
C81_stops = lloyd_stops
?C81_stops_case = lloyd_stops_case
# C125: the filling sweeps of projection_sample
C125_sweeps = fill_sweeps_stop
?C125_sweeps_case = fill_sweeps_case
# C49: the status without iterations
C49_no_iterations = gn_no_iterations
?C49_no_iterations_case = no_iterations_case
# C52: the norm
C52_linf = linf_is_max
?C52_linf_case = linf_case
# C89: where gradients are estimated
C89_queries = init_queries
?C89_queries_case = init_queries_case
