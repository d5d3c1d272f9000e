@import RVec Num Sums DomModel DomMoreModel QuadProofs HullProofs LipModel LipProofs MatLib SampModel GeoModel SampMoreModel LloydProofs SubModel ShadowProofs RidgeModel RidgeFitCases SubTight LloydTol MoreRefuted GeoProofs VoronoiProofs WalkProofs VoronoiCases FillModel FillLine CoffeeProofs MinimaxProofs MmcTight SLloydModel PosTight DrvModel DrvTight DemoModel HartFlow BlockProofs BlockTight BasisModel LocalLinProofs OpgTight
@require ZArith
@scope R
# C46: clusters, the objective lowered by every step, stopping
C46_members = cluster_members
?C46_members_case = members_case
C46_cost = scored_cost
?C46_cost_case = cost_case
C46_fill = scored_fill
C46_stops = cluster_stops
?C46_stops_case = stops_case
# C65: the envelope for solvers meeting their contract
C65_solvers = envelope_solvers
# C70: the density
C70_refuted = logn_pdf_refuted
# C81: distances below the absolute tolerance
C81_collapse = lloyd_collapse
C81_monotone_refuted = lloyd_step_grows_refuted
?C81_collapse_case = collapse_case
# C96: one value per sample
C96_vector_values_refuted = vector_values_refuted
# C133: exact on an interval when every gap holds a start
C133_line = est_line
?C133_line_case = est_line_case
C133_line_refuted = est_line_refuted
# C83: numpy's treatment of negative indices
C83_index = wrap_spec
?C83_index_case = wrap_case
# C144: storing in an array of integers
C144_truncation = trunc_spec
?C144_truncation_case = trunc_case
# C149: files with one number
C149_vector_file = vector_file
?C149_vector_file_case = vector_file_case
# C108: the formulas are the means of the solution of the Hartmann equations
C108_equations = hartmann_equations
?C108_equations_case = hartmann_equations_case
# C80: the sweeps and when they stop
C80_stops = block_stops
?C80_stops_case = block_stops_case
# C54: what standardizing does
C54_standardize = opg_standardize
?C54_standardize_case = opg_standardize_case
C54_covariance_refuted = opg_covariance_refuted
# C55: which perplexities are accepted
C55_perplexity = ll_perplexity
C55_default = ll_default
?C55_perplexity_case = ll_perplexity_case
