@import RVec Num Sums DomModel DomSpec DomProofs DomMoreModel SweepProofs HullProofs HullIneqProofs LipModel LipProofs MatLib SampModel PigeonLib LatinProofs PoissonProofs PoissonCases DesignProofs CoffeeProofs GeoModel GeoProofs VoronoiProofs SampMoreModel MinimaxProofs LloydProofs SeqSampProofs StretchModel StretchProofs
@require String Permutation
@scope R
# the constraints added by stretch_sample_domain
C145_constraints = stretch_constraints
C145_returns = stretch_returns
C145_keeps = stretch_keeps
C145_keeps_mind = stretch_keeps_mind
C145_nonempty = stretch_nonempty
C145_single = stretch_single
?C145_single_ex = ex_single
C145_two_refuted = stretch_two_refuted
C145_sample = stretch_sample_spec
# calling the samplers
C145_kcall_runs = kcall_runs
C145_kcall_refuses = kcall_refuses
C145_samplers_raise = samplers_raise
?C145_import_ex = ex_import
