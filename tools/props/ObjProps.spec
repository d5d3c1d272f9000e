@import RVec Num DomModel DomMoreModel DomProofs NormProofs PredModel NbModel DemoModel ObjModel ObjProofs ObjCases
@scope R
# C140: exceptions of objects without solver options
C140_conservation = history_debt
C140_first_operations = history_exact
C140_settled = settled
C140_product_attempts = product_attempts
C140_product_never = product_never
?C140_product_case = logs_case
C140_unbounded = unbounded_history
?C140_unbounded_case = unbounded_case
C140_unbounded_queries_refuted = unbounded_queries_refuted
C140_lognormal_unscaled = lognormal_identity
C140_lognormal_truncated = lognormal_truncated
C140_borehole = borehole_uncertain_evals
C140_evaluation_refuted = evaluation_history_refuted
# the point found by the solver is returned
C140_closest_point = closest_nearest
?C140_closest_point_case = closest_case
