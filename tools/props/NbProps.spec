@import RVec Num Sums MatLib SpecProofs DomModel DomSpec DomProofs NormProofs DomMoreModel CvxProofs PredModel PredProofs NbModel NbProofs NbCases
@scope R
# C129: the normalization bounds
C129_exact_ranges = norm_bounds_exact
C129_domain_ranges = dom_norm_bounds
C129_domain_predicates = dom_predicates
C129_solver_answers = outcome_total
?C129_strip_case = strip_case
?C129_disc_case = disc_case
C129_empty_raises_once = norm_lb_empty
C129_empty_domain_raises_once = dom_norm_lb_empty
?C129_empty_case = nothing_case
C129_off_centre_refuted = offc_refuted
C129_mixed_bounds_refuted = mixed_bounds_refuted
