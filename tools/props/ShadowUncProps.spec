@import RVec Num Sums DomMoreModel MatLib LipModel LipProofs LipMoreProofs PigeonLib ShadowUncModel ShadowUncProofs ShadowUncCases
@scope R
# C134: uncertainty along a direction
C134_grid = su_grid
C134_attained = su_attained
?C134_case = su_case
C134_encloses_partial = su_encloses
?C134_encloses_case = su_encloses_case
C134_endpoint_refuted = su_endpoint_refuted
C134_single_refuted = su_single_refuted
C134_epsilon_refuted = su_epsilon_refuted
