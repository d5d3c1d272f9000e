@import RVec Num DomMoreModel LipModel SampModel MiniModel MiniProofs
@scope R
# C114: smallest enclosing ball
C114_optimal = miniball_optimal
C114_growth = miniball_growth
C114_unique = miniball_unique
C114_radius = miniball_radius
C114_default = miniball_default
?C114_case = miniball_case
# C115: convergence study
C115_angles = study_angles
C115_lengths_refuted = study_lengths_refuted
?C115_case = study_case
# C116: empirical safety factor
C116_range = percentile_range
C116_upper = safety_upper
C116_lower = safety_lower
C116_share_refuted = safety_share_refuted
?C116_case = percentile_case
