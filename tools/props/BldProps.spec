@import NamesModel BldModel BldProofs
@require String
@scope R
# C155: builders of the demonstration domains
C155_control_points_refuted = oas_control_points
C155_wing = oas_named
?C155_wing_case = oas_case
C155_airfoil = airfoil_named
?C155_airfoil_case = airfoil_case
C155_clip_refuted = gearbox_clip_refuted
C155_truncate = gearbox_truncate
?C155_truncate_case = gearbox_truncate_case
C155_nozzle_partial = nozzle_keywords
?C155_nozzle_case = nozzle_case
C155_nozzle_random_refuted = nozzle_random_refuted
?C155_nozzle_random_case = nozzle_random_case
