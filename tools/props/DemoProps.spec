@import RVec Num Sums DomModel NormProofs DomMoreModel MatLib FunModel FunProofs DemoDeriv DemoModel DemoGradA DemoGradB DemoGradC DemoGradD DemoClass DemoDom DemoMore DemoThm DemoCases
@scope R
# C102: borehole
C102_gradient = borehole_box
C102_formula = borehole_formula
C102_object = borehole_object
?C102_case = borehole_case
# C103: OTL circuit
C103_gradient = otl_box
C103_formula = otl_formula
C103_object = otl_object
C103_domain_refuted = otl_domain_refuted
?C103_case = otl_case
# C104: piston
C104_gradient = piston_gradient
C104_formula = piston_formula
C104_object = piston_object
C104_range = piston_range
?C104_case = piston_case
# C105: robot arm
C105_gradient = robot_arm_gradient
C105_formula = robot_formula
C105_object = robot_object
C105_bound = robot_bound
C105_range = robot_range
C105_rotation = robot_rotation
C105_fold_refuted = robot_fold_refuted
?C105_case = robot_case
# C106: wing weight
C106_gradient = wing_box
C106_formula = wing_formula
C106_object = wing_object
C106_range = wing_range
?C106_case = wing_case
# C107: Golinski gearbox
C107_gradient = golinski_box
C107_object = golinski_object
C107_redundant = golinski_redundant
C107_feasible = golinski_feasible
?C107_case = golinski_case
# C108: Hartmann flow
C108_gradient = hartmann_box
C108_object = hartmann_object
C108_positive = hartmann_range
?C108_case = hartmann_case
# C109: Nowacki beam
C109_gradient = beam_box
C109_formula = beam_formula
C109_object = beam_object
C109_default = beam_default
C109_values = beam_values
C109_feasible = beam_feasible
?C109_case = beam_case
# C110: affine and quadratic functions
C110_affine = affine_gradient
C110_affine_object = affine_object
C110_quad_iff = quad_gradient_iff
C110_quad_object = quad_object
C110_quad_refuted = quad_nonsymmetric_refuted
?C110_quad_case = quad_case
?C110_affine_case = affine_case
