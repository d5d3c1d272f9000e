@import RVec Num DomMoreModel FunModel FunProofs LipModel ChkModel ChkProofs ChkMore
@scope R
# C111: check_derivative
C111_value = check_derivative_value
C111_complete = check_derivative_complete
C111_sound = check_derivative_sound
C111_exact = check_derivative_exact
C111_steps = hvec_default_spec
C111_default = check_derivative_default
C111_tolerance_refuted = check_derivative_refuted
?C111_case = check_derivative_case
# C112: check_gradient and check_jacobian
C112_is_derivative = check_gradient_is
C112_gradient = jt_r_gradient
C112_gradient_refuted = check_gradient_refuted
?C112_gradient_case = check_gradient_case
C112_value = check_jacobian_value
C112_sound = check_jacobian_sound
C112_complete = check_jacobian_complete
C112_masked = check_jacobian_masked
C112_jacobian_refuted = check_jacobian_refuted
?C112_case = check_jacobian_case
# C113: check_hessian
C113_value = check_hessian_value
C113_steps = hvec_hess_spec
C113_complete = check_hessian_complete
C113_sound = check_hessian_sound
?C113_case = check_hessian_case
