@import RVec Num Sums DomModel DomSpec DomProofs NormProofs DomMoreModel ChebProofs Deriv FunModel FunProofs
# C19: the wrapper evaluates through unnormalize and differentiates by the chain rule
C19_eval = eval_normalized
C19_chain_rule = grad_chain_rule
?C19_jacobian_case = ex_jacobian
?C19_case = ex_grad_case
C19_scalar_rows = grad_scalar_rows
C19_call_consistent = call_consistent
C19_call_consistent_rows = call_consistent_rows
C19_vectorized_rows = eval_vec_rows
C19_vectorized_grad_rows = grad_vec_rows
# findings: the vectorized branches mix up functions and samples
C19_vec_grad_refuted = vec_grad_refuted
C19_vec_values_refuted = vec_values_refuted
# C20: forward differences
C20_entries = fd_grad_spec
C20_points = fd_points
?C20_points_case = ex_fd_points
C20_affine = fd_exact_affine
?C20_case = ex_fd_case
C20_error = fd_error
?C20_error_case = ex_fd_err
C20_kwargs_refuted = fd_kwargs_refuted
C20_multi_refuted = fd_multi_refuted
C20_outside_refuted = fd_outside_refuted
