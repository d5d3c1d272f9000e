@import RVec Num DomModel DomMoreModel NormProofs AsyncModel AsyncProofs
@require String
@scope R
# C142: asynchronous evaluation
C142_schedule = schedule_result
C142_schedules_agree = schedules_agree
C142_worker = worker_call
C142_values = async_eval
?C142_values_case = async_case
C142_global = async_global
C142_parameter = async_parameter
C142_gradients = async_gradients
C142_unscaled = async_unscaled
C142_gradient_refuted = async_gradient_refuted
C142_call_refuted = async_call_refuted
C142_global_refuted = async_global_refuted
C142_lambda_refuted = lambda_refuted
