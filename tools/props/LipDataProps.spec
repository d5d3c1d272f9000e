@import RVec LipDataModel LipDataProofs
@scope R
# C152: data given to the Lipschitz fits
C152_kept = data_kept
?C152_case = data_case
C152_grads_only = data_grads_only
C152_column = data_column
C152_shapes = data_shapes
# gradients of another dimension are cut into rows of the right length
C152_grads_accepted = data_grads_accepted
C152_mismatch_refuted = mismatch_refuted
C152_transposed = transposed_accepted
?C152_transposed_case = transposed_case
C152_empty = empty_data
C152_flat = flat_samples
C152_half = half_data
