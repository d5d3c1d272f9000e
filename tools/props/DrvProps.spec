@import RVec Num DrvModel DrvProofs
@require String
@scope R
# C149 demos that run simulations through text files
C149_oas_point = oas_point
C149_oas_rows = oas_rows
C149_oas_rowwise = oas_rowwise
?C149_oas_case = oas_case
C149_oas_single_raises = oas_single_raises
C149_oas_single_refuted = oas_single_refuted
C149_printing_error = dec16_error
?C149_printing_case = dec16_case
C149_printing_refuted = dec16_merge_refuted
C149_rows_evaluated = rows_evaluated
?C149_rows_case = rows_case
C149_kept_second = kept_second
C149_failed_sticks = failed_sticks
C149_kept_unnamed = kept_unnamed
C149_kept_rows_refuted = kept_rows_refuted
C149_keywords = merge_twice
C149_level = multif_level_runs
?C149_level_case = level_case
C149_level_refuted = multif_level_refuted
C149_log = log_prefix
?C149_log_case = log_case
C149_log_refuted = log_refuted
