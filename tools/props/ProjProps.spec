@import RVec Num DomModel DomSpec DomProofs DomOpsProofs DomMoreModel GeoModel SampModel SampMoreModel LatinProofs ProjSatProofs ProjModel ProjCellProofs ProjLineProofs ProjLhsProofs ProjSearch ProjSampleLoop ProjDesignLoop ProjCases ProjGeo ProjEx ProjKeep Sums
@require ZArith Permutation
@scope R
# C82: Voronoi cells of projected points
C82_design_rows = vc_rows_spec
C82_design_single_raises = vc_rows_single
C82_design_cell = cell_of_iff
C82_sample_cell_rows = ps_cell_spec
C82_sample_neighbours = line_cells
C82_sample_ties_refuted = line_ties_refuted
C82_sample_single_raises = neighbors_single
C82_sample_planar_raises = neighbors_planar
C82_sample_asserts = asserts_iff
C82_sample_subdomain = sub_of_iff
C82_cover = cells_cover
C82_overlap = cells_overlap
C82_combinations_cover = combos_cover
C82_lhs_slices = lhs_cells
C82_lhs_one_per_slice = lhs_generalized
C82_lhs_offset_raises = lhs_offset_raises
C82_lhs_narrow_raises = lhs_narrow_raises
?C82_lhs_case = lhs_metric_case
?C82_lhs_offset_case = lhs_offset_case
C82_design_objective = target_sum
C82_design_nearest = target_best
?C82_design_case = near_oracles
?C82_subdomain_case = sample_case_data
# C125: search loops
@scope nat
C125_sample_terminates = sample_terminates
C125_sample_best = sample_best
C125_sample_keeps = sample_keeps
C125_sample_bound_variable = sample_no_unbound
@scope R
C125_zero_score = score_zero_iff
C125_sample_unbound_refuted = sample_unbound
C125_sample_projects = sample_projects
C125_sample_latin = sample_latin
@scope nat
C125_solver_exists = solver_exists
C125_design_terminates = design_terminates
C125_design_best = design_best
C125_design_keeps = design_keeps
C125_design_found = design_found
C125_design_bound_variable = design_bound
@scope R
C125_design_projects = design_projects
@scope nat
C125_design_infeasible_hangs = design_infeasible_hangs
@scope R
C125_design_far_refuted = design_far_hangs
@scope nat
C125_design_exhausted_refuted = design_hangs
@scope R
?C125_sample_case = sample_latin_case
?C125_design_case = design_near
?C125_far_case = design_far_case
C125_assumptions = asm_exact
C125_assumptions_keep = asm_keeps
?C125_assumptions_case = asm_case
C125_sweep = sweep_rows
C125_sweep_stationary = sweep_stationary
?C125_sweep_case = sweep_case
