@import RVec Num Sums DomModel DomMoreModel LipModel SampModel DesignProofs GeoModel SampMoreModel MmxModel MmxProofs
@require ZArith
@scope R
# C150: high-level minimax designs and optimal covers
C150_exact = design_exact
C150_cluster = design_cluster
C150_zero = design_zero
C150_transposed = cover_transposed
C150_smallest_partial = cover_smallest_partial
C150_default = cover_default
?C150_exact_case = design_exact_case
?C150_cover_case = cover_case
# what fails
C150_one_dimension_refuted = design_1d_refuted
C150_metric_refuted = cover_metric_refuted
C150_raises_refuted = cover_raises_refuted
