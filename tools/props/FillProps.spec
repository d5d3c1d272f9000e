@import RVec Num Sums DomModel DomSpec DomProofs DomMoreModel SweepProofs HullProofs HullIneqProofs LipModel LipProofs MatLib GrassLib SampModel PigeonLib LatinProofs PoissonProofs PoissonCases DesignProofs CoffeeProofs GeoModel GeoProofs VoronoiProofs WalkProofs VoronoiCases FillModel FillProofs FillCases
@scope R
# C133: the estimate of the fill distance
C133_attained = est_attained
?C133_case = fill_est_case
C133_below_exact = est_le_exact
?C133_below_exact_case = fill_est_le_case
C133_starts_partial = est_starts
?C133_starts_case = fill_est_starts_case
C133_starts_refuted = est_starts_refuted
