@import RVec DomMoreModel LipModel SampModel MiniModel KdeModel KdeProofs
@scope R
# C156: kernel density estimates of ridge values
C156_density = kde_density
?C156_density_case = kde_case
C156_antiderivative = kde_antiderivative
C156_returns_partial = pdf_returns
C156_constant_refuted = pdf_constant_refuted
C156_grid = pdf_grid
?C156_grid_case = pdf_case
C156_mass_refuted = pdf_mass_refuted
C156_mass_sharp = kde_mass_sharp
?C156_sharp_case = kde_sharp_case
