@import RVec Sums Num BasisModel IndexProofs PolyProofs ArnoldiProofs ArnoldiMoreProofs DomMoreModel SubModel PolyfitModel PolyfitProofs LsqAlg PolyfitCases
@scope R
# C132: polyfitA and the breakdown of the Arnoldi constructions
C132_breakdown_arnoldi = arnoldi_breakdown_iff
?C132_breakdown_arnoldi_case = breakdown_arnoldi_case
C132_breakdown_vandermonde = vandermonde_breakdown_iff
?C132_breakdown_case = breakdown_case
C132_least_squares = polyfitA_best
?C132_least_squares_case = polyfitA_best_case
C132_reproduces = polyfitA_exact
?C132_reproduces_case = polyfitA_exact_case
C132_lstsq_contract_met = lstsq_ok_exists
?C132_lstsq_case = lstsq_case
