@import RVec Num Sums DomModel DomSpec DomProofs DomMoreModel SweepProofs HullProofs TensorModel TensorProofs ArnoldiMoreProofs MatLib SpecProofs LipModel SdpProofs GrassLib GpProofs Compact LinLs Spectral HullConvModel HullConvMore HullBasis GnStep KindModel KindProofs KindDims
@require ZArith
@scope R
# kinds
C147_box = box_sound
?C147_box_ex = ex_box
C147_nested = kinds_nested
C147_linineq = linineq_sound
C147_hull_refuted = hull_kind_refuted
# dimension
C147_dims_unique = dims_unique
C147_affine_dims = affine_dims
C147_intrinsic = intrinsic_leaf
?C147_intrinsic_ex = ex_intrinsic
C147_dims_times = dims_times
C147_prod = intrinsic_prod
C147_prod_exact = intrinsic_prod_exact
C147_intrinsic_refuted = intrinsic_refuted
