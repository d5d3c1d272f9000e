@import ContModel ContProofs
@scope R
# C154: contours written to files
C154_roundtrip_partial = contour_roundtrip
?C154_case = contour_case
C154_empty_refuted = contour_empty_refuted
C154_prepared = contour_prepared
C154_curved = contour_curved
?C154_raise_case = contour_raise_case
