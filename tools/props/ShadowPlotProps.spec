@import RVec Num Sums DomModel DomSpec DomProofs DomMoreModel SweepProofs HullProofs HullIneqProofs LipModel LipProofs LipMoreProofs MatLib GrassLib SampModel SubModel ShadowProofs ShadowPlotModel ShadowPlotProofs
@require Ascii
@scope R
# what is drawn
C146_curve_profile = curve_profile
?C146_curve_ex = ex_curve
C146_mesh_profile = mesh_profile
?C146_mesh_ex = ex_mesh
C146_curve_covers = curve_covers
C146_curve_line = curve_line
C146_points_profile = points_profile
C146_curve_refuted = curve_refuted
# which arguments are accepted
C146_base_iff = base_iff
C146_default_refuted = default_refuted
C146_doc_shape_refuted = doc_shape_refuted
# the names of the files
C146_resp_ext = resp_ext
C146_resp_last = resp_last
C146_resp_new = resp_new
C146_resp_inj = resp_inj
C146_resp_dir = resp_dir
C146_resp_refuted = resp_refuted
# the curves of LipschitzApproximation
C146_lip_sorted = lip_sorted
C146_lip_mid = lip_mid
