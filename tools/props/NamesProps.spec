@import NamesModel NamesProofs
@require String
@scope nat
# C143: names of variables
C143_constructor = constructor_names
C143_rejects = constructor_rejects
C143_product = product_names
C143_associative = product_assoc
C143_slices = slice_names
C143_normalized = normalized_names
?C143_case = bump_names
C143_distinct = product_distinct
C143_default_clash = default_names_clash
C143_unique_refuted = names_unique_refuted
