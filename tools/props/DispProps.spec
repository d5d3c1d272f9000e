@import DispModel DispProofs
@require String
@scope nat
# C141: eval, grad and __call__ of BaseFunction
C141_returns = dispatch_returns
C141_recurses = dispatch_recurses
C141_pairs = dispatch_pairs
?C141_pairs_case = pair_case
C141_predict = dispatch_predict
C141_call_only = dispatch_call_only
C141_keywords_refuted = eval_keywords_refuted
C141_classes = classes_return
?C141_classes_case = gp_case
C141_gradient_refuted = gradient_refuted
# the order in which classes are searched
C141_merge = merge_order
C141_search_order = search_order
C141_override_wins = override_wins
?C141_search_case = diamond_case
