{
 "claims": [
  {
   "property": "C01",
   "status": "proved",
   "theorems": [
    "C01_membership_exact",
    "C01_membership_rows",
    "C01_tolerance_monotone",
    "C01_exact_set",
    "C01_wrong_dimension",
    "C01_point_ignores_tolerance",
    "C01_point_refuted"
   ],
   "note": "Exact characterisation for every domain given by constraints (Box, LinIneq, LinQuad). PointDomain overrides the test with exact equality: characterised by C01_point_ignores_tolerance, and C01_point_refuted shows that its tolerance argument has no effect."
  },
  {
   "property": "C02",
   "status": "proved",
   "theorems": [
    "C02_unnormalize_normalize",
    "C02_normalize_unnormalize"
   ],
   "note": ""
  },
  {
   "property": "C03",
   "status": "proved",
   "theorems": [
    "C03_unit_cube",
    "C03_end_points"
   ],
   "note": ""
  },
  {
   "property": "C04",
   "status": "partial",
   "theorems": [
    "C04_normalized_domain_partial",
    "C04_normalized_domain_refuted",
    "C04_tensor_partial"
   ],
   "note": "Finding: ys_norm shifts but does not rescale the ellipsoid centre, so normalized_domain is wrong unless the ellipsoid is centred in the normalization box; holds otherwise when bounds are uniformly finite or infinite (see C13)."
  },
  {
   "property": "C05",
   "status": "partial",
   "theorems": [
    "C05_hull_add",
    "C05_and_hull_refuted",
    "C05_add_constraints_conj",
    "C05_and_commutes",
    "C05_and_associates",
    "C05_tensor_add_constraints_partial",
    "C05_tensor_refuted"
   ],
   "note": "Conjunction proved for Box/LinIneq/LinQuad with non-NaN bounds (lower finite or -inf, upper finite or +inf) and for tensor products of linear factors. Finding: tensor products with ellipsoidal factors drop the ellipsoid."
  },
  {
   "property": "C06",
   "status": "partial",
   "theorems": [
    "C06_extent_partial",
    "C06_extent_box",
    "C06_extent_leaves_equality",
    "C06_extent_face_refuted",
    "C06_extent_tolerance_refuted",
    "C06_extent_equality_refuted",
    "C06_extent_ellipsoid_refuted",
    "C06_tensor_extent"
   ],
   "note": "Exact safe and maximal step proved away from the four refuted situations: active inequality being increased, start outside within tolerance, equality constraints of LinIneqDomain ignored, moving inwards from the surface of an ellipsoid."
  },
  {
   "property": "C07",
   "status": "proved",
   "theorems": [
    "C07_corner_optimal",
    "C07_corner_empty"
   ],
   "note": ""
  },
  {
   "property": "C08",
   "status": "partial",
   "theorems": [
    "C08_nonpositive",
    "C08_wrapper",
    "C08_box",
    "C08_point",
    "C08_normal",
    "C08_reject",
    "C08_hit_and_run",
    "C08_hit_and_run_chord",
    "C08_tensor",
    "C08_hull_two_points",
    "C08_hull_refuted"
   ],
   "note": "Proved for box, point, normal, tensor, two-point hulls and hit-and-run with an exact closest point oracle. Finding: hull sampling in dimension <= 3 uses to_linineq, which drops lb/ub."
  },
  {
   "property": "C09",
   "status": "proved",
   "theorems": [
    "C09_membership_blockwise",
    "C09_dimension",
    "C09_associative"
   ],
   "note": ""
  },
  {
   "property": "C10",
   "status": "proved",
   "theorems": [
    "C10_normalize_blocks",
    "C10_unnormalize_blocks",
    "C10_inverse"
   ],
   "note": ""
  },
  {
   "property": "C11",
   "status": "partial",
   "theorems": [
    "C11_sweep_partial",
    "C11_corner_sweep",
    "C11_refuted"
   ],
   "note": "All points are members and the end points are the exact limits of the domain when the step computation is exact (see C06); on an active face the sweep is wrong (C11_refuted)."
  },
  {
   "property": "C12",
   "status": "proved",
   "theorems": [
    "C12_exact",
    "C12_box_count"
   ],
   "note": ""
  },
  {
   "property": "C13",
   "status": "partial",
   "theorems": [
    "C13_half_infinite_refuted",
    "C13_half_infinite_partial",
    "C13_infinite_kept",
    "C13_proper"
   ],
   "note": "Finding: mixed finite/infinite bounds give NaN normalized bounds (0*inf in the dense product), which isinside skips."
  },
  {
   "property": "C14",
   "status": "partial",
   "theorems": [
    "C14_actual_minimiser",
    "C14_partial",
    "C14_refuted",
    "C14_solvable"
   ],
   "note": "Finding: the normalized objective uses b + A c instead of b - A c; the routine minimises |Ax - (b + 2Ac)| where c is the centre. Correct only if A c = 0. The problem handed to the solver has a solution (C14_solvable)."
  },
  {
   "property": "C15",
   "status": "partial",
   "theorems": [
    "C15_complete",
    "C15_sound_partial",
    "C15_refuted",
    "C15_solvable"
   ],
   "note": "Points of the hull are accepted; accepted points are near the hull when the coefficients sum to one. Finding: the sum of the coefficients is not checked, so points outside the hull are accepted. The problem handed to the solver has a solution (C15_solvable)."
  },
  {
   "property": "C16",
   "status": "partial",
   "theorems": [
    "C16_empty",
    "C16_point",
    "C16_unbounded",
    "C16_history_partial",
    "C16_history_empty",
    "C16_history_refuted"
   ],
   "note": "The three predicates are correct on a fresh object; finding: asking is_empty (or sampling) first stores wrong values for is_point and is_unbounded."
  },
  {
   "property": "C17",
   "status": "proved",
   "theorems": [
    "C17_gauss",
    "C17_rule_inside",
    "C17_box",
    "C17_points_per_axis",
    "C17_monte_carlo",
    "C17_solvable"
   ],
   "note": ""
  },
  {
   "property": "C18",
   "status": "partial",
   "theorems": [
    "C18_truncated_partial",
    "C18_untruncated_partial",
    "C18_negative_scaling",
    "C18_refuted"
   ],
   "note": "Finding: negative scaling reverses the bounds; without truncation the lower bound is 0 whatever the offset."
  },
  {
   "property": "C19",
   "status": "partial",
   "theorems": [
    "C19_eval",
    "C19_chain_rule",
    "C19_scalar_rows",
    "C19_call_consistent",
    "C19_call_consistent_rows",
    "C19_vectorized_rows",
    "C19_vectorized_grad_rows",
    "C19_vec_grad_refuted",
    "C19_vec_values_refuted"
   ],
   "note": "Proved for one point and row by row, with gradients given separately or returned with the value, and for vectorized functions whose arrays have the expected shape. Findings: with return_grad the vectorized branch of grad leaves the axes [function, sample] transposed (C19_vec_grad_refuted) and the vectorized branch of __call__ stacks 1-d value arrays of several functions into one row (C19_vec_values_refuted)."
  },
  {
   "property": "C20",
   "status": "partial",
   "theorems": [
    "C20_entries",
    "C20_points",
    "C20_affine",
    "C20_error",
    "C20_kwargs_refuted",
    "C20_multi_refuted",
    "C20_outside_refuted"
   ],
   "note": "Exact on affine functions, error at most C/2*1e-7 for second derivative bounded by C, evaluates only at z and z + h e_i. Findings: keyword arguments are dropped from the base value, several outputs raise, the forward step leaves the domain at the upper faces."
  },
  {
   "property": "C21",
   "status": "proved",
   "theorems": [
    "C21_members",
    "C21_no_duplicates",
    "C21_sorted",
    "C21_size"
   ],
   "note": "Members, order, no duplicates and size (n+d)!/(n! d!) for every degree and every dimension d >= 1."
  },
  {
   "property": "C22",
   "status": "proved",
   "theorems": [
    "C22_families",
    "C22_V",
    "C22_DV",
    "C22_DDV",
    "C22_poly_grad",
    "C22_poly_hessian"
   ],
   "note": "For all five families (monomial, Legendre, Chebyshev, Laguerre, probabilists' Hermite), every degree, dimension and scaling; first and second derivatives of the Vandermonde rows and of the polynomial, with symmetric Hessian. numpy's vander/der functions are modelled by the three-term recurrences and the closed-form derivative coefficients; that those coefficients differentiate the recurrences is proved (C22_families)."
  },
  {
   "property": "C23",
   "status": "proved",
   "theorems": [
    "C23_VC"
   ],
   "note": "Entry by entry equality with V(X) c for matrices of coefficients."
  },
  {
   "property": "C24",
   "status": "partial",
   "theorems": [
    "C24_orthonormal",
    "C24_vandermonde",
    "C24_span",
    "C24_DV",
    "C24_polyval",
    "C24_breakdown_refuted"
   ],
   "note": "Both constructions (basis.py: V^T V = I; vandermonde.py: V^T V = M I) are total on index sets, orthogonal, reproduce V on re-evaluation, span the leading monomials in both directions, DV is the derivative of V, and polyvalA finds the degree and reproduces the fit, when no norm vanishes. Finding: with fewer samples than basis functions a norm always vanishes and the code divides by zero (C24_breakdown_refuted)."
  },
  {
   "property": "C25",
   "status": "partial",
   "theorems": [
    "C25_range",
    "C25_invertible",
    "C25_hermite_moments",
    "C25_roots",
    "C25_laguerre_refuted",
    "C25_constant_refuted",
    "C25_roots_noscale_refuted"
   ],
   "note": "Min-max scaling maps the samples onto [-1,1] and is invertible, Hermite scaling gives mean 0 and deviation 1, roots are zeros of the polynomial. Findings: Laguerre uses the [-1,1] scaling instead of [0,inf), a coordinate constant over the samples leads to a division by zero, roots fails without a scaling."
  },
  {
   "property": "C26",
   "status": "proved",
   "theorems": [
    "C26_sound",
    "C26_rows",
    "C26_sharp"
   ],
   "note": "Containment for every epsilon-Lipschitz function, for any data set; C26_sharp: the interval is the smallest such (both ends reached by Lipschitz extensions)."
  },
  {
   "property": "C27",
   "status": "proved",
   "theorems": [
    "C27_collapse",
    "C27_monotone",
    "C27_nonempty_iff_consistent"
   ],
   "note": "Collapse for consistent data, monotone in the data, nonempty everywhere iff the data are consistent."
  },
  {
   "property": "C28",
   "status": "proved",
   "theorems": [
    "C28_lipschitz",
    "C28_constraints",
    "C28_interpolates",
    "C28_reproduces",
    "C28_error",
    "C28_optimal",
    "C28_empty"
   ],
   "note": "Solver for the compatible values as an exact oracle (compat_spec). Lipschitz, interpolation of compatible values, error bounds, optimality of the midpoint; C28_empty: with no data the value is NaN."
  },
  {
   "property": "C29",
   "status": "partial",
   "theorems": [
    "C29_least",
    "C29_exact",
    "C29_feasible_small_scale",
    "C29_scale",
    "C29_single_refuted",
    "C29_epsilon_large_refuted",
    "C29_epsilon_small_refuted"
   ],
   "note": "Least constant proved for epsilon = 0 (C29_exact) and least for the constraint the code actually uses. Findings: epsilon is divided by the scale but the values are not, so for scale > 1 the constant is too large and for scale < 1 it violates the data; a single sample raises."
  },
  {
   "property": "C30",
   "status": "partial",
   "theorems": [
    "C30_terminates_feasible",
    "C30_keeps",
    "C30_fixed",
    "C30_idempotent",
    "C30_exact_refuted",
    "C30_duplicate_refuted",
    "C30_nan_refuted",
    "C30_single_refuted"
   ],
   "note": "Terminates for every input with distinct points, never decreases H and is feasible up to the tolerance 1e-13*|p|^4. Findings: not exactly feasible, duplicate points with different values give NaN or an endless update, a single sample raises."
  },
  {
   "property": "C31",
   "status": "partial",
   "theorems": [
    "C31_feasible_monotone",
    "C31_slow_refuted"
   ],
   "note": "Whenever the loop returns, H >= H0 and H >= g g^T for an exact distance oracle. Finding (C31_slow_refuted): with the slow distance of the module a matrix that violates the constraint is returned."
  },
  {
   "property": "C32",
   "status": "partial",
   "theorems": [
    "C32_sorted",
    "C32_refit_refuted"
   ],
   "note": "U is the sorted permutation on the first use. Finding: the cached U is not reset by a second fit; with L given no score exists and U raises."
  },
  {
   "property": "C33",
   "status": "proved",
   "theorems": [
    "C33_latin",
    "C33_inside"
   ],
   "note": "Any permutations from the generator; membership in the bins and in the box."
  },
  {
   "property": "C34",
   "status": "partial",
   "theorems": [
    "C34_best_visited",
    "C34_monotone",
    "C34_distances",
    "C34_score",
    "C34_swap_changes",
    "C34_no_iterations_refuted",
    "C34_single_point_refuted",
    "C34_start_not_scored_refuted"
   ],
   "note": "Latin property, monotone score and best visited design for N >= 2 and at least one iteration. Findings: maxiter = 0 returns None, N = 1 raises, and the first design is never scored so the result can be worse than the start."
  },
  {
   "property": "C35",
   "status": "partial",
   "theorems": [
    "C35_correct",
    "C35_domain",
    "C35_terminates",
    "C35_exhausted",
    "C35_packing",
    "C35_bounded",
    "C35_bounded_domain",
    "C35_unbounded_refuted"
   ],
   "note": "Separation, membership and termination with an explicit packing bound for bounded domains; non-termination on unbounded domains refuted."
  },
  {
   "property": "C36",
   "status": "proved",
   "theorems": [
    "C36_optimal",
    "C36_zero",
    "C36_domains_convex"
   ],
   "note": "Both bounds, for any convex set whose extreme points along a are the two corners; N = 0 divides by zero."
  },
  {
   "property": "C37",
   "status": "proved",
   "theorems": [
    "C37_optimal"
   ],
   "note": "N >= 2."
  },
  {
   "property": "C38",
   "status": "partial",
   "theorems": [
    "C38_two_optimal",
    "C38_line",
    "C38_voronoi",
    "C38_zero_refuted"
   ],
   "note": "2-optimal up to the tolerance eps of the farthest-point oracle; eps = 0 in one dimension without any oracle; in higher dimension eps comes from unique_points. Finding: N = 0 returns one point."
  },
  {
   "property": "C39",
   "status": "proved",
   "theorems": [
    "C39_correct",
    "C39_terminates",
    "C39_diverges",
    "C39_scaling"
   ],
   "note": "The Sobol generator is an arbitrary stream. The loop does not terminate when fewer than n stream points are accepted."
  },
  {
   "property": "C40",
   "status": "proved",
   "theorems": [
    "C40_numbering",
    "C40_numbering_inverse",
    "C40_numbering_bijection",
    "C40_sound",
    "C40_complete",
    "C40_read",
    "C40_solution",
    "C40_block",
    "C40_blocked_never",
    "C40_blocked_keeps"
   ],
   "note": "The SAT solver is a contract (returns a satisfying assignment of the clauses). The optimisation loop around it (choice of cells, projection_design) is not modelled."
  },
  {
   "property": "C41",
   "status": "partial",
   "theorems": [
    "C41_step",
    "C41_walk_inside",
    "C41_walk_far_partial",
    "C41_walk_far_refuted"
   ],
   "note": "Domain membership and equality constraints unconditional; nearest site and distance for sites whose normal component is not in (0, 1e-8]; exact claim refuted by a walk that lands on another site. QR and argsort are contracts."
  },
  {
   "property": "C42",
   "status": "partial",
   "theorems": [
    "C42_kept_apart",
    "C42_dropped_near",
    "C42_near_partial",
    "C42_chain_refuted",
    "C42_last_kept"
   ],
   "note": "Kept points are apart; a dropped point is near a later point (kept or dropped). Finding: along a chain of close points a dropped point can be farther than the tolerance from every kept point."
  },
  {
   "property": "C43",
   "status": "partial",
   "theorems": [
    "C43_simplex",
    "C43_simplex_zero_refuted",
    "C43_sphere",
    "C43_sphere_defined"
   ],
   "note": "dim >= 1; for dim = 0 sample_simplex returns an empty row, whose sum is not 1."
  },
  {
   "property": "C44",
   "status": "partial",
   "theorems": [
    "C44_farthest",
    "C44_exact",
    "C44_outside_refuted"
   ],
   "note": "Sites in the interval; refuted for sites outside it."
  },
  {
   "property": "C45",
   "status": "partial",
   "theorems": [
    "C45_correct",
    "C45_asserts",
    "C45_increasing",
    "C45_smallest_partial",
    "C45_zero_refuted",
    "C45_decreasing_refuted"
   ],
   "note": "The result is the point of sign change for any function with opposite signs at the ends, and terminates. 'Smallest integer where fun is positive' (docstring) holds for increasing functions without an integer zero. Findings: with an exact zero the returned value is not positive; for decreasing functions it is the largest such integer."
  },
  {
   "property": "C46",
   "status": "partial",
   "theorems": [
    "C46_best_partial",
    "C46_rows",
    "C46_score",
    "C46_single",
    "C46_moves_refuted",
    "C46_single_refuted",
    "C46_members",
    "C46_cost",
    "C46_fill",
    "C46_stops"
   ],
   "note": "The design returned is the best of those evaluated. Findings: the design computed last is never evaluated; the stopping test is the maximum of the signed moves, so a step to the left stops at once although the new design is better; a single cluster is returned without centring (assignment equals the initial zeros). Also proved: the clusters are the samples whose first nearest centre is the i-th (C46_members); for centres minimising the q-norm of distances (the contract of _cq_center_cvxpy) no step raises the sum of q-th powers of the distances (C46_cost), so no design visited covers the samples worse than the initial one by more than the q-th root of their number (C46_fill); which steps are taken (C46_stops)."
  },
  {
   "property": "C47",
   "status": "partial",
   "theorems": [
    "C47_inside",
    "C47_identity",
    "C47_distinct_refuted"
   ],
   "note": "Membership and the projected values are exact for Nsamp >= 2. Findings: projections are not distinct when the projected domain is a point; with Nsamp = 1 the hull sample is flattened and the loop runs over coordinates."
  },
  {
   "property": "C48",
   "status": "proved",
   "theorems": [
    "C48_armijo",
    "C48_decrease"
   ],
   "note": ""
  },
  {
   "property": "C49",
   "status": "proved",
   "theorems": [
    "C49_monotone",
    "C49_status",
    "C49_default_total",
    "C49_no_iterations"
   ],
   "note": ""
  },
  {
   "property": "C50",
   "status": "partial",
   "theorems": [
    "C50_verbose_gradient",
    "C50_silent_never_converges",
    "C50_refuted"
   ],
   "note": "The claim is false: normgrad is only updated when printing (gn.py 229-230), so status 0 is never reported without printing (C50_silent_never_converges); C50_refuted gives a concrete pair of runs with different status."
  },
  {
   "property": "C51",
   "status": "proved",
   "theorems": [
    "C51_monotone",
    "C51_feasible"
   ],
   "note": ""
  },
  {
   "property": "C52",
   "status": "partial",
   "theorems": [
    "C52_correct_partial",
    "C52_feasible",
    "C52_objective",
    "C52_stuck",
    "C52_bounds_refuted",
    "C52_constraint_solver_exact",
    "C52_constraint_refuted",
    "C52_verbose_refuted",
    "C52_linf"
   ],
   "note": "Monotonicity, domain membership, bounds on f for accepted iterates proved. Findings: an infeasible start that no feasible point improves is returned unchanged; nonlinear constraints are only linearised, never checked; printing raises on an unbound variable when the first subproblem is infeasible."
  },
  {
   "property": "C53",
   "status": "partial",
   "theorems": [
    "C53_svd_exists",
    "C53_outer_product",
    "C53_columns_partial",
    "C53_optimal",
    "C53_ky_fan",
    "C53_zero_columns",
    "C53_sign_refuted"
   ],
   "note": "svd is a contract (exact full SVD). Finding: columns are multiplied by np.sign of a sum that can be zero, which erases the column (gradients 1 and -1); orthonormality holds for the columns whose sign sum is not zero. The contract is satisfiable (C53_svd_exists)."
  },
  {
   "property": "C54",
   "status": "partial",
   "theorems": [
    "C54_qr_exists",
    "C54_rank_one",
    "C54_linear",
    "C54_standardized",
    "C54_equal_spread",
    "C54_standardize_refuted",
    "C54_standardize",
    "C54_covariance_refuted"
   ],
   "note": "lstsq, svd, qr are contracts. Finding: standardized samples are undone with std^(-1/2) instead of std^(-1), so a linear ridge function gets the wrong direction unless all spreads agree. The contract is satisfiable (C54_qr_exists). Standardized samples have mean zero and variance one in each coordinate (C54_standardize) but keep their correlations (C54_covariance_refuted)."
  },
  {
   "property": "C55",
   "status": "partial",
   "theorems": [
    "C55_affine",
    "C55_shape",
    "C55_returns",
    "C55_gradients",
    "C55_weighted",
    "C55_row_length",
    "C55_solvable",
    "C55_bandwidth_refuted",
    "C55_rows_refuted",
    "C55_many_refuted",
    "C55_default_refuted",
    "C55_perplexity",
    "C55_default"
   ],
   "note": "lstsq is a contract (its solvability is proved: C55_solvable). Every requested row minimizes the documented weighted objective (C55_weighted), but with half the given bandwidth as beta (C55_bandwidth_refuted). Findings: one row per sample whatever points are asked for, IndexError for more points than samples, the default perplexity is refused for m+1 samples. The arguments for which models are returned are characterised (C55_perplexity, C55_default)."
  },
  {
   "property": "C56",
   "status": "partial",
   "theorems": [
    "C56_samples",
    "C56_monotone",
    "C56_gradients",
    "C56_gradients_refuted"
   ],
   "note": "Samples: each column kept or flipped, slopes nonnegative. Gradients: same unless a mean slope is zero, then the column is multiplied by 0 (C56_gradients_refuted)."
  },
  {
   "property": "C57",
   "status": "partial",
   "theorems": [
    "C57_entropy",
    "C57_entropy_bounds",
    "C57_entropy_decreasing",
    "C57_entropy_derivative",
    "C57_unique",
    "C57_bracket_partial",
    "C57_correct_partial",
    "C57_grid_refuted",
    "C57_isolated_refuted",
    "C57_scale_refuted"
   ],
   "note": "brenth is a contract. Findings: the bracket fails on regular grids, at isolated points and for small distances. The positive result needs positive distances, a unique nearest point and distances of the size of 1."
  },
  {
   "property": "C58",
   "status": "proved",
   "theorems": [
    "C58_invariant",
    "C58_gradient",
    "C58_hessian"
   ],
   "note": "One evaluation point; several points are evaluated row by row in the code."
  },
  {
   "property": "C59",
   "status": "partial",
   "theorems": [
    "C59_orth_keeps",
    "C59_orth_full_rank",
    "C59_orth_rank_refuted",
    "C59_trajectory",
    "C59_start",
    "C59_start_matrix_refuted",
    "C59_alternating"
   ],
   "note": "Proved as stated for subspaces: orthonormality for every step length, the span and the projector at step 0, and the derivative of the projector. The stronger reading, that step 0 returns the matrix U, is refuted (the code drops the right factor Z of the SVD), and orth returns a zero column for rank deficient input (np.sign(0) = 0)."
  },
  {
   "property": "C60",
   "status": "partial",
   "theorems": [
    "C60_poly_bound",
    "C60_ridge_bound",
    "C60_affine_side",
    "C60_affine_bound_refuted",
    "C60_solvable",
    "C60_poly_solvable",
    "C60_ridge_solvable",
    "C60_affine_solvable"
   ],
   "note": "Polynomial and ridge coefficient fits: proved for an exact solver. Affine fit (_fit_affine): the two bounds are interchanged, the code fits an upper bound for 'lower'; proved as C60_affine_side, with a witness where the returned direction is wrong (C60_affine_bound_refuted). The problem handed to the solver has a solution (C60_solvable)."
  },
  {
   "property": "C61",
   "status": "partial",
   "theorems": [
    "C61_interp",
    "C61_interp_plain",
    "C61_residual",
    "C61_trend",
    "C61_cov_range",
    "C61_interp_refuted"
   ],
   "note": "Proved whenever every eigenvalue of the saddle point matrix is above the cutoff or exactly zero; without trend this holds for distinct points and nugget >= cutoff (the defaults are equal). Refuted for coinciding points with conflicting values: the eigenvalue equal to the nugget is dropped (C61_interp_refuted)."
  },
  {
   "property": "C62",
   "status": "partial",
   "theorems": [
    "C62_round_trip",
    "C62_contents",
    "C62_lengths_partial",
    "C62_table",
    "C62_lookup",
    "C62_length_refuted",
    "C62_surplus_refuted",
    "C62_name_refuted"
   ],
   "note": "float formatting is a contract (parse after format is the identity). Findings: the length of the second column is not checked; names with a separator do not survive."
  },
  {
   "property": "C63",
   "status": "partial",
   "theorems": [
    "C63_aligned",
    "C63_init",
    "C63_unbound_refuted",
    "C63_missing_refuted"
   ],
   "note": "Alignment proved for any bound selection routine. Findings: sample.py does not import seq_maximin_sample so every draw raises NameError; X given without fX leaves fX shorter than X. StretchedSampler does not accept verbose and returns after the first draw."
  },
  {
   "property": "C64",
   "status": "partial",
   "theorems": [
    "C64_solvable",
    "C64_measure",
    "C64_affine",
    "C64_sign_refuted"
   ],
   "note": "the cone program solver is a contract; constant data (0/0) and repeated points (division by zero) are excluded. Finding: the returned coefficients are minus the linear fit. The problem handed to the solver has a solution (C64_solvable)."
  },
  {
   "property": "C65",
   "status": "partial",
   "theorems": [
    "C65_solvable",
    "C65_rows",
    "C65_bins",
    "C65_search",
    "C65_encloses",
    "C65_pieces",
    "C65_tight",
    "C65_default_refuted",
    "C65_solvers"
   ],
   "note": "OSQP is a contract (exact optimum). Finding: with the default grid the linear program can be unbounded. The problem handed to the solver has a solution (C65_solvable, for balanced grids)."
  },
  {
   "property": "C66",
   "status": "proved",
   "theorems": [
    "C66_closest_point",
    "C66_solvable"
   ],
   "note": ""
  },
  {
   "property": "C67",
   "status": "partial",
   "theorems": [
    "C67_corner_partial",
    "C67_refuted",
    "C67_solvable",
    "C67_solvable_linear",
    "C67_unbounded"
   ],
   "note": "Correct for domains without off-centre ellipsoids; C67_refuted: the normalized ellipsoid centre is wrong otherwise. The problem handed to the solver has a solution (C67_solvable)."
  },
  {
   "property": "C68",
   "status": "partial",
   "theorems": [
    "C68_step",
    "C68_partial",
    "C68_refuted",
    "C68_solvable"
   ],
   "note": "Exact for the hull itself; the additional constraints are only imposed on the start point (C68_refuted). The problem handed to the solver has a solution (C68_solvable)."
  },
  {
   "property": "C69",
   "status": "partial",
   "theorems": [
    "C69_collinear_partial",
    "C69_refuted",
    "C69_exact",
    "C69_returns",
    "C69_to_linineq",
    "C69_domain",
    "C69_oracles",
    "C69_thin_refuted",
    "C69_near_refuted"
   ],
   "note": "All branches of _hull_to_linineq (one point, collinear, Qhull) are modelled and exact when no nonzero singular value is within the tolerance (C69_exact, C69_to_linineq); svd, qr and Qhull are contracts, shown to be satisfiable (C69_oracles). Findings: the bounds are dropped (C69_refuted); for thin hulls the points themselves are not in the converted domain (C69_thin_refuted); two distinct points that are close raise (C69_near_refuted)."
  },
  {
   "property": "C70",
   "status": "partial",
   "theorems": [
    "C70_density_iff",
    "C70_refuted"
   ],
   "note": "Finding: pdf is the density iff scaling^2 = cov (the code divides by cov instead of sqrt(cov) and forgets 1/scaling); C70_refuted for covariance 4."
  },
  {
   "property": "C71",
   "status": "partial",
   "theorems": [
    "C71_inside",
    "C71_largest",
    "C71_empty_refuted",
    "C71_solvable",
    "C71_equality_refuted"
   ],
   "note": "Proved for non-empty polytopes (maximality without equality constraints). Finding: for empty polytopes a point outside and a negative radius are returned. With equality constraints alone the program is unbounded (C71_equality_refuted); otherwise a centre exists (C71_solvable)."
  },
  {
   "property": "C72",
   "status": "partial",
   "theorems": [
    "C72_affine_partial",
    "C72_refuted",
    "C72_gn_refuted"
   ],
   "note": "Full step accepted when the residual is below 1/(2 ftol); finding: otherwise the Armijo test on the norm with the gradient of half its square rejects every step and gauss_newton does not move."
  },
  {
   "property": "C73",
   "status": "proved",
   "theorems": [
    "C73_distance"
   ],
   "note": "Distinct points."
  },
  {
   "property": "C74",
   "status": "partial",
   "theorems": [
    "C74_secular",
    "C74_sign",
    "C74_total",
    "C74_refuted",
    "C74_singular_refuted"
   ],
   "note": "The root of the secular equation is minus the largest eigenvalue of g g^T - H when brenth finds it in the bracket. Findings: the bracket can miss the root (wrong sign of the left end) and a singular H raises."
  },
  {
   "property": "C75",
   "status": "partial",
   "theorems": [
    "C75_constraints",
    "C75_root",
    "C75_diagonal",
    "C75_scale",
    "C75_sign_refuted"
   ],
   "note": "Proved whenever no mean gradient slope vanishes. Finding (C75_sign_refuted): a vanishing mean slope sets a column of U to zero and the fitted H, L lose that direction and violate the data."
  },
  {
   "property": "C76",
   "status": "partial",
   "theorems": [
    "C76_members",
    "C76_count",
    "C76_spans",
    "C76_diagonal",
    "C76_objective",
    "C76_feasible_iff",
    "C76_optimal",
    "C76_duplicate_refuted"
   ],
   "note": "Equivalence with the documented program for data whose conflicting samples are at different places; duplicates (division by zero) refuted."
  },
  {
   "property": "C77",
   "status": "partial",
   "theorems": [
    "C77_gradient",
    "C77_gradient_zero",
    "C77_attained",
    "C77_starts",
    "C77_epsilon_refuted"
   ],
   "note": "Gradients exact where distances are positive; range attained and at least as wide as over the starting points. Finding: uncertainty_domain ignores epsilon and is inconsistent with uncertainty."
  },
  {
   "property": "C78",
   "status": "partial",
   "theorems": [
    "C78_root",
    "C78_fit",
    "C78_constraints",
    "C78_optimize_monotone",
    "C78_geodesic",
    "C78_linearization",
    "C78_linearization_when",
    "C78_objective",
    "C78_search",
    "C78_progress",
    "C78_linearization_refuted",
    "C78_epsilon_refuted"
   ],
   "note": "Square root, constraints, monotone objective and geodesic proved. Findings: the sample constraint lacks max(.,0) (too large H when |df| < epsilon) and the linearized sample constraint uses J U^T y in place of U^T y."
  },
  {
   "property": "C83",
   "status": "partial",
   "theorems": [
    "C83_refines",
    "C83_covers",
    "C83_neighbours",
    "C83_diameter",
    "C83_face_refuted",
    "C83_wrap_refuted",
    "C83_centre_refuted",
    "C83_index"
   ],
   "note": "Equivalence proved for one-row L; neighbour radius and cell diameter for every dimension. Findings: points on the upper face are out of the grid (IndexError), points below the lower face within the tolerance wrap to the last cell, and for two or more rows the searched block is centred at the wrong cell (late binding in a generator) so points closer than r are accepted."
  },
  {
   "property": "C86",
   "status": "proved",
   "theorems": [
    "C86_exact",
    "C86_vertices",
    "C86_cells"
   ],
   "note": "qhull is a contract: the returned points satisfy the half spaces and their convex hull is the polytope. The tolerance is fro(L) * (number of vertices) * 1e-8. The contract is satisfiable (C86_vertices, C86_cells)."
  },
  {
   "property": "C79",
   "status": "partial",
   "theorems": [
    "C79_metric",
    "C79_full_partial",
    "C79_zero_refuted",
    "C79_svd_exists"
   ],
   "note": "SVD is a contract. The zero matrix is returned unchanged, so full row rank fails for it. The contract is satisfiable (C79_svd_exists)."
  },
  {
   "property": "C80",
   "status": "partial",
   "theorems": [
    "C80_apart_partial",
    "C80_walk_call",
    "C80_apart_refuted",
    "C80_row_optimal",
    "C80_stops"
   ],
   "note": "Under the hypothesis that each vertex search ends no closer to the other points (proved for the walk where its plane test does not skip a site). Without it the claim is false: on a domain of width 1e-4 the absolute tolerance of the plane test skips a site, the point walks onto that site and two points of the returned design coincide, for every number of sweeps (C80_apart_refuted). Nsamp = 1 is excluded (the code fails). The sweeps and the stopping rule are characterised by C80_stops."
  },
  {
   "property": "C81",
   "status": "partial",
   "theorems": [
    "C81_stops",
    "C81_step_fill",
    "C81_step_monotone_partial",
    "C81_fill",
    "C81_vertices_cover",
    "C81_kept_vertices_cover",
    "C81_centre_solvable",
    "C81_collapse",
    "C81_monotone_refuted"
   ],
   "note": "Circumcenter program and Voronoi vertices are contracts. Ownership in the code is by isclose, so the fill distance can grow by the tolerance per iteration (bound proved). Finding: where all distances are below 1e-8 (a function of small variation), every centre owns every vertex and one iteration moves all centres to one point (C81_collapse), which can increase the fill distance (C81_monotone_refuted). The problem handed to the solver has a solution (C81_centre_solvable)."
  },
  {
   "property": "C84",
   "status": "proved",
   "theorems": [
    "C84_discrete",
    "C84_feasible",
    "C84_domain"
   ],
   "note": "The integer program solver is a contract."
  },
  {
   "property": "C85",
   "status": "partial",
   "theorems": [
    "C85_domains",
    "C85_select",
    "C85_new",
    "C85_inside",
    "C85_stretch_first",
    "C85_stretch_overwritten_refuted",
    "C85_stretch_unbound_refuted",
    "C85_stretch_stale_refuted"
   ],
   "note": "Voronoi search in the restricted domain is a contract. Findings: stretch_sample_domain overwrites the samples by the previous candidate, uses d before assignment after an exception, and repeats a stale candidate for the wrong metric."
  },
  {
   "property": "C87",
   "status": "partial",
   "theorems": [
    "C87_inside",
    "C87_score_refuted"
   ],
   "note": "Finding: the score uses the Voronoi vertices of the unscaled design, so it is not the fill distance of the scaled one. Brent may leave the bracket [0,1], excluded here by hypothesis."
  },
  {
   "property": "C88",
   "status": "partial",
   "theorems": [
    "C88_consistent",
    "C88_rejects",
    "C88_drop_refuted"
   ],
   "note": "Finding: samples without values are dropped silently, their dimension is not compared with the gradients."
  },
  {
   "property": "C89",
   "status": "partial",
   "theorems": [
    "C89_queries",
    "C89_span",
    "C89_affine",
    "C89_minimal_refuted"
   ],
   "note": "permutation, lstsq, thin SVD are contracts. Finding: the smallest sample size for which gradients are estimated always raises."
  },
  {
   "property": "C90",
   "status": "proved",
   "theorems": [
    "C90_subspace",
    "C90_jacobian",
    "C90_kernel"
   ],
   "note": "For the tensor product families with the scalings in BasisModel. The Arnoldi branch (V.T fX, unit singular values) is C135."
  },
  {
   "property": "C94",
   "status": "proved",
   "theorems": [
    "C94_horizontal",
    "C94_minimises"
   ],
   "note": "Contract: the thin SVD of the M x mn Jacobian with M >= mn, singular values sorted; the kept singular values are nonzero (the code divides by them)."
  },
  {
   "property": "C92",
   "status": "partial",
   "theorems": [
    "C92_unique",
    "C92_finish",
    "C92_slope",
    "C92_stale_refuted",
    "C92_zero_slope_refuted"
   ],
   "note": "Orthonormality, span and the ridge function are preserved when no mean slope vanishes; slope positive for one-dimensional ridges. Refuted: for n > 1 the signs are taken at the coordinates before the rotation (C92_stale_refuted); np.sign(0) erases a direction (C92_zero_slope_refuted)."
  },
  {
   "property": "C93",
   "status": "partial",
   "theorems": [
    "C93_jacobian",
    "C93_constraints_one",
    "C93_constraints_refuted"
   ],
   "note": "Jacobian proved. The constraints are right for n = 1; for n = 2 they slice a row-major flattening by columns (C93_constraints_refuted)."
  },
  {
   "property": "C95",
   "status": "partial",
   "theorems": [
    "C95_count",
    "C95_enough_rows",
    "C95_count_refuted",
    "C95_dimension",
    "C95_dimension_least"
   ],
   "note": "The demanded number is never too small and exact for n <= 1; for n > 1 it is larger than the number of degrees of freedom because n(n+1)/2 is subtracted instead of n^2 (C95_count_refuted)."
  },
  {
   "property": "C96",
   "status": "partial",
   "theorems": [
    "C96_jacobian",
    "C96_join",
    "C96_vector_init_raises",
    "C96_vector_values_refuted"
   ],
   "note": "Jacobian by the chain rule and the joined basis proved here for tensor bases and one output; several outputs and the Arnoldi basis in C136. One-dimensional values are refused unless U0 is given (C96_vector_init_raises, C96_vector_values_refuted)."
  },
  {
   "property": "C97",
   "status": "proved",
   "theorems": [
    "C97_exact"
   ],
   "note": ""
  },
  {
   "property": "C91",
   "status": "proved",
   "theorems": [
    "C91_psd",
    "C91_pd",
    "C91_singular",
    "C91_eigenvalues",
    "C91_distinct_const",
    "C91_distinct_diag"
   ],
   "note": "All L, points and vectors."
  },
  {
   "property": "C98",
   "status": "proved",
   "theorems": [
    "C98_kernel_derivative",
    "C98_logdet",
    "C98_gradient",
    "C98_gradient_plain",
    "C98_tril_bijective",
    "C98_eigh_exists"
   ],
   "note": "Exact eigendecompositions (contract eigh_post), positive nugget; for tril expm and its complex step derivative enter through the contract dexp_ok. The contract is satisfiable (C98_eigh_exists)."
  },
  {
   "property": "C99",
   "status": "proved",
   "theorems": [
    "C99_data_term"
   ],
   "note": "Exact eigendecomposition, eigenvalues kept or zero."
  },
  {
   "property": "C100",
   "status": "proved",
   "theorems": [
    "C100_best"
   ],
   "note": "Exact eigendecomposition, eigenvalues kept or zero. The code leaves the nugget and the trend out of the covariance."
  },
  {
   "property": "C101",
   "status": "partial",
   "theorems": [
    "C101_start_refuted",
    "C101_start"
   ],
   "note": "Refuted: the entries of L0 are used as logarithms, the default identity starts at e*I (C101_start_refuted)."
  },
  {
   "property": "C102",
   "status": "proved",
   "theorems": [
    "C102_gradient",
    "C102_formula",
    "C102_object"
   ],
   "note": "Deterministic domain. The uncertain domain (r_w normal, r lognormal) contains points with r_w <= 0 and is not covered."
  },
  {
   "property": "C103",
   "status": "partial",
   "theorems": [
    "C103_gradient",
    "C103_formula",
    "C103_object",
    "C103_domain_refuted"
   ],
   "note": "Value and gradient proved. Refuted: the docstring has R_b2 up to 75, the code 70 (C103_domain_refuted)."
  },
  {
   "property": "C104",
   "status": "proved",
   "theorems": [
    "C104_gradient",
    "C104_formula",
    "C104_object",
    "C104_range"
   ],
   "note": ""
  },
  {
   "property": "C105",
   "status": "partial",
   "theorems": [
    "C105_gradient",
    "C105_formula",
    "C105_object",
    "C105_bound",
    "C105_range",
    "C105_rotation",
    "C105_fold_refuted"
   ],
   "note": "Proved wherever the value is not 0. Refuted (C105_fold_refuted): at an interior point of the domain where the arm folds back to the origin no gradient exists (the code divides 0 by 0)."
  },
  {
   "property": "C106",
   "status": "proved",
   "theorems": [
    "C106_gradient",
    "C106_formula",
    "C106_object",
    "C106_range"
   ],
   "note": "The constants of the gradient are rounded to 15 digits in the source, hence the relative error."
  },
  {
   "property": "C107",
   "status": "proved",
   "theorems": [
    "C107_gradient",
    "C107_object",
    "C107_redundant",
    "C107_feasible"
   ],
   "note": "The constants of the gradients of constraints 5 and 6 are rounded in the source; the other gradients are exact."
  },
  {
   "property": "C108",
   "status": "proved",
   "theorems": [
    "C108_gradient",
    "C108_object",
    "C108_positive",
    "C108_equations"
   ],
   "note": "The two formulas are also derived: the equations of the flow between insulating walls have exactly one solution, its mean velocity is u_ave and the mean of its induced field over the lower half is Bind (C108_equations)."
  },
  {
   "property": "C109",
   "status": "proved",
   "theorems": [
    "C109_gradient",
    "C109_formula",
    "C109_object",
    "C109_default",
    "C109_values",
    "C109_feasible"
   ],
   "note": ""
  },
  {
   "property": "C110",
   "status": "partial",
   "theorems": [
    "C110_affine",
    "C110_affine_object",
    "C110_quad_iff",
    "C110_quad_object",
    "C110_quad_refuted"
   ],
   "note": "The quadratic gradient 2 Q x + b is right everywhere iff Q is symmetric (C110_quad_iff); witness C110_quad_refuted. Default domain [-1,1]^m."
  },
  {
   "property": "C111",
   "status": "partial",
   "theorems": [
    "C111_value",
    "C111_complete",
    "C111_sound",
    "C111_exact",
    "C111_steps",
    "C111_default",
    "C111_tolerance_refuted"
   ],
   "note": "Value, soundness, completeness and exactness for quadratics proved; that a reported error of zero implies a correct gradient is refuted (C111_tolerance_refuted: x^3 at 0 with gradient 1/100)."
  },
  {
   "property": "C112",
   "status": "partial",
   "theorems": [
    "C112_is_derivative",
    "C112_gradient",
    "C112_gradient_refuted",
    "C112_value",
    "C112_sound",
    "C112_complete",
    "C112_masked",
    "C112_jacobian_refuted"
   ],
   "note": "Reduction, J^T r, value and accuracy bounds proved; detection refuted: any Jacobian passes where the residual vanishes (C112_gradient_refuted); a zero column of an inactive variable hides every earlier column (C112_masked, C112_jacobian_refuted)."
  },
  {
   "property": "C113",
   "status": "proved",
   "theorems": [
    "C113_value",
    "C113_steps",
    "C113_complete",
    "C113_sound"
   ],
   "note": ""
  },
  {
   "property": "C114",
   "status": "proved",
   "theorems": [
    "C114_optimal",
    "C114_growth",
    "C114_unique",
    "C114_radius",
    "C114_default",
    "C114_solvable"
   ],
   "note": "Contract: the solver returns an exact minimizer of the objective. The problem handed to the solver has a solution (C114_solvable)."
  },
  {
   "property": "C115",
   "status": "partial",
   "theorems": [
    "C115_angles",
    "C115_lengths_refuted"
   ],
   "note": "Proved for nonempty lists; for an empty list the lengths disagree (C115_lengths_refuted)."
  },
  {
   "property": "C116",
   "status": "partial",
   "theorems": [
    "C116_range",
    "C116_upper",
    "C116_lower",
    "C116_share_refuted"
   ],
   "note": "Count bound proved for both modes; the share bound is refuted (C116_share_refuted). The module cannot be imported (EmptyDomain does not exist)."
  },
  {
   "property": "C117",
   "status": "proved",
   "theorems": [
    "C117_row",
    "C117_kept"
   ],
   "note": "All rows with at most as many entries as the numbering; the zero rows dropped are those whose reduced coefficients all vanish."
  },
  {
   "property": "C118",
   "status": "partial",
   "theorems": [
    "C118_rows",
    "C118_slopes",
    "C118_returns",
    "C118_zero_pair",
    "C118_doubled_throat",
    "C118_flat_throat",
    "C118_nothroat_refuted",
    "C118_lowest_refuted"
   ],
   "note": "Exact meaning of the rows proved for every throat position; with throat index 0 the gaps and slope limits of the first segments are wrong (C118_nothroat_refuted), the throat is not lowest on the left (C118_lowest_refuted), and the documented doubled throat makes the system unsatisfiable (C118_doubled_throat, C118_flat_throat)."
  },
  {
   "property": "C119",
   "status": "partial",
   "theorems": [
    "C119_rows",
    "C119_returns",
    "C119_angles_refuted",
    "C119_single_refuted"
   ],
   "note": "Exact meaning of the rows proved; the angle loop is off by one (C119_angles_refuted) and a single angle bounds the thickness itself (C119_single_refuted)."
  },
  {
   "property": "C120",
   "status": "proved",
   "theorems": [
    "C120_rows",
    "C120_returns"
   ],
   "note": "Meaning of the rows and the cases in which a result is returned."
  },
  {
   "property": "C121",
   "status": "partial",
   "theorems": [
    "C121_rows",
    "C121_shape",
    "C121_drops_refuted"
   ],
   "note": "Meaning proved; the equivalence with all rows is refuted (C121_drops_refuted)."
  },
  {
   "property": "C122",
   "status": "partial",
   "theorems": [
    "C122_wall",
    "C122_wall_nominal_refuted",
    "C122_wall_rows_refuted",
    "C122_wall_bounds",
    "C122_layer_rows",
    "C122_layer",
    "C122_layer_box",
    "C122_load",
    "C122_thermal_gap",
    "C122_thermal_coupled",
    "C122_stringers",
    "C122_stringers_reduced",
    "C122_baffles",
    "C122_dimension",
    "C122_inhabited",
    "C122_corners_exist",
    "C122_random"
   ],
   "note": "All parts characterized, given that the linear programs of corner() return maximizers (which exist: C122_corners_exist). The nominal wall is outside (C122_wall_nominal_refuted) and the rows of no curve are satisfiable before the clean-up (C122_wall_rows_refuted)."
  },
  {
   "property": "C123",
   "status": "partial",
   "theorems": [
    "C123_linear",
    "C123_tensor",
    "C123_hull_raises",
    "C123_hull_refuted"
   ],
   "note": "Exact for linear/quadratic domains and tensor products of them. Finding: the hull uses alpha @ X.T, which raises unless the number of points equals the dimension (C123_hull_raises) and then describes the hull of the columns (C123_hull_refuted)."
  },
  {
   "property": "C124",
   "status": "proved",
   "theorems": [
    "C124_projection",
    "C124_differences",
    "C124_oracles"
   ],
   "note": "svd, qr and orth are exact contracts, shown to be satisfiable (C124_oracles); every singular value is zero or above the tolerance of isclose."
  },
  {
   "property": "C82",
   "status": "partial",
   "theorems": [
    "C82_design_rows",
    "C82_design_single_raises",
    "C82_design_cell",
    "C82_sample_cell_rows",
    "C82_sample_neighbours",
    "C82_sample_ties_refuted",
    "C82_sample_single_raises",
    "C82_sample_planar_raises",
    "C82_sample_asserts",
    "C82_sample_subdomain",
    "C82_cover",
    "C82_overlap",
    "C82_combinations_cover",
    "C82_lhs_slices",
    "C82_lhs_one_per_slice",
    "C82_lhs_offset_raises",
    "C82_lhs_narrow_raises",
    "C82_design_objective",
    "C82_design_nearest"
   ],
   "note": "Cells characterized exactly for projection_design (all metrics) and for one-row metrics of projection_sample. Findings: the two sorted neighbours do not suffice when projections tie (C82_sample_ties_refuted; the assertions then raise), one sample and metrics of several rows raise, the Latin hypercube variant raises for boxes away from the origin and for slices narrower than sqrt(2 tol). np.argsort is a contract (sorts)."
  },
  {
   "property": "C125",
   "status": "proved",
   "theorems": [
    "C125_sample_terminates",
    "C125_sample_best",
    "C125_sample_keeps",
    "C125_sample_bound_variable",
    "C125_zero_score",
    "C125_sample_unbound_refuted",
    "C125_sample_projects",
    "C125_sample_latin",
    "C125_solver_exists",
    "C125_design_terminates",
    "C125_design_best",
    "C125_design_keeps",
    "C125_design_found",
    "C125_design_bound_variable",
    "C125_design_projects",
    "C125_design_infeasible_hangs",
    "C125_design_far_refuted",
    "C125_design_exhausted_refuted",
    "C125_assumptions",
    "C125_assumptions_keep",
    "C125_sweep",
    "C125_sweep_stationary",
    "C125_sweeps"
   ],
   "note": "Termination and optimality of projection_sample for every solver meeting solver_ok (satisfiable: C125_solver_exists); emptiness, least squares and Voronoi points of cells are contracts. Findings: projection_design never ends when no design is feasible, e.g. given points out of reach (C125_design_far_refuted), or when the last solution is infeasible (C125_design_exhausted_refuted); projection_sample reads assumptions before it is bound when the first feasible design has zero score (C125_sample_unbound_refuted)."
  },
  {
   "property": "C126",
   "status": "proved",
   "theorems": [
    "C126_gauss_exact",
    "C126_gauss_riemann",
    "C126_gauss_sharp",
    "C126_gauss_nodes",
    "C126_eigenvectors_exist",
    "C126_tensor_exact",
    "C126_box_exact",
    "C126_box_integral_exists",
    "C126_box_integral_unique"
   ],
   "note": ""
  },
  {
   "property": "C127",
   "status": "partial",
   "theorems": [
    "C127_is_empty",
    "C127_is_unbounded",
    "C127_is_unbounded_line_raises",
    "C127_is_point_single",
    "C127_is_point_small",
    "C127_is_point_not_empty",
    "C127_is_point_segment",
    "C127_is_point_refuted",
    "C127_is_point_far_refuted"
   ],
   "note": "is_empty and is_unbounded exact for m >= 2. Findings: in one dimension is_unbounded always raises (ortho_group.rvs needs a dimension above one, C127_is_unbounded_line_raises); is_point compares corners with np.isclose, so a segment of any length is called a point when it is far enough from the origin (C127_is_point_refuted, C127_is_point_far_refuted). The solver behind corner is a contract (corner_ok); SolverError is not modelled."
  },
  {
   "property": "C128",
   "status": "partial",
   "theorems": [
    "C128_random_direction",
    "C128_random_direction_ends",
    "C128_random_direction_free",
    "C128_random_direction_refuted",
    "C128_random_direction_hangs",
    "C128_random_direction_point_refuted",
    "C128_sample_boundary",
    "C128_sample_boundary_vertices",
    "C128_corner_center",
    "C128_corner_center_stop"
   ],
   "note": "Exact off the faces of inequalities and ellipsoids (on them extent is wrong, C06). Findings: random_direction never ends for a LinIneq or LinQuad domain with equal lower and upper bound in a coordinate (C128_random_direction_refuted, _hangs) and for a PointDomain; sample_boundary of a box only returns vertices (C128_sample_boundary_vertices); it reads self.center, which only LinIneqDomain defines (not modelled). Termination with probability one is not stated: no probability theory."
  },
  {
   "property": "C129",
   "status": "partial",
   "theorems": [
    "C129_exact_ranges",
    "C129_domain_ranges",
    "C129_domain_predicates",
    "C129_solver_answers",
    "C129_empty_raises_once",
    "C129_empty_domain_raises_once",
    "C129_off_centre_refuted",
    "C129_mixed_bounds_refuted"
   ],
   "note": "Proved for the domains in the quantifier; the solver is a contract (exact_solver: an answer for every half filled array that can occur; C129_solver_answers: without ellipsoids each such query has an answer). Findings: an ellipsoid that is not centred in the bounds is displaced by the normalization, a domain with members is then called empty (C129_off_centre_refuted); with some bounds finite and some infinite the normalized bounds turn into NaN and are dropped, a bounded domain is called unbounded (C129_mixed_bounds_refuted); on an empty domain the first query raises EmptyDomainException, every later one returns the half filled array (C129_empty_raises_once). SolverError is not modelled."
  },
  {
   "property": "C130",
   "status": "partial",
   "theorems": [
    "C130_normal_normalized",
    "C130_normal_bounds",
    "C130_normal_range",
    "C130_normal_unit",
    "C130_solver_exists",
    "C130_covariances",
    "C130_cholesky",
    "C130_triangular_inverse",
    "C130_determinant",
    "C130_factor_unique",
    "C130_lognormal_normalized",
    "C130_lognormal_density",
    "C130_lognormal_density_refuted"
   ],
   "note": "NormalDomain: proved in full, for every covariance with a Cholesky factor (C130_covariances: exactly the symmetric positive definite ones). cholesky, solve_triangular, det and chi2.isf are contracts; the first three are met by explicit functions (C130_cholesky, C130_triangular_inverse, C130_determinant), for the solver behind corner see C130_solver_exists. LogNormalDomain: membership and samples are proved; the density claim is false: _pdf does not contain the factor 1/scaling, so the normalized domain has a density only if the interval has length 2 (C130_lognormal_density, C130_lognormal_density_refuted)."
  },
  {
   "property": "C131",
   "status": "partial",
   "theorems": [
    "C131_integral",
    "C131_kernel",
    "C131_constant_directions",
    "C131_active_coordinates_partial",
    "C131_rule_points",
    "C131_rule_monte_carlo",
    "C131_rule_point",
    "C131_points_per_axis",
    "C131_active_coordinates_refuted"
   ],
   "note": "C131_integral, C131_kernel and C131_constant_directions are proved in full. The statement about the columns of U needs that the sign fix (subspace.py 339, _fix_subspace_signs_grads) multiplied no column with s_k > 0 by zero: C131_active_coordinates_partial has this as hypothesis; without it the claim is false (C131_active_coordinates_refuted: x^2 on [-1,1] gives U = 0 although s_0 > 0, because the average slope is zero). scipy.linalg.svd and eigh are contracts (met: svd_full_exists, eigh_full_solvable). Real arithmetic: N ** (1./m) of the code is rounded, so a perfect power N may give one point less per axis than C131_points_per_axis says."
  },
  {
   "property": "C132",
   "status": "proved",
   "theorems": [
    "C132_breakdown_arnoldi",
    "C132_breakdown_vandermonde",
    "C132_least_squares",
    "C132_reproduces",
    "C132_lstsq_contract_met"
   ],
   "note": "Proved in full for exact arithmetic. np.linalg.lstsq is a contract (a minimizer whenever one exists), met by an explicit solver (C132_lstsq_contract_met). On samples that are not unisolvent the code divides by zero (NaN); that this happens exactly then is C132_breakdown_vandermonde."
  },
  {
   "property": "C133",
   "status": "partial",
   "theorems": [
    "C133_attained",
    "C133_below_exact",
    "C133_starts_partial",
    "C133_starts_refuted",
    "C133_line",
    "C133_line_refuted"
   ],
   "note": "C133_attained and C133_below_exact are proved in full. The comparison with the starting points needs that no step passes a plane hidden by np.isclose (C133_starts_partial); otherwise it is false (C133_starts_refuted). The QR factorization, argsort, matrix_rank and qhull's vertex lists are contracts; the rows of X0 are walked independently. On an interval the estimate is exact when every gap between sites holds a start clear of the tolerances (C133_line); a gap without a start is missed (C133_line_refuted)."
  },
  {
   "property": "C134",
   "status": "partial",
   "theorems": [
    "C134_grid",
    "C134_attained",
    "C134_encloses_partial",
    "C134_endpoint_refuted",
    "C134_single_refuted",
    "C134_epsilon_refuted"
   ],
   "note": "C134_grid and C134_attained are proved in full for two or more grid points. Enclosure (C134_encloses_partial) needs that the extreme slices are single points up to L and that minimax solves the slices; it is false at the ends otherwise (C134_endpoint_refuted), for one grid point (C134_single_refuted) and inside with a noise level (C134_epsilon_refuted). domain.corner, minimax and the starting points of each slice are arguments with contracts."
  },
  {
   "property": "C135",
   "status": "partial",
   "theorems": [
    "C135_best",
    "C135_same_residual",
    "C135_same_subspace",
    "C135_jacobian",
    "C135_same_jacobian",
    "C135_kernel",
    "C135_breakdown",
    "C135_enough_refuted"
   ],
   "note": "All statements proved in full for projected samples that determine the polynomials (which is exactly when no division by zero occurs, C135_breakdown); the last one is false: the check of the number of samples does not exclude projections that coincide (C135_enough_refuted), where the tensor bases still give a fit."
  },
  {
   "property": "C136",
   "status": "partial",
   "theorems": [
    "C136_best",
    "C136_subspace",
    "C136_jacobian",
    "C136_kernel",
    "C136_arnoldi_residual",
    "C136_arnoldi_jacobian",
    "C136_arnoldi_same_jacobian",
    "C136_arnoldi_kernel",
    "C136_step",
    "C136_arnoldi_step",
    "C136_fixed_jacobian",
    "C136_fixed_step",
    "C136_arnoldi_fixed_jacobian",
    "C136_arnoldi_fixed_step",
    "C136_rank",
    "C136_few_samples",
    "C136_arnoldi_rank",
    "C136_divides_refuted"
   ],
   "note": "All statements proved in full for least-squares coefficients and full-rank V, except the last, which is false: the Jacobian has at most n(M-n-1) nonzero singular values, whatever the number of outputs, while m n - n^2 are kept, so with at most m samples the solver divides by zero (C136_rank, C136_few_samples, C136_divides_refuted); polyridge_vec.py, unlike polyridge.py 326-335, does not check the number of samples."
  },
  {
   "property": "C137",
   "status": "partial",
   "theorems": [
    "C137_integral_unique",
    "C137_uniform",
    "C137_uniform_tolerance",
    "C137_uniform_divisor",
    "C137_normal",
    "C137_lognormal",
    "C137_lognormal_truncated_refuted",
    "C137_volume_box",
    "C137_box_set",
    "C137_weights_sum",
    "C137_volume_sampled",
    "C137_volume_unbounded",
    "C137_normal_weights_infinite",
    "C137_volume_equality",
    "C137_equality_refuted"
   ],
   "note": "Proved: uniform (any dimension; one over the box), truncated normal in one dimension (given the contract of chi2.isf), volume of boxes and the bounds of the sampled volume. False: over the points isinside accepts the uniform density has integral more than one (C137_uniform_tolerance); the truncated log-normal density is not divided by 1 - truncate, its integral is (scaling/sqrt(cov))(1 - t) (C137_lognormal, C137_lognormal_truncated_refuted); an untruncated normal domain counts as a box and gets infinite Monte Carlo weights (C137_normal_weights_infinite); with equality constraints the sampled volume and all weights are zero (C137_equality_refuted)."
  },
  {
   "property": "C138",
   "status": "partial",
   "theorems": [
    "C138_solvable",
    "C138_scale",
    "C138_shift",
    "C138_rotate",
    "C138_monotone",
    "C138_kernel",
    "C138_ridge",
    "C138_samples_refuted",
    "C138_constant",
    "C138_one_dimension",
    "C138_single_gradient",
    "C138_gradients_upper",
    "C138_gradients_orthogonal",
    "C138_active_subspace",
    "C138_convex",
    "C138_unique_refuted",
    "C138_fit_H",
    "C138_fit",
    "C138_zero_column",
    "C138_not_orthonormal",
    "C138_U_refuted"
   ],
   "note": "Proved in full: existence, invariances, monotonicity, kernel, ridge gradients, bounds by the scalar constant, comparison with the active subspace matrix, single gradient, convexity, the fitted H. False: the minimiser and its most important direction are not determined by the data (C138_unique_refuted); samples (not gradients) of a ridge function give weight to directions the function does not depend on (C138_samples_refuted); whenever a direction is orthogonal to all gradients and active sample differences, np.sign gives 0 and U has a zero column (C138_zero_column, C138_not_orthonormal, C138_U_refuted)."
  },
  {
   "property": "C139",
   "status": "partial",
   "theorems": [
    "C139_correct",
    "C139_recovers",
    "C139_affine",
    "C139_stored_basis",
    "C139_square_raises",
    "C139_square_refuted",
    "C139_jacobian_contract",
    "C139_erases",
    "C139_erases_refuted",
    "C139_first_step",
    "C139_final_basis",
    "C139_line_search"
   ],
   "note": "Proved in full: result of fit for all data and all solvers meeting the contracts in env_ok, provided no returned column is zero or rotate is False; recovery, affine optimality, the stored basis, the Jacobian contract. False: the sign in _finish erases a direction whose mean slope is 0, so an exact fit becomes a constant (C139_erases, C139_erases_refuted); n = m with the Euclidean norm always raises an IndexError (C139_square_raises, C139_square_refuted)."
  },
  {
   "property": "C140",
   "status": "partial",
   "theorems": [
    "C140_conservation",
    "C140_first_operations",
    "C140_settled",
    "C140_product_attempts",
    "C140_product_never",
    "C140_unbounded",
    "C140_unbounded_queries_refuted",
    "C140_lognormal_unscaled",
    "C140_lognormal_truncated",
    "C140_borehole",
    "C140_evaluation_refuted",
    "C140_closest_point"
   ],
   "note": "Proved in full for all products and histories: the count and the place of the exceptions, the settled state, truncated log-normal variables, the uncertain borehole. False: evaluation does depend on the history (first evaluation of the uncertain Borehole raises AttributeError, C140_evaluation_refuted), because LogNormalDomain and UnboundedDomain never set self.kwargs, and an UnboundedDomain answers none of is_empty, is_point, is_unbounded, corner, closest_point (C140_unbounded_queries_refuted)."
  },
  {
   "property": "C141",
   "status": "partial",
   "theorems": [
    "C141_returns",
    "C141_recurses",
    "C141_pairs",
    "C141_predict",
    "C141_call_only",
    "C141_keywords_refuted",
    "C141_classes",
    "C141_gradient_refuted",
    "C141_merge",
    "C141_search_order",
    "C141_override_wins"
   ],
   "note": "Proved in full: the characterisation of the methods that return, the bound of three nested calls, non-termination of the others at every recursion limit, consistency of __call__, predict, eval and grad, and the table of classes through the C3 linearization. False: not every function class has gradients (GaussianProcess and LipschitzApproximation recurse without end, C141_gradient_refuted) and the default eval drops its keyword arguments (C141_keywords_refuted)."
  },
  {
   "property": "C142",
   "status": "partial",
   "theorems": [
    "C142_schedule",
    "C142_schedules_agree",
    "C142_worker",
    "C142_values",
    "C142_global",
    "C142_parameter",
    "C142_gradients",
    "C142_unscaled",
    "C142_gradient_refuted",
    "C142_call_refuted",
    "C142_global_refuted",
    "C142_lambda_refuted"
   ],
   "note": "Proved in full: results for every schedule, equality of the values with eval for functions that look up no global name but their own (and exactly when a run on the worker raises NameError), the relation between synchronous and asynchronous gradients. False: gradients of call_async are not scaled to the normalized domain (C142_gradient_refuted), call_async raises for every function without a parameter return_grad, whatever its value (C142_parameter, C142_call_refuted), functions using module-level names raise (C142_global_refuted), lambdas cannot be pickled (C142_lambda_refuted). Not modelled: keyword arguments consumed by dask's submit, other exceptions."
  },
  {
   "property": "C143",
   "status": "partial",
   "theorems": [
    "C143_constructor",
    "C143_rejects",
    "C143_product",
    "C143_associative",
    "C143_slices",
    "C143_normalized",
    "C143_distinct",
    "C143_default_clash",
    "C143_unique_refuted"
   ],
   "note": "Proved in full: one name per variable, rejection of wrong lengths, distinctness within a domain, order and association of products, ownership by slices, normalized names, and exactly when the names of a product are distinct. False: names of products of domains without given names always clash (C143_default_clash, C143_unique_refuted)."
  },
  {
   "property": "C144",
   "status": "partial",
   "theorems": [
    "C144_walk_keeps",
    "C144_rows_inside",
    "C144_rows_keep",
    "C144_nudge_nearest",
    "C144_update_inside",
    "C144_update_owns",
    "C144_estimate",
    "C144_design",
    "C144_step",
    "C144_full",
    "C144_estimates",
    "C144_dispatch_full",
    "C144_dispatch_sampled",
    "C144_dispatch_1d",
    "C144_result",
    "C144_errors",
    "C144_rows_zero",
    "C144_outside_refuted",
    "C144_unowned_refuted",
    "C144_integer_refuted",
    "C144_rows_refuted",
    "C144_truncation"
   ],
   "note": "Proved: a walk started in the cell of a node and in the domain stays in both (when no separating plane is hidden by np.isclose), hence ownership and membership of the vertices under these conditions; the estimate bound, the descent on the vertices found, membership of the designs, the exact and the error behaviour of the driver. False in general: the perturbations of 1e-7 leave the domain for designs on its boundary, the vertices are then far outside and the next design covers less (C144_outside_refuted); planes with small normal components are skipped, so a node may own no vertex and the circumcentre problem is empty (C144_unowned_refuted); integer designs are truncated (C144_integer_refuted); rows beyond M become zero (C144_rows_refuted)."
  },
  {
   "property": "C145",
   "status": "partial",
   "theorems": [
    "C145_constraints",
    "C145_returns",
    "C145_keeps",
    "C145_keeps_mind",
    "C145_nonempty",
    "C145_single",
    "C145_two_refuted",
    "C145_sample",
    "C145_kcall_runs",
    "C145_kcall_refuses",
    "C145_samplers_raise"
   ],
   "note": "Proved: which constraints are added and what they keep, termination with a result, the guarantee for a single metric, optimality of the sample in the Euclidean metric, binding of keyword arguments. False: with two metrics candidates are scored by the distance to the previous candidate instead of the samples, so the stretched domain can coincide with a sample in one metric although a vertex far in both was found (C145_two_refuted); no Sampler class can draw (C145_samplers_raise). The vertices found and the outcome of sampling the stretched domain are arguments of the model."
  },
  {
   "property": "C146",
   "status": "partial",
   "theorems": [
    "C146_curve_profile",
    "C146_mesh_profile",
    "C146_curve_covers",
    "C146_curve_line",
    "C146_points_profile",
    "C146_curve_refuted",
    "C146_base_iff",
    "C146_default_refuted",
    "C146_doc_shape_refuted",
    "C146_resp_ext",
    "C146_resp_last",
    "C146_resp_new",
    "C146_resp_inj",
    "C146_resp_dir",
    "C146_resp_refuted",
    "C146_lip_sorted",
    "C146_lip_mid"
   ],
   "note": "Proved for orthonormal directions: curve and mesh are the profile, with the error of the line between the points; cover of the samples; when a table is plotted; injectivity of the file names. False: for directions that are not of unit length the curve is not the profile and the samples are off it (C146_curve_refuted); the samples kept by the object are not used by the response (C146_default_refuted); U of the documented shape is refused or read by columns (C146_doc_shape_refuted); a name without extension is split before its last character and a dot in a directory moves the file (C146_resp_refuted)."
  },
  {
   "property": "C147",
   "status": "partial",
   "theorems": [
    "C147_box",
    "C147_nested",
    "C147_linineq",
    "C147_hull_refuted",
    "C147_dims_unique",
    "C147_affine_dims",
    "C147_intrinsic",
    "C147_dims_times",
    "C147_prod",
    "C147_prod_exact",
    "C147_intrinsic_refuted"
   ],
   "note": "Proved: soundness of is_box_domain (products included) and of is_linineq_domain without hulls, nesting; the dimension of a set is unique and additive for products; with a point at which no inequality is tight intrinsic_dimension never exceeds the dimension and equals it exactly when no equality row is redundant. False: redundant rows give a negative number, points and hulls of few points report the dimension of the space (C147_intrinsic_refuted); all domains are reported as linear-quadratic and hulls as linear although their constraint attributes do not describe them (C147_hull_refuted)."
  },
  {
   "property": "C148",
   "status": "partial",
   "theorems": [
    "C148_linear",
    "C148_trend_added",
    "C148_translate",
    "C148_isometry",
    "C148_order",
    "C148_far",
    "C148_more_samples",
    "C148_units_refuted",
    "C148_documented_refuted"
   ],
   "note": "Proved: linearity, order, trends, translations, isometries, decay away from the samples, covariance under more samples. False: the objective has no scale parameter, so its preference between two distance matrices changes with the units of y (C148_units_refuted); the documented prediction lacks the factor 1/2 in the exponent (C148_documented_refuted)."
  },
  {
   "property": "C149",
   "status": "partial",
   "theorems": [
    "C149_oas_point",
    "C149_oas_rows",
    "C149_oas_rowwise",
    "C149_oas_single_raises",
    "C149_oas_single_refuted",
    "C149_printing_error",
    "C149_printing_refuted",
    "C149_rows_evaluated",
    "C149_kept_second",
    "C149_failed_sticks",
    "C149_kept_unnamed",
    "C149_kept_rows_refuted",
    "C149_keywords",
    "C149_level",
    "C149_level_refuted",
    "C149_log",
    "C149_log_refuted",
    "C149_vector_file"
   ],
   "note": "Proved: points, two or more rows, error of printing, rows without kept data, precedence of keyword arguments, the log is a prefix. False: a matrix with one row raises AssertionError because loadtxt drops the dimension (C149_oas_single_refuted); different points print alike (C149_printing_refuted); a kept directory allows one row only (C149_kept_rows_refuted) and a failed run blocks its directory (C149_failed_sticks); the level and iteration count given to MULTIF are ignored (C149_level_refuted); lines in the pipe when the container ends are lost (C149_log_refuted). The container is an oracle; ties and carries of decimal printing are simplified."
  },
  {
   "property": "C150",
   "status": "partial",
   "theorems": [
    "C150_exact",
    "C150_cluster",
    "C150_zero",
    "C150_transposed",
    "C150_smallest_partial",
    "C150_default",
    "C150_one_dimension_refuted",
    "C150_metric_refuted",
    "C150_raises_refuted"
   ],
   "note": "Proved: optimality of the one-dimensional branch, the dispatch, the cover in the metric of the transpose, and the full claim for symmetric L, bracketing numbers and clusterings improving with their size (C150_smallest_partial). False: a one-dimensional domain with a metric of two rows is clustered (C150_one_dimension_refuted); distances are measured with the transpose of L (C150_metric_refuted); large radii, or samples covered by the first size, raise (C150_raises_refuted); L = None raises always (C150_default). corner and the clustering are arguments; that the clustering raises for more centres than samples is not modelled."
  },
  {
   "property": "C151",
   "status": "proved",
   "theorems": [
    "C151_points",
    "C151_accepts",
    "C151_linineq",
    "C151_box",
    "C151_point",
    "C151_scalars",
    "C151_again",
    "C151_add",
    "C151_row_refuted",
    "C151_empty_refuted",
    "C151_crossing_refuted",
    "C151_ball"
   ],
   "note": "Names and solver arguments are left out; ragged lists are not arguments. Also proved: a single inequality passed as a vector raises TypeError unless a bound is given (C151_row_refuted), arrays without rows raise IndexError (C151_empty_refuted), crossing bounds are accepted and give the empty set (C151_crossing_refuted), radius zero is refused (C151_ball)."
  },
  {
   "property": "C152",
   "status": "partial",
   "theorems": [
    "C152_kept",
    "C152_grads_only",
    "C152_column",
    "C152_shapes",
    "C152_grads_accepted",
    "C152_mismatch_refuted",
    "C152_transposed",
    "C152_empty",
    "C152_flat",
    "C152_half"
   ],
   "note": "Proved except for the last sentence, which is false: grads.reshape(-1, m) accepts every array whose number of entries is a multiple of m (C152_grads_accepted), so gradients of another dimension are cut into wrong rows (C152_mismatch_refuted) and gradients stored by columns are always accepted (C152_transposed). Empty lists for X and fX raise ValueError where arrays without rows are fine (C152_empty)."
  },
  {
   "property": "C153",
   "status": "partial",
   "theorems": [
    "C153_best_partial",
    "C153_initial_refuted",
    "C153_box_partial",
    "C153_domain_refuted",
    "C153_convex_partial",
    "C153_init",
    "C153_init_refuted",
    "C153_no_iterations",
    "C153_local",
    "C153_replaced"
   ],
   "note": "Proved: the score returned is that of the design returned and the least of all designs scored (C153_best_partial); on a box every design stays in the box (C153_box_partial). False: initial designs are never scored, so the result can be worse than one of them (C153_initial_refuted); weights are drawn for each coordinate, so designs leave a triangle (C153_domain_refuted); np.min without axis makes np.argmax return 0, so candidates are never compared (C153_init, C153_init_refuted). With one weight for each point every closed convex set would be kept (C153_convex_partial). Every particle keeps the best of its own designs (C153_local) and remove_worst replaces one with the largest best score (C153_replaced)."
  },
  {
   "property": "C154",
   "status": "partial",
   "theorems": [
    "C154_roundtrip_partial",
    "C154_empty_refuted",
    "C154_prepared",
    "C154_curved"
   ],
   "note": "The round trip is proved for paths that hold a curve (C154_roundtrip_partial). A path without segments writes a curve without points (C154_empty_refuted). The format 'prepared' raises NameError for the first path that it writes and leaves the file empty (C154_prepared)."
  },
  {
   "property": "C155",
   "status": "partial",
   "theorems": [
    "C155_control_points_refuted",
    "C155_wing",
    "C155_airfoil",
    "C155_clip_refuted",
    "C155_truncate",
    "C155_nozzle_partial",
    "C155_nozzle_random_refuted"
   ],
   "note": "Proved for the airfoil (C155_airfoil) and for the wing with three control points (C155_wing), the only number that its builder accepts (C155_control_points_refuted). clip excludes no value and goes to the solvers (C155_clip_refuted); truncate would give the interval (C155_truncate). build_multif_domain returns only without further keyword arguments (C155_nozzle_partial), build_multif_random_domain raises NameError (C155_nozzle_random_refuted)."
  },
  {
   "property": "C156",
   "status": "partial",
   "theorems": [
    "C156_density",
    "C156_antiderivative",
    "C156_returns_partial",
    "C156_constant_refuted",
    "C156_grid",
    "C156_mass_refuted",
    "C156_mass_sharp"
   ],
   "note": "The grid and the density are proved (C156_grid, C156_density: integral 1 over the sample and a margin of one bandwidth). Over the grid's own range the density always lacks at least 1/N (C156_mass_refuted). The functions return exactly if the quartiles of the sample differ (C156_returns_partial), never for a constant sample (C156_constant_refuted). The estimator is taken from the documentation of sklearn's KernelDensity with the linear kernel."
  },
  {
   "property": "C157",
   "status": "partial",
   "theorems": [
    "C157_returns",
    "C157_correct",
    "C157_span_only",
    "C157_orthonormal_refuted",
    "C157_determined_refuted",
    "C157_columns",
    "C157_erases"
   ],
   "note": "Accepted shapes, span, optimality and dependence on the span only are proved for every U (C157_returns, C157_correct, C157_span_only), the last three unless a column is erased by the sign of a zero mean slope, which C157_columns characterizes. False: data that U fits exactly can be stored as a constant (C157_erases); a matrix that is not orthonormal is stored unchanged (C157_orthonormal_refuted); a single sample is accepted although fit would raise, and the result is then one of several that fit it (C157_determined_refuted)."
  }
 ]
}