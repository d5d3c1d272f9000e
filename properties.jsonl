{"id": "C01", "title": "Membership test is exactly the constraint set up to tolerance", "statement": "domain.isinside(X, tol) returns one Boolean per row of X, and row i is True exactly when that row satisfies every finite bound, linear inequality, linear equality and quadratic constraint relaxed by tol; widening tol never turns True into False; a point of the wrong dimension is reported outside rather than raising.", "quantifier": "all linear-quadratic domains (any number of bounds incl. infinite, inequalities, equalities, ellipsoids), all point arrays, all tolerances", "why_tests_cant": "the set of domains and points is infinite-dimensional; tests only sample a handful of points of a few domains", "anchors": ["psdr/domains/euclidean.py:EuclideanDomain.isinside", "psdr/domains/euclidean.py:_isinside_bounds", "psdr/domains/euclidean.py:_isinside_ineq", "psdr/domains/euclidean.py:_isinside_eq", "psdr/domains/euclidean.py:_isinside_quad", "psdr/domains/linquad.py:LinQuadDomain._isinside"]}
{"id": "C02", "title": "normalize and unnormalize are mutual inverses", "statement": "For every domain and every point x, unnormalize(normalize(x)) = x and normalize(unnormalize(z)) = z, including coordinates that are unbounded or have equal lower and upper normalization bounds.", "quantifier": "all domains (any mixture of finite, infinite and degenerate normalization bounds) and all points of R^m", "why_tests_cant": "needs equality at every real point and for every mixture of degenerate bounds", "anchors": ["psdr/domains/euclidean.py:_normalize", "psdr/domains/euclidean.py:_unnormalize", "psdr/domains/euclidean.py:_normalize_der", "psdr/domains/euclidean.py:_unnormalize_der", "psdr/domains/euclidean.py:_center"]}
{"id": "C03", "title": "Bounded domains normalize into the unit cube", "statement": "If every normalization bound is finite and lower <= upper, a point satisfies the bounds iff its normalized image lies coordinatewise in [-1,1] (for non-degenerate coordinates), endpoints mapping to -1 and 1 exactly.", "quantifier": "all boxes with finite bounds and all points", "why_tests_cant": "ranges over all boxes and points", "anchors": ["psdr/domains/euclidean.py:_normalize", "psdr/domains/euclidean.py:norm_lb", "psdr/domains/euclidean.py:norm_ub"]}
{"id": "C04", "title": "normalized_domain contains exactly the normalized points", "statement": "For every domain, x is in the domain iff normalize(x) is in normalized_domain().", "quantifier": "all linear-quadratic domains with consistent bounds, all points, zero tolerance", "why_tests_cant": "equivalence of two infinite sets; existing tests only check sampled points and special centred ellipsoids", "anchors": ["psdr/domains/linquad.py:LinQuadDomain._normalized_domain", "psdr/domains/euclidean.py:A_norm", "psdr/domains/euclidean.py:b_norm", "psdr/domains/euclidean.py:Ls_norm", "psdr/domains/euclidean.py:ys_norm"]}
{"id": "C05", "title": "Intersection and add_constraints are conjunction", "statement": "x is in domain1 & domain2 (or in domain.add_constraints(...)) iff x is in the original domain and satisfies the added constraints; & is commutative as a set operation.", "quantifier": "all pairs of linear-quadratic/tensor/hull domains of equal dimension, all points, all tolerances", "why_tests_cant": "set equality over all domains and all points", "anchors": ["psdr/domains/linquad.py:LinQuadDomain.add_constraints", "psdr/domains/linquad.py:LinQuadDomain.__and__", "psdr/domains/tensor.py:TensorProductDomain"]}
{"id": "C06", "title": "extent never leaves the domain and is maximal", "statement": "For x in the domain and a direction p, x + a p stays in the domain for every 0 <= a <= extent(x,p), and no larger step stays inside.", "quantifier": "all domains, all feasible points (interior, boundary, within tolerance), all directions", "why_tests_cant": "the failing configurations are measure-zero (points exactly on a face), random tests miss them", "anchors": ["psdr/domains/euclidean.py:extent", "psdr/domains/euclidean.py:_extent_bounds", "psdr/domains/euclidean.py:_extent_ineq", "psdr/domains/euclidean.py:_extent_quad", "psdr/domains/linquad.py:_extent", "psdr/domains/linineq.py:_extent", "psdr/domains/box.py:_extent"]}
{"id": "C07", "title": "Box corner is feasible and optimal", "statement": "For a non-empty bounded box, corner(p) is a point of the box maximising p.x over the whole box; on an empty box it raises instead of returning a point.", "quantifier": "all boxes, all directions p", "why_tests_cant": "optimality is a universally quantified statement over all points of the box", "anchors": ["psdr/domains/box.py:BoxDomain._corner"]}
{"id": "C08", "title": "Samples returned by a domain lie in the domain", "statement": "sample(draw) returns exactly max(draw,0) points and every one of them lies in the domain, for every outcome of the random number generator (box, truncated normal, point, hit-and-run).", "quantifier": "all domains of these kinds, all draws, all random streams, all hit-and-run histories", "why_tests_cant": "must hold for every random stream; tests see a few seeds", "anchors": ["psdr/domains/euclidean.py:sample", "psdr/domains/euclidean.py:_sample", "psdr/domains/euclidean.py:_hit_and_run", "psdr/domains/box.py:_sample", "psdr/domains/normal.py:_sample", "psdr/domains/point.py:_sample"]}
{"id": "C09", "title": "Tensor product membership is blockwise and flattening preserves meaning", "statement": "A point is in a TensorProductDomain iff each coordinate block is in the corresponding factor; nesting tensor products does not change dimension, membership or the order of coordinates; products of products are associative.", "quantifier": "all finite (nested) products of domains, all points", "why_tests_cant": "quantifies over arbitrarily nested products", "anchors": ["psdr/domains/tensor.py:TensorProductDomain.__init__", "psdr/domains/tensor.py:_slices", "psdr/domains/tensor.py:_isinside", "psdr/domains/tensor.py:__len__"]}
{"id": "C10", "title": "Tensor product normalization acts blockwise and stays invertible", "statement": "Normalizing a point of a tensor product is the concatenation of the factors' normalizations, and unnormalize inverts it.", "quantifier": "all finite products of domains, all points", "why_tests_cant": "quantifies over all products and all points", "anchors": ["psdr/domains/tensor.py:_normalize", "psdr/domains/tensor.py:_unnormalize", "psdr/domains/tensor.py:_normalize_der"]}
{"id": "C11", "title": "Sweep points stay in the (convex) domain", "statement": "All n points returned by sweep lie in the domain, the first and last ones are the two end points, and the reported positions y are the arc length along the sweep up to an additive constant (equally spaced).", "quantifier": "all convex domains, all n >= 2, all starting points and directions", "why_tests_cant": "convexity argument over all domains", "anchors": ["psdr/domains/euclidean.py:sweep"]}
{"id": "C12", "title": "sample_grid is exactly the grid intersected with the domain", "statement": "sample_grid(n) returns precisely the points of the n-per-axis uniform grid between lb and ub that lie in the domain, and n^m points for a box.", "quantifier": "all bounded domains, all n >= 2", "why_tests_cant": "combinatorial claim for all dimensions and n", "anchors": ["psdr/domains/euclidean.py:sample_grid"]}
{"id": "C13", "title": "Half-infinite bounds survive normalization", "statement": "A finite bound on one coordinate is still enforced by the normalized domain even when another coordinate (or the opposite bound) is infinite.", "quantifier": "all boxes mixing finite and infinite bounds", "why_tests_cant": "depends on IEEE 0*inf = NaN behaviour that only appears for particular mixtures of bounds", "anchors": ["psdr/domains/euclidean.py:lb_norm", "psdr/domains/euclidean.py:ub_norm", "psdr/domains/euclidean.py:_normalize", "psdr/domains/euclidean.py:_isinside_bounds"]}
{"id": "C14", "title": "constrained_least_squares minimises ||Ax-b|| over the domain", "statement": "The point returned by constrained_least_squares(A,b) is in the domain and no other point of the domain has a smaller residual ||Ax-b||, given an exact convex solver.", "quantifier": "all domains, all A, b, any exact solver", "why_tests_cant": "optimality over all points; the existing tests use domains centred at the origin only", "anchors": ["psdr/domains/euclidean.py:_constrained_least_squares"]}
{"id": "C15", "title": "Convex-hull membership means being a convex combination", "statement": "ConvexHullDomain(X).isinside(x) is True (tolerance aside) iff x is a convex combination of the points X satisfying the extra constraints, given an exact NNLS solver.", "quantifier": "all finite point sets X, all x", "why_tests_cant": "equivalence with existence of coefficients, over all X and x", "anchors": ["psdr/domains/convexhull.py:ConvexHullDomain._isinside", "psdr/domains/convexhull.py:coefficients"]}
{"id": "C16", "title": "Domain predicates do not depend on query history", "statement": "is_empty, is_point and is_unbounded of a box return the mathematically correct value irrespective of the order in which they (or sampling) are called.", "quantifier": "all boxes, all sequences of property queries", "why_tests_cant": "quantifies over histories of calls", "anchors": ["psdr/domains/box.py:BoxDomain.is_empty", "psdr/domains/box.py:BoxDomain.is_point", "psdr/domains/box.py:BoxDomain.is_unbounded"]}
{"id": "C17", "title": "Quadrature rules have non-negative weights with the right total", "statement": "quadrature_rule returns points of the domain with non-negative weights; on a box the weights of the Gauss and of the Monte Carlo rule sum to the volume of the box, and the number of points is at most N.", "quantifier": "all boxes / domains, all N, any exact symmetric eigen-solver", "why_tests_cant": "all dimensions and point counts", "anchors": ["psdr/domains/euclidean.py:quadrature_rule", "psdr/domains/euclidean.py:volume", "psdr/quadrature.py:gauss"]}
{"id": "C18", "title": "Log-normal samples lie inside the reported bounds", "statement": "Every sample of a LogNormalDomain lies within [lb, ub] of that domain.", "quantifier": "all means, covariances, offsets, scalings, truncations, all random streams", "why_tests_cant": "range over parameters and random streams", "anchors": ["psdr/domains/lognormal.py:LogNormalDomain.__init__", "psdr/domains/lognormal.py:LogNormalDomain._sample"]}
{"id": "C19", "title": "Function wrapper evaluates and differentiates through normalization correctly", "statement": "For a Function wrapping fun on a domain, f.eval on normalized inputs equals fun on application inputs, and f.grad is the gradient of f.eval as a function of the normalized variable (chain rule through unnormalize).", "quantifier": "all differentiable functions, all domains, all points", "why_tests_cant": "derivative identity over all points", "anchors": ["psdr/function.py:BaseFunction", "psdr/function.py:Function.eval", "psdr/function.py:Function.grad"]}
{"id": "C20", "title": "Finite-difference gradient is consistent", "statement": "The finite difference gradient returned by Function.grad is exact for affine functions and always evaluates the function only at points of the form x and x + h e_i (or x - h e_i).", "quantifier": "all affine functions, all step sizes h != 0, all points", "why_tests_cant": "for all affine functions and points", "anchors": ["psdr/function.py:Function.__init__", "psdr/function.py:Function.grad"]}
{"id": "C21", "title": "Polynomial index sets are complete, duplicate free and graded", "statement": "The multi-index set of total degree d in n variables contains every multi-index with sum <= d exactly once, has C(n+d,d) elements, and is sorted by total degree.", "quantifier": "all degrees and dimensions", "why_tests_cant": "all (n,d)", "anchors": ["psdr/basis.py:_full_index_set", "psdr/basis.py:index_set"]}
{"id": "C22", "title": "Basis derivative matrices are the derivatives of the basis", "statement": "DV and DDV of a monomial-type tensor basis are the first and second partial derivatives of the Vandermonde row functions; coefficients of derivative matrices are consistent with polynomial differentiation.", "quantifier": "all degrees, dimensions and points, with the scaling transformation included", "why_tests_cant": "derivative identity at all points", "anchors": ["psdr/basis.py:PolynomialTensorBasis.DV", "psdr/basis.py:PolynomialTensorBasis.DDV", "psdr/basis.py:PolynomialTensorBasis._build_Dmat"]}
{"id": "C23", "title": "Fused Vandermonde-vector product", "statement": "VC(X,c) equals V(X) @ c for every coefficient vector/matrix.", "quantifier": "all bases, points and coefficients", "why_tests_cant": "all inputs", "anchors": ["psdr/basis.py:PolynomialTensorBasis.VC", "psdr/basis.py:PolynomialTensorBasis.V"]}
{"id": "C24", "title": "Vandermonde-with-Arnoldi basis is orthogonal and spans the monomials", "statement": "The basis built by (multivariate) Vandermonde-with-Arnoldi satisfies V^T V = M I, its first k columns span the same space as the first k monomials in the ordering, and re-evaluation at the construction points reproduces V.", "quantifier": "all sample sets on which no breakdown occurs, all degrees and dimensions", "why_tests_cant": "linear algebra identity for all sample sets", "anchors": ["psdr/basis.py:ArnoldiPolynomialBasis", "psdr/basis.py:ArnoldiPolynomialBasis.arnoldi", "psdr/vandermonde.py:vandermonde_arnoldi", "psdr/vandermonde.py:polyvalA"]}
{"id": "C25", "title": "Polynomial roots are roots and scaling is invertible", "statement": "The input scaling of a polynomial basis is an invertible affine map to the natural domain of the basis and its inverse/derivative are consistent; roots returned are zeros of the polynomial in application coordinates (given exact companion eigenvalues).", "quantifier": "all data ranges, all coefficients", "why_tests_cant": "all real inputs", "anchors": ["psdr/basis.py:PolynomialTensorBasis._scale", "psdr/basis.py:PolynomialTensorBasis._dscale", "psdr/basis.py:PolynomialTensorBasis.roots"]}
{"id": "C26", "title": "Lipschitz uncertainty interval is sound", "statement": "If |f(x)-f(y)| <= ||L(x-y)|| for all x,y in the domain, the interval returned by uncertainty at a point x contains f(x) (with epsilon slack, contains it up to epsilon).", "quantifier": "all functions Lipschitz with respect to L, all data sets, all query points", "why_tests_cant": "quantifies over all functions with a Lipschitz property", "anchors": ["psdr/lipschitz.py:LipschitzMatrix.uncertainty"]}
{"id": "C27", "title": "Lipschitz uncertainty collapses at data and shrinks with data", "statement": "At a data point the uncertainty interval of consistent data is exactly the data value, and adding data never enlarges any interval.", "quantifier": "all data sets, all query points", "why_tests_cant": "monotonicity over all histories of added data", "anchors": ["psdr/lipschitz.py:LipschitzMatrix.uncertainty"]}
{"id": "C28", "title": "Lipschitz approximation is Lipschitz and interpolates", "statement": "LipschitzApproximation.eval is itself L-Lipschitz and, for consistent data with epsilon = 0, interpolates the data; its gradient-free midpoint has error at most half the interval width for any L-Lipschitz function.", "quantifier": "all data, all pairs of query points", "why_tests_cant": "for all pairs of points", "anchors": ["psdr/lipschitz_approx.py:LipschitzApproximation.eval", "psdr/lipschitz_approx.py:LipschitzApproximation.fit"]}
{"id": "C29", "title": "LipschitzConstant is the smallest consistent constant", "statement": "LipschitzConstant.fit returns the smallest L such that all value pairs satisfy |f_i-f_j| <= L||x_i-x_j|| + epsilon and all gradient norms are <= L.", "quantifier": "all data sets with distinct points, all epsilon >= 0", "why_tests_cant": "minimality over all data sets", "anchors": ["psdr/lipschitz.py:LipschitzConstant._fit", "psdr/lipschitz.py:LipschitzMatrix.fit"]}
{"id": "C30", "title": "Sequential projection of the Lipschitz matrix terminates and is feasible", "statement": "project_evals terminates for every input and the resulting H satisfies every pairwise constraint (f_i-f_j)^2 <= (x_i-x_j)^T H (x_i-x_j), without violating constraints that were satisfied.", "quantifier": "all data sets, any initial positive semidefinite H", "why_tests_cant": "termination of a while loop over all inputs", "anchors": ["psdr/lipschitz_utils.py:project_evals", "psdr/lipschitz_utils.py:dist_eval_constraints"]}
{"id": "C31", "title": "Gradient projection of the Lipschitz matrix is feasible and monotone", "statement": "project_grads returns H with H >= H0 and H >= g g^T (Loewner order) for every supplied gradient g.", "quantifier": "all gradients, all starting matrices, exact eigen-decomposition", "why_tests_cant": "Loewner order quantifies over all directions", "anchors": ["psdr/lipschitz_utils.py:project_grads"]}
{"id": "C32", "title": "Diagonal Lipschitz / coordinate scores order U", "statement": "For coordinate-based subspaces (DiagonalLipschitzMatrix, CoordinateBasedDimensionReduction), U is a permutation matrix whose columns order the coordinates by decreasing score, and refitting updates it.", "quantifier": "all score vectors, all sequences of fits", "why_tests_cant": "histories of fits", "anchors": ["psdr/coord.py:CoordinateBasedDimensionReduction", "psdr/lipschitz.py:DiagonalLipschitzMatrix"]}
{"id": "C33", "title": "Latin hypercube property", "statement": "Every design of N points returned by the (random) Latin hypercube sampler for a box has, for every coordinate, exactly one point in each of the N equal bins of that coordinate, and lies in the box.", "quantifier": "all N, all dimensions, all permutations chosen by the random generator", "why_tests_cant": "all random streams", "anchors": ["psdr/sample/latin.py:latin_hypercube_sample", "psdr/sample/latin.py:_latin_hypercube_sample_box"]}
{"id": "C34", "title": "Maximin Latin hypercube search keeps the Latin property and never worsens", "statement": "Each step of the maximin Latin hypercube column swap search yields a Latin hypercube, its score never decreases, and the returned design is the best visited one.", "quantifier": "all N >= 2, all random streams, all iteration counts", "why_tests_cant": "invariant of a randomized loop", "anchors": ["psdr/sample/latin.py:latin_hypercube_maximin", "psdr/sample/latin.py:_latin_hypercube_maximin_box", "psdr/sample/latin.py:_score_maximin"]}
{"id": "C35", "title": "Poisson disk samples are separated and feasible", "statement": "Every set returned by poisson_disk_sample lies in the domain and any two points are at L-distance larger than r, for every random stream; the loop stops once all active points are exhausted.", "quantifier": "all domains, metrics L, radii r and random streams", "why_tests_cant": "all random streams", "anchors": ["psdr/sample/poisson.py:poisson_disk_sample"]}
{"id": "C36", "title": "One-dimensional minimax design is optimal", "statement": "minimax_design_1d(domain, N) returns N points of an interval such that every point of the interval is within width/(2N) of the design, and no N-point design does better.", "quantifier": "all intervals, all N >= 1, all competing designs", "why_tests_cant": "lower bound over all designs", "anchors": ["psdr/sample/minimax.py:minimax_design_1d"]}
{"id": "C37", "title": "One-dimensional maximin design is optimal", "statement": "maximin_design_1d returns N points in the interval with pairwise distance at least width/(N-1), and no N-point design has a larger minimum distance.", "quantifier": "all intervals, all N >= 2, all competing designs", "why_tests_cant": "upper bound over all designs", "anchors": ["psdr/sample/maximin.py:maximin_design_1d"]}
{"id": "C38", "title": "Coffeehouse design is 2-optimal", "statement": "Greedy coffeehouse sampling returns N points whose minimum separation is at least half of the largest separation achievable by any N points of the candidate set.", "quantifier": "all finite candidate sets (or domains with exact farthest point oracle), all N", "why_tests_cant": "approximation guarantee over all competing designs", "anchors": ["psdr/sample/maximin_coffeehouse.py:maximin_coffeehouse"]}
{"id": "C39", "title": "Sobol sampler returns the first accepted points of the sequence in order", "statement": "sobol_sequence returns exactly the first n elements of the (scaled) Sobol stream that lie in the domain, in order, without repetition or skipping, across window boundaries.", "quantifier": "all acceptance patterns, all n, all windows", "why_tests_cant": "all acceptance patterns", "anchors": ["psdr/sample/sobol.py:sobol_sequence"]}
{"id": "C40", "title": "Projection design constraint encoding is faithful", "statement": "In the projection-sample SAT encoding, variable numbering is a bijection on (metric, value, order), every satisfying assignment is one permutation per metric, and a blocked cell combination never reappears.", "quantifier": "all numbers of samples and metrics, all satisfying assignments", "why_tests_cant": "all satisfying assignments of an unbounded family of formulas", "anchors": ["psdr/sample/projection.py:projection_sample", "psdr/sample/projection.py:projection_design"]}
{"id": "C41", "title": "Voronoi vertex walk stays in its cell and moves away from its site", "statement": "Each step of voronoi_vertex_sample keeps the point in the domain, keeps its nearest site nearest, and does not decrease the distance to it.", "quantifier": "all linear domains, all sites, all start points, all random directions", "why_tests_cant": "invariant of a randomized geometric walk", "anchors": ["psdr/geometry/vertex.py:voronoi_vertex_sample"]}
{"id": "C42", "title": "unique_points keeps representatives", "statement": "unique_points keeps a subset of the points in which no two kept points are within tolerance, and every dropped point is within tolerance of a kept point.", "quantifier": "all point sets", "why_tests_cant": "all finite point sets", "anchors": ["psdr/geometry/geometry.py:unique_points"]}
{"id": "C43", "title": "Simplex and sphere sampling produce valid points", "statement": "sample_simplex returns non-negative barycentric weights summing to one and sample_sphere returns unit vectors, for every random stream.", "quantifier": "all dimensions and random streams", "why_tests_cant": "all random streams", "anchors": ["psdr/geometry/geometry.py:sample_simplex", "psdr/geometry/geometry.py:sample_sphere"]}
{"id": "C44", "title": "One-dimensional fill distance is exact", "statement": "In one dimension fill_distance(domain, X) equals the largest distance of any point of the interval to the nearest sample.", "quantifier": "all intervals and all non-empty sample sets", "why_tests_cant": "supremum over all points", "anchors": ["psdr/geometry/fill.py:fill_distance", "psdr/geometry/vertex.py:voronoi_vertex_1d"]}
{"id": "C45", "title": "Integer bisection finds the sign change", "statement": "_int_bisect returns the integer at which a monotone function changes sign within the bracket, after finitely many steps.", "quantifier": "all monotone integer functions and brackets", "why_tests_cant": "all functions and brackets", "anchors": ["psdr/sample/minimax.py:_int_bisect"]}
{"id": "C46", "title": "Clustering minimax design returns the best design visited", "statement": "minimax_cluster returns N points and the returned design is at least as good (by its own fill-distance estimate) as every iterate visited.", "quantifier": "all clouds, all N, all numbers of restarts", "why_tests_cant": "loop invariant for all histories", "anchors": ["psdr/sample/minimax.py:minimax_cluster"]}
{"id": "C47", "title": "initial_sample returns domain points of the requested count", "statement": "initial_sample(domain, L, Nsamp) returns at most Nsamp points, all in the domain, all projections distinct up to tolerance.", "quantifier": "all domains, metrics and random streams", "why_tests_cant": "all random streams", "anchors": ["psdr/sample/initial.py:initial_sample"]}
{"id": "C48", "title": "Armijo line search never increases the residual", "statement": "The backtracking line search returns either a zero step with the original residual or a step bt^k satisfying the Armijo condition, so the residual norm never increases and strictly decreases when the step is positive.", "quantifier": "all residual functions, directions, trajectories and line search parameters", "why_tests_cant": "all functions", "anchors": ["psdr/gn.py:linesearch_armijo"]}
{"id": "C49", "title": "Gauss-Newton is monotone and always sets its stopping status", "statement": "gauss_newton returns a point whose residual is no larger than that of the starting point, performs at most maxiter iterations, and always reports a determined stopping status.", "quantifier": "all residual functions, Jacobians, solvers, trajectories and options", "why_tests_cant": "all functions and option combinations", "anchors": ["psdr/gn.py:gauss_newton"]}
{"id": "C50", "title": "Gauss-Newton result does not depend on verbosity", "statement": "The iterates and status returned by gauss_newton are identical for every value of verbose.", "quantifier": "all problems and verbosity levels", "why_tests_cant": "non-interference between options", "anchors": ["psdr/gn.py:gauss_newton"]}
{"id": "C51", "title": "Minimax (max-of-functions) optimizer is monotone and feasible", "statement": "Every accepted iterate of the minimax optimizer lies in the domain and the maximum of the functions never increases from iterate to iterate.", "quantifier": "all function families, domains, QP solvers and options", "why_tests_cant": "all functions", "anchors": ["psdr/minimax.py:minimax"]}
{"id": "C52", "title": "Sequential LP is monotone and respects constraints", "statement": "sequential_lp returns a point no worse than the start, with accepted iterates inside the domain, satisfying bounds obj_lb/obj_ub and nonlinear constraints.", "quantifier": "all objectives, norms, domains, LP solvers and options", "why_tests_cant": "all functions", "anchors": ["psdr/seqlp.py:sequential_lp"]}
{"id": "C53", "title": "Active subspace is the eigen-decomposition of the gradient outer-product", "statement": "ActiveSubspace.fit(grads, weights) yields C = sum_i w_i g_i g_i^T = U diag(s^2) U^T with orthonormal U after sign fixing.", "quantifier": "all gradient samples and weights, exact SVD", "why_tests_cant": "all gradient sets, including those with cancelling signs", "anchors": ["psdr/subspace.py:ActiveSubspace.fit", "psdr/subspace.py:_fix_subspace_signs_grads"]}
{"id": "C54", "title": "Outer product gradient recovers a linear function's direction", "statement": "For f(x) = a.x + c the OuterProductGradient active subspace is spanned by a. Standardizing gives samples with mean zero and, as documented, identity covariance.", "quantifier": "all linear functions, all sample designs with full rank", "why_tests_cant": "all linear functions and designs", "anchors": ["psdr/opg.py:OuterProductGradient.fit"]}
{"id": "C55", "title": "Local linear models reproduce affine functions", "statement": "local_linear_grads returns one gradient per requested point and it equals the true gradient whenever the data come from an affine function (weights positive and data affinely independent). Perplexities in [2, M) are accepted and no others; the default m+1 needs more than m+1 samples.", "quantifier": "all affine functions, data sets, evaluation points and weights", "why_tests_cant": "all data sets", "anchors": ["psdr/local_linear.py:local_linear", "psdr/local_linear.py:local_linear_grads"]}
{"id": "C56", "title": "Subspace sign convention", "statement": "After sign fixing based on samples, the average slope along each subspace direction is non-negative, the subspace is unchanged and U stays orthonormal.", "quantifier": "all U, X, fX", "why_tests_cant": "all inputs including zero slopes", "anchors": ["psdr/subspace.py:SubspaceBasedDimensionReduction._fix_subspace_signs_samps", "psdr/subspace.py:SubspaceBasedDimensionReduction._fix_subspace_signs_grads"]}
{"id": "C57", "title": "log_entropy is the Shannon entropy of normalized bandwidth weights", "statement": "log_entropy(beta, d) equals the entropy -sum q ln q of the weights q_i proportional to exp(-beta d_i), it is between 0 and ln n, and decreasing in beta.", "quantifier": "all beta >= 0 and distance vectors", "why_tests_cant": "all real inputs", "anchors": ["psdr/local_linear.py:log_entropy", "psdr/local_linear.py:perplexity_bandwidth"]}
{"id": "C58", "title": "Ridge functions: derivatives and invariance", "statement": "A polynomial ridge approximation is constant along directions orthogonal to U, its gradient is U times the profile gradient (chain rule), and its Hessian U H U^T.", "quantifier": "all U, profiles and points", "why_tests_cant": "derivative identity for all points", "anchors": ["psdr/polyridge.py:PolynomialRidgeFunction"]}
{"id": "C59", "title": "Grassmann trajectory stays orthonormal", "statement": "Moving along the Grassmann geodesic from orthonormal U in a horizontal direction keeps U orthonormal for every step length, and step 0 returns the same subspace.", "quantifier": "all U, directions and step lengths, exact SVD", "why_tests_cant": "all step lengths", "anchors": ["psdr/polyridge.py:PolynomialRidgeApproximation._grassmann_trajectory", "psdr/polyridge.py:PolynomialRidgeApproximation._trajectory", "psdr/polyridge_vec.py"]}
{"id": "C60", "title": "Bound-constrained fits bound the data on the right side", "statement": "Fits with bound='lower' lie below all data and with bound='upper' above all data, for polynomial, affine and ridge fits, given an exact constrained least squares solver.", "quantifier": "all data sets, exact solver", "why_tests_cant": "all data sets", "anchors": ["psdr/poly.py", "psdr/polyridge.py:bound_fit", "psdr/polyridge.py:PolynomialRidgeApproximation._fit_affine", "psdr/polyridge.py:PolynomialRidgeApproximation._fit_coef"]}
{"id": "C61", "title": "Gaussian process interpolates up to the nugget", "statement": "The fitted Gaussian process predicts y_i - nugget*alpha_i at training point i, reproduces any polynomial in its degree trend exactly, and its reported covariance lies in [0,1].", "quantifier": "all data, kernels with L, exact linear solves", "why_tests_cant": "all data sets", "anchors": ["psdr/gp.py:GaussianProcess.eval", "psdr/gp.py:GaussianProcess._log_marginal_likelihood"]}
{"id": "C62", "title": "PGF table round trip", "statement": "Reading back a table written by PGF.write yields the same column names and columns (up to float formatting), and all columns have equal length.", "quantifier": "all tables with names free of separators", "why_tests_cant": "all tables", "anchors": ["psdr/pgf.py:PGF"]}
{"id": "C63", "title": "Sampler keeps points and evaluations aligned", "statement": "After any sequence of draws, entry i of sampler.fX is the function value at entry i of sampler.X.", "quantifier": "all histories of draws, all functions", "why_tests_cant": "all call histories", "anchors": ["psdr/sample/sample.py:Sampler"]}
{"id": "C64", "title": "Nonlinearity measure is normalized", "statement": "measure_nonlinearity returns a value between 0 and 1, zero for affine data, given an exact LP/SOCP solver.", "quantifier": "all data sets", "why_tests_cant": "all data sets", "anchors": ["psdr/nonlin.py:measure_nonlinearity"]}
{"id": "C65", "title": "Shadow envelope interpolation matrix is a partition of unity", "statement": "Rows of the piecewise linear interpolation matrix used by shadow_envelope are non-negative, sum to one and reproduce the abscissae exactly for points inside the grid.", "quantifier": "all grids and points in range", "why_tests_cant": "all grids and points", "anchors": ["psdr/subspace.py:SubspaceBasedDimensionReduction.shadow_envelope"]}
{"id": "C66", "title": "closest_point returns the nearest point of the domain", "statement": "closest_point(x0) returns x0 if it is inside within tolerance, otherwise a member of the domain whose L-weighted distance to x0 is minimal over the domain, given an exact solver.", "quantifier": "all constraint-defined domains, all points, all weight matrices", "why_tests_cant": "optimality over a continuum of competitors", "anchors": ["psdr/domains/euclidean.py:_closest_point"]}
{"id": "C67", "title": "corner maximises a linear function over a constraint-defined domain", "statement": "corner(p) returns a member of the domain maximising p.x over the domain, given an exact solver for the normalized problem.", "quantifier": "all constraint-defined domains and directions", "why_tests_cant": "optimality over a continuum of competitors", "anchors": ["psdr/domains/euclidean.py:_corner"]}
{"id": "C68", "title": "extent of a convex hull domain is exact", "statement": "extent(x,p) of a hull domain is the largest step t with x+t p in the domain (hull and additional constraints).", "quantifier": "all hulls, points, directions", "why_tests_cant": "quantifies over all steps", "anchors": ["psdr/domains/convexhull.py:_Extent"]}
{"id": "C69", "title": "to_linineq describes the same set as the hull domain", "statement": "hull.to_linineq() contains exactly the points of the hull domain.", "quantifier": "all hulls and points", "why_tests_cant": "set equality over a continuum", "anchors": ["psdr/domains/convexhull.py:to_linineq", "psdr/domains/convexhull.py:_hull_to_linineq"]}
{"id": "C70", "title": "LogNormalDomain.pdf is the density of its samples", "statement": "The value returned by pdf is the density of offset + scaling*exp(Y), Y normal.", "quantifier": "all parameters and points", "why_tests_cant": "identity over a continuum of parameters", "anchors": ["psdr/domains/lognormal.py:_pdf"]}
{"id": "C71", "title": "chebyshev_center is the center of the largest inscribed ball", "statement": "chebyshev_center returns a member of the domain and a radius such that the ball is inside the domain and no larger ball is, given an exact LP solver.", "quantifier": "all polytopes", "why_tests_cant": "maximality over a continuum of balls", "anchors": ["psdr/domains/linineq.py:chebyshev_center", "psdr/domains/euclidean.py:A_aug"]}
{"id": "C72", "title": "Gauss-Newton solves affine least squares in one accepted step", "statement": "On an affine residual the exact Gauss-Newton step is accepted by the default line search, so gauss_newton makes progress whatever the scale of the problem.", "quantifier": "all affine residuals and starting points", "why_tests_cant": "the failure only appears when the residual is larger than 1/(2*ftol); tests use well scaled problems", "anchors": ["psdr/gn.py:linesearch_armijo", "psdr/gn.py:gauss_newton"]}
{"id": "C73", "title": "Distance of H to the sample constraints", "statement": "dist_eval_constraints returns for every pair the signed Frobenius distance: adding any symmetric perturbation smaller than the (negative) distance cannot make the pair feasible, and one of that size does.", "quantifier": "all symmetric H, all pairs of distinct points", "why_tests_cant": "minimality over all perturbations", "anchors": ["psdr/lipschitz_utils.py:dist_eval_constraints"]}
{"id": "C74", "title": "Distance of H to the gradient constraints", "statement": "dist_grad_constraints_slow returns minus the largest eigenvalue of g g^T - H, so its sign decides H >= g g^T.", "quantifier": "all symmetric H, all gradients", "why_tests_cant": "equivalence over all directions and all matrices", "anchors": ["psdr/lipschitz_utils.py:dist_grad_constraints_slow"]}
{"id": "C75", "title": "Fitted Lipschitz matrices satisfy the data", "statement": "After LipschitzMatrix._fit (and the diagonal version) L^T L = H, H is positive semidefinite, U is orthonormal, and L satisfies |f_i-f_j| <= |L(x_i-x_j)| + epsilon and |g.x| <= |Lx| for the data in original units, given a builder that is feasible for the scaled data.", "quantifier": "all data, all scales, all builder results (also slightly indefinite ones)", "why_tests_cant": "all directions x, all data sets", "anchors": ["psdr/lipschitz.py:LipschitzMatrix._fit", "psdr/lipschitz.py:LipschitzMatrix.fit", "psdr/lipschitz.py:DiagonalLipschitzMatrix._fit"]}
{"id": "C76", "title": "The parameterized semidefinite program is the documented one", "statement": "The matrices Es form a spanning set of m(m+1)/2 symmetric positive semidefinite matrices of trace one; alpha is feasible for the cvxopt program iff H = sum alpha_i E_i satisfies the documented constraints, and an optimal alpha gives least trace among all symmetric positive semidefinite H.", "quantifier": "all dimensions, data, gradients, epsilon >= 0", "why_tests_cant": "equivalence of feasible sets over all matrices", "anchors": ["psdr/lipschitz.py:LipschitzMatrix._build_lipschitz_matrix_cvxopt", "psdr/lipschitz.py:LipschitzMatrix._build_lipschitz_matrix_param"]}
{"id": "C77", "title": "Bounds over a domain", "statement": "LowerBound.grad and UpperBound.grad are the derivatives of the bounds wherever the distances are positive; uncertainty_domain returns values attained in the domain and at least as wide as at the starting points, and is consistent with uncertainty.", "quantifier": "all L, data, points, directions, start sets", "why_tests_cant": "derivatives in all directions; all start sets", "anchors": ["psdr/lipschitz.py:LowerBound", "psdr/lipschitz.py:UpperBound", "psdr/lipschitz.py:LipschitzMatrix.uncertainty_domain"]}
{"id": "C78", "title": "PartialLipschitzMatrix", "statement": "The low rank parameterization satisfies L^T L = H >= 0 and the data constraints, _optimize never increases the objective and keeps U orthonormal, and the linearized constraints in _U_descent are the first order expansion of the constraints.", "quantifier": "all data, ranks, numbers of iterations, oracles meeting their contracts", "why_tests_cant": "invariants over all iterations; derivative identity", "anchors": ["psdr/lipschitz_partial.py:PartialLipschitzMatrix._fit", "psdr/lipschitz_partial.py:PartialLipschitzMatrix._optimize", "psdr/lipschitz_partial.py:PartialLipschitzMatrix._U_descent"]}
{"id": "C83", "title": "The background grid of the Poisson sampler does not change the result", "statement": "Checking only the occupied neighbouring cells of the background grid accepts exactly the candidates that are farther than r from every earlier sample, and every point of the domain has a valid cell index.", "quantifier": "all metrics L, radii, domains and random streams", "why_tests_cant": "equivalence with the exhaustive check for all random streams", "anchors": ["psdr/sample/poisson.py:poisson_disk_sample"]}
{"id": "C86", "title": "Fill distance from Voronoi vertices is exact in any dimension", "statement": "The fill distance computed from the Voronoi vertices is attained at a point of the domain and is smaller than the distance of no point of the domain to its nearest site, up to the tolerance used to merge vertices.", "quantifier": "all bounded polytopes, invertible metrics L and site sets", "why_tests_cant": "supremum over all points of a polytope", "anchors": ["psdr/geometry/fill.py:fill_distance", "psdr/geometry/vertex.py:voronoi_vertex"]}
{"id": "C79", "title": "low_rank_L keeps the metric", "statement": "The low rank version of L returned by low_rank_L gives the same distances as L up to the discarded singular values (at most 1e-8 each), and its rows are linearly independent.", "quantifier": "all matrices L and all singular value decompositions satisfying the contract", "why_tests_cant": "for all matrices", "anchors": ["psdr/sample/util.py:low_rank_L"]}
{"id": "C80", "title": "Block coordinate descent never decreases the smallest distance", "statement": "maximin_block returns Nsamp points of the domain whose smallest pairwise distance in the L metric is at least that of the starting design; for a one-row metric the design is optimal. A sweep replaces the points one after the other, seeing the points already replaced; the sweeps end after the first one that moves no point by xtol in a coordinate of the metric, or after maxiter.", "quantifier": "all domains, metrics, starting designs and numbers of sweeps", "why_tests_cant": "all sweeps and all starting designs", "anchors": ["psdr/sample/maximin.py:maximin_block"]}
{"id": "C81", "title": "Lloyd's algorithm keeps covering the domain", "statement": "After each iteration of minimax_lloyd the fill distance of the design is at most that before it (with exact circumcenters and Voronoi vertices, and exact ownership), and the design stays in the domain.", "quantifier": "all convex domains, metrics, designs and iteration counts", "why_tests_cant": "fill distance is a supremum over the domain; all iterates", "anchors": ["psdr/sample/minimax_lloyd.py:minimax_lloyd"]}
{"id": "C84", "title": "Minimax covering selects the fewest points that cover the cloud", "statement": "minimax_covering returns a smallest subset of the cloud that leaves no point of the cloud at distance r or more, and covers the domain within r plus the cloud's own covering radius.", "quantifier": "all clouds, metrics and radii", "why_tests_cant": "optimality over all subsets", "anchors": ["psdr/sample/minimax.py:minimax_covering"]}
{"id": "C85", "title": "Sequential and stretched maximin sampling choose the best candidate", "statement": "seq_maximin_sample returns a point of the domain whose product of distances is within the slack of the best candidate and which is farthest in the Euclidean metric among those; stretch_sample_domain scores each metric's candidate by its distance to the existing samples.", "quantifier": "all candidate sets, metrics, samples and slacks", "why_tests_cant": "all candidate sets", "anchors": ["psdr/sample/seqmaximin.py:seq_maximin_sample", "psdr/sample/stretch.py:stretch_sample_domain"]}
{"id": "C87", "title": "Scaling a design toward the center stays in the domain and uses the right score", "statement": "minimax_scale returns as many points as given, all in the convex domain, and its score is the fill distance of the scaled design.", "quantifier": "all convex domains, designs and scale factors", "why_tests_cant": "all designs, supremum over the domain", "anchors": ["psdr/sample/minimax_scale.py:minimax_scale"]}
{"id": "C88", "title": "Sample and gradient inputs are checked", "statement": "Samples, values and gradients are either accepted unchanged with matching counts and dimensions, or an exception is raised; nothing given by the user is dropped.", "quantifier": "all combinations of given and missing inputs, all shapes", "why_tests_cant": "all shapes and combinations", "anchors": ["psdr/misc.py:check_sample_inputs"]}
{"id": "C89", "title": "The initial subspace contains the gradients", "statement": "initialize_subspace returns orthonormal columns whose span contains every given gradient; for affine data the first column is the direction of the slope.", "quantifier": "all samples, gradients and permutations, exact SVD and least squares", "why_tests_cant": "all data sets and random subsets", "anchors": ["psdr/initialization.py:initialize_subspace"]}
{"id": "C90", "title": "Variable projection: residual and Jacobian", "statement": "The variable projection residual depends only on the subspace spanned by U, not on the basis of the subspace, the polynomial family or its scaling; the computed Jacobian is the derivative of that residual along every direction, even though the basis is rescaled with U; directions within the subspace are in its kernel.", "quantifier": "all samples, subspaces, directions, polynomial families, degrees; full-rank Vandermonde matrix, exact SVD and least squares", "why_tests_cant": "derivative identity and invariance over all bases and data", "anchors": ["psdr/polyridge.py:PolynomialRidgeApproximation._varpro_residual", "psdr/polyridge.py:PolynomialRidgeApproximation._varpro_jacobian", "psdr/polyridge_vec.py:_varpro_jacobian"]}
{"id": "C94", "title": "Gauss-Newton step on the Grassmann manifold", "statement": "Dropping the n^2 smallest singular values of the variable projection Jacobian gives a step that is orthogonal to the current subspace and still minimises the linearised residual over all directions.", "quantifier": "all samples and orthonormal U with at least m*n samples, exact sorted SVD", "why_tests_cant": "rank statement about every Jacobian", "anchors": ["psdr/polyridge.py:PolynomialRidgeApproximation._fit_varpro", "psdr/polyridge_vec.py:_gn_solver"]}
{"id": "C92", "title": "Final rotation and signs of a ridge approximation", "statement": "The final step of a ridge fit (rotate U onto the singular vectors of the profile gradients, flip signs, refit) keeps U orthonormal and its span, and returns the same ridge function as fitted before; the mean slope of the returned profile in every coordinate at the samples is nonnegative.", "quantifier": "all samples, subspaces, degrees, polynomial families; full column rank Vandermonde matrix, exact least squares and SVD", "why_tests_cant": "equality of fitted functions at every point of the space for every basis of the subspace", "anchors": ["psdr/polyridge.py:PolynomialRidgeApproximation._finish", "psdr/polyridge.py:PolynomialRidgeApproximation._fit_coef"]}
{"id": "C93", "title": "Alternating fit: Jacobian and search constraints", "statement": "The Jacobian of the residual in (U, c) used by the alternating fit is its derivative along every direction, and the search constraints are met exactly by the steps of U orthogonal to its current columns.", "quantifier": "all samples, U, coefficients and directions", "why_tests_cant": "derivative identity; constraint equivalence for every step", "anchors": ["psdr/polyridge.py:PolynomialRidgeApproximation._residual", "psdr/polyridge.py:PolynomialRidgeApproximation._jacobian", "psdr/polyridge.py:PolynomialRidgeApproximation._fit_alternating"]}
{"id": "C95", "title": "Sample count check of ridge approximations", "statement": "The number of samples demanded before fitting is the number of degrees of freedom of the ridge approximation (dimension of the Grassmann manifold plus number of coefficients), and is large enough that the Gauss-Newton step can drop n^2 singular values; the subspace dimension that __init__ substitutes for degrees 0 and 1 loses no ridge function and is the least such dimension.", "quantifier": "all dimensions and degrees", "why_tests_cant": "arithmetic identity for all m, n, degree", "anchors": ["psdr/polyridge.py:PolynomialRidgeApproximation.fit", "psdr/polyridge.py:247-254"]}
{"id": "C96", "title": "Ridge approximation containing a fixed subspace", "statement": "With a fixed subspace the columns passed on form an orthonormal basis containing the fixed subspace, the reduced Jacobian is the derivative of the residual with respect to the free part, and one-dimensional values are accepted.", "quantifier": "all samples, fixed subspaces, free parts and directions; exact SVD and least squares", "why_tests_cant": "derivative identity over all directions", "anchors": ["psdr/polyridge_vec.py:_varpro_residual_fixed", "psdr/polyridge_vec.py:_varpro_jacobian_fixed", "psdr/polyridge_vec.py:polynomial_ridge_approximation"]}
{"id": "C97", "title": "Affine initialization recovers the direction of affine data", "statement": "When the data are samples of a non-constant affine function at points that affinely span the space, the affine fit returns the normalized gradient of that function, for every norm and bound.", "quantifier": "all affine functions, sample sets, norms and bounds, exact solver", "why_tests_cant": "all sample sets", "anchors": ["psdr/polyridge.py:PolynomialRidgeApproximation._fit_affine"]}
{"id": "C91", "title": "Gaussian kernel matrices are positive definite", "statement": "The covariance matrix exp(-|L(x_i-x_j)|^2/2) is positive semidefinite for every L and every set of points, and positive definite exactly when the transformed points are distinct; hence every eigenvalue of K + nugget*I is at least the nugget (more for distinct points) and the logarithms and quotients in the likelihood are defined.", "quantifier": "all dimensions, L, point sets, coefficient vectors", "why_tests_cant": "infinitely many point sets and vectors; needs the power series of exp", "anchors": ["psdr/gp.py:GaussianProcess._log_marginal_likelihood", "psdr/gp.py:GaussianProcess._make_L"]}
{"id": "C98", "title": "Gradient of the Gaussian process objective", "statement": "The gradient returned for the optimiser is the derivative of the returned objective with respect to every parameter of L, for the structures const, scalar_mult, diag and tril, with or without polynomial trend, although the weights and the eigendecompositions change with L.", "quantifier": "all data, structures, parameters with every eigenvalue of the saddle point matrix above the cutoff, positive nugget, exact eigendecompositions (tril: exact derivative of expm)", "why_tests_cant": "derivative identity; tests compare finite differences at a few points", "anchors": ["psdr/gp.py:GaussianProcess._log_marginal_likelihood", "psdr/gp.py:GaussianProcess._obj", "psdr/gp.py:GaussianProcess._grad"]}
{"id": "C99", "title": "Data term of the likelihood and generalised least squares trend", "statement": "y.alpha is nonnegative, does not change when any trend polynomial is subtracted from y, and is the minimum over all trend coefficients of the generalised least squares objective with weight (K + nugget*I)^-1.", "quantifier": "all data, trends and L", "why_tests_cant": "minimum over all trend coefficients", "anchors": ["psdr/gp.py:GaussianProcess._log_marginal_likelihood"]}
{"id": "C100", "title": "Reported covariance is the least prediction variance", "statement": "The covariance returned by eval is the smallest variance 1 - 2 k.c + c.Kc over all linear predictors c; it is 0 at the training points.", "quantifier": "all points, L and evaluation points; eigenvalues of K zero or above the cutoff", "why_tests_cant": "minimum over all predictors", "anchors": ["psdr/gp.py:GaussianProcess.eval"]}
{"id": "C101", "title": "Fit starts at the given L0", "statement": "The starting parameters computed from L0 reproduce L0 (the default is the identity).", "quantifier": "all L0 and structures", "why_tests_cant": "the optimiser hides the starting point", "anchors": ["psdr/gp.py:GaussianProcess.fit"]}
{"id": "C102", "title": "Borehole: value and gradient", "statement": "The value is the documented formula, positive on the domain; borehole_grad is its gradient at every point of the domain, and the gradient of the Function object is the Jacobian in normalized coordinates.", "quantifier": "all points of the domain", "why_tests_cant": "a gradient formula generated symbolically and pasted is only compared by finite differences at a few random points with a tolerance", "anchors": ["psdr/demos/borehole.py:borehole", "psdr/demos/borehole.py:borehole_grad", "psdr/demos/borehole.py:Borehole"]}
{"id": "C103", "title": "OTL circuit: value, gradient and domain", "statement": "The value is the documented formula, positive on the domain; the gradient is exact, also for the Function object. The domain is the documented one.", "quantifier": "all points of the domain", "why_tests_cant": "all points", "anchors": ["psdr/demos/otl_circuit.py"]}
{"id": "C104", "title": "Piston: value and gradient", "statement": "The value is the documented formula, between 0 and 2 pi sqrt(M/k); the gradient is exact for all positive inputs, also for the Function object.", "quantifier": "all positive inputs", "why_tests_cant": "the gradient has seven expressions of several hundred operations", "anchors": ["psdr/demos/piston.py"]}
{"id": "C105", "title": "Robot arm: value and gradient", "statement": "The value is the distance of the tip from the origin, at most the sum of the lengths and independent of the first angle; the gradient exists and is right at every point of the domain.", "quantifier": "all points of the domain", "why_tests_cant": "the singular points have measure zero and are never sampled", "anchors": ["psdr/demos/robot_arm.py"]}
{"id": "C106", "title": "Wing weight: value and gradient", "statement": "The value is the documented formula and larger than the weight of the paint; the gradient has relative error at most 1e-14 in each coordinate.", "quantifier": "all points of the domain", "why_tests_cant": "relative accuracy over the whole domain", "anchors": ["psdr/demos/wing_weight.py"]}
{"id": "C107", "title": "Golinski gearbox: gradients and constraints", "statement": "The gradients of the volume and of the eleven constraints have relative error at most 1e-14; constraints 4, 7 and 9 are never active on the design box; a strictly feasible design exists.", "quantifier": "all points of the design box", "why_tests_cant": "redundancy of a constraint is a statement about all designs", "anchors": ["psdr/demos/golinski.py"]}
{"id": "C108", "title": "Hartmann flow: gradients and sign", "statement": "The gradients of average velocity and induced field are exact; both are positive on the domain.", "quantifier": "all points of the domain", "why_tests_cant": "cancellation between terms makes sampled tests insensitive", "anchors": ["psdr/demos/hartmann.py"]}
{"id": "C109", "title": "Nowacki beam: formulas, gradients, keyword arguments", "statement": "The seven quantities are the documented formulas with the constants taken from the keyword arguments (default BEAM); the gradients are exact for every admissible choice of the constants. The shear constraint holds on the whole domain; a design meeting the five constraints exists.", "quantifier": "all points of the domain and all keyword arguments with positive moduli, nu < 1, L <> 0", "why_tests_cant": "keyword arguments other than the defaults are not tested", "anchors": ["psdr/demos/beam.py"]}
{"id": "C110", "title": "Affine and quadratic functions", "statement": "The gradient of the affine function is exact; the gradient of the quadratic function is exact for every matrix.", "quantifier": "all dimensions, matrices and points", "why_tests_cant": "the tests draw symmetric matrices only or compare at a few points", "anchors": ["psdr/demos/polynomial.py:AffineFunction", "psdr/demos/polynomial.py:QuadraticFunction"]}
{"id": "C111", "title": "check_derivative: what the reported error says about a gradient", "statement": "The result is the largest over the coordinates of the least deviation, over the steps, between the central difference and the entry given. If the third derivatives along the coordinate lines are bounded by C, a correct gradient is reported with an error of at most C h^2/6 for every step h, and every entry is within the reported error plus C H^2/6 of the partial derivative (H the largest step); for quadratics the result is the exact deviation. A reported error below a tolerance does not imply that the gradient is right to that tolerance.", "quantifier": "all functions, points, gradients, nonempty lists of positive steps", "why_tests_cant": "the checker itself has no tests; every gradient test of the project relies on it", "anchors": ["checkder/checkder.py:65-80"]}
{"id": "C112", "title": "check_gradient and check_jacobian", "statement": "check_gradient is check_derivative of half the squared residual norm, whose gradient is J^T r. check_jacobian returns the largest relative column error when no column is zero, with the same accuracy bounds. A wrong Jacobian is always reported (false: the residual may vanish; a zero column hides the columns before it).", "quantifier": "all residuals, Jacobians, points and step lists", "why_tests_cant": "needs a zero column or a vanishing residual together with a wrong Jacobian", "anchors": ["checkder/checkder.py:9-63"]}
{"id": "C113", "title": "check_hessian", "statement": "The mixed difference at step h is the mixed second derivative at a point within h; a correct Hessian, C-Lipschitz at x, is reported with an error of at most 2C 1e-7 and every entry is within the reported error plus C/5 of the true one.", "quantifier": "all functions with a mixed derivative near the point", "why_tests_cant": "the checker itself has no tests", "anchors": ["checkder/checkder.py:82-104"]}
{"id": "C114", "title": "Smallest enclosing ball", "statement": "For a solver returning a minimizer, the ball returned contains all points, touches one, no ball with a smaller radius contains them, a ball with another centre is larger by Pythagoras, the centre is unique, the radius is between half the diameter and the diameter, and without a metric the centre lies in the bounding box.", "quantifier": "all nonempty point sets, metrics L and exact solvers", "why_tests_cant": "optimality over all balls", "anchors": ["psdr/geometry/miniball.py:5-35"]}
{"id": "C115", "title": "Convergence study of subspaces", "statement": "The angle list has one entry per sample size, pi/2 first, then the largest angle between consecutive leading subspaces; the count list has one entry per sample size.", "quantifier": "all sample size lists, fitting procedures and angles", "why_tests_cant": "study.py has no tests", "anchors": ["psdr/study.py:5-57"]}
{"id": "C116", "title": "Empirical safety factor", "statement": "The percentile lies in the range of the sample; fewer than prob (n-1) + 1 of the n ridge values are beyond the safety factor. The share beyond it is at most prob (false by less than one sample).", "quantifier": "all samples, probabilities and both modes", "why_tests_cant": "duu.py has no tests", "anchors": ["psdr/duu.py:71-79"]}
{"id": "C117", "title": "Elimination of fixed entries in the nozzle constraints", "statement": "Removing the columns of entries that are not design variables and moving them to the right-hand side keeps the meaning of every row: the reduced row holds for the variables z iff the full row holds for the complete vector with z filled in (entries sharing a variable included). Dropping zero rows afterwards keeps exactly the rows with a nonzero reduced coefficient.", "quantifier": "all rows, fixed values, variable numberings and designs", "why_tests_cant": "no tests for the nozzle constraints", "anchors": ["psdr/demos/_multif_linear_constraints.py:28-337"]}
{"id": "C118", "title": "B-spline wall constraints", "statement": "The rows returned by bspline hold for the variables iff the full control polygon satisfies the documented conditions: ordered x with gaps, x limits, slopes between the limits before and after the throat, throat lowest and within its bounds.", "quantifier": "all control polygons, numberings, limits, throat positions", "why_tests_cant": "a quantified statement about all designs; no tests", "anchors": ["psdr/demos/_multif_linear_constraints.py:28-185"]}
{"id": "C119", "title": "Piecewise bilinear layer constraints", "statement": "The rows returned by piecewiseBilinearAxial hold iff locations are ordered with gaps and limits, angles ordered with gaps, axial slopes in range, and thicknesses at neighbouring angles differ by at most deltaz. (Angle gaps and a single angle are handled wrongly.)", "quantifier": "all layers, numberings and limits", "why_tests_cant": "no tests", "anchors": ["psdr/demos/_multif_linear_constraints.py:200-292"]}
{"id": "C120", "title": "Baffle constraints", "statement": "The rows returned by baffles hold iff consecutive baffle locations are between minDistance and maxDistance apart.", "quantifier": "all locations, thicknesses, numberings and distances", "why_tests_cant": "no tests", "anchors": ["psdr/demos/_multif_linear_constraints.py:303-337"]}
{"id": "C121", "title": "Clean-up of constraint matrices", "statement": "The cleaned system, restricted to the columns of each block, is the conjunction of the nonzero rows of the blocks; it equals the conjunction of all rows (false: violated constraints without variables are dropped).", "quantifier": "all lists of blocks", "why_tests_cant": "no tests", "anchors": ["psdr/demos/_multif_linear_constraints.py:341-383"]}
{"id": "C122", "title": "Design and random domain of the nozzle", "statement": "The design domain has 96 variables and the random domain 40; membership in each part is characterized by explicit inequalities; the bounds from the corners cut nothing; the domain is not empty; the linear constraints of the load layers are implied by their bounds; the nominal design is inside (false: wall).", "quantifier": "all 96-dimensional vectors", "why_tests_cant": "a statement about every point of a 96-dimensional polytope", "anchors": ["psdr/demos/_multif_domains3d.py:10-350"]}
{"id": "C123", "title": "Constraints handed to the convex solver", "statement": "The constraints that _build_constraints adds for a variable x hold exactly when x belongs to the domain: for linear/quadratic domains, for tensor products and for convex hulls (false for hulls: the points enter transposed).", "quantifier": "all domains of each class, all points", "why_tests_cant": "equality of two sets for every domain; solvers only ever visit one point of the set", "anchors": ["psdr/domains/linquad.py:296-321", "psdr/domains/tensor.py:119-123", "psdr/domains/convexhull.py:248-253"]}
{"id": "C124", "title": "Equality basis of a convex hull", "statement": "Projecting out the columns of _A_eq_basis of a convex hull is the orthogonal projection onto the directions that satisfy the equality constraints and lie along the hull; differences of members are left unchanged.", "quantifier": "all finite point sets, all equality constraints, all directions", "why_tests_cant": "a statement about every direction and every degenerate point set", "anchors": ["psdr/domains/convexhull.py:305-327"]}
{"id": "C82", "title": "Voronoi cells of projected designs", "statement": "The inequalities A x <= b built by projection_sample and by _voronoi_cell_point describe exactly the points whose projection L x is at least as near to the selected projected point as to the other ones (for one-row L the two sorted neighbours suffice). The cells of one metric cover the domain and meet only in ties. In the Latin hypercube variant the cells are exactly the Nsamp equal slices of the extent of the domain along the coordinate, and the sequence of selections makes every slice contain one point of the design. The routines raise for one sample, for projections of more than one row (projection_sample) and, in the Latin hypercube variant, for boxes away from the origin.", "quantifier": "all metrics L, all point sets, all points x of the domain, all sorting permutations", "why_tests_cant": "The equivalence quantifies over all points of space and all point configurations; a test only samples some of them, and the case of the Latin hypercube needs every slice and every design.", "anchors": ["psdr/sample/projection.py:57-108", "psdr/sample/projection.py:273-307", "psdr/sample/projection.py:117-130"]}
{"id": "C125", "title": "Search loops of projection designs", "statement": "For every solver that returns an unseen solution of the clauses or reports that there is none, every iteration of projection_sample with an empty cell blocks at least one new combination, so the loop ends after at most Nsamp^len(Ls) + maxiter iterations. Only empty combinations are blocked. The returned design is the best one of the visited designs, is made of one point in each selected cell, and is the best of all feasible designs if the loop ended before maxiter designs. projection_design has the same properties when there are at least maxiter feasible designs, but never ends once the solutions are exhausted and the last one had an empty cell.", "quantifier": "all solvers meeting the contract, all numbers of metrics and samples, all emptiness patterns of the cells, all limits maxiter", "why_tests_cant": "Termination and optimality quantify over all answers of the SAT solver and all patterns of empty cells; non-termination cannot be observed by a finite test.", "anchors": ["psdr/sample/projection.py:154-269", "psdr/sample/projection.py:373-465"]}
{"id": "C126", "title": "The Gauss rule integrates polynomials of degree 2N-1 exactly", "statement": "For every N, every interval [a,b] and every orthonormal eigen-decomposition of the Jacobi matrix built by gauss(N, a, b), the sum of w_k p(x_k) equals the integral of p over [a,b] for every polynomial p of degree at most 2N-1, and for no larger degree in general: some polynomial of degree 2N is not integrated exactly. For N >= 1 and a < b the nodes are distinct and strictly inside (a,b) and the weights are positive. On a box, quadrature_rule with q points per axis integrates every polynomial of degree at most 2q-1 in each variable exactly.", "quantifier": "all N, all a and b, all eigen-solvers returning an orthonormal basis of eigenvectors, all polynomials, all dimensions of the box", "why_tests_cant": "Tests sample a few N and monomials; exactness for all degrees and orders rests on the orthogonality of the Legendre polynomials.", "anchors": ["psdr/quadrature.py:7-47", "psdr/domains/euclidean.py:700-800"]}
{"id": "C127", "title": "The emptiness, boundedness and point tests of a domain agree with its set of points", "statement": "For every set of points and every linear program solver behind corner: is_empty is True exactly when the set has no point; in dimension two or more is_unbounded is True exactly when the set is not bounded, whatever orthogonal matrix is drawn; is_point is True for every set with one point and, when True, the set is not empty and bounded with a diameter within the tolerance of np.isclose.", "quantifier": "all sets of points, all dimensions, all orthogonal matrices drawn, all solver answers meeting the contract of corner", "why_tests_cant": "Tests try a handful of domains with one random orthogonal matrix; the claims are about every matrix and every set.", "anchors": ["psdr/domains/euclidean.py:79-126"]}
{"id": "C128", "title": "Random directions can be followed, boundary samples are on the boundary, the starting point is in the domain", "statement": "random_direction(x) returns the first drawn direction that keeps the equality constraints and can be followed for a positive distance from x, and ends as soon as one is drawn; sample_boundary returns points of the domain that leave it along the drawn direction; _corner_center returns a point of the domain strictly between the extremes of every searched direction of positive width.", "quantifier": "all domains, all points off the faces of inequalities and ellipsoids, all sequences of draws, all orthogonal matrices, all solver answers meeting the contract of corner", "why_tests_cant": "The loop of random_direction ends or not depending on an unbounded sequence of random draws; the convexity argument is for all domains.", "anchors": ["psdr/domains/euclidean.py:638-684", "psdr/domains/euclidean.py:827-854"]}
{"id": "C129", "title": "The normalization bounds are the exact coordinate ranges, in whatever order they are computed", "statement": "norm_lb[i] and norm_ub[i] are the given finite bounds of coordinate i, and where no bound is given the smallest and largest value of that coordinate on the domain (infinite if there is none); the values do not depend on which of the two properties is read first or how often, although computing one runs the other nested on half filled arrays; with them corner, is_empty and is_unbounded are right.", "quantifier": "all domains without ellipsoids (or with ellipsoids centred at the centre of symmetry) whose lower bounds are all finite or all infinite, likewise the upper bounds; all sequences of queries; all exact solvers", "why_tests_cant": "The nested lazy evaluation passes through many half filled states; the claim is about every order of queries and every domain.", "anchors": ["psdr/domains/euclidean.py:1019-1072", "psdr/domains/euclidean.py:265-307", "psdr/domains/euclidean.py:79-90", "psdr/domains/euclidean.py:113-137"]}
{"id": "C130", "title": "Normalized random domains keep membership, samples and measure", "statement": "The normalized domain of a NormalDomain contains exactly the normalized points of the domain (at every tolerance), its samples are the normalized samples of the same standard normal draws, and its density times the product of the slopes is the density of the domain; its normalization bounds are mean_i -+ sqrt(clip * cov_ii) in every order of queries (infinite without truncation), so the normalized domain of a truncated one touches -1 and 1 in every coordinate.  A truncated LogNormalDomain normalizes to [-1, 1] with normalized samples and, without truncation, to itself; its density transforms accordingly.", "quantifier": "all means, all symmetric positive definite covariances of any size, all truncations with a positive clip, all draws and points, all oriented normalization bounds, all sequences of queries", "why_tests_cant": "The claim is about every covariance and every point; a test compares finitely many samples within statistical error and cannot see a missing Jacobian factor.", "anchors": ["psdr/domains/normal.py:47-94", "psdr/domains/normal.py:108-163", "psdr/domains/lognormal.py:36-80", "psdr/domains/euclidean.py:1019-1111"]}
{"id": "C131", "title": "fit_function finds the exact active subspace of polynomials on boxes", "statement": "ActiveSubspace.fit_function(fun, N) on a box takes the tensor Gauss rule with q = floor(N^(1/m)) points per axis; if the gradient has degree below q in every variable, C is the integral of grad f grad f^T over the box, C v = 0 exactly if f is constant along v (everywhere), s_k = 0 exactly if f is constant along the k-th singular vector, and f depends only on the coordinates along the columns of U with s_k > 0.", "quantifier": "all boxes of any dimension with positive widths not all below the tolerance of is_point, all N with at least two points per axis, all polynomials, all directions, all exact decompositions", "why_tests_cant": "The kernel statement is an equivalence over all directions and all points; tests compare the subspace of a few ridge functions within sampling error.", "anchors": ["psdr/subspace.py:342-354", "psdr/subspace.py:300-340", "psdr/domains/euclidean.py:714-799", "psdr/quadrature.py:10-50"]}
{"id": "C132", "title": "polyfitA is the least-squares polynomial, and the Arnoldi constructions break down exactly on degenerate samples", "statement": "For samples on which only the zero polynomial of total degree at most p vanishes, polyfitA followed by polyvalA evaluates, at every point, the unique polynomial of degree at most p with the smallest sum of squared errors, and reproduces every polynomial of degree at most p from its values; the constructions behind it (vandermonde_arnoldi and the Arnoldi basis) divide by zero exactly if a nonzero polynomial of degree at most p vanishes on all samples.", "quantifier": "all dimensions, all degrees, all sample sets, all data, all points of evaluation, all exact least-squares solvers", "why_tests_cant": "Minimality is against all polynomials and exactness is at all points; a test compares a few fits at a few points in floating point, and cannot show that every degenerate sample breaks down and no other.", "anchors": ["psdr/vandermonde.py:74-88", "psdr/vandermonde.py:10-72", "psdr/vandermonde.py:90-130", "psdr/basis.py:449-487"]}
{"id": "C133", "title": "fill_distance_estimate is a lower bound of the fill distance", "statement": "fill_distance_estimate returns the distance to the nearest sample at a point of the domain, hence a lower bound of the fill distance (and at most fill_distance up to the tolerance for duplicate vertices); it is at least the distance of every starting point.", "quantifier": "all polytopes, all metrics L, all samples, all starting points, all orders of ties and QR factors", "why_tests_cant": "The bound holds against all points of the domain and for every start; tests compare with the exact value for a few designs, and the tolerance that loses a separating plane shows only for close samples.", "anchors": ["psdr/geometry/fill.py:31-88", "psdr/geometry/vertex.py:186-314", "psdr/geometry/cdist.py:4-16"]}
{"id": "C134", "title": "shadow_uncertainty reports intervals that hold every consistent value", "statement": "shadow_uncertainty computes an even grid from the smallest to the largest u.x on the domain; each bound it reports is the bound at a point of the slice u.x = y_i, and the interval at y_i contains f(x) for every x of the domain with u.x = y_i and every f consistent with the data and L.", "quantifier": "all domains, directions, data, metrics, grid sizes, all functions consistent with the data", "why_tests_cant": "The method only plots; enclosure quantifies over all functions consistent with the data and all points of each slice, which no finite set of samples decides.", "anchors": ["psdr/lipschitz.py:526-582", "psdr/lipschitz.py:386-406", "psdr/lipschitz.py:446-477"]}
{"id": "C135", "title": "Variable projection with the Arnoldi basis gives the same residual and Jacobian", "statement": "With basis = 'arnoldi' the variable projection residual (V.T fX as coefficients) is the residual of the best polynomial of the given degree in the projected samples, the same as with every tensor product basis and every basis of the subspace; the Jacobian (unit singular values, DV from the Arnoldi recurrence at the old points) is the derivative of that residual along every direction although the basis is rebuilt for every U, equals the Jacobian computed with an SVD for every tensor product basis, and vanishes on directions within the subspace; no division by zero occurs once the number of samples passes the check.", "quantifier": "all samples, values, subspaces, directions, degrees; projected samples that determine the polynomials", "why_tests_cant": "Derivative identity through a Gram-Schmidt process that is redone for each U, equality with all other bases, and the exact set of samples on which it divides by zero.", "anchors": ["psdr/polyridge.py:448-505", "psdr/basis.py:430-544", "psdr/polyridge.py:326-335"]}
{"id": "C136", "title": "Variable projection with several outputs: residual, Jacobian and Gauss-Newton step", "statement": "In polyridge_vec.py the flattened residual of all outputs is the smallest over all coefficients and depends only on the subspace; the stacked Jacobian is the derivative of that residual along every direction, for tensor and Arnoldi bases alike and also with a fixed subspace joined in; it vanishes on directions within the subspace; the Gauss-Newton step computed from its SVD is orthogonal to the subspace and minimizes the linearized residual of all outputs; the singular values divided by are nonzero.", "quantifier": "all samples, numbers of outputs, subspaces, fixed subspaces, directions, degrees", "why_tests_cant": "Derivative and optimality identities over real vectors for any number of outputs, and a rank bound n(M-n-1) that makes the solver divide by zero for every data set with at most m samples.", "anchors": ["psdr/polyridge_vec.py:16-45", "psdr/polyridge_vec.py:47-91", "psdr/polyridge_vec.py:94-117", "psdr/polyridge_vec.py:145-180"]}
{"id": "C137", "title": "Densities have integral one, and the volume used for Monte Carlo weights", "statement": "The density of a uniform domain has integral one over the box (and over all points isinside accepts), the density of a truncated normal domain has integral one over the truncated domain, and so has that of a truncated log-normal domain; volume is the integral of one for domains with bounds only and lies between zero and the volume of the bounding box otherwise, with the extremes exactly when all or none of the drawn points are inside; the Monte Carlo rule made from it has finite weights and integrates over the domain.", "quantifier": "all bounds, dimensions, means, variances, truncations, tolerances, drawn points", "why_tests_cant": "Riemann integrals over all boxes and truncations; sampled volumes only show the generic case, not the degenerate one where every weight is zero or infinite.", "anchors": ["psdr/domains/random.py:11-37", "psdr/domains/uniform.py:12-14", "psdr/domains/normal.py:152-163", "psdr/domains/lognormal.py:77-80", "psdr/domains/euclidean.py:801-813", "psdr/domains/euclidean.py:730-735", "psdr/domains/euclidean.py:790-799"]}
{"id": "C138", "title": "The least-trace Lipschitz matrix: existence, invariances, kernel, bounds", "statement": "For consistent data the semidefinite program of LipschitzMatrix has a minimiser; scaling the data as fit does, shifting inputs or outputs and rotating the inputs change the minimisers in the corresponding way; more data never lowers the trace; every minimiser vanishes on directions orthogonal to all gradients and sample differences, so gradients of a ridge function give a matrix acting on the ridge directions only; its trace lies between l^2 and m l^2 for the scalar Lipschitz constant l of the same data and it dominates the active subspace matrix of the gradients; one gradient g gives exactly g g^T; the fitted H is the minimiser of the unscaled data. The reported directions U are determined by the data and orthonormal.", "quantifier": "all dimensions, samples, values, gradients, epsilon, scales, rotations and shifts; all minimisers", "why_tests_cant": "statements about every minimiser of a semidefinite program over all data sets; a solver returns one approximate minimiser", "anchors": ["psdr/lipschitz.py:LipschitzMatrix.fit", "psdr/lipschitz.py:LipschitzMatrix._fit", "psdr/lipschitz.py:LipschitzMatrix._build_lipschitz_matrix_cvxopt", "psdr/lipschitz.py:LipschitzConstant._fit", "psdr/subspace.py:ActiveSubspace._fit"]}
{"id": "C139", "title": "PolynomialRidgeApproximation.fit from arguments to result", "statement": "When fit returns, U has orthonormal columns, coef are the best coefficients of the requested norm and bound for that U, the bound holds at every sample, and the misfit is not above that of any ridge function of degree at most d on the returned or on the starting subspace; data of such a function on the starting subspace are interpolated; with one direction and degree one the result is the best of all affine functions; the basis object that the alternating loop stores always belongs to the point at which residuals are evaluated; the Jacobian of the variable projection meets the contract this needs. Every admissible call with enough samples returns such a fit.", "quantifier": "all dimensions, samples, data, norms, bounds, starting subspaces, tolerances, iteration limits, and all external solvers meeting their contracts", "why_tests_cant": "the loop couples a Gauss-Newton or sequential linear programming iteration with mutable state and a final rotation; the claim ranges over all data and solver answers", "anchors": ["psdr/polyridge.py:PolynomialRidgeApproximation.fit", "psdr/polyridge.py:PolynomialRidgeApproximation._fit_varpro", "psdr/polyridge.py:PolynomialRidgeApproximation._fit_alternating", "psdr/polyridge.py:PolynomialRidgeApproximation._finish", "psdr/gn.py:gauss_newton", "psdr/seqlp.py:sequential_lp"]}
{"id": "C140", "title": "Domain objects without solver options: which operations raise, and what holds afterwards", "statement": "Normalizing, unnormalizing and the derivative of the normalization on LinQuad, normal, log-normal and unbounded domains and on products of them, with the bounds stored by norm_lb and norm_ub between calls: the number of exceptions in a history is determined by the product alone; a product with k untruncated log-normal factors raises in exactly its first k operations and never again; from the first operation that returns, the stored bounds never change and every answer is a function of them; an untruncated log-normal variable is then not scaled; a truncated one is mapped from [-1,1] onto its range; the uncertain Borehole raises at its first evaluation and afterwards evaluates the borehole formula at the described point. Evaluation does not depend on the history; an UnboundedDomain answers its queries.", "quantifier": "all products of all such domains, all sequences of operations, all points", "why_tests_cant": "all histories of a mutable cache in nested products; a test repeats one history", "anchors": ["psdr/domains/lognormal.py:LogNormalDomain.__init__", "psdr/domains/unbounded.py:UnboundedDomain", "psdr/domains/euclidean.py:norm_lb", "psdr/domains/euclidean.py:norm_ub", "psdr/domains/euclidean.py:corner", "psdr/domains/tensor.py:_normalize", "psdr/domains/tensor.py:_unnormalize_der", "psdr/demos/borehole.py:build_borehole_uncertain_domain", "psdr/demos/_multif_domains3d.py:buildRandomDomain"]}
{"id": "C141", "title": "eval, grad and __call__ of BaseFunction and its subclasses", "statement": "A class derived from BaseFunction answers eval iff it overrides eval or __call__, grad iff it overrides grad or __call__, __call__ without gradient iff it overrides __call__ or eval, with gradient iff it overrides __call__ or both eval and grad; then three nested calls suffice, otherwise every recursion limit is exceeded. __call__ is the pair of eval and grad with the keyword arguments passed to eval, and predict is eval. By python's method resolution order every class of the package answers eval, grad and __call__; keyword arguments reach the overriding method.", "quantifier": "all sets of overridden methods, points, keyword arguments, recursion limits; all function classes of the package", "why_tests_cant": "non-termination for every recursion limit and a characterisation over all subclasses, including user-defined ones", "anchors": ["psdr/function.py:19-41", "psdr/ridge.py:10", "psdr/gp.py:365", "psdr/lipschitz_approx.py:47-68", "psdr/poly.py:77-90", "psdr/polyridge.py:50-60", "psdr/lipschitz.py:647-685"]}
{"id": "C142", "title": "Asynchronous evaluation of a Function", "statement": "eval_async and call_async give, for every order in which the scheduler runs the tasks and even if tasks are repeated, the results of the synchronous eval and __call__: the same values per row, the same gradients, the same exceptions; every function that can be evaluated synchronously can be pickled and evaluated asynchronously.", "quantifier": "all schedules, functions, keyword arguments, points, domains", "why_tests_cant": "all interleavings of a scheduler and all functions; a test runs one order on one function", "anchors": ["psdr/function.py:92-126", "psdr/function.py:158-178", "psdr/function.py:297-304", "psdr/function.py:258-294", "psdr/demos/robot_arm.py:60-80", "psdr/demos/golinski.py:90-130"]}
{"id": "C143", "title": "Names of the variables", "statement": "Every domain has one name per variable; constructors reject exactly lists of the wrong length; names are distinct; names of products are those of the factors in order, independently of nesting, and name i is the name given by the factor that owns coordinate i; normalization appends a suffix to each name and keeps them distinct.", "quantifier": "all dimensions, names, products and nestings", "why_tests_cant": "injectivity of decimal formatting and distinctness over all dimensions and products", "anchors": ["psdr/domains/euclidean.py:39-60", "psdr/domains/tensor.py:23-63", "psdr/domains/tensor.py:103-105", "psdr/domains/linquad.py:248", "psdr/domains/box.py:81"]}
{"id": "C144", "title": "Sampled Lloyd iteration", "statement": "In minimax_lloyd with sampled Voronoi vertices every node owns a vertex after _update_voronoi_sample, the vertices lie in the domain, the printed minimax estimate is at most the fill distance of the design, every design stays in the domain, and a step does not increase the distance to the vertices found.", "quantifier": "all domains, metrics, designs, random draws, numbers of iterations", "why_tests_cant": "the failures need designs on the boundary or nodes close together combined with perturbations of 1e-7; the guarantees are for all draws", "anchors": ["psdr/sample/minimax_lloyd.py:11-51", "psdr/sample/minimax_lloyd.py:58-141", "psdr/geometry/voronoi.py:129-263"]}
{"id": "C145", "title": "Stretched domains and the calls of the samplers", "statement": "stretch_sample_domain adds, for different metrics of its list, constraints L y = L x with x a vertex found in the domain so far and farthest from the samples in that metric, so that every point of the stretched domain is as far from the samples in all metrics as the chosen vertices; it returns whenever the first metric has a candidate; stretch_sample returns the vertex of the stretched domain farthest from the samples; every Sampler class can draw.", "quantifier": "all lists of metrics, samples, domains, vertices found, outcomes of sampling", "why_tests_cant": "the chosen metric and the reused variable X depend on all candidates; tests run one list of metrics on one domain", "anchors": ["psdr/sample/stretch.py:10-84", "psdr/sample/stretch.py:86-96", "psdr/sample/sample.py:57-83", "psdr/sample/sample.py:128-171"]}
{"id": "C146", "title": "Shadow plots", "statement": "The response curve or mesh drawn over a shadow plot of a ridge function is its profile over the range of the projected samples, up to half a step times the Lipschitz constant between the points; the plotted points lie on it; the arguments documented are accepted; the response is written beside the points, in the same directory under a different name, different for different names.", "quantifier": "all ridge functions, directions, samples, numbers of points, file names", "why_tests_cant": "tests only call the plot without looking at the numbers or names", "anchors": ["psdr/subspace.py:51-121", "psdr/ridge.py:15-69", "psdr/lipschitz_approx.py:73-118"]}
{"id": "C147", "title": "Kinds of domains and intrinsic dimension", "statement": "A domain reported as a box is the set of points within its bounds, one reported as linear the set satisfying its linear constraints, also for products; the kinds are nested; intrinsic_dimension is the dimension of the set.", "quantifier": "all domains with linear and quadratic constraints, hulls and their products", "why_tests_cant": "the dimension of a set is a statement about all its points; tests read the number for one domain", "anchors": ["psdr/domains/domain.py:28-54", "psdr/domains/euclidean.py:444-447", "psdr/domains/euclidean.py:1007-1014", "psdr/domains/tensor.py:44-51", "psdr/domains/convexhull.py:171-172"]}
{"id": "C148", "title": "The fitted Gaussian process follows its data", "statement": "For a fixed distance matrix the prediction is linear in y and does not depend on the order of the samples. The whole fit (objective, gradient, optimiser, weights) commutes with adding a trend polynomial to the data and with translating the inputs, and for 'const' without trend with isometries. Away from the samples the prediction returns to the trend; more samples never increase the reported covariance; the fit does not depend on the units of y; eval is the formula of the documentation.", "quantifier": "all data, optimisers, structures of L, degrees; exact eigendecompositions", "why_tests_cant": "relates all pairs of fits, for every optimiser and distance matrix", "anchors": ["psdr/gp.py:GaussianProcess.fit", "psdr/gp.py:GaussianProcess._fit", "psdr/gp.py:GaussianProcess.eval"]}
{"id": "C149", "title": "Simulations behind text files", "statement": "OpenAeroStruct()(X) is the analysis at the printed point for a vector and row by row for a matrix; printing with '%.15e' changes each input by at most 5e-16 of its size and keeps different points different; evaluating rows with a working directory evaluates all rows and leaves the directories as they were; MULTIF(level, su2_maxiter) runs that level unless the call names another; the log holds the whole output of the container.", "quantifier": "all analyses, points, matrices, directories, keyword arguments and schedules of the container", "why_tests_cant": "the containers are not available to tests; ranges over all analyses, failures and interleavings of reading and termination", "anchors": ["psdr/demos/oas.py:oas_func", "psdr/demos/oas/oas_driver.py:driver", "psdr/demos/naca0012.py:naca0012_func", "psdr/demos/multif.py:MULTIF", "psdr/demos/multif.py:multif", "psdr/function.py:Function.eval"]}
{"id": "C150", "title": "High-level minimax designs and covers", "statement": "minimax_design(domain, N, L) uses the exact one-dimensional solution if possible (and then no design of N points covers the domain better), otherwise the clustering. minimax_optimal_cover(domain, r, L, X) returns the smallest clustering of X with all points of X within r of a centre in the metric of L.", "quantifier": "all convex domains, metrics, sizes, radii and clusterings", "why_tests_cant": "optimality over all designs, all metrics and radii; a test uses one symmetric metric", "anchors": ["psdr/sample/minimax.py:minimax_design", "psdr/sample/minimax.py:minimax_design_1d", "psdr/sample/minimax.py:minimax_optimal_cover", "psdr/sample/minimax.py:_int_bisect"]}
{"id": "C151", "title": "Constructing domains from arguments", "statement": "LinQuadDomain(A, b, lb, ub, A_eq, b_eq, Ls, ys, rhos) accepts exactly the arguments whose shapes fit one dimension m and from which m can be read (a bound, else the first matrix given). The domain made contains exactly the points of length m satisfying the constraints given, isinside tests them up to the tolerance, absent arguments constrain nothing, and all stored arrays have the shapes other methods rely on. The same holds for LinIneqDomain, BoxDomain and PointDomain. Numbers stand for one-element arrays. The constructor applied to the attributes of a domain gives the domain back. add_constraints(...) keeps exactly the points inside that satisfy the constraints given.", "quantifier": "all combinations of absent, scalar, one- and two-dimensional arguments of any sizes; all points and tolerances", "why_tests_cant": "Tests construct a handful of domains from well-formed arguments; the claim quantifies over all combinations of optional arguments, shapes and points, including which combinations raise.", "anchors": ["psdr/domains/linquad.py:63-207", "psdr/domains/linquad.py:328-360", "psdr/domains/linineq.py:46-47", "psdr/domains/box.py:27-28", "psdr/domains/point.py:22-29"]}
{"id": "C152", "title": "Data given to Lipschitz fits", "statement": "LipschitzMatrix.fit(X, fX, grads) (and the diagonal and constant variants) uses samples, values and gradients of matching shapes exactly as given, a column of values as a vector, and gradients alone; X and fX only come together. Anything accepted has one value per sample and rows of one length with the entries in the order given. Gradients whose dimension differs from that of the samples are refused.", "quantifier": "all numbers of samples and gradients, all dimensions, all combinations of absent, one- and two-dimensional arguments", "why_tests_cant": "Tests fit well-shaped data; the claim quantifies over all shapes, including which mismatches raise.", "anchors": ["psdr/lipschitz.py:108-139", "psdr/subspace.py:226-232", "psdr/lipschitz_utils.py:122-149"]}
{"id": "C153", "title": "Clustering with a swarm", "statement": "minimax_cluster_pso returns a design together with its largest distance to the samples X, and no design it visited, including the initial ones, is better. Every design visited lies in the domain. The initial designs are spread out: each point is the candidate farthest from the points before it.", "quantifier": "all samples, metrics, particles, iterations, random weights and candidates, centres and assignments", "why_tests_cant": "The search is random; tests see a few seeds on boxes. The claim covers every outcome of the random draws and every convex domain.", "anchors": ["psdr/sample/minimax.py:16-28", "psdr/sample/minimax.py:139-270"]}
{"id": "C154", "title": "Contour files", "statement": "save_contour(fname, cs) writes each curve of each path of each level as a line with the level and the number of points followed by that many points; reading the file by these counts gives back exactly the curves, in the order of levels, paths and curves, a closed curve ending at its first point, and every curve of the file has a point. The format 'prepared' writes the same curves. Paths with curved segments raise and leave the curves completed before in the file.", "quantifier": "all numbers of levels, paths and curves, all points, open and closed curves, levels without a collection", "why_tests_cant": "The tests do not read contour files back; the claim is about all sets of curves, also several curves in one path.", "anchors": ["psdr/pgf.py:54-107"]}
{"id": "C155", "title": "Builders of the demonstration domains", "statement": "The builders of the demonstration domains return domains in which every variable has bounds and a name of its own: the wing for every number n_cp of control points, the airfoil with its lower bumps before its upper bumps, each within plus or minus fraction. The argument clip of the gearbox's random domain truncates each normal variable. The builders of the nozzle pass further keyword arguments on to the domains.", "quantifier": "all numbers of control points and of bumps, all fractions, all values of clip, all lists of keyword arguments, all points", "why_tests_cant": "The tests build a domain with the default arguments only; other numbers of control points, clip and keyword arguments are not tried.", "anchors": ["psdr/demos/oas.py:21-49", "psdr/demos/naca0012.py:38-42", "psdr/demos/golinski.py:332-338", "psdr/demos/multif.py:96-105", "psdr/domains/normal.py:47-92"]}
{"id": "C156", "title": "Kernel density estimates of ridge values", "statement": "forward_propagation_pdf and random_ridge_pdf return, for every sample with a value, an even grid of npoints from the smallest to the largest value of the sample and there a density that is nowhere negative and integrates to one over the grid's range.", "quantifier": "all samples, all numbers of grid points, all antiderivatives of the density", "why_tests_cant": "duu.py has no tests; the mass of the density is a statement about integrals for all samples.", "anchors": ["psdr/duu.py:7-19", "psdr/duu.py:81-92"]}
{"id": "C157", "title": "Ridge fit on a fixed subspace", "statement": "fit_fixed_subspace accepts exactly the matrices of the declared shape. The stored matrix is orthonormal with the span of U; the stored polynomial is the best of its degree for the requested norm and bound among all ridge functions on that span, so the error depends on the span only; too few samples are refused.", "quantifier": "all data, all matrices U, all norms and bounds, all solvers meeting their contracts", "why_tests_cant": "No test calls fit_fixed_subspace; optimality is over all polynomials on all bases of the subspace.", "anchors": ["psdr/polyridge.py:299-305", "psdr/polyridge.py:418-442"]}
