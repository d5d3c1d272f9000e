# Formal model of PSDR (Rocq/Coq 8.16.1)

## 1. Approach

The Python source in `/repo/psdr` is read as text and transcribed, function by
function, into total Gallina functions (`rocq/theories/*Model.v`).  Every model
definition carries a comment citing the Python file and line range and the
simplifications made.  Properties are stated against small independent
specifications (`*Spec.v`) and proved in `*Proofs.v`; the theorems which are the
deliverable are restated in `*Props.v` (each `exact lemma.`, followed by
`Print Assumptions`), with concrete non-trivial instances (`Example`) next to them.

* **Numbers.** Floating point numbers are modelled by the real numbers of the
  standard library (exact arithmetic).  Where the IEEE special values drive the
  control flow (infinite bounds, `0*inf = NaN`), an extended type
  `Fin r | PInf | NInf | NaN` with IEEE rules on the specials and exact
  arithmetic on finite numbers is used.  Rounding is *not* modelled.
* **Arrays.** A vector is `list R`, a matrix a list of rows; shapes are explicit
  hypotheses.  Where linear algebra is heavier, vectors are functions `nat -> R`
  summed over an explicit range.
* **Exceptions** are values (`option`/result types).
* **Randomness** is an explicit stream/oracle argument; theorems quantify over all of
  its values.
* **External solvers** (cvxpy, NNLS, SVD, eigh, Cholesky, lstsq, linprog, SAT) are
  explicit function/result arguments with their contract as an explicit
  hypothesis of the theorem; the contracts are listed in section 3.
* `while` loops become fuel-indexed functions or inductive step relations;
  termination claims are proved as "enough fuel exists", never assumed.

A claim that is false of the faithful model is recorded as `..._refuted` with a witness and,
where useful, the part that does hold as `..._partial`.

## 2. Properties

For each: what is modelled / how it is proved.

| id | modelled | proof plan |
|----|----------|-----------|
| C01 | `_isinside_*`, `isinside` shapes | boolean reflection, induction over rows |
| C02 | `_center`, `_normalize_der`, `_unnormalize_der`, `_normalize`, `_unnormalize` | coordinatewise field identities, case split on finite/infinite/degenerate |
| C03 | same with finite bounds | order reasoning per coordinate |
| C04 | `*_norm` properties + `_normalized_domain` | equivalence for the linear part (`_partial`); off-centre ellipsoid refutes it (`ys_norm` is not scaled) |
| C05 | `add_constraints`, `__and__`, tensor attributes | conjunction for LinQuad; refuted for tensor products with quadratic factors and for hulls |
| C06 | `_extent_bounds/_ineq/_quad`, `_extent` | safe+maximal for points strictly off the faces; refutations on faces and with equalities |
| C07 | `BoxDomain._corner` | coordinatewise optimality summed by induction |
| C08 | `sample`, box/normal/point `_sample`, `_hit_and_run` | invariants over RNG oracle |
| C09 | `TensorProductDomain.__init__`, `_slices`, `_isinside`, `__len__` | induction over factors |
| C10 | tensor `_normalize`, `_unnormalize` | induction over factors |
| C11 | `sweep` | convex combinations in convex sets |
| C12 | `sample_grid` | induction over dimensions, membership + count |
| C13 | `lb_norm`, `ub_norm` with IEEE specials | refuted by computation in the extended type; partial for all-finite bounds |
| C14 | `_constrained_least_squares` objective | refuted by a 1-D witness for any exact solver; partial when the centre is the origin |
| C15 | hull `_isinside`, `coefficients` with NNLS contract | refuted by witness; partial: one direction |
| C16 | box cached properties as a state machine | refuted by the history [is_empty; is_point]; partial for other histories |
| C17 | `gauss` (eigh contract), `quadrature_rule`, `volume` | weights from unit eigenvectors; products by induction |
| C18 | `LogNormalDomain` | refuted for negative scaling/offset; partial positive scaling truncated |
| C19 | `Function.eval/grad` | chain rule with `derivable_pt_lim` |
| C20 | finite difference branch | exact on affine functions; refuted: base point ignores keyword arguments |
| C21 | `_full_index_set`, `index_set` | induction on n, d; counting |
| C22 | `_build_Dmat`, `DV`, `DDV` | product rule over tensor basis |
| C23 | `V`, `VC` | distributivity |
| C24 | `arnoldi` / `vandermonde_arnoldi` | Gram-Schmidt invariant |
| C25 | `_scale`, `_dscale`, `roots` | affine algebra |
| C26,C27 | `uncertainty`, bound functions | max/min over lists |
| C28 | `LipschitzApproximation` | max/min of Lipschitz functions |
| C29 | `LipschitzConstant._fit` | max; refuted with scaled epsilon |
| C30 | `project_evals` | quadratic forms, well-founded measure (#violated pairs) |
| C31 | `project_grads` | Loewner order by eigen contract |
| C32 | `U` of coordinate reductions | sorting permutation; refuted stale cache |
| C33,C34 | `latin.py` | permutation invariants |
| C35 | `poisson_disk_sample` | loop invariant |
| C36,C37 | 1-D designs | pigeonhole lower bounds |
| C38 | `maximin_coffeehouse` | Gonzalez 2-approximation |
| C39 | `sobol_sequence` | windows of a stream |
| C40 | `projection.py` encode/decode, CNF | arithmetic bijection, pigeonhole |
| C41 | `voronoi_vertex_sample` step | half-space representation of Voronoi cells |
| C42,C43 | `geometry.py` | list induction |
| C44 | `voronoi_vertex_1d`, `fill_distance` | piecewise argument on sorted points |
| C45,C46,C47 | `_int_bisect`, `minimax_cluster`, `initial_sample` | loop invariants |
| C48-C52 | `gn.py`, `minimax.py`, `seqlp.py` | loop invariants |
| C53-C56 | `subspace.py`, `opg.py`, `local_linear.py` | linear algebra with SVD/lstsq contracts |
| C57 | `log_entropy` | exp/ln algebra, Gibbs inequality |
| C58,C59 | `polyridge.py` | chain rule, cos^2+sin^2 |
| C60 | `linear_fit`, `_fit_affine`, `_fit_coef` | solver contract; refuted for affine |
| C61 | `gp.py` | linear system algebra |
| C62 | `pgf.py` | string split/join round trip |
| C63 | `sample.py` Sampler | history induction |
| C64 | `nonlin.py` | solver contract |
| C65 | `shadow_envelope` matrix | hat functions |
| C66,C67 | `_closest_point`, `_corner` of constraint domains | solver contract + change of variables; corner refuted for off-centre ellipsoids |
| C68,C69 | hull extent, `to_linineq` | line/hull geometry; refuted when lb/ub are present |
| C70 | `LogNormalDomain._pdf` | change of variables of a density; equivalence with `scaling^2 = cov` |
| C71 | `chebyshev_center` | LP contract + support function of a ball |
| C72 | Armijo on affine residuals | explicit quadratic along the step |
| C73,C74 | distance functions of `lipschitz_utils` | Frobenius projection on a half space, secular equation |
| C75,C76 | `LipschitzMatrix` fits, parameterized SDP | solver contract, basis of symmetric matrices |
| C77 | bound functions over a domain | derivative of norms, min/max |
| C78 | `PartialLipschitzMatrix` | square root, geodesic, first order model |
| C79 | `low_rank_L` | SVD contract |
| C80,C81,C84,C87 | block descent, Lloyd, covering, scaling designs | loop invariants with solver contracts |
| C83 | grid of the Poisson sampler | arithmetic of cells; refuted for two rows |
| C85 | `seq_maximin_sample`, `stretch_sample_domain` | argmax over candidates |
| C86 | `fill_distance` via Voronoi vertices | convexity of the distance on polytopes |
| C88,C89 | `check_sample_inputs`, `initialize_subspace` | case analysis, SVD contract |
| C90,C94 | variable projection residual/Jacobian, step | implicit differentiation of the normal equations; truncated SVD |
| C92,C93,C95-C97 | `_finish`, alternating fit, sample count, fixed subspace, affine fit | linear algebra, counting |
| C91 | Gaussian kernel matrix | power series of exp, Vandermonde argument for strictness |
| C98 | objective and gradient of `_log_marginal_likelihood` | derivative of log det by eigenvalue comparison, of the quadratic form by its saddle point |
| C99,C100 | data term, trend, covariance | quadratic forms in an eigenbasis |
| C101 | start value of `fit` | computation |
| C102-C109 | test problems in `demos/`: borehole, OTL circuit, piston, robot arm, wing weight, gearbox, Hartmann flow, beam | derivative along every differentiable curve, field identities, chain rule to the normalized domain |
| C110 | affine and quadratic functions | finite sums, symmetry argument |
| C111-C113 | `checkder`: derivative, gradient, Jacobian and Hessian checks | maximum/minimum of folds, third order Taylor bound by repeated mean values, mixed mean values |
| C114 | `miniball` | strong convexity of the squared norm |
| C115,C116 | `subspace_convergence`, empirical safety factor of `duu.py` | lists; counting in a sorted sample |
| C117-C121 | linear constraints of the nozzle (`demos/_multif_linear_constraints.py`) | each row as a list of assignments; elimination of fixed entries by induction over the row |
| C122 | design and random domain of the nozzle (`demos/_multif_domains3d.py`) | the constraint rows evaluated symbolically, then linear arithmetic |
| C123 | `_build_constraints` of each domain class | conjunction of constraint lists against membership |
| C124 | `_A_eq_basis` of a hull | orthogonal splitting of the space, Gram-Schmidt |
| C82 | cells of `projection_sample`, `_voronoi_cell_point` (`ProjModel.v`) | half spaces are bisectors; sorted neighbours on a line; slices of the Latin hypercube |
| C125 | search loops of `projection_sample`, `projection_design` | invariant: clauses = permutations minus empty combinations seen; every failed design blocks one more |
| C126 | exactness of `gauss` and of the tensor rule on boxes | eigenvectors of the Jacobi matrix are the orthonormal Legendre polynomials at the nodes; both functionals act alike on products p_a p_b, so the moments up to 2N-1 agree; Legendre integrals by P'_{a+1} - P'_{a-1} = (2a+1) P_a |
| C127 | `is_empty`, `is_point`, `is_unbounded` of a general domain | bounds along an orthonormal basis bound the set (Parseval); loop induction over the rows |
| C128 | `random_direction`, `sample_boundary`, `_corner_center` | first accepted draw, through C06; maximality of a corner; the mean of members of a convex set is a member |
| C129 | `norm_lb`, `norm_ub`: lazy, computed nested | invariant: every stored entry is still initial or already the exact bound, so every solver call sees oriented arrays; uniqueness of the ranges gives independence of the order |
| C130 | normalized NormalDomain and LogNormalDomain, their bounds, samples, densities (`RandModel.v`) | a triangular factor with positive diagonal is unique, so the factor of the scaled covariance is the scaled factor and whitened vectors do not change; Cauchy-Schwarz for the coordinate ranges, through C129 |
| C131 | ActiveSubspace.fit_function and the dispatch of quadrature_rule (`AsFunModel.v`) | products of polynomials add degrees, so the rule of C126 is exact on grad f grad f^T; a polynomial with too many zeros on the tensor grid vanishes; weights are positive, hence the kernel; spectral form of C for the columns |
| C132 | polyfitA (`PolyfitModel.v`), on the Arnoldi constructions of `BasisModel.v` | a breakdown makes a monomial dependent on earlier ones on the samples and conversely; without one the columns are orthogonal, so the least-squares solution is the projection (Pythagoras gives uniqueness); triangular change of basis back to monomials |
| C133 | fill_distance_estimate (`FillModel.v`, on the walk of `GeoModel.v`) | the walk stays in the domain (C41), so the value is attained; comparison with the exact vertices (C40); the loss of a separating plane is carried over from C41 |
| C134 | shadow_uncertainty (`ShadowUncModel.v`) | extreme values of u.x from the two corners; bounds at slices from C77; enclosure by the bounds at the optimal point of the slice |
| C135 | Arnoldi branch of the variable projection (`VarArnModel.v`, `VarArnProofs.v`, `VarArnDeriv.v`, `VarArnMain.v`) | the residual is orthogonal to all polynomials, so it is the one of any other basis; openness of unisolvence, so the normal equations hold near U and implicit differentiation applies with Y = V, s = 1, Z = I; directional derivative of the Arnoldi recurrence by induction |
| C136 | several outputs, `polyridge_vec.py` (`VarVecModel.v`, `VarVecProofs.v`, `VarVecMain.v`, `VarVecStep.v`, `VarVecInst.v`, `VarVecRank.v`, `VarAffine.v`) | blocks of the flattened residual and the stacked Jacobian are those of single outputs (C90, C135); kernel and chain rule (C96) carry over block by block; the step theorem for any Jacobian that vanishes within the subspace; the kernel contains every direction whose effect on the samples is affine in the projected samples, which bounds the rank by n(M-n-1) |
| C137 | densities and volume (`DensModel.v`, `DensProofs.v`, `DensRand.v`, `DensVol.v`) | iterated Riemann integrals defined from the standard library's RiemannInt, unique; constants for boxes; antiderivatives and substitution for the normal and log-normal densities; counting of points inside |
| C138 | minimisers of the Lipschitz matrix program (`LipOpt.v`, `LipOpt2.v`, `LipOptEx.v`) | spec `best`: feasible for the documented constraints and of least trace; deflation P H P by one direction gives kernel, trace bound and Bessel inequality without a spectral theorem; existence by compactness; congruence with orthogonal matrices; sign fix of `_fit` followed column by column |
| C139 | `PolynomialRidgeApproximation.fit` as a whole (`RFitModel.v`, `RFitProofs.v`, `RFitMore.v`, `RFitEx.v`, `RFitEx2.v`, `RFitTight.v`) | the stateful sequential LP (residual uses the basis stored by the last trajectory call) is shown equal to the stateless one of C52; invariant "U orthonormal, misfit not above the start" through both loops; the final rotation keeps the span, hence the best misfit; contracts of the solvers collected in one record `env_ok`; the first step of the alternating method, the basis it leaves stored and the step length of the Gauss-Newton method are fixed by `C139_first_step`, `C139_final_basis`, `C139_line_search` |
| C140 | objects without solver options, their stored bounds (`ObjModel.v`, `ObjProofs.v`, `ObjCases.v`) | a conserved quantity: exceptions raised so far plus log-normal bounds not yet stored; induction over the history; after one answer both arrays of every factor are stored and no operation writes them |
| C141 | `BaseFunction` (function.py 19-41) and method lookup (`DispModel.v`, `DispProofs.v`) | recursion limit as fuel; case analysis on the overridden methods, induction over the fuel for the others; C3 linearization computed on the class table |
| C142 | `eval_async`, `call_async`, pickling of functions (`AsyncModel.v`, `AsyncProofs.v`) | a schedule is any list of task numbers, results by induction over it; a function body is a program that looks up global names, run in the full and in the restricted scope |
| C143 | names of variables (`NamesModel.v`, `NamesProofs.v`) | injectivity of decimal formatting from the standard library; lists |
| C144 | `minimax_lloyd` with sampled vertices, `_update_voronoi_sample` (`SLloydModel.v`, `SLloydProofs.v`, `SLloydCases.v`) | invariant of the vertex walk (membership and cell) over its steps; invariants of the fold over the nodes; counterexamples on the unit square |
| C145 | all of `stretch.py`, calling conventions of `sample.py` (`StretchModel.v`, `StretchProofs.v`) | invariant of the loop over the metrics: constraints justified by vertices of earlier domains, metrics a sub-multiset of the list |
| C146 | shadow plots of `subspace.py`, `ridge.py`, `lipschitz_approx.py` (`ShadowPlotModel.v`, `ShadowPlotProofs.v`) | algebra of projections on orthonormal columns; interpolation bound; lists of characters split at the last dot |
| C147 | `domain.py`, `intrinsic_dimension`, kinds of products and hulls (`KindModel.v`, `KindProofs.v`, `KindDims.v`) | Gram-Schmidt with count of redundant rows, orthonormal systems in products |
| C148 | `GaussianProcess.fit`, `_fit`, `eval` as functions of the data (`GpModel.v`, `GpPred.v`, `GpOrder.v`, `GpPredCases.v`) | uniqueness of the block system, sums over permuted triples, optimiser as an arbitrary function of objective and gradient |
| C149 | `oas_func`, `oas_driver`, `naca0012_func`, `multif`, `MULTIF.__init__`, `Function.eval` around them (`DrvModel.v`, `DrvProofs.v`) | text files as lists of lines, `loadtxt` with its squeeze, directories as a list of names, the reading loop by induction on the first poll that finds the container ended |
| C150 | `minimax_design`, `minimax_optimal_cover` (`MmxModel.v`, `MmxProofs.v`) | optimality from C36, the cover from the sign change found by bisection (C45); counterexamples with a shear |
| C151 | the constructors and `add_constraints` with its arguments (`CtorModel.v`, `CtorProofs.v`) | specification in terms of the arguments; case analysis over absent, scalar, vector and matrix arguments |
| C152 | shapes of the data in `LipschitzMatrix.fit` (`LipDataModel.v`, `LipDataProofs.v`) | reshape characterised by its entries and row lengths; the mismatch by a witness |
| C153 | `minimax_cluster_pso`, `_align_vector` without L (`PsoModel.v`, `PsoProofs.v`; draws, centres, assignments as oracles) | invariant of the double loop for the best score and for boxes; witnesses for the rest |
| C154 | `save_contour` (`ContModel.v`, `ContProofs.v`) | a reader by counts as specification; induction over segments, curves, paths and levels |
| C155 | builders of the demonstration domains (`BldModel.v`, `BldProofs.v`) | on the model of names (`NamesModel.v`); keyword binding as lookup in a list |
| C156 | density estimates of `duu.py` (`KdeModel.v`, `KdeProofs.v`) | distribution function of the kernel from squares of positive parts; antiderivatives as specification of integrals |
| C157 | `fit_fixed_subspace` (`FixModel.v`, `FixProofs.v`) | the span lemmas of `_finish` (C92, C139) without orthonormality; optimality by change of basis between matrices of equal span |

The outcome of each (proved / partial, with the reason) is in `MANIFEST.json`; the statements are in `properties.jsonl`.

## 3. Trusted base

* Coq's kernel.
* The axioms of the standard library's real numbers, functional extensionality and (32 theorems) excluded middle. The list
  for each theorem, as printed by `Print Assumptions`, is in `AXIOMS.md`. No axiom is declared in `rocq/theories`.
* The transcription of the Python code into Gallina, see the comments in `*Model.v` and section 4.
* Exact real arithmetic in place of floating point numbers.
* Contracts of external code. Each is visible as a hypothesis (or as a definition used in one) in the theorem statements:

| external code | contract | used by |
|---|---|---|
| `scipy.linalg.eigh` | `eigh_contract`, `eigh_full`, `eigh_post`, `eigh_ok`: orthonormal eigenvectors with their eigenvalues (sorted where needed) | C17, C31, C61, C74, C91, C98-C100, C126 |
| `scipy.linalg.svd`, `np.linalg.svd` | `svd_full`, `svd_post`: orthonormal factors, sorted nonnegative singular values, product equal to the argument | C53, C54, C59, C79, C89, C90, C92, C94, C139 |
| `np.linalg.qr` | `qr_post`: orthonormal columns, upper triangular factor | C41, C54, C59, C139 |
| `np.linalg.cholesky`/`sqrtm` | square root of a positive semidefinite matrix | C75, C78 |
| `scipy.linalg.lstsq`, `np.linalg.lstsq` | `lstsq_ok`: a minimizer of the residual norm; met by an explicit Gram-Schmidt solver (`C132_lstsq_contract_met`) | C54, C55, C89, C132, C139 |
| `scipy.optimize.nnls` | `nnls_contract`: nonnegative least squares optimum | C15 |
| `root_scalar(method='brenth')` | `root_ok`: refuses equal signs, otherwise a root in the bracket | C57, C74 |
| cvxpy (LP, SOCP, SDP, OSQP, ECOS), cvxopt, linprog | exact optimum of the program handed over, in the form stated in each model (`*_returns`, `*_solved`, `se_ub_ok`) | C14, C51, C52, C60, C64-C67, C71, C75, C76, C78 |
| `corner` in the nozzle domain | `is_corner`: a feasible point that is largest in the direction | C122 |
| `corner` of a general domain | `corner_ok`: a member largest in the direction; EmptyDomainException only without members; UnboundedDomainException only if the direction is unbounded on the set | C127, C128 |
| the solver behind `corner` while the normalization bounds are half filled | `exact_solver`: for every pair of arrays that can be stored, a maximiser of the normalized program, or that it is infeasible, or that it is unbounded | C129 |
| `scipy.linalg.cholesky`, `solve_triangular`, `scipy.linalg.det` in `normal.py` | `chol_spec`, `tinv_spec`, `det_spec`: the lower triangular factor with positive diagonal; L Linv x = x; the square of the product of the diagonal of the factor; met by explicit functions (`CholAlg.v`) | C130 |
| `scipy.stats.chi2.isf` in `normal.py` | positive for the truncation used (C130); with one degree of freedom its value c has probability 1 - t of z^2 <= c for a standard normal z (C137) | C130, C137 |
| the solver behind `corner` of a NormalDomain | `normal_solver`: exact optimum of the normalized program, for any stored arrays; met by an explicit formula | C130 |
| cvxpy in `miniball` | `solves`: a minimizer of the objective | C114 |
| 0-1 programming, SAT | optimum; satisfying assignment | C40, C84 |
| Qhull (`ConvexHull`) | `qhull_ok`: the facet inequalities describe the hull, the vertices span it | C69 |
| `scipy.linalg.orth` | `orth_sp`: orthonormal, same span | C124 |
| `picosat` (`satyrn`) as used by `projection.py` | `solver_ok`: an unseen solution of the clauses satisfying the assumptions; none only if all solutions were seen (without assumptions) | C125 |
| `np.argsort` in `projection_sample` | `sorts`: a permutation in increasing order | C82, C125 |
| `is_empty`, `constrained_least_squares`, `sample`, `voronoi_vertex_sample` on cells | `cell_oracles`, `sample_oracles`: empty iff no member; returned points are members (with the same projections when filling in) | C125 |
| `sklearn.neighbors.KernelDensity`, `chi2.isf` | the linear kernel and the mean of kernels as in its documentation, ValueError for a bandwidth that is not positive (`KdeModel.v`); any function (`BldModel.v`) | C156; C155 |
| Qhull (`HalfspaceIntersection`) | returned points lie in the polytope and span it | C41, C81, C86 |
| `np.random`, `np.random.permutation`, Sobol generator | arbitrary values (all of them), permutations | C08, C33-C35, C39, C43, C47 |
| `np.argsort`, `np.unique`, `np.argmax`/`argmin` | sorted permutation; first extremal index | C32, C41, C42, C65 |
| `expm` and its complex step derivative | the exact derivative (`dexp_ok`) | C98 (tril only) |
| `float` formatting and parsing | parse after format is the identity | C62 |
| numpy `polyvander`, `polyder` families | three-term recurrences, closed form coefficients; that they agree is proved | C22, C23 |

For the following, that the contract can be met is proved too: existence of minimizers of linear and quadratic programs over polyhedra
(`SolveFit.v`, `SolveDom.v`, `SolveMore.v`), of spectral, singular value, QR decompositions and orthonormal bases (`Spectral.v`, `Decomp.v`,
`HullBasis.v`), of the facets of a hull and the vertices of a polytope (`Minkowski.v`, `HullConvMore.v`); theorems `Cnn_solvable`, `Cnn_..._exists`, `Cnn_oracles`.

## 4. What is modelled

Modelled (file: functions): `domains/euclidean.py`, `box.py`, `linineq.py`, `linquad.py`, `point.py`, `normal.py`, `lognormal.py`,
`tensor.py`, `convexhull.py`, `domain.py` (membership, normalization, extents, corners, sampling, grids, sweeps, quadrature,
intersection, tensor products, hulls); `function.py`; `basis.py`, `poly.py`, `vandermonde.py`, `quadrature.py`; `lipschitz.py`,
`lipschitz_approx.py`, `lipschitz_partial.py`, `lipschitz_utils.py`, `coord.py`; all of `sample/` (see below), `geometry/` ; `gn.py`,
`minimax.py`, `seqlp.py`; `subspace.py`, `opg.py`, `local_linear.py`, `nonlin.py`, `misc.py`, `initialization.py`, `pgf.py`;
`polyridge.py`, `polyridge_vec.py`; `gp.py`; the analytic problems in `demos/` (`DemoModel.v`); `checkder/checkder.py`, `study.py`, the percentile and the density estimates of `duu.py`; the
constraints and domains of the nozzle (`demos/_multif_*.py`, files `Noz*.v`).

Not modelled: what is drawn by matplotlib (the data given to it in `shadow_plot` and the files written are), `*.old`, printing; `scipy.optimize.minimize` (its
objective and gradient for the Gaussian process are); the package `polyrat` used in
`polyridge_vec.py` (its bases are taken to be those of `basis.py`); rounding; `tril` matrix exponentials (contract only).

## 5. Findings

Each is a theorem `..._refuted` (or an exact characterisation) unless marked (read): then it was found while reading and only noted.

* **C04** Finding: ys_norm shifts but does not rescale the ellipsoid centre, so normalized_domain is wrong unless the ellipsoid is centred in the normalization box; holds otherwise when bounds are uniformly finite or infinite (see C13). (`C04_normalized_domain_refuted`)
* **C05** Conjunction proved for Box/LinIneq/LinQuad with non-NaN bounds (lower finite or -inf, upper finite or +inf) and for tensor products of linear factors. Finding: tensor products with ellipsoidal factors drop the ellipsoid. (`C05_and_hull_refuted`, `C05_tensor_refuted`)
* **C06** Exact safe and maximal step proved away from the four refuted situations: active inequality being increased, start outside within tolerance, equality constraints of LinIneqDomain ignored, moving inwards from the surface of an ellipsoid. (`C06_extent_face_refuted`, `C06_extent_tolerance_refuted`, `C06_extent_equality_refuted`, `C06_extent_ellipsoid_refuted`)
* **C08** Proved for box, point, normal, tensor, two-point hulls and hit-and-run with an exact closest point oracle. Finding: hull sampling in dimension <= 3 uses to_linineq, which drops lb/ub. (`C08_hull_refuted`)
* **C11** All points are members and the end points are the exact limits of the domain when the step computation is exact (see C06); on an active face the sweep is wrong (C11_refuted). (`C11_refuted`)
* **C13** Finding: mixed finite/infinite bounds give NaN normalized bounds (0*inf in the dense product), which isinside skips. (`C13_half_infinite_refuted`)
* **C14** Finding: the normalized objective uses b + A c instead of b - A c; the routine minimises |Ax - (b + 2Ac)| where c is the centre. Correct only if A c = 0. The problem handed to the solver has a solution (C14_solvable). (`C14_refuted`)
* **C15** Points of the hull are accepted; accepted points are near the hull when the coefficients sum to one. Finding: the sum of the coefficients is not checked, so points outside the hull are accepted. The problem handed to the solver has a solution (C15_solvable). (`C15_refuted`)
* **C16** The three predicates are correct on a fresh object; finding: asking is_empty (or sampling) first stores wrong values for is_point and is_unbounded. (`C16_history_refuted`)
* **C18** Finding: negative scaling reverses the bounds; without truncation the lower bound is 0 whatever the offset. (`C18_refuted`)
* **C19** Proved for one point and row by row, with gradients given separately or returned with the value, and for vectorized functions whose arrays have the expected shape. Findings: with return_grad the vectorized branch of grad leaves the axes [function, sample] transposed (C19_vec_grad_refuted) and the vectorized branch of __call__ stacks 1-d value arrays of several functions into one row (C19_vec_values_refuted). (`C19_vec_grad_refuted`, `C19_vec_values_refuted`)
* **C20** Exact on affine functions, error at most C/2*1e-7 for second derivative bounded by C, evaluates only at z and z + h e_i. Findings: keyword arguments are dropped from the base value, several outputs raise, the forward step leaves the domain at the upper faces. (`C20_kwargs_refuted`, `C20_multi_refuted`, `C20_outside_refuted`)
* **C24** Both constructions (basis.py: V^T V = I; vandermonde.py: V^T V = M I) are total on index sets, orthogonal, reproduce V on re-evaluation, span the leading monomials in both directions, DV is the derivative of V, and polyvalA finds the degree and reproduces the fit, when no norm vanishes. Finding: with fewer samples than basis functions a norm always vanishes and the code divides by zero (C24_breakdown_refuted). (`C24_breakdown_refuted`)
* **C25** Min-max scaling maps the samples onto [-1,1] and is invertible, Hermite scaling gives mean 0 and deviation 1, roots are zeros of the polynomial. Findings: Laguerre uses the [-1,1] scaling instead of [0,inf), a coordinate constant over the samples leads to a division by zero, roots fails without a scaling. (`C25_laguerre_refuted`, `C25_constant_refuted`, `C25_roots_noscale_refuted`)
* **C29** Least constant proved for epsilon = 0 (C29_exact) and least for the constraint the code actually uses. Findings: epsilon is divided by the scale but the values are not, so for scale > 1 the constant is too large and for scale < 1 it violates the data; a single sample raises. (`C29_single_refuted`, `C29_epsilon_large_refuted`, `C29_epsilon_small_refuted`)
* **C30** Terminates for every input with distinct points, never decreases H and is feasible up to the tolerance 1e-13*|p|^4. Findings: not exactly feasible, duplicate points with different values give NaN or an endless update, a single sample raises. (`C30_exact_refuted`, `C30_duplicate_refuted`, `C30_nan_refuted`, `C30_single_refuted`)
* **C31** Whenever the loop returns, H >= H0 and H >= g g^T for an exact distance oracle. Finding (C31_slow_refuted): with the slow distance of the module a matrix that violates the constraint is returned. (`C31_slow_refuted`)
* **C32** U is the sorted permutation on the first use. Finding: the cached U is not reset by a second fit; with L given no score exists and U raises. (`C32_refit_refuted`)
* **C34** Latin property, monotone score and best visited design for N >= 2 and at least one iteration. Findings: maxiter = 0 returns None, N = 1 raises, and the first design is never scored so the result can be worse than the start. (`C34_no_iterations_refuted`, `C34_single_point_refuted`, `C34_start_not_scored_refuted`)
* **C35** Separation, membership and termination with an explicit packing bound for bounded domains; non-termination on unbounded domains refuted. (`C35_unbounded_refuted`)
* **C38** 2-optimal up to the tolerance eps of the farthest-point oracle; eps = 0 in one dimension without any oracle; in higher dimension eps comes from unique_points. Finding: N = 0 returns one point. (`C38_zero_refuted`)
* **C41** Domain membership and equality constraints unconditional; nearest site and distance for sites whose normal component is not in (0, 1e-8]; exact claim refuted by a walk that lands on another site. QR and argsort are contracts. (`C41_walk_far_refuted`)
* **C42** Kept points are apart; a dropped point is near a later point (kept or dropped). Finding: along a chain of close points a dropped point can be farther than the tolerance from every kept point. (`C42_chain_refuted`)
* **C43** dim >= 1; for dim = 0 sample_simplex returns an empty row, whose sum is not 1. (`C43_simplex_zero_refuted`)
* **C44** Sites in the interval; refuted for sites outside it. (`C44_outside_refuted`)
* **C45** The result is the point of sign change for any function with opposite signs at the ends, and terminates. 'Smallest integer where fun is positive' (docstring) holds for increasing functions without an integer zero. Findings: with an exact zero the returned value is not positive; for decreasing functions it is the largest such integer. (`C45_zero_refuted`, `C45_decreasing_refuted`)
* **C46** The design returned is the best of those evaluated. Findings: the design computed last is never evaluated; the stopping test is the maximum of the signed moves, so a step to the left stops at once although the new design is better; a single cluster is returned without centring (assignment equals the initial zeros). (`C46_moves_refuted`, `C46_single_refuted`)
* **C47** Membership and the projected values are exact for Nsamp >= 2. Findings: projections are not distinct when the projected domain is a point; with Nsamp = 1 the hull sample is flattened and the loop runs over coordinates. (`C47_distinct_refuted`)
* **C50** The claim is false: normgrad is only updated when printing (gn.py 229-230), so status 0 is never reported without printing (C50_silent_never_converges); C50_refuted gives a concrete pair of runs with different status. (`C50_silent_never_converges`, `C50_refuted`)
* **C52** Monotonicity, domain membership, bounds on f for accepted iterates proved. Findings: an infeasible start that no feasible point improves is returned unchanged; nonlinear constraints are only linearised, never checked; printing raises on an unbound variable when the first subproblem is infeasible. (`C52_bounds_refuted`, `C52_constraint_refuted`, `C52_verbose_refuted`)
* **C53** svd is a contract (exact full SVD). Finding: columns are multiplied by np.sign of a sum that can be zero, which erases the column (gradients 1 and -1); orthonormality holds for the columns whose sign sum is not zero. The contract is satisfiable (C53_svd_exists). (`C53_sign_refuted`)
* **C54** lstsq, svd, qr are contracts. Finding: standardized samples are undone with std^(-1/2) instead of std^(-1), so a linear ridge function gets the wrong direction unless all spreads agree. The contract is satisfiable (C54_qr_exists). (`C54_standardize_refuted`)
* **C55** lstsq is a contract. Findings: one row per sample whatever points are asked for, IndexError for more points than samples, the default perplexity is refused for m+1 samples. With a numerical bandwidth b the weights are exp(-b d^2 / 2), not exp(-b d^2) as documented. (`C55_bandwidth_refuted`, `C55_rows_refuted`, `C55_many_refuted`, `C55_default_refuted`)
* **C56** Samples: each column kept or flipped, slopes nonnegative. Gradients: same unless a mean slope is zero, then the column is multiplied by 0 (C56_gradients_refuted). (`C56_gradients_refuted`)
* **C57** brenth is a contract. Findings: the bracket fails on regular grids, at isolated points and for small distances. The positive result needs positive distances, a unique nearest point and distances of the size of 1. (`C57_grid_refuted`, `C57_isolated_refuted`, `C57_scale_refuted`)
* **C59** Proved as stated for subspaces: orthonormality for every step length, the span and the projector at step 0, and the derivative of the projector. The stronger reading, that step 0 returns the matrix U, is refuted (the code drops the right factor Z of the SVD), and orth returns a zero column for rank deficient input (np.sign(0) = 0). (`C59_orth_rank_refuted`, `C59_start_matrix_refuted`)
* **C60** Polynomial and ridge coefficient fits: proved for an exact solver. Affine fit (_fit_affine): the two bounds are interchanged, the code fits an upper bound for 'lower'; proved as C60_affine_side, with a witness where the returned direction is wrong (C60_affine_bound_refuted). The problem handed to the solver has a solution (C60_solvable). (`C60_affine_bound_refuted`)
* **C61** Proved whenever every eigenvalue of the saddle point matrix is above the cutoff or exactly zero; without trend this holds for distinct points and nugget >= cutoff (the defaults are equal). Refuted for coinciding points with conflicting values: the eigenvalue equal to the nugget is dropped (C61_interp_refuted). (`C61_interp_refuted`)
* **C62** float formatting is a contract (parse after format is the identity). Findings: the length of the second column is not checked; names with a separator do not survive. (`C62_length_refuted`, `C62_surplus_refuted`, `C62_name_refuted`)
* **C63** Alignment proved for any bound selection routine. Findings: sample.py does not import seq_maximin_sample so every draw raises NameError; X given without fX leaves fX shorter than X. StretchedSampler does not accept verbose and returns after the first draw. (`C63_unbound_refuted`, `C63_missing_refuted`)
* **C64** the cone program solver is a contract; constant data (0/0) and repeated points (division by zero) are excluded. Finding: the returned coefficients are minus the linear fit. The problem handed to the solver has a solution (C64_solvable). (`C64_sign_refuted`)
* **C65** OSQP is a contract (exact optimum). Finding: with the default grid the linear program can be unbounded. The problem handed to the solver has a solution (C65_solvable, for balanced grids). (`C65_default_refuted`)
* **C67** Correct for domains without off-centre ellipsoids; C67_refuted: the normalized ellipsoid centre is wrong otherwise. The problem handed to the solver has a solution (C67_solvable). (`C67_refuted`)
* **C68** Exact for the hull itself; the additional constraints are only imposed on the start point (C68_refuted). The problem handed to the solver has a solution (C68_solvable). (`C68_refuted`)
* **C69** All branches of _hull_to_linineq (one point, collinear, Qhull) are modelled and exact when no nonzero singular value is within the tolerance (C69_exact, C69_to_linineq); svd, qr and Qhull are contracts, shown to be satisfiable (C69_oracles). Findings: the bounds are dropped (C69_refuted); for thin hulls the points themselves are not in the converted domain (C69_thin_refuted); two distinct points that are close raise (C69_near_refuted). (`C69_refuted`)
* **C70** Finding: pdf is the density iff scaling^2 = cov (the code divides by cov instead of sqrt(cov) and forgets 1/scaling).
* **C71** Proved for non-empty polytopes (maximality without equality constraints). Finding: for empty polytopes a point outside and a negative radius are returned. With equality constraints alone the program is unbounded (C71_equality_refuted); otherwise a centre exists (C71_solvable). (`C71_empty_refuted`)
* **C72** Full step accepted when the residual is below 1/(2 ftol); finding: otherwise the Armijo test on the norm with the gradient of half its square rejects every step and gauss_newton does not move. (`C72_refuted`, `C72_gn_refuted`)
* **C74** The root of the secular equation is minus the largest eigenvalue of g g^T - H when brenth finds it in the bracket. Findings: the bracket can miss the root (wrong sign of the left end) and a singular H raises. (`C74_refuted`, `C74_singular_refuted`)
* **C75** Proved whenever no mean gradient slope vanishes. Finding (C75_sign_refuted): a vanishing mean slope sets a column of U to zero and the fitted H, L lose that direction and violate the data. (`C75_sign_refuted`)
* **C76** Equivalence with the documented program for data whose conflicting samples are at different places; duplicates (division by zero) refuted. (`C76_duplicate_refuted`)
* **C77** Gradients exact where distances are positive; range attained and at least as wide as over the starting points. Finding: uncertainty_domain ignores epsilon and is inconsistent with uncertainty. (`C77_epsilon_refuted`)
* **C78** Square root, constraints, monotone objective and geodesic proved; the objective is the trace of the matrix returned, and the line search takes the longest decreasing step. Findings: the sample constraint lacks max(.,0) (too large H when |df| < epsilon) and the linearized sample constraint uses J U^T y in place of U^T y. (`C78_linearization_refuted`, `C78_epsilon_refuted`)
* **C79** SVD is a contract. The zero matrix is returned unchanged, so full row rank fails for it. The contract is satisfiable (C79_svd_exists). (`C79_zero_refuted`)
* **C80** Under the hypothesis that each vertex search ends no closer to the other points (proved for the walk where its plane test does not skip a site). Refuted without it: the plane test compares |n.h| with an absolute 1e-8, so on a segment of length 1e-4 a site is skipped, the point walks onto it, and from three points at mutual distance at least 4e-5 the returned design has two equal points, whatever the number of sweeps. Nsamp = 1 is excluded (the code fails).
* **C81** Circumcenter program and Voronoi vertices are contracts. Ownership in the code is by isclose, so the fill distance can grow by the tolerance per iteration (bound proved). Finding: where all distances are below 1e-8 every centre owns every vertex and one iteration moves all centres to one point (`C81_collapse`); the fill distance can grow (`C81_monotone_refuted`). The problem handed to the solver has a solution (C81_centre_solvable).
* **C83** Equivalence proved for one-row L; neighbour radius and cell diameter for every dimension. Findings: points on the upper face are out of the grid (IndexError), points below the lower face within the tolerance wrap to the last cell, and for two or more rows the searched block is centred at the wrong cell (late binding in a generator) so points closer than r are accepted. (`C83_face_refuted`, `C83_wrap_refuted`, `C83_centre_refuted`)
* **C85** Voronoi search in the restricted domain is a contract. Findings: stretch_sample_domain overwrites the samples by the previous candidate, uses d before assignment after an exception, and repeats a stale candidate for the wrong metric. (`C85_stretch_overwritten_refuted`, `C85_stretch_unbound_refuted`, `C85_stretch_stale_refuted`)
* **C87** Finding: the score uses the Voronoi vertices of the unscaled design, so it is not the fill distance of the scaled one. Brent may leave the bracket [0,1], excluded here by hypothesis. (`C87_score_refuted`)
* **C88** Finding: samples without values are dropped silently, their dimension is not compared with the gradients. (`C88_drop_refuted`)
* **C89** permutation, lstsq, thin SVD are contracts. Finding: the smallest sample size for which gradients are estimated always raises. (`C89_minimal_refuted`)
* **C92** Orthonormality, span and the ridge function are preserved when no mean slope vanishes; slope positive for one-dimensional ridges. Refuted: for n > 1 the signs are taken at the coordinates before the rotation (C92_stale_refuted); np.sign(0) erases a direction (C92_zero_slope_refuted). (`C92_stale_refuted`, `C92_zero_slope_refuted`)
* **C93** Jacobian proved. The constraints are right for n = 1; for n = 2 they slice a row-major flattening by columns (C93_constraints_refuted). (`C93_constraints_refuted`)
* **C95** The demanded number is never too small and exact for n <= 1; for n > 1 it is larger than the number of degrees of freedom because n(n+1)/2 is subtracted instead of n^2 (C95_count_refuted). (`C95_count_refuted`)
* **C96** Jacobian by the chain rule and the joined basis proved here for tensor bases and one output; several outputs and the Arnoldi basis in C136. One-dimensional values are refused unless U0 is given (C96_vector_init_raises). (`C96_vector_values_refuted`)
* **C101** Refuted: the entries of L0 are used as logarithms, the default identity starts at e*I (C101_start_refuted). (`C101_start_refuted`)
* **C103** The docstring of OTLCircuit has R_b2 up to 75, the code builds the domain with 70. (`C103_domain_refuted`)
* **C105** The robot arm has no gradient where it folds back to the origin, an interior point of the domain; the code divides 0 by 0 there. (`C105_fold_refuted`)
* **C110** `QuadraticFunction._func_grad` returns 2 Q^T x + b, which is the gradient iff Q is symmetric; nothing checks or enforces symmetry. (`C110_quad_refuted`, `C110_quad_iff`)

* **C111** `check_derivative` takes the least deviation over a hundred steps: x^3 at 0 with the wrong gradient 1/100 is reported as error 0. (`C111_tolerance_refuted`)
* **C112** `check_gradient` sees the Jacobian only through J^T r: where the residual vanishes every matrix passes. (`C112_gradient_refuted`) `check_jacobian` divides 0 by 0 for a zero column of an inactive variable and Python's `max` then forgets every error found before: the earlier columns are not checked. (`C112_masked`, `C112_jacobian_refuted`)
* **C115** With no sample sizes `subspace_convergence` returns one angle and no counts. (`C115_lengths_refuted`)
* **C116** The share of the sample beyond the safety factor may exceed prob (by less than one sample). (`C116_share_refuted`)
* **C118** The wall constraints are built with throat index 0 ("no throat"), for which `bspline` requires a gap of 0.05 instead of delta after the first point and imposes no slope limits on the first two segments. (`C118_nothroat_refuted`) "Throat is lowest" compares with the left neighbour only. (`C118_lowest_refuted`) The documented duplicated throat points make the rows contradictory (`C118_doubled_throat`, `C118_flat_throat`); a slope list of the wrong length returns (0, 0) instead of raising (`C118_zero_pair`); more than 100 rows raise (`C118_returns`).
* **C119** The angle loop of `piecewiseBilinearAxial` is shifted by one: it requires x[nx-1] + deltay <= y[0] and leaves out the last pair (`C119_angles_refuted`); a single angle bounds |z| by deltaz (`C119_single_refuted`).
* **C121** `cleanupConstraintMatrix` removes rows without variables even if the fixed values violate them. (`C121_drops_refuted`)
* **C122** All three wall systems contain such a violated row (fixed end point 2.33702 beyond 2.3 - 0.2), so they are only satisfiable because of the previous item (`C122_wall_rows_refuted`). The nominal wall has 0.12, 0.14, 0.17 where maxThroat is 0.1 and lies outside (`C122_wall_nominal_refuted`). The constraints of the load layers are all implied by the bounds (`C122_load`).
* **C82** Cells of `projection_sample` use the sorted neighbours, which is not enough when projections tie; one sample and metrics of several rows (`Delaunay` not imported) raise; the Latin hypercube variant puts its points on the line through the origin, so a box whose other lower bound exceeds the tolerance raises AssertionError, and so do slices narrower than sqrt(2 tol). (`C82_sample_ties_refuted`, `C82_lhs_offset_raises`, `C82_lhs_narrow_raises`)
* **C125** `projection_design` loops forever when no design is feasible (given points out of reach) or when the solutions are used up and the last one was infeasible, since the stale `sol` is used again. `projection_sample` raises UnboundLocalError when the first feasible design has zero score, e.g. on a segment where two cells are the same point. (`C125_design_far_refuted`, `C125_design_exhausted_refuted`, `C125_sample_unbound_refuted`)
* **C123** `_build_constraints` of a hull multiplies by the transposed points: it raises unless the number of points equals the dimension and otherwise describes the hull of the columns. (`C123_hull_raises`, `C123_hull_refuted`)

Read, not proved:

* `build_multif_domain` passes keyword arguments to `buildRandomDomain`, which takes none of them; `build_multif_random_domain` uses an undefined `kwargs`. The covariance 0.2285 of the last random variable is not squared, unlike all the others.

* `duu.py` imports `EmptyDomain` from the domains, which does not define it, so the module cannot be imported; it calls `add_constraint` (the method is `add_constraints`), and `sample_random_ridge` ignores its argument and asks for a float number of samples.
* `check_derivative` takes an infinity norm that numpy refuses for a bare scalar; objectives must return arrays.
* C127: `is_unbounded` raises in one dimension; `is_point` says True for a segment of any length that is far enough from the origin.
* C129: (a) an ellipsoid whose centre is not the centre of the bounds is displaced by the normalization of `_build_constraints_norm`: {x in [6, 10], |x - 5| <= 2} is called empty; (b) lower bounds [0, -inf] normalize to [NaN, -inf] (0 * inf in the dense product), the finite bound is dropped, and a bounded domain is called unbounded; (c) on an empty domain the first read of `norm_lb` raises, later reads return the half filled array.
* C130: `LogNormalDomain._pdf` does not contain 1/scaling, hence the density of the normalized domain is not the transformed density: both are densities only if the interval has length 2 (`C130_lognormal_density`, `..._refuted`).
* C131: the sign fix multiplies a column of U by the sign of the average slope along it, which is zero for functions that are even along it: fit_function of x^2 on [-1, 1] returns U = 0 with s_0 > 0 (`C131_active_coordinates_refuted`).
* C133: the estimate can be smaller than the distance of a starting point (even zero): for close samples np.isclose hides the separating plane and the walk ends on another sample (`C133_starts_refuted`). On an interval the estimate is exact if every gap holds a starting point clear of the tolerances (`C133_line`, `FillLine.v`); otherwise the largest gap can be missed (`C133_line_refuted`).
* C134: shadow_uncertainty uses a single corner for the first and last value ("there is only one point"); if a face is orthogonal to u, as for a coordinate direction on a box, the interval misses values (`C134_endpoint_refuted`).  With ngrid = 1 the bounds at the largest u.x are reported for the smallest (`C134_single_refuted`).  With a noise level epsilon only the two end intervals are widened (`C134_epsilon_refuted`).
* C135: with basis = 'arnoldi' a subspace for which the projected samples do not determine the polynomials makes the basis divide by zero (NaN), while the tensor bases still give a least-squares fit; the check of the number of samples does not exclude it, e.g. four corners of a square, a quadratic along a coordinate (`C135_enough_refuted`).
* C136: `polyridge_vec.py` does not check the number of samples. The stacked Jacobian has at most n(M-n-1) nonzero singular values, independently of the number of outputs, while `_gn_solver` divides by the largest mn - n^2; with at most m samples it divides by zero for every data set in general position (`C136_rank`, `C136_few_samples`, `C136_divides_refuted`). In polyridge.py the check of lines 326-335 excludes this.
* C137: the density of a truncated log-normal domain is not renormalized and does not vanish outside it (`C137_lognormal_truncated_refuted`); `volume` of an untruncated normal domain is infinite, since a domain without constraints counts as a box, and so are all weights of `quadrature_rule` (`C137_normal_weights_infinite`); with equality constraints `quadrature_rule` falls back to Monte Carlo, whose volume estimate draws from the bounding box and hits the domain with probability zero, so all weights are zero (`C137_volume_equality`, `C137_equality_refuted`); the uniform density is positive on the tolerance band around the box, where its integral exceeds one (`C137_uniform_tolerance`).
* C138: the least-trace Lipschitz matrix is not unique: for the samples f(0,0)=0, f(1,1)=f(1,-1)=1 of f(x)=x_1 both diag(1,0) and diag(0,1) are minimisers, so the reported most important direction may be one the function does not depend on (`C138_unique_refuted`); with samples alone a ridge function is not recovered even when the minimiser is unique (`C138_samples_refuted`). With gradients it is (`C138_ridge`), but then every direction without weight has mean slope exactly 0, `np.sign` returns 0 and the column of `U` is zero in exact arithmetic (`C138_not_orthonormal`, `C138_U_refuted`); `H` is not affected (`C138_fit_H`).
* C139: with the default rotation an exact fit can be destroyed: for f(x) = x_1^2 sampled at (+-1,0), (0,+-1) and the starting subspace e_1, which fits exactly, `_finish` multiplies the column by `np.sign` of a mean slope that is 0; whatever the solvers do, the returned `U` is zero and the returned function constant (`C139_erases`, `C139_erases_refuted`). As many directions as variables (n = m) with the Euclidean norm keep no singular value, `s[-1]` of an empty array raises an IndexError for every data set (`C139_square_raises`, `C139_square_refuted`).
* C140: `LogNormalDomain` and `UnboundedDomain` never set `self.kwargs`, so `corner` and `closest_point` raise AttributeError. `norm_lb`/`norm_ub` store the array of initial bounds before they ask for corners, so the first use raises and the second silently works with an unscaled variable: `Borehole(domain='uncertain')` raises at its first evaluation only (`C140_borehole`, `C140_evaluation_refuted`); k untruncated log-normal factors make the first k operations raise (`C140_product_attempts`; `buildRandomDomain()` of the nozzle has 11). `UnboundedDomain` answers no query (`C140_unbounded_queries_refuted`).
* C141: `GaussianProcess` and `LipschitzApproximation` define `eval` only; `grad` and `__call__(return_grad=True)` recurse until python's limit (`C141_classes`, `C141_gradient_refuted`); so does everything of `RidgeFunction` itself. `BaseFunction.eval` drops its keyword arguments (`C141_keywords_refuted`).
* C142: `call_async` passes `return_grad` to the functions as a keyword argument even when it is False, so every function without that parameter raises TypeError (`C142_parameter`); with it the gradients are those of the application domain, not multiplied by the slopes of the normalization as in `__call__` (`C142_gradients`, `C142_gradient_refuted`). The functions are pickled from their source executed in an empty scope, so a function that uses a module-level name raises NameError on the worker (`C142_global`): `robot_arm` (uses `np` without importing it) and all twelve functions of `GolinskiGearbox` (use `expand_variables`), although both classes offer `dask_client`; a lambda raises KeyError in the constructor.
* C143: default names are x0, x1, ... in every factor, so a product of two domains without given names has two variables named x0 (`C143_default_clash`).
* C144: `_update_voronoi_sample` starts walks at nodes perturbed by 1e-7 without projecting them to the domain. For a design on the boundary of the unit square such a walk leaves the square and ends at (-2, 1): the printed estimate exceeds the fill distance and the next design covers less (`C144_outside_refuted`). For nodes 0.04 apart the step of the walk hides the separating plane behind `np.isclose`, the node owns no vertex and the circumcentre problem has no data (`C144_unowned_refuted`). `np.zeros_like` of an integer design truncates the circumcentres (`C144_integer_refuted`); a given design with more than M rows has its other rows set to zero (`C144_rows_refuted`).
* C145: the loop over the metrics in `stretch_sample_domain` overwrites the array X of samples with the candidate of the metric before, so from the second metric on distances are measured to that candidate. On [0,1] x [0,2] with the sample (0,0) and the metrics x and y the vertex (1,2) is far from the sample in both, but the stretched domain is the point (1,0), which coincides with the sample in the metric y (`C145_two_refuted`). `Sampler.sample` always raises: NotImplementedError, NameError (sequential) or TypeError (stretched, which does not take `verbose`) (`C145_samplers_raise`).
* C146: `RidgeFunction.shadow_plot` evaluates the function at U y, which gives the profile at y only if U has orthonormal columns; PolynomialRidgeFunction accepts any U. With U = 2 the function 2x is drawn as y -> 4y and the samples are off the curve (`C146_curve_refuted`). The default X = None works in the base class and raises AttributeError here (`C146_default_refuted`). The name of the response file is split at the last dot of the whole path: "plot" becomes "plo_responset", "a.b/c" is written to another directory (`C146_resp_refuted`).
* C147: `intrinsic_dimension` subtracts the number of equality rows: x = 0 given twice on the line reports -1, a PointDomain in the plane 2, the hull of one point 1 (`C147_intrinsic_refuted`). `is_linquad_domain` is True for every domain and `is_linineq_domain` for hulls, whose attributes A, b, lb, ub do not contain the hull (`C147_hull_refuted`); this is what lets `add_constraints` on products drop it (C05).
* C148: the Gaussian process has no signal variance: for the data (1, -1) at 0 and 1 the objective prefers the shorter of two length scales, for the same data divided by ten the longer one (`C148_units_refuted`). The class documentation writes the prediction with exp(-|L(x - x_i)|^2), the code uses half of the exponent (`C148_documented_refuted`).
* C149: `OpenAeroStruct()(X)` raises AssertionError for every matrix with one row: the driver writes one line with five numbers, `np.loadtxt` reads it as a vector, and `len(fX) == len(X)` compares 5 with 1 (`C149_oas_single_refuted`). With `workdir=` and `keep_data=True` a matrix with two rows raises FileExistsError at the second row (`C149_kept_rows_refuted`), and after a simulation without output the directory stays and blocks every later evaluation (`C149_failed_sticks`). `MULTIF(level = 5, su2_maxiter = ...)` runs level 0 with the default iterations: the constructor names the parameters but stores only the others (`C149_level_refuted`). The loops writing `output.log` stop at the first poll that finds the container ended, whatever still waits in the pipe (`C149_log_refuted`). Printing inputs with `%.15e` maps different doubles to the same text (`C149_printing_refuted`).
* C150: `minimax_optimal_cover` measures distances after multiplying with `L.T` while the clustering uses `L`: for a shear the design returned leaves samples farther than r (`C150_metric_refuted`). It raises for its default `L = None` (`C150_default`), for radii so large that the lower bound on the number of points is zero, and whenever the first size already covers the samples (`C150_raises_refuted`). `minimax_design` clusters one-dimensional domains when `L` has more than one row; a single centre then stays at the first sample (`C150_one_dimension_refuted`); for N = 0 the ZeroDivisionError is not caught (`C150_zero`).
* C151: `_init_dim` reads the dimension as `len(A[0])` before `_init_ineq` turns a one-dimensional `A` into a row, so `LinIneqDomain(A = [1,1], b = 1)` raises TypeError although the same arguments beside a bound are accepted (`C151_row_refuted`); an `A` without rows raises IndexError (`C151_empty_refuted`). Crossing bounds are accepted and give the empty set (`C151_crossing_refuted`).
* C152: `LipschitzMatrix.fit` reshapes gradients to rows of the dimension of the samples, so gradients of another dimension, or stored by columns, are accepted whenever the number of entries divides, and are silently cut at the wrong places (`C152_mismatch_refuted`, `C152_transposed`). `_preprocess_data` in `lipschitz_utils.py` repeats these steps and is never called.
* C153: `minimax_cluster_pso` draws a weight for every entry, so the combination is not convex and designs leave domains other than boxes (`C153_domain_refuted`); the initial designs are never scored (`C153_initial_refuted`); `random_init` takes `np.argmax` of a single number, so it always keeps the first candidate (`C153_init`, `C153_init_refuted`). With `remove_worst` the replaced particle keeps its old best design and score, so the same particle is replaced again until it improves on them.
* C154: `save_contour(..., fmt = 'prepared')` raises NameError (`x0`, `y0` are not defined) for the first path and leaves an empty file (`C154_prepared`); a path without segments writes a curve without points (`C154_empty_refuted`). The extra arguments said to be passed to `iter_segments` are ignored (read).
* C54: `OuterProductGradient(standardize = True)` is documented to give identity covariance; it only scales each coordinate, so correlated inputs stay correlated (`C54_covariance_refuted`).
* C155: `build_oas_design_domain(n_cp)` raises AssertionError for every `n_cp` but 3, as it always gives three names (`C155_control_points_refuted`). `build_golinski_random_domain(clip)` never truncates: `clip` is no parameter of `NormalDomain` and is kept among the keyword arguments for the solvers (`C155_clip_refuted`). `build_multif_domain` raises TypeError for every further keyword argument, `build_multif_random_domain` raises NameError (`C155_nozzle_partial`, `C155_nozzle_random_refuted`).
* C156: the density returned by `forward_propagation_pdf` and `random_ridge_pdf` on the grid from the smallest to the largest value lacks at least 1/N of its mass (`C156_mass_refuted`); both raise when the quartiles of the sample agree, as the bandwidth is then 0 (`C156_returns_partial`, `C156_constant_refuted`).
* C157: `fit_fixed_subspace` neither orthogonalizes U nor checks the number of samples, both of which `fit` does: (2, 0) is stored as it is (`C157_orthonormal_refuted`), and one sample is accepted although other quadratics fit it too (`C157_determined_refuted`). As in C139, an exact fit is replaced by a constant when the mean slope is 0 (`C157_erases`), and only then (`C157_columns`).
* C128: `random_direction`, hence hit-and-run sampling and Poisson disk sampling, never ends on a domain with lb[i] = ub[i] that is given by bounds
  (or on a PointDomain); `sample_boundary` of a box only ever returns vertices. `sample_boundary` needs `self.center`, defined by LinIneqDomain only (read).

* `shadow_envelope` returns y of length N together with bounds of length ngrid.
* `local_linear` computes the `xia` bandwidth but passes `self.bandwidth` on (opg.py); it uses max(M, 3) where the paper has max(m, 3).
* `sweep` modifies its argument p (euclidean.py 429).
* `DiagonalLipschitzMatrix` with method `param`/`cvxpy` raises TypeError.
* `minimax_optimal_cover` (C150) calls `sobol_sequence(domain, 1e4)` with a float count.
* `minimax_cluster` has a mutable default `solver_opts`; `minimax_lloyd` modifies the caller's `Xhat`.
* `seq_maximin_sample` documents slack 0.9 and uses 0.1.
* `projection.py`: N = 1 raises IndexError, `Delaunay` is not imported, `_maximin_score` calls `np.eye(D.shape)`, `projection_design` builds its assumptions from `perms` instead of `perms_best`.
* `seqlp.py`: the branch for a failed subproblem lacks a break.
* `gp.py`: the log determinant counts eigenvalues that the solve drops.

## 6. Wrong programs

`seeded/LOG.jsonl` has one line for each edit of a model definition that was tried in a scratch copy. The field `method` says how `theorems_failed` was obtained.

* `rebuilt` (`tools/mutate.py`): the whole development is rebuilt, each proof that fails is given up in the scratch copy, and a theorem counts as failed when its `Print Assumptions` then depends on a proof given up.
* `inferred from first failure` (`tools/quickmut.py`): the build stops at the first proof that fails, named in `first_failure`. `theorems_failed` lists the theorems of the claim that use this lemma, found from the names in the sources. These theorems were not checked one by one. Theorems that do not use the lemma but would fail too are not listed.
* `inferred from first failure, other claims`: as before, but no theorem of the claim named uses the lemma, so theorems of other claims that do are listed.
* `property modules of the claim rebuilt, none failed`: the edit survived at that time. `theorems_tightened` names the theorems added because of it, if any.

In all cases a failure means that the proof script no longer goes through. It is evidence that the theorem notices the edit, not a proof that the theorem is false of the edited model: a theorem that remains true can be listed because the script of a lemma it uses depends on the form of the definition. Long lists that come from one early lemma are to be read in this way. Edits marked "(a fix)" repair a defect and are expected to break the theorem that states it.

Theorems added because of such edits are in `DomTight.v`, `ProjKeep.v`, `BlockCases.v`, `LipTight.v`, `SubTight.v`, `LloydTol.v`, `MoreRefuted.v`, `FillLine.v`, `MmcTight.v`, `PosTight.v`, `DrvTight.v`, `HartFlow.v`, `RFitTight.v`, `InitTight.v` and `RunTight.v`, most of them stated in `TightProps.v` and `RunTightProps.v`.
