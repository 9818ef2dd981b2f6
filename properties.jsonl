{"id": "C01", "title": "Interpolant lifecycle: only a successful fit makes results readable", "statement": "An Interpolant exposes centers, grad_centers, bbox, weights and evaluate exactly when the most recent fit, fit_incrementally or fit_inequality call that passed argument validation succeeded (or it was loaded from a fitted file). A call rejected by argument validation leaves every observable unchanged; a call that passes validation and then fails inside the solver leaves the object unfitted, so every accessor throws, and never shows a mixture of old and new data. After success, centers, gradient centers, weights and bbox all belong to that one call.", "quantifier": "every finite history of API calls on one Interpolant, every outcome of the numerical solver, every argument", "why_tests_cant": "Unit tests run a handful of call orders; the claim is about every history, including failures interleaved with successes.", "anchors": ["include/polatory/interpolant.hpp: Interpolant::fit, fit_incrementally, fit_inequality, evaluate, clear, throw_if_not_fitted"]}
{"id": "C02", "title": "Evaluation always uses the latest fit", "statement": "evaluate() always returns the value of the interpolant described by the current model, centers and weights, whatever happened before. The two-step protocol used by field functions (set an evaluation box, then evaluate repeatedly) does so as long as the interpolant is not refitted in between; after a refit without a new evaluation box the old surface is still evaluated, and without any box the evaluator is a null pointer.", "quantifier": "every history of fit / set evaluation box / evaluate calls", "why_tests_cant": "A stale-cache bug needs a particular order of calls which example-based tests do not contain.", "anchors": ["include/polatory/interpolant.hpp: evaluate, evaluate_impl, set_evaluation_bbox_impl, clear", "include/polatory/isosurface/rbf_field_function.hpp"]}
{"id": "C03", "title": "Binary save/load is lossless", "statement": "Loading a file written by save() yields an object equal, field by field, to the saved one, for models, RBFs, interpolants, variograms and variogram sets of any dimension and any size, and reading consumes exactly the bytes written.", "quantifier": "every object of each serialisable type (any number of RBFs, parameters, centers, weights, bins), any bytes following it in the stream", "why_tests_cant": "Tests save and load a few fixed objects; sizes, nesting and field orders are unbounded.", "anchors": ["include/polatory/common/io.hpp: Read, Write, POLATORY_IMPLEMENT_LOAD_SAVE", "include/polatory/model.hpp", "include/polatory/rbf/rbf_base.hpp", "include/polatory/interpolant.hpp", "include/polatory/kriging/variogram.hpp", "include/polatory/kriging/variogram_set.hpp"]}
{"id": "C04", "title": "Truncated files", "statement": "The readers never test the stream, so some proper prefixes of a saved file load without any error and produce a different object. A prefix of a model file that lacks at most the last twelve bytes is always accepted and keeps all RBFs; a shorter one is rejected by an exception or gives a model with degree and nugget zero that has no RBF at all or whose last RBF has lost parameters or anisotropy, but is otherwise intact. A prefix of an interpolant file is accepted exactly if only coefficients of the weights are missing, and all that is present is read correctly; shorter ones throw or resize a matrix to a negative number of rows.", "quantifier": "every proper prefix of every saved model and interpolant file, any contents of uninitialised memory", "why_tests_cant": "The set of crash points (prefix lengths) of a file is not enumerated by tests.", "anchors": ["include/polatory/common/io.hpp: Read::operator()"]}
{"id": "C05", "title": "Model parameters: round trip and all-or-nothing update", "statement": "Model::set_parameters either throws and leaves the model unchanged, or afterwards parameters() returns exactly the given vector; setting the current parameters is the identity; the parameter names, lower and upper bounds have the same length and the same order as the parameters (nugget first, then each RBF's in order).", "quantifier": "every model with any list of RBFs and every parameter vector", "why_tests_cant": "The number of RBFs and parameters is unbounded and failure atomicity is about every rejected vector.", "anchors": ["include/polatory/model.hpp: parameters, set_parameters, parameter_names, parameter_lower_bounds, parameter_upper_bounds, set_nugget", "include/polatory/rbf/rbf_base.hpp: set_parameters"]}
{"id": "C06", "title": "Model construction enforces conditional positive definiteness order", "statement": "A Model can be constructed only from a non-empty RBF list and a polynomial degree d with max(cpd_order)-1 <= d <= 2 (or the default marker, which selects the smallest admissible degree); the polynomial degree is therefore always high enough for every RBF in the model, and everything else is rejected with an exception.", "quantifier": "every list of RBFs and every requested degree", "why_tests_cant": "Validation must hold for every combination, not sampled ones.", "anchors": ["include/polatory/model.hpp: Model::Model, cpd_order, poly_degree"]}
{"id": "C07", "title": "complementary_indices returns the complement", "statement": "For every n and every list of pairwise distinct indices in [0,n), complementary_indices(indices, n) is the strictly increasing list of exactly the indices in [0,n) not given. With a repeated index the function writes past the end of its buffer.", "quantifier": "every n and every index list", "why_tests_cant": "All list sizes and orders; the failing inputs are those the callers never construct on purpose.", "anchors": ["include/polatory/common/complementary_indices.hpp"]}
{"id": "C08", "title": "CSV tables: what is written is what is read", "statement": "read_table(write_table(M)) has the same shape and cells as M for every matrix with at least one row and one column whose printed cells parse back; comment lines never change the result; a line with a different number of cells is dropped and does not disturb other rows. An empty first line makes every later multi-column row be dropped.", "quantifier": "every table, every placement of comment lines and malformed lines", "why_tests_cant": "The parser must behave for every line sequence.", "anchors": ["include/polatory/table.hpp: read_table, write_table"]}
{"id": "C09", "title": "Bounding boxes are exact hulls", "statement": "Bbox::from_points is the least box containing the points; the empty box is the neutral element of convex_hull; convex_hull is associative, commutative and idempotent, its result contains exactly-as-much-as-needed (least upper bound); a transformed box contains the image of every point of the original box.", "quantifier": "every point set, every box, every affine map, any dimension 1-3", "why_tests_cant": "Universally quantified geometry over the reals.", "anchors": ["include/polatory/geometry/bbox3d.hpp"]}
{"id": "C10", "title": "DistanceFilter keeps a maximal separated subset in input order", "statement": "filter(d) keeps a strictly increasing list of row indices such that kept points are pairwise farther than d apart, every dropped point is within d of a kept point with a smaller index, and the first point of a cloud is always kept; applying the filter to its own output changes nothing; operator() applied to any table with as many rows returns exactly the kept rows in order, and rejects tables of a different height.", "quantifier": "every point cloud of any size and every distance", "why_tests_cant": "Greedy selection over all inputs, including ties and duplicates.", "anchors": ["include/polatory/point_cloud/distance_filter.hpp: filter, operator(), filtered_indices"]}
{"id": "C11", "title": "Incremental fitting: what is returned", "statement": "When fit_incrementally returns, every input point or gradient that is not a center has an absolute residual below its tolerance (or all inputs have become centers), the centers are distinct rows of the input, and there is one weight per center, per gradient component and per polynomial basis function, in that order.", "quantifier": "every input cloud, every solver answer in every round, any number of rounds", "why_tests_cant": "The number of rounds is unbounded and depends on the data.", "anchors": ["include/polatory/interpolation/incremental_fitter.hpp: IncrementalFitter::fit"]}
{"id": "C12", "title": "Incremental fitting terminates on separated points", "statement": "If the input points are pairwise farther apart than the minimum filter distance, the incremental fit ends, after at most as many rounds as there are inputs plus the number of halvings that take the extent of the data down to that distance; two coincident points with conflicting values can keep it running for ever.", "quantifier": "every input cloud, every solver answer", "why_tests_cant": "Termination cannot be observed by running finitely many tests.", "anchors": ["include/polatory/interpolation/incremental_fitter.hpp: IncrementalFitter::fit", "include/polatory/point_cloud/distance_filter.hpp"]}
{"id": "C13", "title": "Inequality fitting: active-set bookkeeping", "statement": "Each round of fit_inequality keeps as centers all equality points plus a subset of the bounded ones without duplicates; on return active lower bounds carry positive weights and active upper bounds negative ones, and every inactive bound checked by the code is satisfied within tolerance. The residual of a point is however looked up at the wrong position whenever the position in the list of non-centers differs from the position in the list of bounded points, and is read past the end when unconstrained points are present.", "quantifier": "every input cloud, every bound pattern, every solver answer", "why_tests_cant": "The index mix-up shows only for particular mixes of equality, bounded and unconstrained points.", "anchors": ["include/polatory/interpolation/inequality_fitter.hpp: InequalityFitter::fit"]}
{"id": "C14", "title": "Initial solutions are mapped point by point", "statement": "The starting weights derived from an initial interpolant give every input point that equals a center of the initial interpolant that center's weight (the first one when duplicated), every other point weight zero, likewise for gradients, and copy the polynomial part; if the models differ everything is zero. In particular refitting the same points starts from exactly the previous weights.", "quantifier": "every pair of point clouds and every previous weight vector", "why_tests_cant": "Mapping of arbitrary permutations and subsets.", "anchors": ["include/polatory/interpolant.hpp: build_initial_weights"]}
{"id": "C15", "title": "The iterative solver returns only a converged solution or throws", "statement": "The weights returned by fit satisfy the residual test at every data point with the requested tolerance, within max_iter iterations; otherwise an exception is thrown. A NaN residual, however, passes the test.", "quantifier": "every right-hand side, every iteration count, every behaviour of the Krylov method and preconditioner", "why_tests_cant": "Solver behaviour on all systems and all iteration histories.", "anchors": ["include/polatory/interpolation/solver.hpp", "include/polatory/interpolation/residual_evaluator.hpp: converged"]}
{"id": "C16", "title": "The interpolation operator is linear and symmetric", "statement": "The operator applied by the direct evaluator is linear in the weights and symmetric: the block matrix of values, gradients, Hessians and polynomial terms equals its transpose, with the nugget only on the value diagonal; the result does not depend on how the parallel loop distributes rows over threads.", "quantifier": "every model with symmetric kernels, every set of points and gradient points, every schedule", "why_tests_cant": "Schedules and sizes are unbounded.", "anchors": ["include/polatory/interpolation/direct_operator.hpp", "include/polatory/interpolation/direct_evaluator.hpp", "include/polatory/preconditioner/mat_a.hpp"]}
{"id": "C17", "title": "RBF gradients and Hessians are the derivatives of the RBF", "statement": "For every built-in RBF, evaluate_gradient is the gradient of evaluate and evaluate_hessian the Hessian wherever the code returns a number, except at three kinds of point: the origin for bh3 (gradient) and bh2 (Hessian) without smoothing, and the radius where the branches of a spheroidal function meet. This holds for every parameter value and every anisotropy matrix (the chain rule through the anisotropy is applied correctly).", "quantifier": "all displacement vectors away from the origin where needed, all parameters, all anisotropies", "why_tests_cant": "Tests compare finite differences at sample points.", "anchors": ["include/polatory/rbf/*.hpp: evaluate_isotropic, evaluate_gradient_isotropic, evaluate_hessian_isotropic", "include/polatory/rbf/rbf_base.hpp"]}
{"id": "C18", "title": "Covariance functions behave like covariances", "statement": "Every covariance RBF takes the value psill at zero distance, never exceeds it in absolute value, is nonnegative and non-increasing in the distance (the spheroidal ones up to 1e-16 of psill, because their constants are rounded), and the compactly supported ones are exactly zero beyond their range and continuous at it.", "quantifier": "all distances, all positive ranges and sills", "why_tests_cant": "Real-valued universally quantified statements.", "anchors": ["include/polatory/rbf/cov_*.hpp, include/polatory/rbf/covariance_function_base.hpp"]}
{"id": "C19", "title": "Spheroidal direct part plus fast part is the full function", "statement": "For every spheroidal covariance the short-range part and the long-range part add up exactly to the full function, value, gradient and Hessian, and the short-range part vanishes outside its support radius so that restricting it to near neighbours loses nothing.", "quantifier": "all distances and parameters", "why_tests_cant": "Universally quantified real identity.", "anchors": ["include/polatory/rbf/cov_spheroidal*.hpp", "src/fmm/*spheroidal*"]}
{"id": "C20", "title": "Polynomial basis has the right size and derivatives", "statement": "basis_size is the number of monomials of degree at most d in n variables for every d. For degrees 0 to 2 the columns of the monomial basis are exactly these monomials, each once, and linearly independent; the gradient rows are their partial derivatives, n per gradient point. The Lagrange basis is one at its own point and zero at the others, and combining it with the values of a polynomial at the points gives that polynomial back.", "quantifier": "dimensions 1-3, degrees 0-2 (size: every degree), every evaluation point, every set of points", "why_tests_cant": "Identity over all reals.", "anchors": ["include/polatory/polynomial/monomial_basis.hpp", "include/polatory/polynomial/polynomial_basis_base.hpp", "include/polatory/polynomial/lagrange_basis.hpp"]}
{"id": "C21", "title": "GMRES residual estimate", "statement": "As long as no division by zero has happened, the absolute residual reported by GMRES, flexible GMRES and (for self-adjoint operators) MINRES is nonincreasing, equals the norm of the preconditioned residual of the solution produced by the back substitution, and no other combination of the search directions has a smaller one; for an injective operator it is zero after at most as many steps as there are rows. Going on after that divides by zero and everything becomes NaN. An initial solution with entries below 1e-12 is taken for zero when the first residual is computed, although it is still added to the solution.", "quantifier": "every Hessenberg sequence, every k", "why_tests_cant": "Linear-algebra identity for all systems.", "anchors": ["src/krylov/gmres_base.cpp", "src/krylov/gmres.cpp", "src/krylov/fgmres.cpp", "src/krylov/minres.cpp"]}
{"id": "C22", "title": "Domain decomposition assigns every point to exactly one owner", "statement": "The domain divider returns subdomains such that every input point is an inner point of exactly one subdomain, subdomains contain no point twice, start with the polynomial points and have at most 1024 rows besides these, and the division always ends; hence the Schwarz preconditioner writes every weight exactly once whatever order threads process the subdomains in.", "quantifier": "every point cloud of any size, every split geometry, every thread schedule", "why_tests_cant": "Recursive subdivision of unbounded depth and all schedules.", "anchors": ["include/polatory/preconditioner/domain_divider.hpp", "include/polatory/preconditioner/domain.hpp", "include/polatory/preconditioner/ras_preconditioner.hpp"]}
{"id": "C23", "title": "Coarse point selection", "statement": "The selected coarse points are the polynomial points followed by distinct other points of the level with the requested number of rows, exactly so without gradients and otherwise up to one split more. The selection loop however reads a queue element after popping it, never ends if more rows are requested than there are, and dereferences the end of an empty range if the level has only polynomial points.", "quantifier": "every point cloud and requested size", "why_tests_cant": "Selections of any size; the dangling read is invisible to functional tests.", "anchors": ["include/polatory/preconditioner/domain_divider.hpp: choose_coarse_points"]}
{"id": "C24", "title": "The coarse/fine grid solve solves the saddle-point system", "statement": "For a grid that has all the points of the problem or no gradient points (or without polynomials), and exact answers of the two factorizations, the weights produced by the null-space elimination satisfy both block equations: A*lambda + P*c = d on all rows of the grid and P^T*lambda = 0; written back to the whole problem they are zero elsewhere. For other grids this is false: the gradient rows of the Lagrange basis are looked up with the local instead of the global number of points, and the weights are not orthogonal to the polynomials.", "quantifier": "every symmetric system, every size, every right-hand side", "why_tests_cant": "Algebraic identity for matrices of every size.", "anchors": ["include/polatory/preconditioner/coarse_grid.hpp", "include/polatory/preconditioner/fine_grid.hpp"]}
{"id": "C25", "title": "The on-disk factor cache returns what was stored", "statement": "After any sequence of put calls, from any number of threads in any order, get with the id returned by a put yields exactly the bytes of that put; ids never returned are rejected. A short write breaks this for all later entries without any error.", "quantifier": "every history of puts and gets, every interleaving, every payload size including empty", "why_tests_cant": "All histories and interleavings.", "anchors": ["include/polatory/preconditioner/binary_cache.hpp"]}
{"id": "C26", "title": "Packed triangular factors round-trip", "statement": "Packing the lower triangle of a factor for the cache and unpacking it restores every entry of the lower triangle, for every matrix size; the in-place row moves never overlap except for size 2.", "quantifier": "every matrix size and content", "why_tests_cant": "All sizes.", "anchors": ["include/polatory/preconditioner/fine_grid.hpp: save_ldlt, load_ldlt"]}
{"id": "C27", "title": "Fast evaluation reports results in the caller's order", "statement": "Whatever internal sorting of sources and targets the fast evaluator applies, and after every history of calls, weight i belongs to source point i and output j to target point j; the self-interaction of a symmetric evaluation is added exactly once per point; small problems are summed exactly and large ones give what the far field computes for exactly the caller's sources and weights with a configuration found by the search.", "quantifier": "every history of calls with weights of the right size, every internal permutation, every kernel and far field", "why_tests_cant": "All permutations and histories.", "anchors": ["src/fmm/fmm_evaluator.hpp", "src/fmm/fmm_symmetric_evaluator.hpp", "src/fmm/full_direct.hpp"]}
{"id": "C28", "title": "LRU cache", "statement": "The least-recently-used cache behaves like a map bounded to its capacity that evicts the least recently used key; an entry returned by the latest call is never evicted by it, provided the capacity is at least one.", "quantifier": "every history of insertions and touches, every capacity", "why_tests_cant": "All histories.", "anchors": ["src/fmm/lru_cache.hpp"]}
{"id": "C29", "title": "Isosurfaces are closed and consistently oriented", "statement": "Inside the sampled region the triangulation extracted by marching tetrahedra is watertight and consistently oriented: each edge strictly inside is used once in each direction, for every assignment of signs to lattice nodes; surface boundary edges occur only where a neighbouring tetrahedron is missing; faces are oriented from negative to positive.", "quantifier": "every sign field on every finite set of lattice nodes", "why_tests_cant": "Exponentially many sign fields of unbounded size.", "anchors": ["include/polatory/isosurface/rmt/tetrahedron.hpp: get_faces", "include/polatory/isosurface/rmt/lattice.hpp: get_mesh"]}
{"id": "C30", "title": "One surface vertex per sign-changing lattice edge", "statement": "Vertex generation creates exactly one vertex for each lattice edge whose end values have different signs and none for others, stored at the nearer end node, independent of the order in which nodes are visited; the vertex lies on the edge between its two ends.", "quantifier": "every set of nodes, every value field, every visiting order", "why_tests_cant": "All fields, all orders.", "anchors": ["include/polatory/isosurface/rmt/lattice.hpp: generate_vertices", "include/polatory/isosurface/rmt/node.hpp", "include/polatory/isosurface/rmt/neighbor.hpp"]}
{"id": "C31", "title": "Mesh clipping stays inside the box and inside the surface", "statement": "Every vertex of a clipped mesh lies in the box, every output triangle is contained in an input triangle with the same orientation, no point of a non-degenerate triangle strictly inside the box is lost, an edge shared by two triangles is cut at the identical point on both sides, and a closed surface is opened only on the faces of the box.", "quantifier": "every triangle mesh and every box", "why_tests_cant": "Universally quantified over real geometry.", "anchors": ["include/polatory/isosurface/clip.hpp"]}
{"id": "C32", "title": "Half-edge mesh editing preserves manifoldness", "statement": "Every sequence of add, flip, split and collapse operations accepted by the mesh keeps the half-edge structure consistent: opposite is an involution pairing the two directions of an edge, each directed edge belongs to at most one face, and a rejected construction (an edge used twice in the same direction) throws.", "quantifier": "every history of mesh edits from every starting mesh", "why_tests_cant": "All histories.", "anchors": ["src/isosurface/abstract_mesh.hpp"]}
{"id": "C33", "title": "Mesh defect detection is exact on topology", "statement": "A vertex is reported singular exactly when the faces around it do not form a single open or closed fan; connected components of the link graph are computed correctly and union-find groups are exactly the classes of the generated equivalence.", "quantifier": "every face list, every graph, every sequence of unions", "why_tests_cant": "All graphs of all sizes.", "anchors": ["src/isosurface/mesh_defects_finder.cpp", "src/isosurface/dense_undirected_graph.hpp", "src/isosurface/disjoint_sets.hpp"]}
{"id": "C34", "title": "Spatial grid queries miss nothing and repeat nothing", "statement": "A box query on the spatial grid visits every stored item whose box overlaps the query box, each stored item at most once, and never a removed item, after any history of insertions and removals.", "quantifier": "every history of insert/remove/query", "why_tests_cant": "All histories; completeness of a broad phase is what every self-intersection guard relies on.", "anchors": ["src/isosurface/spatial_grid.hpp", "src/isosurface/face_grid.hpp"]}
{"id": "C35", "title": "Snapping statistics partition the points and the emitted mesh is well indexed", "statement": "For a mesh with faces, skipped + honored + dishonored equals the number of snap points (not so for a mesh without faces, where all stay zero); the emitted mesh references only existing vertices, every emitted vertex is used by a face, and every emitted position is that of a snap point or an input vertex; the snapping queue is empty after nine candidates per point at most. Provided a point that is already a vertex of its patch counts as satisfied, each point is inserted once at most, failed attempts leave the mesh unchanged, and the emitted faces are the triangulations of the patches with everything put on their edges and into their interiors; without that proviso a refused second attempt erases the first insertion and leaves a crack.", "quantifier": "every mesh, every set of snap points, every outcome of the geometric tests", "why_tests_cant": "Data-dependent requeueing of unbounded length.", "anchors": ["src/isosurface/snapper/snapper.hpp", "include/polatory/isosurface/snap.hpp"]}
{"id": "C36", "title": "Vertex clustering terminates and keeps edge parity", "statement": "Uncluster-and-retry ends within one round more than there are clusters for every defect finder; the result is the quotient of the input mesh by the surviving clusters (which are components within one lattice node) with exactly the removable folds taken out, has no degenerate face, and no vertex still reported as a defect is a merged vertex or shares a face with one. Taking out folds keeps the face count of every edge or takes it from 2 or 4 to 0 or 2.", "quantifier": "every mesh and every defect detector outcome", "why_tests_cant": "Termination for all detector outcomes.", "anchors": ["src/isosurface/vertex_clusterer.hpp"]}
{"id": "C37", "title": "Normal orientation", "statement": "Every row takes the best plane among all its scales; orienting toward a point or a direction leaves each normal either unchanged or exactly negated and makes its dot product with the viewing vector nonnegative; normals discarded by the plane factor are zero vectors and stay so. Orienting a closed surface ends, keeps or negates each normal, leaves zero normals alone, splits the others into connected components in which each row is linked to an earlier one with a nonnegative dot product, and makes the highest point of each component face up.", "quantifier": "every set of points and normals, every neighbourhood, every order of the queue", "why_tests_cant": "All inputs, including zero and orthogonal normals.", "anchors": ["src/point_cloud/normal_estimator.cpp"]}
{"id": "C38", "title": "Signed distance data", "statement": "For distinct points and unit (or zero) normals the generated data begin with the input points at value 0, followed by one point inside and one outside per nonzero normal, lying on the normal at exactly the signed distance given as value, nearest to the row they came from, never farther than the offset (or automatic distance) and moved closer only to 0.495 times the distance of some other row; the shrinking loop takes fewer passes than there are points. With an anisotropy the same holds in the transformed space, for normals of any length.", "quantifier": "every point cloud of distinct points, every offset and anisotropy (real arithmetic)", "why_tests_cant": "Loop of data-dependent length over all clouds.", "anchors": ["src/point_cloud/sdf_data_generator.cpp"]}
{"id": "C39", "title": "Random points lie where requested", "statement": "random_points on a cuboid or a sphere returns exactly n points, all inside the cuboid (never on its upper sides) respectively at distance radius from the center, or throws exactly when there is no volume; the rejection loop of the sphere ends if the generator keeps hitting the disk.", "quantifier": "every n, every sequence of random numbers, every cuboid and sphere (real arithmetic)", "why_tests_cant": "All generator outputs.", "anchors": ["src/point_cloud/random_points.cpp"]}
{"id": "C40", "title": "Cross validation never trains on the predicted point", "statement": "Every point is predicted exactly once, by a model fitted to all points of the other sets and to nothing else, and the prediction is placed at the point's own row; changing values within a set does not change its predictions; the order in which sets are visited does not matter; the call succeeds exactly when every fit does. Sizes are not checked: no ids give all-zero predictions, too few read past the end.", "quantifier": "every partition of the points into sets, any order of visiting them, every interpolant", "why_tests_cant": "All partitions and orders.", "anchors": ["include/polatory/kriging/cross_validate.hpp", "include/polatory/common/complementary_indices.hpp"]}
{"id": "C41", "title": "Empirical variogram counts pairs correctly", "statement": "Every unordered pair of points contributes exactly once to every lag bin whose interval contains its distance, in every direction within the angle tolerance (or in the single closest direction); bins are averages over exactly those pairs, empty bins and directions are omitted, and the result does not depend on how the pair loop is divided among threads. Angle tolerances above 90 degrees are accepted but take fewer pairs instead of more.", "quantifier": "every point set, every lag setting, every set of directions, every thread schedule", "why_tests_cant": "All schedules and inputs.", "anchors": ["include/polatory/kriging/variogram_calculator.hpp", "include/polatory/kriging/variogram_builder.hpp"]}
{"id": "C42", "title": "Normal score transformation", "statement": "The transformed values are a rearrangement of fixed normal quantiles preserving the order of the data however equal data are sorted; the stored coefficients and the back transformation are expansions in normalized Hermite polynomials up to the chosen order; back-transforming a variogram value in [0,1] is nondecreasing, zero at zero and the sum of the squared coefficients at one; using the object before transform throws. A single sample reads out of bounds.", "quantifier": "every data vector with at least two entries, every answer of the sort, every truncation order", "why_tests_cant": "All data sizes; the failing size is an edge case.", "anchors": ["include/polatory/kriging/normal_score_transformation.hpp"]}
{"id": "C43", "title": "Detrending", "statement": "Detrended residuals are orthogonal to every polynomial of the chosen degree and no polynomial leaves smaller ones; what was removed is a polynomial whose addition restores the data; polynomials leave nothing, whether or not the points determine the polynomial; every degree but 0, 1, 2 is rejected.", "quantifier": "every point set and data vector, degrees 0-2, dimensions 1-3", "why_tests_cant": "Linear-algebra identity for all sizes.", "anchors": ["include/polatory/kriging/detrend.hpp", "include/polatory/polynomial/monomial_basis.hpp"]}
{"id": "C44", "title": "Isosurface generation is repeatable after a failure", "statement": "A successful generate call leaves the lattice empty, so the next call behaves as on a new object. This is not so after the field function has thrown: the lattice keeps its partial state and the next call puts two vertices on one edge (refuted with a witness).", "quantifier": "every history of successful and failing calls", "why_tests_cant": "Exceptions in user callbacks at arbitrary points.", "anchors": ["include/polatory/isosurface/isosurface.hpp: generate_common"]}
{"id": "C45", "title": "Accuracy budget", "statement": "When an evaluation accuracy is requested, the budgets handed to the per-RBF and per-kind evaluators add up to at most the requested accuracy, so if every sub-evaluator meets its share the total error is within the request.", "quantifier": "every number of RBFs and gradient points, every accuracy", "why_tests_cant": "Universally quantified bound.", "anchors": ["include/polatory/interpolation/evaluator.hpp", "include/polatory/interpolation/operator.hpp", "include/polatory/interpolation/symmetric_evaluator.hpp"]}
{"id": "C46", "title": "FMM configuration search and its failures", "statement": "A configuration found by the search is one of the candidates and meets the accuracy at every sampled source point; if none does, an exception is thrown. The candidates are the even orders from 8 to 20, from order 12 with the degrees 7 to 9, and the search takes the first that is accurate enough: all candidates of a lower order, or of the same order and a lower degree, are not. An evaluation directly after setting the accuracy is within it at the source points. Two expectations are false: a failed evaluation does not fail again when repeated (the failed search leaves an empty configuration behind, so the retry silently sums directly, or builds an interpolator of order 0), and after the weights have changed the accuracy need not be met (the old configuration is used unchecked).", "quantifier": "every history of calls with weights of the right size, every far-field approximation", "why_tests_cant": "Needs a failing call followed by a retry with the same key, or weights for which the cached configuration is too coarse.", "anchors": ["src/fmm/fmm_evaluator.hpp: find_best_configuration, set_weights", "src/fmm/fmm_accuracy_estimator.hpp"]}
{"id": "C47", "title": "Unisolvent point sets", "statement": "UnisolventPointSet yields sorted distinct indices of existing points, as many as there are basis functions, on which the polynomial basis is invertible with the best condition of the 100 sets drawn, and throws exactly when none of them is unisolvent; it ends if the generator draws every point again and again. It loops for ever when there are fewer points than basis functions, and returns the empty set if the only invertible matrices have a zero or NaN condition estimate.", "quantifier": "every point cloud, every random sequence", "why_tests_cant": "All random sequences.", "anchors": ["include/polatory/polynomial/unisolvent_point_set.hpp"]}
{"id": "C48", "title": "Triangulation of a polygon has the right number of triangles", "statement": "For every answer of the geometric predicates, triangulating a polygon with b >= 3 vertices never exceeds the preallocated storage and never fails the manifold check. When an ear is found at every step the result has exactly b-2+2k triangles for k inserted interior points, uses every polygon vertex and every inserted point, keeps exactly the polygon sides as its border, and never joins two vertices of one labelled edge by an inner edge; a point is left out only if no triangle had it inside when its turn came, and unless the flip budget runs out no inner edge can still be flipped. Otherwise no triangles are returned.", "quantifier": "every polygon size, every set of interior points, every outcome of the geometric predicates", "why_tests_cant": "All sizes and predicate outcomes, including inconsistent floating-point ones.", "anchors": ["src/isosurface/snapper/triangulation.hpp"]}
{"id": "C49", "title": "The Schwarz preconditioner sweeps with correct residuals", "statement": "In the multi-level sweep up and down the levels, every solve reads the true residual (right-hand side minus the kernel system applied to all weights accumulated so far) on all rows of its level, although residuals are only updated on the rows of the next level and corrected by the precomputed product after orthogonalization. Hence the result is exact on the coarse rows when the coarse solve is, is orthogonal to all polynomials, and is linear in the input. The residuals leave the nugget out although the grids contain it, so with a nugget the sweep moves away from a solution.", "quantifier": "every number of levels, every nested choice of rows, every answer of the fine solves", "why_tests_cant": "Wrong residuals only slow the convergence of the outer iteration; no test of results would notice.", "anchors": ["include/polatory/preconditioner/ras_preconditioner.hpp", "include/polatory/common/orthonormalize.hpp"]}
{"id": "C50", "title": "The nearest point of a triangle is found", "statement": "point_triangle_closest, on whose number every test of a snap tolerance rests, returns the nearest point of the triangle and its squared distance for every point and every triangle whose first two corners differ, also for triangles squeezed to a segment; exactly one of its seven regions applies. With the first two corners equal it divides zero by zero. snap_to_bbox moves a coordinate by less than its tolerance, ends inside of the box when it began within the tolerance of it, and is idempotent.", "quantifier": "every point, every triangle, in exact arithmetic", "why_tests_cant": "The regions of obtuse and degenerate triangles are reached by few points of any sample.", "anchors": ["src/isosurface/utility.hpp"]}
{"id": "C51", "title": "The intersection tests never miss an intersection", "statement": "If two triangles with distinct corners have a common point outside of the simplex spanned by their common corners, triangles_intersect returns true, whatever their position: coplanar, touching, seen edge-on in the projection the test uses, or squeezed to segments; it then throws nothing. When no determinant is within the tolerance the answer is exactly right in both directions. The in-circle determinant is the orientation times the power of the point with respect to the circle. A triangle with two equal corners can make the test throw out_of_range.", "quantifier": "all pairs of triangles and of segment and triangle, in exact arithmetic with the code's tolerances", "why_tests_cant": "A missed intersection needs a rare position, and then shows only as a self-intersecting surface.", "anchors": ["include/polatory/isosurface/predicates.hpp", "src/isosurface/utility.hpp"]}
{"id": "C52", "title": "Smoothing by flips keeps the surface and its points", "statement": "Smoothing a manifold mesh whose vertices are at different places ends without an exception within a number of turns linear in the number of faces. The result has as many faces, is manifold, uses the same vertices and has the same boundary; every flip lowers the bend summed over all edges of the mesh by exactly the amount computed from its five edges, more than 1e-6; every snap point within its tolerance of the surface before is so afterwards; and two faces of the result cross only if they are neighbours or crossed before. A mesh with two faces on one side of an edge is refused.", "quantifier": "every mesh, every position of vertices and points, every order of equal improvements, in exact arithmetic", "why_tests_cant": "Honoring points and crossings depend on rare positions; the global sum is never computed by the program.", "anchors": ["src/isosurface/snapper/smoother.hpp", "src/isosurface/abstract_mesh.hpp"]}
{"id": "C53", "title": "Thinning keeps the surface, its boundary and its points", "statement": "Thinning a manifold mesh whose vertices are at different places ends without an exception. Snapped vertices are dropped onto snapped neighbours one by one, no face turning over, until none can be dropped. The result is manifold with no more faces, all its vertices are in use and come from the input, its boundary is the same, every edge is an old one or no longer than 1.3 times the resolution, every snap point within its tolerance of the surface before is so afterwards, and faces without a common corner cross only if they did before. A small tetrahedron may however collapse into two faces on the same corners.", "quantifier": "every mesh, every position of vertices and points, in exact arithmetic", "why_tests_cant": "Which collapses happen depends on rare positions of several points; tests look at one or two meshes.", "anchors": ["src/isosurface/snapper/thinner.hpp", "src/isosurface/snap.cpp", "src/isosurface/abstract_mesh.hpp"]}
{"id": "C54", "title": "The lattice samples exactly the extended box", "statement": "For every box and every invertible basis whose coordinates fit into int, the nested loops over the three coordinate ranges visit, layer by layer and each exactly once, the nodes in the twice extended box and no others, in the form the surface properties C29 and C30 ask for. Positions and coordinates are inverse to each other. The tetrahedron chosen for a point is one of the lattice, has the orientation of the basis and contains the point whichever way ties are sorted, and the barycentric formula finds the weights; for a point of the box its corners lie in the once extended box, and all neighbours of such nodes are sampled. A point clamped to a node belongs to the node. However, the range of a layer whose plane misses the box converts an infinity to int, which is undefined, and the first and the last layer are such unless a corner of the box lies in them.", "quantifier": "every box, basis, point and tie order, in exact arithmetic", "why_tests_cant": "A node missed by the ranges leaves a hole only where the surface passes there; the undefined conversion gives a harmless number on common machines.", "anchors": ["include/polatory/isosurface/rmt/primitive_lattice.hpp", "include/polatory/isosurface/rmt/lattice.hpp", "include/polatory/geometry/bbox3d.hpp"]}
{"id": "C55", "title": "A merged vertex keeps creases and corners", "statement": "The place computed for a merged vertex is the only point of least area-weighted squared distance to the planes of the incident faces among the points reached from the centroid along the strongly resisted directions, and never worse than the centroid. If no resistance is small but not zero it is a best point of all, the nearest such to the centroid; so if the planes have a common point it lies in all of them. A flat patch keeps the centroid. The ridge between two faces of equal area is kept exactly if they bend by more than about 3.6 degrees. The place always belongs to the lattice node the vertex was made for, also after it was moved onto the bounding box.", "quantifier": "all triangles, anchors, anisotropies, and all eigendecompositions of the matrix, in exact arithmetic", "why_tests_cant": "A wrong fit only rounds off creases a little; the choice of eigenvectors is free when eigenvalues coincide.", "anchors": ["src/isosurface/quadric_position.hpp", "src/isosurface/vertex_clusterer.hpp"]}
{"id": "C56", "title": "Vertices are moved towards the level set without damage", "statement": "The gradient and value a vertex is moved by are the least squares fit of a linear function to the four samples, and a linear field is hit exactly unless the step is longer than half the resolution, to which it is cut without changing its direction. Refinement moves each vertex at most once, to that goal, in such a way that no face at it turns over, leaves the faces as they are, and faces without a common corner cross afterwards only if they did before; a vertex whose move is refused keeps its place. It throws nothing if old and new places of different vertices are different. If the goal of a vertex is the place of another one it may throw out_of_range.", "quantifier": "every field, mesh and anisotropy, in exact arithmetic", "why_tests_cant": "Coinciding goals and refused moves need rare positions; a slightly wrong gradient still moves vertices in the right direction.", "anchors": ["src/isosurface/vertex_refiner.hpp", "src/isosurface/refine.cpp", "src/isosurface/face_grid.hpp", "src/isosurface/utility.hpp"]}
{"id": "C57", "title": "Generating a surface ends, and keeps what snapping achieved", "statement": "The snapping loop of the isosurface generation makes at most twenty turns and stops because all points are honored, because the hash of a mesh repeats, or because of the limit; if different meshes have different hashes, stopping at a repeated hash loses nothing, since all further turns would only revisit meshes already seen, each with points not honored; with a collision of hashes it may stop one turn too early. The two final rounds of thinning and smoothing always succeed on a manifold mesh with different vertices at different places and give such a mesh with no more faces, the same boundary, vertices at old places, all honored points still honored and no crossing of faces without a common corner unless there was one. If clustering, refining and snapping keep meshes manifold, so is the mesh handed to clipping, and if the loop ended because all points are honored, they are honored by it. A lattice without a surface gives the empty or the entire mesh by the sign of the field. Snap tolerances are accepted exactly if absent or one per point, all in [0, 1].", "quantifier": "all meshes and points, all behaviours of clustering, refining, snapping and hashing within their contracts, in exact arithmetic", "why_tests_cant": "What survives a chain of a dozen mesh operations is not seen on single meshes; hash collisions cannot be provoked by tests.", "anchors": ["include/polatory/isosurface/isosurface.hpp", "src/isosurface/snap.cpp", "include/polatory/isosurface/mesh.hpp", "src/isosurface/snapper/smoother.hpp", "src/isosurface/snapper/thinner.hpp"]}
{"id": "C58", "title": "Fitting a variogram minimizes the weighted error of the model it returns", "statement": "In a bin of distinct points the squared residual given to the solver is the squared difference between the bin's gamma and the model's times the square of the weight, which is what its name says, and vanishes exactly if the two agree. The model's gamma starts at the nugget, stays within the total sill and does not fall with the distance (spheroidal functions aside). Whatever parameters the solver tries, the cost function throws nothing and evaluates the model at the nearest admissible ones, failing exactly if a range is zero; admissible parameters are evaluated as they are, by the very model that is returned for them. The angle and quaternion give rotations, and along the rows of the rotation the range is divided by the scales, so the first is the longest. The anisotropy of the given model is dropped even if it is not fitted; a polyharmonic function with its default constant makes the cost function fail always; a bin of coincident points has no finite residual with the default weights.", "quantifier": "all models, variograms, weights, parameters and rotations, in exact arithmetic; the solver may try anything", "why_tests_cant": "The fit is judged by eye; a cost that belongs to another model than the one returned, or a weight with the wrong exponent, still gives a plausible fit.", "anchors": ["include/polatory/kriging/variogram_fitting.hpp", "include/polatory/kriging/variogram_fitting_1d.hpp", "include/polatory/kriging/variogram_fitting_2d.hpp", "include/polatory/kriging/variogram_fitting_3d.hpp", "include/polatory/kriging/weight_function.hpp", "include/polatory/model.hpp"]}
{"id": "C59", "title": "The printed description tells the truth about the model", "statement": "For every anisotropy with positive determinant, and any eigendecomposition the solver returns, the axes form a rotation, the printed ranges are positive and ordered from the longest, and along each axis the function with its anisotropy is the isotropic function with the printed range. A fitted anisotropy is described by exactly the ranges it was fitted with. In two dimensions the angle lies in [0, 180) and gives the direction of the axis; in three dimensions azimuth, dip and rotation lie in [0, 360), [0, 90] and [0, 180) and turning by them gives the same axes, whatever Euler angles were found. The description throws exactly for polyharmonic models.", "quantifier": "all anisotropies in one to three dimensions, all eigendecompositions, all Euler angles, in exact arithmetic", "why_tests_cant": "The text is only compared by eye; a wrong case in the normalization of the angles shows only for axes in some octants.", "anchors": ["include/polatory/model.hpp", "include/polatory/geometry/anisotropy.hpp"]}
{"id": "C60", "title": "The plane estimator measures the distance from the best point, line and plane", "statement": "For at least three points and any singular value decomposition, the point, line and plane errors are the root mean square distances from the best of all points, all lines and all planes, apart from the lower limits relative to each other, and the normal is that of a best plane. Hence errors and plane factor do not depend on the decomposition found. The plane factor lies between 1e-10 and 1e10, is 1 for points in a line, and is 1e10 times the ratio of line and point error for points in a plane but clearly not in a line. With fewer than three points the behaviour is undefined in a release build.", "quantifier": "all sets of points, all singular value decompositions, in exact arithmetic", "why_tests_cant": "Tests compare normals on a sphere; that no other plane is nearer cannot be tested, and the limits act only on degenerate neighbourhoods.", "anchors": ["src/point_cloud/plane_estimator.cpp", "include/polatory/point_cloud/plane_estimator.hpp"]}
{"id": "C61", "title": "The command line spells exactly the models it should", "statement": "A token counts as a number exactly if it is an optional minus, digits with at most one point and an optional exponent, and as an identifier exactly if it is a letter or underscore followed by letters, digits and underscores; no token is both. The arguments give a model exactly if they spell a list of functions, each a known name followed by its parameters and any number of anisotropies of dim * dim numbers, that the constructors accept with the given degree and nugget; the model has these functions in this order, each with its last anisotropy. This spelling is unambiguous. Anything else is answered by an exception; the parser always ends and never reads past its input.", "quantifier": "all lists of tokens, all dimensions, degrees and nuggets, any reading of numbers", "why_tests_cant": "A parser is tested on a few command lines; that nothing else is accepted, and that all of the right ones are, concerns infinitely many.", "anchors": ["examples/common/make_model.hpp", "examples/common/model_options.hpp", "include/polatory/rbf/make_rbf.hpp"]}
{"id": "C62", "title": "The commands read and write the columns they document", "statement": "Concatenation of matrices side by side (one above the other) succeeds exactly if the heights (widths) are equal, and then every entry of the result is the entry of the part that belongs there, whatever the memory contained. fit reads coordinates, value and bounds from the documented columns, and its right hand side is the values followed by the gradient components point by point; a missing column is not reported (undefined). evaluate writes coordinates, value and gradient of each point in its row, so an interpolant that meets its right hand side writes back the table it was fitted to. normals-to-sdf keeps exactly round(ratio n) normals for every shuffle. The combinations of options that fit refuses, and the function called otherwise, are as stated; --reduce together with --ineq is accepted and ignored.", "quantifier": "all matrices, numbers of parts, dimensions, tables, ratios and shuffles", "why_tests_cant": "The layout involves every index of arbitrarily large tables and uninitialised memory; tests check a few small tables.", "anchors": ["include/polatory/common/concatenate.hpp:12-88", "cli/fit_command.cpp:51-93", "cli/fit_command.cpp:162-186", "cli/evaluate_command.cpp:36-50", "cli/normals_to_sdf_command.cpp:41-52"]}
{"id": "C63", "title": "The saved variogram model is the best trial, and listed directions are those of the variograms", "statement": "fit-model-to-variogram saves the first model of least finite cost among its trials, or the unfitted input if no cost is finite. The azimuth and elevation listed by show-variogram lie in [0, 360] and [0, 90] and give back the direction or its opposite. The azimuth can be 360, and for one and two dimensions coordinates that do not exist are read.", "quantifier": "all lists of trials with finite, infinite and undefined costs; all unit directions", "why_tests_cant": "Undefined and infinite costs and the limits of the angles are measure-zero cases that tests do not reach.", "anchors": ["cli/fit_model_to_variogram_command.cpp:44-52", "cli/show_variogram_command.cpp:46-57"]}
{"id": "C64", "title": "The interpolation system has exactly one solution for every right hand side", "statement": "Between distinct points of any dimension the Gaussian, exponential and generalized Cauchy functions are positive definite, and the polyharmonic functions (with any smoothing constant) are so on the weights whose moments below their order vanish; this order is the one the model demands of its polynomial, and no smaller order would do. A model of any number of such terms with invertible anisotropies and any nugget has a positive definite matrix on these weights. Hence in one to three dimensions, for points without gradients and a degree that fits, the operator takes every right hand side for exactly one vector of weights as soon as the points are unisolvent and, without nugget, distinct; and both conditions are also necessary.", "quantifier": "all numbers of points, all positions, all terms among the ten named functions (and those of C67), all anisotropies, nuggets, right hand sides and thread schedules, in exact arithmetic", "why_tests_cant": "Definiteness is a statement about all configurations of points and all weights at once; a test sees only some matrices, whose smallest eigenvalues drown in rounding.", "anchors": ["include/polatory/rbf/cov_gaussian.hpp:19-24", "include/polatory/rbf/cov_exponential.hpp:19-24", "include/polatory/rbf/cov_generalized_cauchy3.hpp", "include/polatory/rbf/cov_generalized_cauchy5.hpp", "include/polatory/rbf/cov_generalized_cauchy7.hpp", "include/polatory/rbf/cov_generalized_cauchy9.hpp", "include/polatory/rbf/polyharmonic_even.hpp", "include/polatory/rbf/polyharmonic_odd.hpp", "include/polatory/interpolation/direct_operator.hpp", "include/polatory/polynomial/monomial_basis.hpp", "include/polatory/model.hpp"]}
{"id": "C65", "title": "Values and gradients together have exactly one interpolant", "statement": "With gradient data the matrix of values, gradients and Hessians is positive definite on the weights that vanish on the polynomials below the order, for any number of Gaussian, generalized Cauchy, triharmonic and smoothed biharmonic terms with invertible anisotropies, provided the gradient points differ from each other and the value points do so or there is a nugget; a value and a gradient may share a place. Hence in one to three dimensions the operator takes every right hand side for exactly one vector of weights as soon as the data are unisolvent; that and distinct gradient points are also necessary. A biharmonic term needs its smoothing constant: without it a value and a gradient at one place already make the system singular.", "quantifier": "all numbers and positions of value and gradient points, all terms among the named functions, all anisotropies, nuggets, right hand sides and thread schedules, in exact arithmetic", "why_tests_cant": "Definiteness speaks of all configurations and all weights at once, and the rows of gradients are limits of differences of values; a test sees only some matrices, whose smallest eigenvalues drown in rounding.", "anchors": ["include/polatory/interpolation/direct_operator.hpp:31-85", "include/polatory/preconditioner/mat_a.hpp:10-61", "include/polatory/rbf/rbf_base.hpp:40-53", "include/polatory/rbf/polyharmonic_odd.hpp:19-64", "include/polatory/rbf/polyharmonic_even.hpp:20-70", "include/polatory/rbf/cov_gaussian.hpp:33-62", "include/polatory/rbf/cov_generalized_cauchy3.hpp:35-63", "include/polatory/polynomial/monomial_basis.hpp"]}
{"id": "C66", "title": "The field functions have their zeros on the intended surfaces", "statement": "The 2.5-dimensional field is negative below the graph of the interpolant, zero on it and positive above, and its box covers the points of the surface's box. In the offset surface example the boundary of an oriented mesh consists of the directed edges without opposite; the signed distance is at most the distance to the mesh in absolute value, equal to it unless the closest point is at the boundary, where it is the distance to the plane of the face, and has the sign of the side of that face; inside a face both formulas agree. A function that satisfies the value or bound derived from the side of a point puts the point on this side of the surface. Refuted: for edges with three faces the boundary depends on their order; at an edge the sign depends on the face the search reports; points over the same point of the mesh contradict each other; closest points can leave the box for which the interpolant is prepared.", "quantifier": "all functions, points, meshes, faces and sides, any search that finds a closest point, in exact arithmetic", "why_tests_cant": "The claims hold for all points and meshes; the exceptions lie at edges and in special positions that examples do not contain.", "anchors": ["include/polatory/isosurface/rbf_field_function.hpp:21-23", "include/polatory/isosurface/rbf_field_function_25d.hpp:21-31", "examples/offset_surface/main.cpp:34-122", "examples/offset_surface/main.cpp:132-140", "examples/offset_surface/main.cpp:168-179"]}
{"id": "C67", "title": "The cubic and spherical covariance functions are positive definite up to three dimensions", "statement": "Between distinct points of one, two or three dimensions the forms of the cubic and of the spherical function with positive sill and range are positive definite, without any condition on the weights, as the library assumes by asking for no polynomial; between any points they are never negative, so no correlation exceeds 1. Hence the operator of such a term with an invertible anisotropy takes every right hand side for exactly one vector of weights, and C64 holds for models that contain such terms. The four spheroidal functions, with their constants as written, are not positive definite: there are three points on a line and weights for which the form is negative.", "quantifier": "all numbers of points, all positions in up to three dimensions, all weights, sills, ranges, anisotropies and thread schedules, in exact arithmetic", "why_tests_cant": "Definiteness is a statement about all configurations of points and all weights at once, and it is specific to three dimensions; the failure of the spheroidal functions is far below what rounding lets a test see.", "anchors": ["include/polatory/rbf/cov_cubic.hpp:34-60", "include/polatory/rbf/cov_spherical.hpp:34-55", "include/polatory/rbf/cov_spheroidal3.hpp:44-109", "include/polatory/rbf/cov_spheroidal5.hpp", "include/polatory/rbf/cov_spheroidal7.hpp", "include/polatory/rbf/cov_spheroidal9.hpp", "include/polatory/interpolation/direct_operator.hpp"]}
{"id": "C68", "title": "The fitted surface depends on the data alone, and is the one of least energy", "statement": "If the system has one solution, fitting exists and does not depend on the schedules. The surface meets the gradients exactly and the values up to nugget times weight; data from a polynomial of the degree give back that polynomial whatever the nugget; the surface is linear in the data; a further value that it already takes changes nothing; the order of the values and gradients, the place of the origin and a common factor on all terms and the nugget do not matter, nor for values do the axes and units if the anisotropies change along. The gradients the evaluator returns are the derivatives of the values it returns, wherever the terms are differentiable. Without a nugget the surface has the least energy of all functions of the model that meet the data, with any further centers; with a nugget it has the least sum of energy and squared misfit over nugget.", "quantifier": "all models, degrees, data, right hand sides, targets, permutations, translations, invertible matrices, factors and thread schedules, in exact arithmetic", "why_tests_cant": "These relate the results of two or more fits, or of one fit to all other functions; a test compares a few fits, up to the tolerance of the iterative solver.", "anchors": ["include/polatory/interpolation/direct_operator.hpp:31-85", "include/polatory/interpolation/direct_evaluator.hpp:38-88", "include/polatory/polynomial/monomial_basis.hpp:31-262", "include/polatory/rbf/rbf_base.hpp:40-53", "include/polatory/interpolant.hpp"]}
{"id": "C69", "title": "The tables of directions cover all directions, so no pair of a variogram is lost", "statement": "The directions offered for anisotropic variograms (1, 8 and 46 of them) are unit vectors up to 1e-7; no two lie on lines closer than 22.4 degrees (two dimensions) or 19.9 degrees (three); every vector is within 11.5 or 13.9 degrees of one. Hence with the automatic tolerance every pair is counted for a direction that close to it, and with a tolerance from that angle to 90 degrees every pair is counted for some direction, while a tolerance below 13.5 degrees loses pairs. A new calculator counts every pair exactly once. Setting directions makes them unit vectors, fails only without any, and neither their lengths nor their orientation matter; the tolerances accepted are -1 and the positive numbers. Coincident points are counted for the first direction, or for every direction if there is a tolerance.", "quantifier": "all vectors, points, values, tolerances, directions and thread schedules, in exact arithmetic", "why_tests_cant": "That every direction is near one of a table is a statement about a continuum; a test samples it.", "anchors": ["src/kriging/variogram_calculator.cpp:5-69", "include/polatory/kriging/variogram_calculator.hpp:28-105", "include/polatory/kriging/variogram_calculator.hpp:111-140"]}
{"id": "C70", "title": "The commands do to their tables what their options say", "statement": "unique keeps whole rows in their order, no two of them near and every other row near an earlier kept one, and running it again changes nothing. cross-validate appends one column, in which every row has the prediction of a model fitted to the rows of the other sets; sets are the whole parts of the column after the values. estimate-normals refuses contradictory options and otherwise uses the ones given or the documented defaults, and writes points and normals side by side. isosurface uses a nonempty box that is given and the box of the interpolant otherwise; a readable file of seeds has at least one point and all of them are used; the fourth column of the points to snap to is their tolerance; the anisotropy is read row by row. variogram converts degrees, refuses tolerances that are neither automatic nor positive, detrends before it transforms, and with --aniso loses no pair of points for angles from 15 to 90 degrees. Dimensions other than 1, 2 and 3 are refused. Refuted: different set numbers are different sets; a box given is used or refused; negative angles are refused; 10 degrees are enough.", "quantifier": "all tables, options, files, searches, fitting functions and dimensions, in exact arithmetic", "why_tests_cant": "The statements range over all tables and options; the commands have no tests.", "anchors": ["cli/unique_command.cpp:26-36", "cli/cross_validate_command.cpp:38-55", "cli/estimate_normals_command.cpp:42-74", "cli/estimate_normals_command.cpp:126-152", "cli/isosurface_command.cpp:42-68", "cli/isosurface_command.cpp:140-153", "cli/surface_25d_command.cpp:36-53", "cli/variogram_command.cpp:37-68", "cli/variogram_command.cpp:125-142"]}
{"id": "C71", "title": "The grids of the preconditioner solve their problems, and for small data the first iteration gives the fit", "statement": "For a model and data covered by C64 or C65, the matrix that a grid decomposes (the interpolation matrix reduced by the Lagrange basis) is symmetric and positive definite, so no pivot of the decomposition vanishes; the weights and coefficients that the grid computes are the only ones that fit its values and are orthogonal to the polynomials. With one level (small data) the preconditioner is the inverse of the operator, with or without a nugget, so the first iteration of FGMRES, from any admissible start, gives weights that solve the whole system exactly, with residual zero. With several levels and no nugget it inverts the operator on the coarse rows and its result is orthogonal to the polynomials.", "quantifier": "all dimensions 1 to 3, degrees -1 to 2, covered models, data with and without gradients, choices of the polynomial points that determine the polynomials, index lists of grids, solvers right for definite and for invertible matrices, schedules, starts and right-hand sides, in exact arithmetic", "why_tests_cant": "Positive definiteness of every reduced matrix and exactness of the inverse are statements about all data; tests only see that some residuals become small.", "anchors": ["include/polatory/preconditioner/coarse_grid.hpp:40-131", "include/polatory/preconditioner/fine_grid.hpp:59-143", "include/polatory/preconditioner/ras_preconditioner.hpp:70-200", "include/polatory/interpolation/solver.hpp:76-142", "src/krylov/gmres.cpp:9-50"]}
{"id": "C72", "title": "For small data solve never throws and fits the data; the levels are few and their sizes grow by at most ten", "statement": "With up to 2048 rows, 1024 points and 1024 gradient points, a model and data covered by C64 or C65 and at least one iteration allowed, Solver::solve, with FGMRES, the preconditioner and the residual test put in, returns weights: none is NaN, values and gradients are fitted within their tolerances, the weights are orthogonal to the polynomials, and they are the (orthogonalized) initial weights or fit exactly. This fails for initial weights that are not zero but at most 1e-12: setup takes them for zero and solution_vector adds them, so the first iteration misses the values by what they contribute and solve may throw. The preconditioner has k+2 levels exactly for more than 2048*10^k and at most 2048*10^(k+1) rows; the coarsest is asked to have 2048 points, and each level has less than ten times (plus rounding) the points of the next coarser one.", "quantifier": "all dimensions 1 to 3, degrees -1 to 2, covered models, small data, initial weights, tolerances, iteration limits, schedules, shuffles and solvers right for definite and for invertible matrices, in exact arithmetic", "why_tests_cant": "That no admissible small data set ever makes solve throw is a statement about all of them; tests try a few.", "anchors": ["include/polatory/interpolation/solver.hpp:60-142", "include/polatory/interpolation/residual_evaluator.hpp:55-151", "src/krylov/gmres_base.cpp:7-69", "src/krylov/fgmres.cpp:8-26", "include/polatory/preconditioner/ras_preconditioner.hpp:55-135"]}
{"id": "C73", "title": "Model files say what was spelled, survive fitting and extracting, and every model in them can be evaluated", "statement": "create-model writes a file or throws; loaded in the same dimension, with anything following, the file gives the functions spelled by the arguments, in order, with their names, completed parameters and last anisotropies, the nugget and the degree given. extract-model, applied to what fit made of that file, gives it back byte by byte; applied to an interpolant file that has lost its end it gives the right model or none. show-model prints the given nugget and sills and throws exactly for polyharmonic functions. Each of the six factories of FMM evaluators has the evaluator of every function, so whatever bytes a model was loaded from, its evaluators and operators can be made. Refuted: a file loaded in another dimension is refused; a model of one function made for two or three dimensions is loaded in one dimension, losing degree and nugget.", "quantifier": "all arguments, dimensions, nuggets, degrees, results of fitting, truncations, contents of memory, sizes and bytes", "why_tests_cant": "Byte identity of files and availability of 96 evaluators for all files; the commands have no tests.", "anchors": ["cli/create_model_command.cpp:21-25", "cli/extract_model_command.cpp:23-30", "cli/show_model_command.cpp:20-26", "cli/fit_command.cpp:46-93", "examples/common/make_model.hpp:35-85", "src/fmm/make_fmm_evaluator.cpp:40-270", "include/polatory/rbf/rbf_io.hpp:9-35", "include/polatory/interpolation/evaluator.hpp:50-60"]}
{"id": "C74", "title": "The fast operator is exactly the direct one for small data, on every call", "statement": "An Operator, with its four evaluators per function (fast ones, direct ones by radius search for functions of bounded support, and the sum of the two parts for spheroidal functions), is used in any way: set to points, called, set to other points, called again. Once it is set to fewer than 1024 points and 1024 gradient points at which the kernels are numbers, every call with the right number of weights succeeds, whatever happened before and whatever the accuracy, and its result is in every row exactly that of DirectOperator. For the models and data of C64 and C65 the kernels are numbers where needed. Hence the solver with the fast operator fits small data (C72 without the assumption on the operator).", "quantifier": "all sequences of set_points and calls, all models with positive ranges, anisotropies, points, weights, accuracies, nuggets, bases of polynomials, sortings and shuffles inside the fast evaluators, and searches that find what is nearer than the radius, in exact arithmetic", "why_tests_cant": "An operator is reused for every iteration and every set of points; that no history leaves a trace is a statement about all of them.", "anchors": ["include/polatory/interpolation/operator.hpp:38-109", "src/fmm/direct_evaluator.hpp:41-130", "src/fmm/direct_symmetric_evaluator.hpp:35-132", "src/fmm/spheroidal_evaluator.hpp:24-52", "src/fmm/spheroidal_symmetric_evaluator.hpp:24-46", "src/fmm/fmm_evaluator.hpp:60-160", "src/fmm/impl/cov_spheroidal3.cpp:1-16", "include/polatory/interpolation/direct_operator.hpp:31-85"]}
{"id": "C75", "title": "The search radius is the one asked for up to half a unit in the last place of a float", "statement": "KdTree::radius_search squares the radius as a double and rounds the square to float. For radii between 2^-63 and 2^63 it returns each point nearer than (1 - 2^-24) times the radius and none as far as (1 + 2^-24) times it, once, with its distance; radii of at most 12 binary digits are searched exactly; up to 2^-76 nothing is found, from 2^64 on everything; negative radii and NaN are refused; a tree without points leaves the caller's vectors alone. knn_search returns the nearest min(k, n) points and refuses k <= 0. kMinDistance is exactly 2^-63, so what DistanceFilter keeps is at least (1 - 2^-24) distance apart and what it drops is nearer than (1 + 2^-24) distance to an earlier point that is kept; without the factors both fail, for the doubles 0.1 and 0.3. The direct evaluators of the spherical and cubic covariance functions miss at most 3/2 2^-48 and 35/4 2^-96 of the sill times the sum of the absolute weights.", "quantifier": "all points, radii, distances, weights, dimensions and search libraries that are right in exact arithmetic", "why_tests_cant": "The error is in the eighth digit and at the edge of the radius only; tests compare with radii and points for which it does not matter.", "anchors": ["src/point_cloud/kdtree.cpp:30-64", "src/point_cloud/kdtree.cpp:80-106", "include/polatory/point_cloud/distance_filter.hpp:23-65", "src/fmm/direct_evaluator.hpp:41-68", "include/polatory/rbf/cov_spherical.hpp:34-41", "include/polatory/rbf/cov_cubic.hpp:34-44"]}
{"id": "C76", "title": "Evaluators that can be used again and again are exact for small problems", "statement": "Whatever an Evaluator (or a SymmetricEvaluator) was used for before, through any sequence of set_source_points, set_target_points (set_points), set_weights and evaluate(): once its sources were set and weights of the right number were set since, and the number of sources times the number of targets is less than 2^20 (for the symmetric one: fewer than 2^10 points and gradient points), evaluate() succeeds and returns exactly what the direct evaluator returns, for every accuracy and for every kind of radial basis function and its evaluators, including the polynomial part. So an interpolant can be queried any number of times, each answer is exact, the value and gradient at a point do not depend on what else is asked for, the values at the centers are those of the operator without the nugget, and the interpolant fitted to small data returns the data at its centers within the tolerances, up to the nugget. Setting the sources again loses the weights, even for the same points.", "quantifier": "all uses of the objects, dimensions, lists of radial basis functions, polynomial degrees, accuracies, sources, targets and weights", "why_tests_cant": "Tests evaluate a new object once or twice; they cannot cover all sequences of calls, and the leftovers of a forgotten set_weights look like numbers.", "anchors": ["include/polatory/interpolation/evaluator.hpp:50-144", "include/polatory/interpolation/symmetric_evaluator.hpp:40-114", "include/polatory/polynomial/polynomial_evaluator.hpp:15-33", "include/polatory/interpolant.hpp:58-75", "include/polatory/interpolant.hpp:201-210", "src/fmm/fmm_evaluator.hpp:120-157"]}
{"id": "C77", "title": "Incremental fitting reproduces all the data, or none of its centers", "statement": "If the solver fits the rows it is given and the evaluator is exact (as shown for small problems in C72 and C76), then, when incremental fitting returns with at least as many centers as the polynomial basis has functions (or with one center and a gradient for a linear polynomial, or with no center at all), the interpolant made of the chosen centers and returned weights is within the tolerance of EVERY value of the input and within the gradient tolerance of every gradient, centers included (up to nugget times weight there). It returns for separated points if the solver always succeeds. There are always enough centers without a polynomial, or with a constant and no gradients. In all other cases the loop can end before the solver was ever called: then the returned interpolant is zero everywhere and misses each of its centers by at least the tolerance. This happens for every data set whose values are all below the tolerance (points of a surface with normals as gradients) and any model with a polynomial: the gradients are ignored.", "quantifier": "all data, tolerances, models, polynomial degrees, nuggets, numbers of rounds, and all solvers and evaluators that keep their contracts", "why_tests_cant": "Tests fit random data with many more large values than basis functions; the early stop needs few values above the tolerance or values that are all zero.", "anchors": ["include/polatory/interpolation/incremental_fitter.hpp:37-214", "include/polatory/interpolant.hpp:121-148", "include/polatory/interpolant.hpp:291-305"]}
{"id": "C78", "title": "Fitting with bounds minimizes the energy subject to the bounds", "statement": "If InequalityFitter::fit returns with at least as many centers as basis functions, and its solver fits the centers to the tolerance with weights orthogonal to the polynomials, then the interpolant meets every value and every lower and upper bound of the data up to the tolerance; every center that has no value takes its lower bound with a positive weight or its upper bound with a negative weight; and no function of the model, even with further centers, that meets the values and the bounds has an energy smaller by more than the tolerances times the weights. Without a tolerance no other function has as little energy.", "quantifier": "All environments of the fitter, all data, models with definite terms and polynomials of degree up to 2, tolerances, runs that return, and all competing functions of the model with any number of further centers.", "why_tests_cant": "A test compares values with bounds for a few data sets; that the active set found by the loop is the optimal one is a statement about all other functions.", "anchors": ["include/polatory/interpolation/inequality_fitter.hpp:43-187"]}
{"id": "C79", "title": "Bit sets, the vertex table of a node and zip_sort keep what is put into them", "statement": "Popping an unsigned integer of any width until -1 yields each set bit once, lowest first; bit_count is their number and bit_peek the first of them. A lattice node that packs vertex indices behind 16-bit sets behaves as a map: vertices inserted on distinct edges in any order are found on those edges and no others. zip_sort reorders two ranges together: the pairs are a sorted permutation of the pairs given, provided no sort key is NaN, and for the rows of a subdomain the result does not depend on the sorting algorithm. With one NaN among different keys the comparison is not an ordering and the sort is undefined.", "quantifier": "Every width and every bit set; every sequence of insertions on distinct edges; every comparison, every pair of ranges, every sorting algorithm meeting the library's contract.", "why_tests_cant": "Tests cover a few bit patterns; the packed table has order-dependent insertion positions (14! orders), and what an invalid comparison does differs between library implementations.", "anchors": ["include/polatory/isosurface/bit.hpp:7-32", "include/polatory/isosurface/rmt/node.hpp:15-83", "include/polatory/common/zip_sort.hpp:11-31", "include/polatory/preconditioner/domain.hpp:30-41"]}
{"id": "C80", "title": "Tracking from seed points ends and finds the whole piece of the surface", "statement": "knn_nodes returns exactly the nodes at the given distance, each once. From any nonempty list of seed nodes inside a finite box, whatever the field (even with NaN), whatever the gradients and the choice of the next node, add_nodes_from_seed_points ends without an exception or an undefined read: the search visits ever smaller absolute values and ends at a node next to the surface or at a node with no smaller interior one nearby (up to distance ten); all sampled nodes lie in the box; there is exactly one vertex on each crossing edge between sampled nodes; every crossing edge that is connected with a sampled crossing edge through triangles in the box has its vertex, so a seed next to the surface yields its whole connected piece; and the mesh has no holes inside the box. The gradient that leads the search has the central differences of the absolute values along the face diagonals; a step adds its part perpendicular to the gradient to the corrector, and the next node is the candidate with the shortest corrector. generate_from_seed_points throws for no seed points; without that test a row that does not exist would be read.", "quantifier": "all boxes, fields, gradients, seed lists and iteration orders of the node list", "why_tests_cant": "Tests track a sphere from a few seeds; the loop has no bound in the code, and its end and the connectedness of the result depend on the field.", "anchors": ["include/polatory/isosurface/rmt/lattice.hpp:68-248", "include/polatory/isosurface/rmt/lattice.hpp:534-605", "include/polatory/isosurface/rmt/lattice_coordinates.hpp:37-40"]}
{"id": "C81", "title": "The sign that tells an empty mesh from the entire space", "statement": "The value kept for one point of the box is the mean of the field at the corners of the tetrahedron of the lattice that contains the point, weighted by its barycentric coordinates, in whatever order and however often the nodes are evaluated; asking for it throws exactly if a corner was never evaluated. When the whole box is sampled it never throws. If no sampled edge carries a vertex, all corners have one sign, and an empty mesh becomes the entire space exactly if that sign is negative. For a seed point the node of the seed and its neighbours suffice, unless two lattice coordinates of the seed are halves of which one is negative and one is not: there generate_from_seed_points throws for an empty mesh.", "quantifier": "All boxes, bases with nonzero determinant, points, sorting orders of equal fractional parts, fields (with NaN) and evaluation orders.", "why_tests_cant": "Tests use a handful of fields; the failing seed points form a set of measure zero and need an empty mesh.", "anchors": ["include/polatory/isosurface/rmt/lattice.hpp:278-316", "include/polatory/isosurface/rmt/lattice.hpp:365-381", "include/polatory/isosurface/rmt/lattice.hpp:421-445", "include/polatory/isosurface/isosurface.hpp:118-122"]}
{"id": "C82", "title": "The levels of the preconditioner form a nested hierarchy", "statement": "For any positive number n of rows (points plus dim rows per gradient point), setting up the levels of the preconditioner ends, unless n exceeds 2048 by less than the number of polynomial points. The finest level is a permutation of all points with the polynomial points first; every level lists no index twice, starts with the polynomial points, contains the next coarser level, which has the number of rows asked for, and is divided into subdomains that own each of its indices once. The rows of the levels are nested as the residual updates require, and the coarsest has at most 2052 rows besides the polynomial points. For 2048 < n < 2048 + the number of polynomial points the setup never ends, because the polynomial points are not candidates but 2048 others are asked for. Without rows the number of levels is undefined behaviour.", "quantifier": "All dimensions, numbers of points and gradient points, polynomial points (up to ten), and all orders produced by sorting, clustering and the queue.", "why_tests_cant": "Tests use a few sizes; the sizes that hang are between 2049 and 2057 rows, depending on the polynomial degree.", "anchors": ["include/polatory/preconditioner/ras_preconditioner.hpp:67-108", "include/polatory/preconditioner/ras_preconditioner.hpp:127-167", "include/polatory/preconditioner/domain_divider.hpp:38-110"]}
{"id": "C83", "title": "The vertices of the isosurface have different positions", "statement": "For every field without NaN and every sampled box, get_vertices finds a position for each vertex without an exception, and no two vertices have the same position: each lies off the ends of its edge by the minimum offset, and moving those closer to a side of the box than 1e-10 times the resolution onto that side merges none, provided four times that distance changes no lattice coordinate by the offset. Without anisotropy this holds at every resolution. With an anisotropy that squeezes an axis by about ten million, vertices on two opposite edges of a node on the side of the box are moved to the same point. In a box at least that distance wide each coordinate goes to the lower side, the upper side or nowhere.", "quantifier": "All fields, boxes, resolutions, invertible bases, and all parameters along the edges.", "why_tests_cant": "Tests look at a few surfaces; two vertices merge only for particular nodes on the sides of the box.", "anchors": ["include/polatory/isosurface/rmt/lattice.hpp:332-339", "include/polatory/isosurface/rmt/lattice.hpp:512-532", "include/polatory/isosurface/rmt/primitive_lattice.hpp:19-26"]}
{"id": "C84", "title": "No point is knocked off the snapped surface unnoticed", "statement": "Every accepted step of the snapper, whether it moves a vertex, puts a point on an edge or into a face, lists exactly the snap points that some committed face honored before the step and none honors after it: boxes in the face grid, cached lists of honored points and the two broad-phase queries lose none, although a vertex move asks only the faces at the vertex. A face honors a point just when one of its points is within the tolerance. A point honored by both patches at an edge is listed twice by an edge step, so the main loop queues it twice and takes two from its budget.", "quantifier": "All positions, faces, tolerances that are not negative, sequences of steps, and all query results that visit at least the overlapping items.", "why_tests_cant": "Tests count honored points at the end; a stale cache or box would lose a point only for particular orders of steps.", "anchors": ["src/isosurface/snapper/snapper.hpp:250-256", "src/isosurface/snapper/snapper.hpp:315-364", "src/isosurface/snapper/snapper.hpp:384-451", "src/isosurface/snapper/snapper.hpp:657-768"]}
{"id": "C85", "title": "The search for intersecting faces misses no crossing pair", "statement": "For a mesh whose faces have three different corners, intersecting_faces returns one increasing list of faces without repetitions, the same for every division of the pairs among threads and every order in which the threads finish. Both faces of every pair that has a common point outside of the simplex of its common corners are in it, and each listed face has another face for which the exact test said yes. Exactly the faces are listed whose test with a face of a common grid cell says yes. When the clustering of vertices uses this finder, no merged vertex of the resulting mesh is a corner of a crossing face or next to one. A face with two corners in one place makes the test throw inside the parallel region, which ends the program.", "quantifier": "All meshes with coordinates whose cell numbers are ints, all resolutions, all monotone roundings of the division, all schedules.", "why_tests_cant": "Tests only check that a good mesh has no intersecting faces; a pair lost by the grid or by the threads would go unnoticed.", "anchors": ["src/isosurface/mesh_defects_finder.cpp:22-76", "src/isosurface/face_grid.hpp:32-64", "src/isosurface/vertex_clusterer.hpp:107-159"]}
{"id": "C86", "title": "RBFs behave like values", "statement": "An Rbf owns an object through a unique pointer. Whatever a program constructs, copies, moves, assigns, changes, reads, compares and destroys, it sees exactly what it would see if its variables held plain values: a change of one RBF never shows in a copy of it, a change that throws leaves the RBF as it was, every object has exactly one owner and none is left when the variables are gone or deleted twice. Assigning from an empty RBF, for example one that was moved from, follows a null pointer although copy construction allows for it. An RBF with a parameter that is not a number equals itself but not its copy.", "quantifier": "All programs over any number of RBF variables, all stored values.", "why_tests_cant": "Tests copy single models; sharing, leaks and deleted objects show up only in particular sequences.", "anchors": ["include/polatory/rbf/rbf.hpp:12-117", "include/polatory/rbf/rbf_base.hpp:26-34", "include/polatory/rbf/rbf_base.hpp:71-99"]}
{"id": "C87", "title": "The direct evaluator goes by its latest settings", "statement": "A DirectEvaluator keeps sources, targets and weights from call to call, and a polynomial evaluator keeps its own copy of targets and weights. Whatever was called before, evaluate returns the values for the sources, targets and weights set last, in every thread schedule; once weights for the present sources are set, evaluations at any sequence of targets are all defined and exact. Weights of a wrong number fail an assertion. Sources set after the weights do not: with fewer sources, evaluate returns values made from weights of other points.", "quantifier": "All sequences of calls, all numbers of points and gradient points, all RBFs and bases, all thread schedules.", "why_tests_cant": "Tests set everything once and in the same order.", "anchors": ["include/polatory/interpolation/direct_evaluator.hpp:24-146", "include/polatory/polynomial/polynomial_evaluator.hpp:9-42"]}
