# Formal model of polatory in Rocq (Coq 8.16.1)

## 1. Layout

    properties.jsonl            the English properties, C01 ... C87
    MANIFEST.json               property -> theorem names, status and a note
    seeded/LOG.jsonl            seeded-bug (mutation) experiments, section 7
    rocq/theories/Model/X.v     executable model of a part of /repo, each definition citing file:lines
    rocq/theories/Spec/X.v      small specification used by the theorem statements only
    rocq/theories/Proofs/X.v    lemmas
    rocq/theories/Props/X.v     property theorems: statement, `exact lemma`, Print Assumptions, Examples

A theorem is named after its property (`C10_filter_separated`), with the suffix `_partial` when it
proves only a part and `_refuted` when it exhibits a witness against the naive expectation. There is
no `_partial` theorem at present. Each Props file contains, next to a theorem with hypotheses, an
`Example` that satisfies the hypotheses with a non-trivial value.

The order of work was: properties, then this document, then model, specification and proof of each
property, then wrong versions of the model (section 7).

## 2. Modelling conventions

* Sizes, counts and indices are `nat` (or `Z` where the sign matters). Overflow of `Index`
  (`ptrdiff_t`) is not modelled, except where a narrower `int` is used and can overflow (spatial grid).
* Undefined behaviour (out-of-range access, null dereference, dangling read, uninitialised read) and
  exceptions are distinct outcomes (`Model/Outcome.v`: `Ok`, `Throw e`, `UB`), never a default value.
  Exhausted fuel is `None`, again distinct; theorems either bound the fuel needed or state that no
  fuel suffices.
* `POLATORY_ASSERT` is `assert` and is compiled out in release builds; it is modelled as what happens
  without it.
* Floating point: geometric and analytic claims are stated over the real numbers `R`; rounding is not
  modelled, and every such model file says so. Where NaN or infinity decides the outcome (the
  convergence test, signs of the field, validation `!(x > 0)`, bounds), a value type with an explicit
  NaN or infinity is used. Claims that only need an ordering or an opaque scalar are polymorphic in
  the scalar type and hold for doubles as well.
* External code (Eigen factorizations, FLANN, ScalFMM, Ceres, Boost, the filesystem, random generators,
  user callbacks) enters as an argument; theorems quantify over it, and what is assumed of it is an
  explicit hypothesis.
* OpenMP loops are an arbitrary assignment and order of iterations, critical sections are executed in
  an arbitrary order; theorems quantify over the schedule. Races within one iteration's own data are
  excluded by the theorems on who writes which row (C16, C22).
* Unordered containers are traversed in an arbitrary order given as an argument.
* A comment `Within f:a-b` marks a definition that models a part of the lines a-b; `Helper` marks
  list and vector notions that stand for Eigen or standard library expressions.

## 3. Properties, models and methods

| id | model | method |
|----|-------|--------|
| C01, C02, C14 | Interpolant: state machine with an evaluator cache; solver as oracle | refinement to a two-state lifecycle by induction over call histories; witnesses for aliasing, stale and null evaluators |
| C03, C04 | Io: byte streams, all serialised types, load and save | round trip with arbitrary trailing bytes; classification of every proper prefix of a file |
| C05, C06 | RbfModel | induction over the functions |
| C07 | ComplementaryIndices: sort and set_difference into a buffer | induction, with the capacity of the buffer |
| C08 | Table: characters, lines, cells | induction over lines |
| C09 | Bbox over reals with infinities | order theory per axis |
| C10 | DistanceFilter with radius search | invariant of the scan |
| C11, C12 | IncrementalFitter | loop invariant, measure |
| C13 | InequalityFitter | loop invariant; witnesses |
| C15 | Solver, residual evaluator, with NaN | case analysis, induction on iterations |
| C16 | Operator: direct and fast operator, mat_a, schedules | sum exchange, permutation invariance |
| C17-C19 | Rbfs: all functions, gradients, Hessians, kernels, direct evaluators | derivatives in the reals of the standard library |
| C20 | MonomialBasis | derivatives; enumeration of exponents |
| C21 | Gmres: GMRES, MINRES, FGMRES with Givens rotations | norm invariance by induction, least squares |
| C22, C23 | DomainDivider | recursion invariant, permutation, measure |
| C24 | Grid: elimination in the coarse and fine grids | linear algebra over functions `nat -> R` |
| C25 | BinaryCache | refinement to a map from ids to byte strings |
| C26 | LdltPacking | invariant over rows |
| C27, C46 | Fmm: evaluator, symmetric evaluator, configuration search | sums over permutations; state machine, witnesses |
| C28 | LruCache with addresses | refinement to recency lists |
| C29, C30, C44, C54 | Lattice, PrimitiveLattice | finite case analysis lifted to every field by cancellation of sides; enumeration; convex geometry |
| C31 | Clip | convexity over the reals |
| C32 | AbstractMesh | invariant under each edit |
| C33 | MeshDefects, DisjointSets | reachability, refinement |
| C34 | SpatialGrid | refinement to a finite map of boxes |
| C35, C48 | Snapper, Triangulation with predicate oracles | counting invariants, measure |
| C36 | VertexClusterer | measure, parity |
| C37, C38, C39 | NormalEstimator, SdfData, RandomPoints | invariants, algebra |
| C40-C43 | CrossValidate, Variogram, NormalScore, Detrend | induction, permutation invariance, algebra |
| C45 | Operator.v, Fmm.v: splitting of the accuracy | algebra |
| C47 | UnisolventPointSet | invariant; witness |
| C49 | RasPreconditioner | step invariant; witness for the nugget |
| C50, C51 | PointTriangle, Predicates (exact predicates) | convex geometry |
| C52, C53, C56 | Smoother, Thinner, Refiner on AbstractMesh | invariants over the queue |
| C55 | Quadric with an eigendecomposition as argument | spectral algebra |
| C57 | Generate: the loop that combines all stages | invariant; witness with colliding hashes |
| C58, C63 | VariogramFitting, Commands | algebra; argmin of a list |
| C59 | Description with an eigendecomposition as argument | algebra, trigonometry |
| C60 | PlaneEstimator with a singular value decomposition as argument | variational characterisation |
| C61 | ModelArgs: regular expressions, tokens, options | derivatives of expressions; unique reading |
| C62 | Commands: concatenations, columns of the tables | index arithmetic |
| C64 | Rbfs, MonomialBasis, Operator: the interpolation matrix | conditional definiteness by Schoenberg-type mixtures of Gaussians (integrals of the standard library), then elimination |
| C65 | the same with gradient rows | rows as limits of difference quotients; Gaussian lower bounds and test functions isolating one row |
| C66 | FieldFunctions, with the closest-point search as an argument | geometry; set invariant over the edges; witnesses |
| C67 | Rbfs: the cubic and spherical functions; the interpolation matrix | turning bands: mean over directions of a positive definite function on the line, as limits of averages over grids; compact support makes it strict |
| C68 | Operator, MonomialBasis, Rbfs: the fitted weights and the evaluated surface | from unique solvability: the transformed weights solve the transformed system; tables of the monomials at moved points; the form of the difference of two fits for the energy |
| C69 | Directions, Variogram | covering of the sphere checked by subdividing the cube into cells, each inside a convex cone around a row (integer computation) |
| C70 | MoreCommands: unique, cross-validate, variogram, estimate-normals, isosurface, surface-2.5d | the models of the library functions they call (C08, C10, C40, C69) |
| C71 | GridProblem: the grids (Grid), the operator, the monomials and GMRES put together | congruence of the definite matrix of C64/C65 with the columns of Q; Schur complements for the pivots; uniqueness of the saddle point problem |
| C72 | SolverRun: Solver with Gmres, Operator, RasPreconditioner and GridProblem put in; the number and sizes of the levels | C71 for the first iteration, the test of C15 in both directions; logarithms for the levels |
| C73 | ModelFiles: the commands around model files, on the bytes of Io and the parser of ModelArgs; the factories of FMM evaluators | C03 and C61 composed, C04 for prefixes, C59 for the description |
| C74 | FastOperator: Operator as an object with its evaluators (Fmm, direct ones by radius search, sums of two parts); any sequence of set_points and calls | one contract for all evaluators (what was set last is what is summed), C27 and C45 for the fast ones, C19 for the parts, C16 for the direct operator, C72 for the solver |
| C75 | KdTree: radius_search and knn_search with the radius rounded to double and float (the points and their distances are exact), the search of DistanceFilter | relative error of a rounding, an exact search as contract of FLANN, C10 for the filter, the double and fourfold zeros of the two functions for the direct evaluators |
| C76 | Evaluator, SymmetricEvaluator and PolynomialEvaluator as objects used any number of times, made of the evaluators of C74 (their boxes are within the unmodelled part of the fast ones) | an invariant per evaluator that says what it was given last, the contracts of C74, C16 for the sums, C74 for the fitted interpolant |
| C77 | the loop of C11 with the solver of C72 and the evaluator of C76 as contracts; real numbers, finite tolerances | the last round of C11, C16 for the centers, an invariant for rounds without solving |
| C78 | the loop of C13 on real numbers with the solver of C72 and the evaluator of C76 as contracts; no nugget, as fit_inequality requires | the result of C13, the quadratic form of C68 expanded around the returned weights, definiteness of C64 |
| C79 | 16-bit sets as numbers below 2^16, std::sort as a contract that holds only for strict weak orders, null pointer as undefined | bit-level reasoning on N; the packed list as the list of table entries by edge; uniqueness of sorted lists with distinct keys |
| C80 | field values as reals or NaN, gradient and positions as arbitrary functions, node list order as a parameter, loops with fuel | the number of box nodes nearer to zero and the radius as a measure of the search; unvisited pairs as that of the tracking; induction along connected edges |
| C81 | real numbers with NaN, sorting as a parameter; the nodes evaluated as a list in any order | case analysis of the six tetrahedra and of the rounding of three coordinates; the run on a constant field for the counterexample |
| C82 | levels as lists of natural numbers; orders as parameters, sizes as real powers | induction over the levels with C22 and C23; the counts of C72 bound the numbers asked for |
| C83 | positions as real triples, node list of the lattice model | a point of an edge determines the edge up to the offset; the inverse basis bounds what snapping can do; one vertex per edge from C30 |
| C84 | positions, faces, boxes and caches of the patches; queries as functions that find all overlapping items | one invariant kept by every step; a face that did not change still honors what it honored; C34 supplies the queries, C50 the distance |
| C85 | grid of faces and triangle test of C34 and C51, pairs in the order of the queries, threads as an arbitrary division of the pairs | the invariant of the grid gives the pairs exactly; sorting makes the order irrelevant; crossing faces have overlapping boxes |
| C86 | heap of objects, variables with pointers that may be null, programs as lists of operations | simulation by a store of plain values; each pointer has one owner |
| C87 | the members of both evaluators as a record, calls as steps, loops of C16 | invariant: the copies agree with the latest settings; C16 for the values |

`MANIFEST.json` has a note per property with its exact scope.

## 4. Coverage

Modelled, function by function: everything under `include/polatory` and `src` except what is listed
below, and of `cli` the table handling, model arguments and all commands except those listed below.

Not modelled:

* `python_binding`, `examples` except the field of the offset surface (C66), `cli/main.cpp` and the option parsing of the commands (Boost), the
  commands create-model, extract-model and show-model (they load, convert and save a model, see C04 and C63), printing.
* Explicit instantiations (`src/*/impl`), `make_fmm_evaluator.cpp` (a dispatch on the type of
  function), `bit.hpp`, `zip_sort.hpp`,
  `polynomial_evaluator.hpp` beyond what `MonomialBasis.evaluate` states.
* The bodies of Eigen, FLANN, ScalFMM, Ceres, Boost and the operating system; they are arguments.
  In particular the FMM approximation error is not bounded: C46 is about which configuration is
  used, C45 about how errors add up.
* Rounding (see 2), running time, memory exhaustion other than `bad_alloc` on absurd sizes in files.
* Queries of the spatial grid made from inside the callback of another query.
* How far the spheroidal covariance functions are from being definite: that they are not is proved (C67), and that
  their branches differ by less than 1e-16 (C18), but no bound on the form. All other functions are treated (C64, C65, C67).

## 5. Findings about the source

Each is a theorem or follows from one. None was executed; the source is read as text.

Interpolant, solver and preconditioner
* `fit(interp.centers(), ...)`: the argument aliases the member that `clear()` empties, so the check
  of the sizes passes and the fit runs on emptied points (`C01_own_centers_refuted`).
* The evaluator is kept over a new fit, and is null before `set_evaluation_bbox`
  (`C02_stale_evaluator_refuted`, `C02_null_evaluator_refuted`).
* A truncated file is not detected: a cut model may load with uninitialised anisotropy and zero degree
  and nugget; a cut interpolant resizes to -1 rows (C04).
* NaN passes the convergence test (C15). GMRES with a starting vector that `isZero` is taken as zero
  even if it is tiny (`C21_tiny_start_refuted`); iterating after an exact solution divides 0 by 0;
  `converged_` is never set.
* The grids look up gradient rows with the local number of points instead of `mu_full` (C24,
  refutation), the multilevel residuals and `ap_` omit the nugget (`C49_nugget_refuted`).
* `choose_coarse_points` uses a reference after `pop` (undefined), its comparator is not irreflexive,
  it does not end when more rows are wanted than exist, and an empty root dereferences `end()` (C23).
* The unisolvent set search reports success with an empty set when every rcond is 0 or NaN, does not
  end with fewer points than basis functions, and is undefined without points (C47).
* Coincident points make the incremental fitter loop for ever (C12). Inequality fitter: out-of-range
  read for rows without constraint, residual taken from another row, endless loops with fewer centers
  than basis functions or a conflicting row (C13).
* The FMM configuration search leaves an empty configuration in the map when it fails, so a retry sums
  directly or builds an interpolator of order 0; a configuration is not validated again after
  `set_weights`; the else-branch of `set_weights` is dead (C46).

Functions
* The gradient of bh3 and the Hessian of bh2 are returned as zero at the origin, where they do not
  exist; the Hessian of the even functions is NaN at rho = exp(-1/K); the gradients of the exponential,
  spherical and spheroidal functions are NaN at the origin; the Hessians of the cubic and spherical
  function throw inside an OpenMP region (C17).
* The spheroidal function of order 5 steps up by less than 1e-16 at its junction (C18).
* The squared radius is converted to float in the kd-tree, which can drop sources within a relative
  3e-8 of the support radius; a search in an empty tree leaves the outputs unchanged. Parameters are not
  validated; a negative range throws inside OpenMP.
* The orders required of the polynomial (`cpd_order`) are sufficient and cannot be lowered
  (`C64_order_sharp`).
* With their constants as written the spheroidal functions are not positive definite, by a margin below any
  rounding (`C67_spheroidal_refuted`).
* Gradient data with a biharmonic function and no smoothing constant can give a singular system although
  nothing warns of it (`C65_biharmonic_refuted`).

Meshes
* Offset surface example: the sign at an edge depends on which of its faces the search reports, so a point
  outside a closed mesh may be called inside; equal closest points are not merged, so data can contradict
  each other or repeat a center; closest points may lie outside the prepared box; the boundary of a mesh with
  edges of three faces depends on the order of the faces (C66, four refutations).
* `AbstractMesh` accepts degenerate faces; `insert_on_edge` and `flip` throw on a fold (C32).
* A field that throws leaves the lattice in its state, so the next `generate` duplicates vertices (C44);
  a first seed on a rounding tie fails with "not all values are populated"; `floor` of an infinite
  number is converted to int (`C54_outer_layers`).
* Clipping: a triangle lying in a face of the box is lost, an "entire" mesh becomes empty, degenerate
  triangles are dropped, NaN coordinates count as exterior (C31).
* Snapping: a refused second attempt on an edge erases the earlier entry (crack); `aq_` is overwritten
  and not reverted; an interior vertex may go unused; statistics are all zero for a mesh without faces;
  a degenerate face throws only when its patch is split; a patch with an empty triangulation is
  recomputed each time (C35). The comment of the triangulation promises a fan when the polygon is not
  simple, but `faces()` is empty (C48).
* `point_triangle_closest` is NaN if the first two corners are equal (C50); `triangles_intersect`
  throws with equal corners and answers false for the same three corners (C51); `triangle_min_angle` is
  unused.
* The guard of the smoother never tests the two new faces against each other (C52). The link condition
  of the thinner ignores edges (`C53_fold_refuted`), kept faces are not tested against each other, the
  apex of a fold may vanish, a vertex with several closed umbrellas passes.
* The vertex refiner throws when its goal is another vertex (`C56_throw_refuted`) and turns an "entire"
  mesh into one that is not. A ridge is kept only above a bend of about 3.6 degrees (`C55_ridge`); an
  empty anchor is 0/0.
* The loop of `generate` may stop early on a hash collision (`C57_collision_refuted`).

Points, kriging and commands
* An empty first line of a table makes all rows zero columns wide (C08).
* `cross_validate` does not check the size of `set_ids` (C40). Angle tolerances above 90 degrees take
  fewer pairs; the lag distance is not validated (C41). Below 13.5 degrees the directions for three dimensions miss
  some pairs, and a pair of coincident points counts for every direction (C69). Normal scores of one value read out of range and
  of none have a NaN mean (C42).
* cross-validate truncates the set numbers, so 1.2 and 1.9 are one set, and so are -0.5 and 0.5; isosurface silently replaces a box with
  bounds the wrong way round; variogram takes an angle of -180/pi degrees for the automatic tolerance (C70).
* Normal estimation with fewer than three neighbours within the smaller radius is undefined (C37, C60).
  Normals that are not of unit length can make the generation of signed distances endless; coincident
  points give NaN; a single point without offset is repeated with value 0 (C38).
* Variogram fitting drops the anisotropy of the input even with `fit_anisotropy = false`; polyharmonic
  functions with scale 0 always fail the cost function; a bin of coincident points has an infinite
  residual (C58).
* show-variogram reads coordinates out of range in one and two dimensions, may print azimuth 360, and
  dereferences `end()` for empty bins; fit `--ineq` ignores `--reduce`; a table with too few columns is
  read out of range in release builds (the same in unique, cross-validate, estimate-normals and isosurface, C70) and extra columns are ignored; normals-to-sdf with a ratio above 1
  throws `length_error`; fit-model-to-variogram without a finite cost saves the unfitted model (C62, C63).

## 6. Trusted base and axioms

The Coq 8.16.1 kernel including `vm_compute`; the faithfulness of the hand-written model to the C++
text, argued by the citation at each definition. The C++ code is never executed here. No axiom is
declared in this development. `Print Assumptions` stands under each property theorem; the axioms that
occur are all from the standard library:

- `ClassicalDedekindReals.sig_forall_dec` (the construction of the real numbers)
- `ClassicalDedekindReals.sig_not_dec` (the construction of the real numbers)
- `FunctionalExtensionality.functional_extensionality_dep`
- `Classical_Prop.classic`

Theorems that do not speak of real numbers are mostly closed under the global context.

`coqchk` accepts the whole development.

## 7. Wrong programs

`seeded/LOG.jsonl` has a line per attempt: a definition of the model was changed into a plausible wrong
version (`edit`), everything that depends on it was recompiled, and

* `theorems_failed` lists the property theorems that could no longer be established: their own proof
  failed or `Print Assumptions` showed that they rest on a lemma whose proof failed,
* `lemmas_failed` and `examples_failed` list lemmas and examples likewise,
* `tightened` says what was added when an edit survived at first; the edit was then tried again and
  logged again.

An early version of the tool attributed failures to the wrong theorem when several failed in one file;
the log was regenerated from the start after that was found.
