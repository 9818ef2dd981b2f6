{
 "claims": [
  {
   "property": "C01",
   "status": "proved",
   "theorems": [
    "C01_history_refines_lifecycle",
    "C01_single_fit",
    "C01_last_accepted_fit_decides",
    "C01_own_centers_refuted"
   ],
   "note": "Call histories of the interpolant refine the two-state lifecycle. The own-centers theorem shows the exception: passing the interpolant's own centers() by reference to a fit breaks the precondition check."
  },
  {
   "property": "C02",
   "status": "proved",
   "theorems": [
    "C02_evaluate_uses_current_fit",
    "C02_evaluate_unfitted_throws",
    "C02_two_step_protocol",
    "C02_stale_evaluator_refuted",
    "C02_null_evaluator_refuted"
   ],
   "note": "evaluate() always uses the current fit. The two refutations cover the two-step evaluate_impl protocol when its setup step is missing or outdated."
  },
  {
   "property": "C03",
   "status": "proved",
   "theorems": [
    "C03_rbf_round_trip",
    "C03_model_round_trip",
    "C03_interpolant_round_trip",
    "C03_interpolant_consumes_exactly",
    "C03_variogram_set_round_trip"
   ],
   "note": ""
  },
  {
   "property": "C04",
   "status": "proved",
   "theorems": [
    "C04_empty_file_refuted",
    "C04_truncated_model_refuted",
    "C04_truncated_interpolant_refuted",
    "C04_model_prefixes",
    "C04_interpolant_prefixes",
    "C04_failed_stream",
    "C04_parameters"
   ],
   "note": "A truncated file is not always rejected (refutations with the exact result); C04_model_prefixes and C04_interpolant_prefixes say what becomes of every proper prefix."
  },
  {
   "property": "C05",
   "status": "proved",
   "theorems": [
    "C05_set_parameters_all_or_nothing",
    "C05_set_current_parameters_identity",
    "C05_constructed_rbf_valid",
    "C05_constructor_parameters",
    "C05_names_and_bounds_lengths",
    "C05_same_order"
   ],
   "note": "Anisotropy is not part of the parameter vector and is not modelled here."
  },
  {
   "property": "C06",
   "status": "proved",
   "theorems": [
    "C06_admissible_degree_accepted",
    "C06_default_degree_is_least",
    "C06_inadmissible_rejected"
   ],
   "note": ""
  },
  {
   "property": "C07",
   "status": "proved",
   "theorems": [
    "C07_complement_of_valid_set",
    "C07_invalid_set_never_returns"
   ],
   "note": "Complete: returns the complement exactly for valid index sets, throws/UB otherwise."
  },
  {
   "property": "C08",
   "status": "proved",
   "theorems": [
    "C08_read_table_meaning",
    "C08_comments_irrelevant",
    "C08_write_read_round_trip",
    "C08_empty_first_line_refuted",
    "C08_no_columns_refuted"
   ],
   "note": "Reading and writing are proved for arbitrary text. Exception proved: a file whose first line is empty is rejected or misread (C08_empty_first_line_refuted)."
  },
  {
   "property": "C09",
   "status": "proved",
   "theorems": [
    "C09_contains",
    "C09_from_points_least",
    "C09_convex_hull_least",
    "C09_convex_hull_laws",
    "C09_is_empty",
    "C09_transform_least",
    "C09_transform_defined",
    "C09_center_inside"
   ],
   "note": "Real arithmetic with infinities; rounding is not modelled."
  },
  {
   "property": "C10",
   "status": "proved",
   "theorems": [
    "C10_filter_is_greedy_thinning",
    "C10_filter_keeps_maximal_separated_subset",
    "C10_filter_defined",
    "C10_invalid_distance_rejected",
    "C10_apply_returns_kept_rows",
    "C10_apply_rejects_other_heights",
    "C10_unfiltered_throws",
    "C10_filter_idempotent"
   ],
   "note": "The kd-tree search is assumed exact (search_ok); the float radius cast in kdtree.cpp is outside the model."
  },
  {
   "property": "C11",
   "status": "proved",
   "theorems": [
    "C11_returned_fit",
    "C11_no_undefined_behaviour",
    "C11_weights_carried_over"
   ],
   "note": "Solver and evaluator are arbitrary functions with answers of the right size."
  },
  {
   "property": "C12",
   "status": "proved",
   "theorems": [
    "C12_terminates_on_separated_points",
    "C12_coincident_points_refuted"
   ],
   "note": "The bound holds for points that are separated at the minimum filter distance; coincident points with different values loop for ever (C12_coincident_points_refuted)."
  },
  {
   "property": "C13",
   "status": "proved",
   "theorems": [
    "C13_returned_fit",
    "C13_no_undefined_behaviour",
    "C13_active_set_update",
    "C13_unconstrained_row_refuted",
    "C13_residual_of_another_row_refuted",
    "C13_too_few_centers_refuted",
    "C13_few_active_rows_loop_refuted",
    "C13_conflicting_row_loop_refuted"
   ],
   "note": "Holds when there are at least as many centers as basis functions. Exceptions proved: unconstrained rows read out of range, residuals taken from another row, unfitted weights or endless loops with too few centers, endless loop for a row whose value violates its own bound."
  },
  {
   "property": "C14",
   "status": "proved",
   "theorems": [
    "C14_initial_weights_mapped",
    "C14_initial_weights_defined",
    "C14_different_model_zero",
    "C14_unfitted_initial_throws",
    "C14_refit_starts_from_previous_weights"
   ],
   "note": ""
  },
  {
   "property": "C15",
   "status": "proved",
   "theorems": [
    "C15_first_converged_or_throw",
    "C15_small_problem_reproduced",
    "C15_large_problem_reproduced",
    "C15_nan_refuted"
   ],
   "note": "The Krylov method is arbitrary. NaN residuals pass the test (C15_nan_refuted); weights that start as an exact solution are returned without the test; above 1024 points the fast evaluator's error adds to the tolerance."
  },
  {
   "property": "C16",
   "status": "proved",
   "theorems": [
    "C16_schedule",
    "C16_entries",
    "C16_symmetric",
    "C16_linear",
    "C16_evaluator",
    "C16_evaluator_entries",
    "C16_fast",
    "C16_mat_a"
   ],
   "note": "Real numbers; C16_schedule holds in any arithmetic with x + 0 = x. The kernels are any even functions with odd gradient and symmetric Hessian (C17)."
  },
  {
   "property": "C17",
   "status": "proved",
   "theorems": [
    "C17_gradient",
    "C17_hessian",
    "C17_defined",
    "C17_hessian_defined",
    "C17_constants",
    "C17_spheroidal_gradient",
    "C17_even",
    "C17_bh3_origin_refuted",
    "C17_bh2_origin_refuted",
    "C17_bh2_nan_refuted"
   ],
   "note": "Real arithmetic; decimal constants as written. Spheroidal functions: exact for constants satisfying the identities, and the coded gradients are within 2e-16 of those. The two refuted origins return 0 where no derivative exists; the Hessian of bh2 is NaN at the distance exp(-1/2) although it exists."
  },
  {
   "property": "C18",
   "status": "proved",
   "theorems": [
    "C18_sill",
    "C18_bounds",
    "C18_decreasing",
    "C18_spheroidal_decreasing",
    "C18_junction",
    "C18_support",
    "C18_step_refuted"
   ],
   "note": "Real arithmetic; decimal constants as written. Positive definiteness is property C64. C18_step_refuted: the order 5 spheroidal function rises by less than 1e-16 where its branches meet, hence the tolerance."
  },
  {
   "property": "C19",
   "status": "proved",
   "theorems": [
    "C19_value",
    "C19_gradient",
    "C19_hessian",
    "C19_kernel",
    "C19_support",
    "C19_near",
    "C19_symmetric",
    "C19_evaluator",
    "C19_sum"
   ],
   "note": "Real arithmetic with NaN and exceptions as outcomes. The fast part is taken as the exact sum, the fast multipole approximation of it is not bounded here. The radius search is a parameter that must return every source inside the radius; the code casts the squared radius to float, which can break this for sources very near the radius."
  },
  {
   "property": "C20",
   "status": "proved",
   "theorems": [
    "C20_size",
    "C20_monomials",
    "C20_independent",
    "C20_rows",
    "C20_cardinal",
    "C20_reproduces"
   ],
   "note": "basis_size for every degree; columns, derivatives, independence for degree 0-2 and dimension 1-3; Lagrange basis over an abstract inverse of the matrix at its points (C20_cardinal, C20_reproduces). Real arithmetic."
  },
  {
   "property": "C21",
   "status": "proved",
   "theorems": [
    "C21_fgmres",
    "C21_gmres",
    "C21_monotone",
    "C21_ends",
    "C21_minres",
    "C21_minres_monotone",
    "C21_minres_ends",
    "C21_tiny_start_refuted"
   ],
   "note": "Real numbers. C21_ends also shows that the step after the solution divides by zero."
  },
  {
   "property": "C22",
   "status": "proved",
   "theorems": [
    "C22_division",
    "C22_rounding",
    "C22_schedule"
   ],
   "note": "Sorting is an arbitrary reordering and the floating-point subdomain size is any function within half a row of (n+512)/2; both possible tie directions satisfy that. Schedules are arbitrary permutations of the writes of a level."
  },
  {
   "property": "C23",
   "status": "proved",
   "theorems": [
    "C23_selection",
    "C23_any_level",
    "C23_dangling_read_refuted",
    "C23_endless_refuted",
    "C23_no_candidate_refuted"
   ],
   "note": "Cluster geometry (sorting, nearest point) is arbitrary. The dangling read is undefined behaviour in the strict reading of the model; with an arbitrary value read instead, every selection that ends is correct, and with the popped level it ends."
  },
  {
   "property": "C24",
   "status": "proved",
   "theorems": [
    "C24_grid",
    "C24_coarse",
    "C24_wrong_rows_refuted"
   ],
   "note": "Real numbers, exact LDLT and LU answers. The general claim is refuted for grids with some of the points and gradient points (C24_wrong_rows_refuted)."
  },
  {
   "property": "C25",
   "status": "proved",
   "theorems": [
    "C25_get_returns_what_was_put",
    "C25_unknown_id_rejected",
    "C25_short_write_refuted"
   ],
   "note": ""
  },
  {
   "property": "C26",
   "status": "proved",
   "theorems": [
    "C26_save_load_lower_triangle",
    "C26_two_by_two_refuted"
   ],
   "note": ""
  },
  {
   "property": "C27",
   "status": "proved",
   "theorems": [
    "C27_evaluate",
    "C27_small_exact",
    "C27_setters",
    "C27_symmetric"
   ],
   "note": "For every history of set_accuracy/set_source_points/set_target_points/set_weights/evaluate calls (and the symmetric evaluator), every sorting permutation, kernel and far-field function. The far field of scalfmm is an arbitrary function of configuration, particles and target; summation is in exact reals."
  },
  {
   "property": "C28",
   "status": "proved",
   "theorems": [
    "C28_refines_abstract_cache",
    "C28_size_bounded",
    "C28_find_correct",
    "C28_use_keeps_most_recent_keys",
    "C28_use_returns_requested_entry",
    "C28_zero_capacity_refuted"
   ],
   "note": ""
  },
  {
   "property": "C29",
   "status": "proved",
   "theorems": [
    "C29_box",
    "C29_closed",
    "C29_normals",
    "C29_frame",
    "C29_tracked"
   ],
   "note": "Both the layer-by-layer path (generate) and the seeded path (generate_from_seed_points). Watertight relative to sampled or eligible nodes; the normals theorem allows any positions inside the edges, so it covers the clamped positions. Reals with NaN; rounding of positions is outside the model."
  },
  {
   "property": "C30",
   "status": "proved",
   "theorems": [
    "C30_box",
    "C30_position"
   ],
   "note": "Exactly one vertex per crossing edge, for any order within layers and any iteration order of the hash map. C30_position bounds the clamped position."
  },
  {
   "property": "C31",
   "status": "proved",
   "theorems": [
    "C31_in_box",
    "C31_each",
    "C31_parts",
    "C31_nothing_lost",
    "C31_edges",
    "C31_same_point",
    "C31_mesh",
    "C31_flat_refuted",
    "C31_entire_refuted"
   ],
   "note": "Real arithmetic, except that the cut point is the same from both sides in any arithmetic. The outcome of the incircle test is arbitrary. Triangles without area may be dropped, a triangle lying in a face of the box is dropped (C31_flat_refuted), and the mesh standing for all of space turns into the empty one (C31_entire_refuted)."
  },
  {
   "property": "C32",
   "status": "proved",
   "theorems": [
    "C32_construct",
    "C32_history",
    "C32_empty",
    "C32_opposite_involution",
    "C32_add_face",
    "C32_flip",
    "C32_insert_in_face",
    "C32_insert_on_edge",
    "C32_collapse",
    "C32_take_faces",
    "C32_degenerate_face_refuted"
   ],
   "note": "Consistency of opposite/adjacency data over every history of add, flip, split and collapse, with the exact failure condition of each. Faces must be proper triangles: a degenerate face is accepted and silently wrong (refuted variant)."
  },
  {
   "property": "C33",
   "status": "proved",
   "theorems": [
    "C33_union_find_classes",
    "C33_singular_vertices_exact",
    "C33_graph_connectivity"
   ],
   "note": "Union-find, the dense graph queries and singular_vertices (schedule of threads arbitrary). intersecting_faces depends on a floating-point triangle test and is not modelled."
  },
  {
   "property": "C34",
   "status": "proved",
   "theorems": [
    "C34_spatial_grid_query",
    "C34_face_grid_query",
    "C34_face_grid_any_of"
   ],
   "note": "Division by the resolution is rounded by an arbitrary monotone function; coordinates whose cell index does not fit an int are undefined behaviour and excluded. Queries nested inside a callback are not modelled."
  },
  {
   "property": "C35",
   "status": "proved",
   "theorems": [
    "C35_stats",
    "C35_terminates",
    "C35_indexed",
    "C35_positions",
    "C35_patches",
    "C35_rejected",
    "C35_edges",
    "C35_marks",
    "C35_total",
    "C35_rejected_refuted",
    "C35_empty_refuted"
   ],
   "note": "Snapper control flow and data with every geometric test an arbitrary function of the state: counts partition the points, at most nine candidates per point are taken from the queue, the emitted mesh is well indexed and holds input positions only, edge chains stay sorted, no exception when the tests stay in range. If a point already inserted counts as satisfied, points are inserted once, failed attempts change nothing and cached triangulations are current; C35_rejected_refuted shows the crack otherwise, C35_empty_refuted the zero counts for a mesh without faces."
  },
  {
   "property": "C36",
   "status": "proved",
   "theorems": [
    "C36_clustering",
    "C36_merged_pairs",
    "C36_one_node",
    "C36_out_of_range_throws",
    "C36_folds_removed",
    "C36_edge_parity"
   ],
   "note": "Topology only: positions are represented by their source (input vertex or cluster). The node of a vertex, the bounding-box skip test and the defect finder are arbitrary. The first wording claimed that no back-to-back pair remains; the code keeps pairs on purpose when an edge has another face count, so the statement now says exactly which are removed."
  },
  {
   "property": "C37",
   "status": "proved",
   "theorems": [
    "C37_direction",
    "C37_point",
    "C37_filter",
    "C37_knn",
    "C37_knn_few",
    "C37_radius",
    "C37_radius_refuted",
    "C37_closed",
    "C37_closed_ends"
   ],
   "note": "Neighbour searches and the plane estimate of a set of rows are parameters; real arithmetic. A second, smaller radius whose ball holds fewer than three rows makes PlaneEstimator read past the singular values (C37_radius_refuted). The order of the priority queue is arbitrary."
  },
  {
   "property": "C38",
   "status": "proved",
   "theorems": [
    "C38_data",
    "C38_identity",
    "C38_aniso",
    "C38_refuses",
    "C38_long_normals_refuted",
    "C38_coincident_refuted",
    "C38_single_refuted"
   ],
   "note": "Real arithmetic; answers of the tree are parameters with the property that they are nearest. Refuted without the hypotheses: normals longer than one make the loop endless, coincident points give NaN, a single point without an offset is repeated with value 0."
  },
  {
   "property": "C39",
   "status": "proved",
   "theorems": [
    "C39_cuboid",
    "C39_sphere",
    "C39_sphere_ends"
   ],
   "note": "Real arithmetic: rounding may put a point on the upper side of the cuboid or slightly off the sphere. Random numbers are an arbitrary sequence in the range of the distribution."
  },
  {
   "property": "C40",
   "status": "proved",
   "theorems": [
    "C40_held_out",
    "C40_no_leak",
    "C40_order",
    "C40_ok",
    "C40_sizes_refuted"
   ],
   "note": "Fitting and evaluating an interpolant is an arbitrary function that may throw; the traversal order of the hash set is an argument. Missing size checks are the refutation."
  },
  {
   "property": "C41",
   "status": "proved",
   "theorems": [
    "C41_pairs",
    "C41_terms",
    "C41_schedule",
    "C41_one_direction",
    "C41_wide_angle_refuted"
   ],
   "note": "Real arithmetic; lag distance positive. Conversion of out-of-range doubles to Index (lag distance 0, not validated by the code) is not modelled. Angle tolerances with a negative cosine are refuted (C41_wide_angle_refuted)."
  },
  {
   "property": "C42",
   "status": "proved",
   "theorems": [
    "C42_rearranged",
    "C42_monotone",
    "C42_transform",
    "C42_slope_even",
    "C42_slope_sorted",
    "C42_first_coefficient",
    "C42_back",
    "C42_gamma_ends",
    "C42_gamma_monotone",
    "C42_refuses",
    "C42_single_refuted"
   ],
   "note": "Exact arithmetic; the quantile function is any increasing function; std::sort any sorting permutation. The one-sample read past the end is C42_single_refuted; the empty vector (NaN mean) is not modelled."
  },
  {
   "property": "C43",
   "status": "proved",
   "theorems": [
    "C43_orthogonal",
    "C43_restores",
    "C43_least",
    "C43_polynomials",
    "C43_degrees"
   ],
   "note": "Real arithmetic; the LDLT solver is any solver that is right for consistent systems; consistency of the normal equations is proved, also for points that do not determine the polynomial."
  },
  {
   "property": "C44",
   "status": "proved",
   "theorems": [
    "C44_after_success",
    "C44_after_failure_refuted"
   ],
   "note": "C44_after_success: a successful call leaves a cleared lattice. C44_after_failure_refuted: a call after a throwing field function reuses the stale lattice and puts two vertices on one edge."
  },
  {
   "property": "C45",
   "status": "proved",
   "theorems": [
    "C45_budget",
    "C45_tight"
   ],
   "note": "Over exact reals; the bound is shown tight. The entries for values; gradient entries use the same formula with grad_accuracy."
  },
  {
   "property": "C46",
   "status": "proved",
   "theorems": [
    "C46_search",
    "C46_candidates",
    "C46_cheapest",
    "C46_retry",
    "C46_failure_repeats_refuted",
    "C46_fresh_accuracy",
    "C46_accuracy_after_set_weights_refuted"
   ],
   "note": "The search, the retry after a failure and the accuracy after set_accuracy are proved; that failures repeat and that accuracy survives set_weights are refuted. Undefined behaviour (an interpolator of order 0) on a retry is possible only if a configuration was in use before."
  },
  {
   "property": "C47",
   "status": "proved",
   "theorems": [
    "C47_found",
    "C47_throws",
    "C47_ends",
    "C47_few_points_refuted",
    "C47_no_points_refuted",
    "C47_empty_refuted"
   ],
   "note": "Random numbers are an arbitrary sequence, the Lagrange basis an oracle (throws, or a condition number, or NaN). The endless loop, the undefined distribution without points and the empty set for a zero/NaN condition are refutations."
  },
  {
   "property": "C48",
   "status": "proved",
   "theorems": [
    "C48_triangulation",
    "C48_too_few",
    "C48_labels",
    "C48_delaunay"
   ],
   "note": "All predicate outcomes (convex, covers, barycentric coordinates, incircle) are arbitrary functions; coordinates are rationals. The doc comment promises an unreliable fan for a non-simple polygon; faces() is empty there."
  },
  {
   "property": "C49",
   "status": "proved",
   "theorems": [
    "C49_residuals",
    "C49_coarse",
    "C49_orthogonal",
    "C49_linear",
    "C49_orthonormalize",
    "C49_nugget_refuted"
   ],
   "note": "Real numbers, evaluators as exact sums. The residuals omit the nugget (C49_nugget_refuted)."
  },
  {
   "property": "C50",
   "status": "proved",
   "theorems": [
    "C50_closest",
    "C50_equal_corners_refuted",
    "C50_snap",
    "C50_snap_box"
   ],
   "note": "Exact real arithmetic; division by zero is a separate outcome. All seven regions of the closest point search are shown exhaustive and right, including collinear corners; equal first corners refuted."
  },
  {
   "property": "C51",
   "status": "proved",
   "theorems": [
    "C51_segment",
    "C51_triangles",
    "C51_no_throw",
    "C51_equal_corners_refuted",
    "C51_segment_exact",
    "C51_triangle_exact",
    "C51_incircle",
    "C51_orient3d"
   ],
   "note": "Exact real arithmetic with the code's tolerances. Completeness for all positions (any projection axis), exactness away from the tolerance, no exception for distinct corners, in-circle identity; exception with equal corners shown as refuted."
  },
  {
   "property": "C52",
   "status": "proved",
   "theorems": [
    "C52_smooth",
    "C52_local_is_global",
    "C52_bend_bounds_flips",
    "C52_bend",
    "C52_refuses"
   ],
   "note": "Exact arithmetic; what the grids call back is any complete answer (C34). Local minimality of the result is not claimed: an edge whose other diagonal disappears elsewhere is not queued again. The two new faces of one flip are not tested against each other by the code."
  },
  {
   "property": "C53",
   "status": "proved",
   "theorems": [
    "C53_thin",
    "C53_drops",
    "C53_refuses",
    "C53_fold_refuted"
   ],
   "note": "Real numbers; the grids' answers are parameters that return everything they should. C53_fold_refuted: a tetrahedron within the tolerances becomes two faces on the same three corners."
  },
  {
   "property": "C54",
   "status": "proved",
   "theorems": [
    "C54_position",
    "C54_clamp",
    "C54_nodes",
    "C54_layer_undefined",
    "C54_outer_layers",
    "C54_tetrahedron",
    "C54_margins",
    "C54_defined_refuted"
   ],
   "note": "Model of primitive_lattice.hpp over the reals: position and coordinates, ranges, extended boxes, tetrahedron, barycentric coordinates, clamping. C54_nodes ties the loops of add_all_nodes to the layered sampling of C29/C30; C54_layer_undefined and C54_outer_layers say exactly when second_lattice_coordinate_range converts an infinity to int, with witness C54_defined_refuted. Finite basis entries and an invertible basis are assumed; floating-point rounding is not modelled."
  },
  {
   "property": "C55",
   "status": "proved",
   "theorems": [
    "C55_best",
    "C55_global",
    "C55_kept",
    "C55_flat",
    "C55_centroid",
    "C55_ridge",
    "C55_node"
   ],
   "note": "The eigendecomposition is taken as any correct one, sorted; exact arithmetic. C55_ridge gives the bend at which two equal faces stop being a ridge."
  },
  {
   "property": "C56",
   "status": "proved",
   "theorems": [
    "C56_fit",
    "C56_affine",
    "C56_step",
    "C56_refine",
    "C56_no_throw",
    "C56_empty",
    "C56_throw_refuted"
   ],
   "note": "Exact arithmetic; the face grid is assumed to report the faces whose boxes meet the query (C44). C56_throw_refuted: the goal of a vertex is the place of another."
  },
  {
   "property": "C57",
   "status": "proved",
   "theorems": [
    "C57_turns",
    "C57_cycle",
    "C57_collision_refuted",
    "C57_polish",
    "C57_generate",
    "C57_empty",
    "C57_validation"
   ],
   "note": "Smoothing and thinning are the models of C52 and C53; that clustering, refining and snapping keep a mesh manifold with vertices at different places is an assumption of C57_generate. Exact arithmetic."
  },
  {
   "property": "C58",
   "status": "proved",
   "theorems": [
    "C58_residual",
    "C58_weights",
    "C58_gamma",
    "C58_cost",
    "C58_final",
    "C58_rotations",
    "C58_axes",
    "C58_order",
    "C58_dropped_refuted",
    "C58_polyharmonic_refuted",
    "C58_coincident_refuted"
   ],
   "note": "The Ceres solver is not modelled; the theorems hold for whatever it tries. Eigen's rotation matrices are modelled by their formulas. Exact arithmetic."
  },
  {
   "property": "C59",
   "status": "proved",
   "theorems": [
    "C59_axes",
    "C59_fitted",
    "C59_angle2",
    "C59_angles3",
    "C59_description"
   ],
   "note": "The eigensolver and canonicalEulerAngles are given by their contracts (orthonormal eigenvectors with ascending eigenvalues; z-x-z angles). Text layout and rounding to printed digits are not modelled."
  },
  {
   "property": "C60",
   "status": "proved",
   "theorems": [
    "C60_errors",
    "C60_unique",
    "C60_factor",
    "C60_few_points"
   ],
   "note": "JacobiSVD is given by its contract (orthonormal right vectors whose images are orthogonal, lengths the descending singular values)."
  },
  {
   "property": "C61",
   "status": "proved",
   "theorems": [
    "C61_number",
    "C61_identifier",
    "C61_not_both",
    "C61_accepts",
    "C61_total",
    "C61_unique_reading",
    "C61_example"
   ],
   "note": "Regular expressions as an AST matched by derivatives, proved equal to the written grammar of numbers and identifiers. The parser of make_model (fuel = number of tokens, proved to suffice) accepts exactly the spellings of lists of functions. to_double, the determinant test and the doubles are abstract; the option parser of boost is not modelled."
  },
  {
   "property": "C62",
   "status": "proved",
   "theorems": [
    "C62_cols",
    "C62_rows",
    "C62_fit",
    "C62_missing_column",
    "C62_evaluate",
    "C62_evaluate_values",
    "C62_round_trip",
    "C62_normals",
    "C62_ratio",
    "C62_options",
    "C62_reduce_refuted"
   ],
   "note": "Matrices are functions of row and column over any type; asin, atan2 and the interpolant's evaluation are arbitrary. Refuted: C62_reduce_refuted."
  },
  {
   "property": "C63",
   "status": "proved",
   "theorems": [
    "C63_best",
    "C63_comparison",
    "C63_direction",
    "C63_azimuth_refuted",
    "C63_dimension"
   ],
   "note": "Costs are finite, infinite or not a number; angles are exact reals with any asin and atan2 that satisfy their definition. Refuted: C63_azimuth_refuted."
  },
  {
   "property": "C64",
   "status": "proved",
   "theorems": [
    "C64_functions",
    "C64_nonnegative",
    "C64_order",
    "C64_order_sharp",
    "C64_matrix",
    "C64_solved",
    "C64_solved_plain",
    "C64_needs_unisolvent",
    "C64_needs_distinct"
   ],
   "note": "For the ten functions exponential, Gaussian, generalized Cauchy 3-9, biharmonic and triharmonic (2d and 3d kinds); the cubic, spherical and spheroidal functions, which are definite only up to three dimensions, are not covered, nor are gradient rows. Exact real arithmetic: the rounding of an ill-conditioned system is outside."
  },
  {
   "property": "C65",
   "status": "proved",
   "theorems": [
    "C65_matrix",
    "C65_solved",
    "C65_solved_plain",
    "C65_defined",
    "C65_needs_unisolvent",
    "C65_needs_distinct",
    "C65_biharmonic_refuted"
   ],
   "note": "Exact arithmetic. Terms: Gaussian, generalized Cauchy, polyharmonic (biharmonic with a non-zero smoothing constant), Hessians between gradient points being numbers (always, except for the functions with a logarithm at one radius). The exponential, cubic, spherical and spheroidal functions are excluded: their gradients or Hessians are not defined at the origin."
  },
  {
   "property": "C66",
   "status": "proved",
   "theorems": [
    "C66_graph",
    "C66_box",
    "C66_boundary",
    "C66_edge",
    "C66_order_refuted",
    "C66_distance",
    "C66_closed",
    "C66_inner",
    "C66_sign_refuted",
    "C66_sides",
    "C66_conflict_refuted",
    "C66_outside_refuted"
   ],
   "note": "RbfFieldFunction, RbfFieldFunction25D, and of the offset surface example the boundary edges, signed distance, offset field and constraints, over the reals. The closest-point search and barycentric coordinates of libigl are arguments; the former is assumed to return a closest point. Four refutations show sign ambiguity at edges, contradicting data, closest points outside the box and dependence on the order of faces."
  },
  {
   "property": "C67",
   "status": "proved",
   "theorems": [
    "C67_functions",
    "C67_kinds",
    "C67_order",
    "C67_nonnegative",
    "C67_correlation",
    "C67_solved",
    "C67_spheroidal_refuted"
   ],
   "note": "Cubic and spherical functions strictly positive definite for d <= 3; solvability; spheroidal functions refuted."
  },
  {
   "property": "C68",
   "status": "proved",
   "theorems": [
    "C68_exists",
    "C68_unique",
    "C68_values",
    "C68_gradients",
    "C68_exact",
    "C68_polynomial",
    "C68_linear",
    "C68_more",
    "C68_order",
    "C68_moved",
    "C68_affine",
    "C68_scaled",
    "C68_scaled_terms",
    "C68_gradient",
    "C68_least",
    "C68_smooths"
   ],
   "note": "Relates fits by the operator to evaluations by the direct evaluator; unique solvability is a hypothesis that C68_values and C68_gradients supply."
  },
  {
   "property": "C69",
   "status": "proved",
   "theorems": [
    "C69_unit",
    "C69_apart",
    "C69_cover",
    "C69_nearest",
    "C69_wide_enough",
    "C69_too_narrow",
    "C69_default",
    "C69_axis",
    "C69_coincident",
    "C69_angle",
    "C69_lag",
    "C69_directions",
    "C69_lines"
   ],
   "note": "Tables, setters and which pairs each direction takes; the angles are given by their cosines. Decimals are taken as exact; NaN tolerances are not modelled."
  },
  {
   "property": "C70",
   "status": "proved",
   "theorems": [
    "C70_dimension",
    "C70_unique",
    "C70_unique_again",
    "C70_unique_errors",
    "C70_cross_validate",
    "C70_cross_validate_defined",
    "C70_cross_validate_narrow",
    "C70_set_ids",
    "C70_set_ids_refuted",
    "C70_estimation",
    "C70_orientation",
    "C70_normals",
    "C70_box",
    "C70_box_default",
    "C70_box_refuted",
    "C70_seeds",
    "C70_no_seeds",
    "C70_snap",
    "C70_aniso",
    "C70_variogram",
    "C70_variogram_errors",
    "C70_degrees",
    "C70_angle_wide",
    "C70_angle_narrow",
    "C70_negative_angle_refuted",
    "C70_values"
   ],
   "note": "The commands unique, cross-validate, estimate-normals, isosurface, surface-2.5d and variogram on tables already read; option parsing is not modelled, the library functions are the models of C08, C10, C40 and C69 or arguments. Four claims one might expect are refuted by witnesses."
  },
  {
   "property": "C71",
   "status": "proved",
   "theorems": [
    "C71_reduced",
    "C71_plain",
    "C71_elimination",
    "C71_grid",
    "C71_one_level",
    "C71_one_step",
    "C71_levels"
   ],
   "note": "Exact arithmetic; solvers are arguments, assumed right for a positive definite matrix (LDLT) and for an invertible one (LU, inverse), and elimination is shown to be such a solver. Grids with gradient points, polynomials and not all points are excluded (C24 shows that they eliminate with wrong rows). Several levels only without a nugget (C49 shows that it is ignored)."
  },
  {
   "property": "C72",
   "status": "proved",
   "theorems": [
    "C72_levels",
    "C72_sizes",
    "C72_start",
    "C72_small",
    "C72_tiny_start"
   ],
   "note": "exact arithmetic; fast operator taken as exact (C16, C27); tiny nonzero initial weights excluded and shown to fail"
  },
  {
   "property": "C73",
   "status": "proved",
   "theorems": [
    "C73_create",
    "C73_create_defined",
    "C73_extract",
    "C73_fit",
    "C73_functions",
    "C73_extract_truncated",
    "C73_show",
    "C73_wrong_dimension_refuted",
    "C73_evaluators",
    "C73_loaded"
   ],
   "note": "Commands create-model, fit, extract-model and show-model over the byte model of C03 and the parser of C61. A wrong dimension is not detected (refuted)."
  },
  {
   "property": "C74",
   "status": "proved",
   "theorems": [
    "C74_calls",
    "C74_exact",
    "C74_defined",
    "C74_operator",
    "C74_solver"
   ],
   "note": "Exact arithmetic; a kernel value that is not a number is outside the statement. The radius search is trusted to find every point nearer than the radius (kdtree.cpp rounds the squared radius to float). Fewer than 2^10 points: for more the fast evaluators are accurate only as far as C27 and C45 say."
  },
  {
   "property": "C75",
   "status": "proved",
   "theorems": [
    "C75_radius",
    "C75_radius_exact",
    "C75_radius_ends",
    "C75_search_refuses",
    "C75_search",
    "C75_shell",
    "C75_knn",
    "C75_filter",
    "C75_filter_apart_refuted",
    "C75_filter_near_refuted",
    "C75_direct"
   ],
   "note": "FLANN is any search that is exact on the radius it is given; the square of the radius is rounded as a double and as a float; coordinates and distances are exact. The two refuted claims are the ones without the factors 1 -+ 2^-24."
  },
  {
   "property": "C76",
   "status": "proved",
   "theorems": [
    "C76_exact",
    "C76_weights",
    "C76_queries",
    "C76_defined",
    "C76_points",
    "C76_operator",
    "C76_fitted",
    "C76_order_refuted"
   ],
   "note": "Contracts of the standard library, the k-d tree and ScalFMM as in C74; real numbers. C76_order_refuted shows that weights set before the sources are lost."
  },
  {
   "property": "C77",
   "status": "proved",
   "theorems": [
    "C77_fitted",
    "C77_enough",
    "C77_special",
    "C77_returns",
    "C77_missed",
    "C77_lost",
    "C77_evaluator",
    "C77_solver",
    "C77_missed_refuted",
    "C77_lost_refuted"
   ],
   "note": "The solver and the evaluator keep the contracts proved for small problems in C72 and C76 (C77_solver, C77_evaluator). C77_missed_refuted and C77_lost_refuted are data that are not fitted although the call succeeds."
  },
  {
   "property": "C78",
   "status": "proved",
   "theorems": [
    "C78_meets",
    "C78_least",
    "C78_only",
    "C78_solver",
    "C78_evaluator"
   ],
   "note": "InequalityFitter end to end on real numbers: feasibility of all values and bounds (C78_meets), least energy among all functions of the model meeting them (C78_least), uniqueness for tolerance 0 (C78_only). The solver and the evaluator are contracts, shown for small data by C78_solver and C78_evaluator. Runs that return only, with at least as many centers as basis functions (C13 has the exceptions)."
  },
  {
   "property": "C79",
   "status": "proved",
   "theorems": [
    "C79_bits",
    "C79_node",
    "C79_map",
    "C79_twice_refuted",
    "C79_zip",
    "C79_numbers",
    "C79_nan_refuted",
    "C79_rows"
   ],
   "note": "Bit level of the isosurface node and zip_sort; C79_twice_refuted and C79_nan_refuted mark the limits (a second vertex on an edge, a NaN key)."
  },
  {
   "property": "C80",
   "status": "proved",
   "theorems": [
    "C80_gradient",
    "C80_step",
    "C80_nearest",
    "C80_knn",
    "C80_tracked",
    "C80_component",
    "C80_sampled",
    "C80_defined",
    "C80_no_seeds_refuted"
   ],
   "note": "Termination, absence of exceptions, one vertex per crossing edge, completeness of the connected piece and no holes for tracking from seeds; gradient, step and choice of the next node over reals."
  },
  {
   "property": "C81",
   "status": "proved",
   "theorems": [
    "C81_value",
    "C81_box",
    "C81_entire",
    "C81_seed",
    "C81_seed_refuted"
   ],
   "note": "Interpolated value, its definedness for sampled boxes and seed points, and the decision for an empty mesh; refuted for seeds at mixed halves."
  },
  {
   "property": "C82",
   "status": "proved",
   "theorems": [
    "C82_hierarchy",
    "C82_endless_refuted",
    "C82_rounded",
    "C82_rounded_endless_refuted",
    "C82_nested",
    "C82_coarsest",
    "C82_empty_refuted",
    "C82_sweep",
    "C82_exact"
   ],
   "note": "The level of a popped cluster is taken to be read before the pop (see C23). C82_endless_refuted: for 2048 < rows < 2048 + polynomial points the constructor never returns, e.g. 2049 to 2051 points in space with a linear polynomial; C82_rounded and C82_rounded_endless_refuted state both for numbers from rounded powers. C82_empty_refuted: without rows the conversion of minus infinity to int is undefined."
  },
  {
   "property": "C83",
   "status": "proved",
   "theorems": [
    "C83_positions",
    "C83_apart",
    "C83_isotropic",
    "C83_merged_refuted",
    "C83_snap"
   ],
   "note": "The condition on the basis is proved for the identity anisotropy with constants in intervals that contain those of the code; C83_merged_refuted shows that it is needed."
  },
  {
   "property": "C84",
   "status": "proved",
   "theorems": [
    "C84_patches",
    "C84_vertex",
    "C84_cache",
    "C84_start",
    "C84_mesh",
    "C84_distance",
    "C84_point_grid",
    "C84_face_grid",
    "C84_twice_refuted",
    "C84_budget"
   ],
   "note": "C84_twice_refuted: a point on the common edge of two changed patches is listed twice, so it is queued twice and loses two of its eight retries (C84_budget)."
  },
  {
   "property": "C85",
   "status": "proved",
   "theorems": [
    "C85_faces",
    "C85_exact",
    "C85_result",
    "C85_flat_refuted",
    "C85_out_of_range",
    "C85_clustering"
   ],
   "note": "Coordinates are reals and the division by the resolution is any monotone rounding. Exceptions inside the parallel region, which end the program, appear as the outcome. C85_flat_refuted shows a face with two corners in one place for which this happens."
  },
  {
   "property": "C86",
   "status": "proved",
   "theorems": [
    "C86_values",
    "C86_others",
    "C86_copy",
    "C86_no_leak",
    "C86_empty_assign_refuted",
    "C86_copy_equal_refuted"
   ],
   "note": "The members of an object are one abstract value, so class, parameters and anisotropy are treated alike. Their comparison is any function; the witness of C86_copy_equal_refuted takes one that is never true, as for a parameter that is not a number. Memory does not run out. C86_empty_assign_refuted shows that copy assignment from an empty RBF is undefined."
  },
  {
   "property": "C87",
   "status": "proved",
   "theorems": [
    "C87_latest",
    "C87_reused",
    "C87_mismatch",
    "C87_stale_refuted"
   ],
   "note": "Numbers are real. A failed assertion counts as undefined; builds without assertions go on. C87_stale_refuted shows that sources set after the weights go unnoticed. Within the library ResidualEvaluator sets the weights before each evaluation."
  }
 ]
}