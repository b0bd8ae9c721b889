{
 "claims": [
  {
   "property": "C01",
   "status": "proved",
   "theorems": [
    "fk_composes_parent_chain",
    "fk_rejects_wrong_size",
    "fk_state_function_exists"
   ],
   "note": "Over the reals; rounding not modelled."
  },
  {
   "property": "C02",
   "status": "proved",
   "theorems": [
    "fk_local_to_subtree"
   ],
   "note": "Whole joint state, including derivative axes."
  },
  {
   "property": "C03",
   "status": "proved",
   "theorems": [
    "joint_accessors_are_partial_derivatives",
    "fk_total_derivative",
    "fk_direction_derivative"
   ],
   "note": "All seven parameters, every ancestor, every attached point."
  },
  {
   "property": "C04",
   "status": "proved",
   "theorems": [
    "transform_compose_acts",
    "transform_mul_assoc",
    "transform_identity_unit",
    "transform_inverse_two_sided",
    "transform_closed",
    "transform_affine_agrees",
    "transform_scales_distance",
    "transform_needs_unit_rotation_refuted"
   ],
   "note": "The unit-rotation precondition is necessary (refuted without it)."
  },
  {
   "property": "C05",
   "status": "proved",
   "theorems": [
    "fk_rotations_unit_scales_positive"
   ],
   "note": ""
  },
  {
   "property": "C06",
   "status": "proved",
   "theorems": [
    "is_ancestor_decides_ancestry",
    "skeleton_ctor_accepts_exactly_parents_first",
    "joint_lookup_first_match"
   ],
   "note": ""
  },
  {
   "property": "C07",
   "status": "partial",
   "theorems": [
    "common_ancestor_is_deepest",
    "common_ancestor_terminates",
    "common_ancestor_one_root_symmetric",
    "common_ancestor_forest_refuted"
   ],
   "note": "True when a common ancestor exists; the statement for joints of different roots is refuted: the code returns a root and depends on argument order."
  },
  {
   "property": "C08",
   "status": "partial",
   "theorems": [
    "apply_is_affine",
    "apply_rejects_wrong_size",
    "apply_overloads_differ_by_offsets",
    "apply_overloads_agree_refuted"
   ],
   "note": "apply is affine; the claim that the two overloads agree is refuted: they differ by the offsets of the transform."
  },
  {
   "property": "C09",
   "status": "proved",
   "theorems": [
    "subset_commutes_with_zero_padding"
   ],
   "note": ""
  },
  {
   "property": "C10",
   "status": "proved",
   "theorems": [
    "subset_keeps_references_consistent",
    "subset_renaming_keeps_names",
    "subset_drops_limit_iff_parameter_dropped"
   ],
   "note": ""
  },
  {
   "property": "C11",
   "status": "partial",
   "theorems": [
    "map_joints_moves_joint_parameters",
    "map_joints_keeps_blend_shapes_refuted"
   ],
   "note": "Joint parameters proved; survival of blend-shape indices refuted. Rounding of the float triplets not modelled."
  },
  {
   "property": "C61",
   "status": "partial",
   "theorems": [
    "pose_constraint_equality_compares_sets",
    "pose_constraint_equality_symmetric",
    "pose_constraint_equality_symmetric_refuted",
    "pose_constraint_longer_left_not_equal"
   ],
   "note": "Holds when both mention equally many parameters; refuted in general."
  },
  {
   "property": "C62",
   "status": "proved",
   "theorems": [
    "add_blend_shapes_last_call_wins"
   ],
   "note": ""
  },
  {
   "property": "C63",
   "status": "partial",
   "theorems": [
    "num_skeleton_parameters_after_subset_refuted"
   ],
   "note": "Refuted."
  },
  {
   "property": "C17",
   "status": "partial",
   "theorems": [
    "limit_error_is_penalty",
    "limit_gradient_is_derivative_partial",
    "limit_jacobian_is_derivative_partial",
    "limit_gradient_uses_limit_weight_refuted",
    "ellipsoid_gradient_is_derivative_partial",
    "ellipsoid_gradient_refuted"
   ],
   "note": "Jacobian: every nonnegative weight. Gradient: linear and half-plane limits only with weight 1; refuted otherwise. Ellipsoid limits: spheres that the parameter keeps (C101); refuted for other ellipsoids."
  },
  {
   "property": "C18",
   "status": "partial",
   "theorems": [
    "limit_error_zero_iff_inside",
    "ellipsoid_error_zero_iff",
    "apply_passive_clamps",
    "limit_index_check_refuted",
    "apply_passive_overlapping_refuted"
   ],
   "note": "Zero-iff-inside proved for every limit kind; for an ellipsoid met means on the surface or at the centre. Clamping proved for one limit per joint parameter; refuted when two passive limits with different intervals name the same joint parameter."
  },
  {
   "property": "C64",
   "status": "partial",
   "theorems": [
    "limit_gradient_returns_error_partial",
    "limit_gradient_returns_error_refuted"
   ],
   "note": "Agrees when each linear limit has an enabled parameter; refuted otherwise."
  },
  {
   "property": "C42",
   "status": "partial",
   "theorems": [
    "tokenize_splits",
    "splitting_is_unique",
    "tokenize_empty_refuted",
    "trim_removes_white_ends",
    "trimmed_is_unique",
    "trim_keeps_other_characters_refuted"
   ],
   "note": "Proved for every nonempty string; trim also removes NUL characters, which whiteChars does not list (refuted)."
  },
  {
   "property": "C12",
   "status": "partial",
   "theorems": [
    "parse_terminates_partial",
    "parse_terminates_refuted"
   ],
   "note": "Terminates without self references; refuted in general."
  },
  {
   "property": "C13",
   "status": "partial",
   "theorems": [
    "parse_represents_meaning",
    "file_is_read_by_lines",
    "comments_are_ignored",
    "reference_copies_constant_refuted",
    "constants_add_up_refuted"
   ],
   "note": "Coefficients proved for every text without self reference; constants are not copied by a reference and do not add up (refuted). Narrowing to float not modelled; std::stod is a parameter."
  },
  {
   "property": "C14",
   "status": "proved",
   "theorems": [
    "loss_deriv_is_derivative",
    "loss_is_a_penalty",
    "loss_accepts_positive_c"
   ],
   "note": "Every alpha and positive c, s >= 0."
  },
  {
   "property": "C65",
   "status": "partial",
   "theorems": [
    "loss_matches_paper_partial",
    "negative_alpha_matches_paper_refuted",
    "loss_slope_at_zero",
    "loss_slope_same_for_every_alpha_refuted"
   ],
   "note": "Matches the published family for alpha above the tolerance and away from 2; refuted for negative alpha, and the slope at zero of the L2 branch is twice that of the others."
  },
  {
   "property": "C15",
   "status": "partial",
   "theorems": [
    "constraint_error_is_objective",
    "constraint_gradient_is_derivative_partial",
    "constraint_gradient_small_residual_refuted"
   ],
   "note": "Position, plane, orientation, normal, aim and fixed-axis constraints through parameter transform and forward kinematics, every loss. Residuals within the isZero tolerance are refuted, non-smooth points excluded. Projection, distance and vertex constraints not modelled."
  },
  {
   "property": "C16",
   "status": "partial",
   "theorems": [
    "constraint_jacobian_is_derivative_partial",
    "limit_jacobian_is_derivative_partial"
   ],
   "note": "Constraint and limit error functions."
  },
  {
   "property": "C19",
   "status": "proved",
   "theorems": [
    "model_parameters_error_is_objective",
    "model_parameters_gradient_is_derivative",
    "model_parameters_jacobian_is_derivative",
    "model_parameters_jacobian_negative_weight_refuted"
   ],
   "note": "Error, gradient and Jacobian for all sizes; the Jacobian part needs nonnegative weights, for negative ones it is refuted."
  },
  {
   "property": "C20",
   "status": "partial",
   "theorems": [
    "state_error_is_objective",
    "state_gradient_is_derivative_partial",
    "state_jacobian_is_derivative",
    "state_gradient_parameter_weight_refuted"
   ],
   "note": "The Jacobian is right for all nonnegative weights; the gradient of the parameter term is right only for weights 0 and 1 (refuted otherwise). Rotation type is the default matrix difference."
  },
  {
   "property": "C21",
   "status": "partial",
   "theorems": [
    "union_error_is_weighted_sum",
    "union_jacobian_contract",
    "union_gradient_partial",
    "union_gradient_refuted"
   ],
   "note": "Error and Jacobian proved; getGradient also scales the gradient accumulated before it (refuted for weights other than 1)."
  },
  {
   "property": "C66",
   "status": "partial",
   "theorems": [
    "solver_function_error_is_sum",
    "solver_function_gradient",
    "solver_function_jacobian",
    "model_parameters_meet_contracts",
    "limits_meet_contracts_partial",
    "constraints_meet_contracts_partial"
   ],
   "note": "The sum is proved for any members that meet the contract; limits and constraints meet it under the conditions of C15-C18."
  },
  {
   "property": "C67",
   "status": "partial",
   "theorems": [
    "normal_equations_agree_with_jacobian",
    "contract_means_fits",
    "actual_parameters_cover_enabled",
    "solver_derivatives_defined_refuted"
   ],
   "note": "Proved when every member sets usedRows to cover its rows, which the Jacobian contract implies; a state function with a target of the wrong size makes getSolverDerivatives read an uninitialised count (refuted)."
  },
  {
   "property": "C27",
   "status": "proved",
   "theorems": [
    "householder_annihilates",
    "householder_isometry",
    "householder_pivot_positive"
   ],
   "note": "For all real vectors of every length."
  },
  {
   "property": "C28",
   "status": "proved",
   "theorems": [
    "online_qr_factorises",
    "online_qr_result_minimises",
    "online_qr_result_minimises_unregularised",
    "online_qr_history",
    "online_qr_reset_is_fresh",
    "online_qr_reset_keeps_regularisation_refuted"
   ],
   "note": "Real arithmetic; the triangular solve is back substitution. reset() without arguments loses the regularisation (refuted)."
  },
  {
   "property": "C29",
   "status": "partial",
   "theorems": [
    "column_selection_transpose_times_partial",
    "column_selection_transpose_times_refuted"
   ],
   "note": "Wrong for a general selection (refuted); right when the selection is the identity or a prefix."
  },
  {
   "property": "C68",
   "status": "partial",
   "theorems": [
    "banded_qr_result_minimises",
    "banded_qr_factorises",
    "banded_qr_any_window_order_refuted"
   ],
   "note": "Proved when no later window stops inside an earlier one, which is how the sequence solver calls it; refuted for other orders although the code accepts them."
  },
  {
   "property": "C22",
   "status": "proved",
   "theorems": [
    "solve_iterations"
   ],
   "note": "Generic in the iteration and its state, so it covers every solver; errors are reals (no NaN)."
  },
  {
   "property": "C23",
   "status": "partial",
   "theorems": [
    "solver_returns_current_error_refuted",
    "solver_returns_previous_error_partial"
   ],
   "note": "False as stated: the returned value is the error one iteration earlier (and the largest double if maxIterations is 0). That relation is proved for gradient descent, Gauss-Newton and the subset solver."
  },
  {
   "property": "C24",
   "status": "partial",
   "theorems": [
    "line_search_never_increases_refuted",
    "gauss_newton_line_search_partial",
    "subset_line_search_partial"
   ],
   "note": "False as stated: after ten refused halvings the last trial is kept (refuted on a least-squares objective with exact Jacobian). Proved when one of the ten trial points passes the test."
  },
  {
   "property": "C25",
   "status": "proved",
   "theorems": [
    "subset_solver_frame",
    "subset_step_solves"
   ],
   "note": "For any history of setEnabledParameters and solve. The linear solver is any function that solves symmetric positive definite systems."
  },
  {
   "property": "C69",
   "status": "proved",
   "theorems": [
    "gauss_newton_step",
    "gauss_newton_descends",
    "gauss_newton_unused_parameter_fixed"
   ],
   "note": "LLT is any function that solves symmetric positive definite systems; elimination is shown to be one (gsolve_ok)."
  },
  {
   "property": "C70",
   "status": "partial",
   "theorems": [
    "solve_history",
    "solve_iteration_count_partial",
    "solve_iteration_count_refuted"
   ],
   "note": "The history columns are right; the recorded count is one too small when the run stopped on convergence (refuted)."
  },
  {
   "property": "C26",
   "status": "proved",
   "theorems": [
    "trust_region_iteration",
    "trust_region_solve_monotone"
   ],
   "note": "Built on the QR model, so the predicted decrease is proved positive. The radius bound is max(initial radius, 10). For the solve statement getError must agree with the errors getJacobian reports."
  },
  {
   "property": "C71",
   "status": "proved",
   "theorems": [
    "gradient_descent_step"
   ],
   "note": ""
  },
  {
   "property": "C31",
   "status": "proved",
   "theorems": [
    "parallel_schedule_independent",
    "parallel_folds_in_order",
    "parallel_never_deadlocks",
    "parallel_always_ends",
    "parallel_can_finish",
    "parallel_step_minimises"
   ],
   "note": "Interleaving model of the lambda of processErrorFunctions_parallel: one task per frame, one step per eliminated column, mutex operation or change of protected data. Sequentially consistent memory; the tasks are proved to write disjoint cells outside their critical sections. Filling a frame's Jacobian is an input."
  },
  {
   "property": "C30",
   "status": "proved",
   "theorems": [
    "slots_cover_the_vector",
    "sequence_set_joined",
    "sequence_join",
    "sequence_join_after_set",
    "sequence_set_after_join",
    "sequence_universal",
    "sequence_join_no_frames_refuted",
    "multipose_set_joined",
    "multipose_join",
    "multipose_join_after_set",
    "multipose_set_after_join",
    "multipose_join_no_frames_refuted"
   ],
   "note": "After any history of enabling, frame setting and joined setting. The layout is specified apart from the code: per-frame slots in frame order, then the universal ones. With zero frames getJoinedParameterVector reads a frame that does not exist (refuted theorems)."
  },
  {
   "property": "C32",
   "status": "partial",
   "theorems": [
    "multipose_enabled_iff",
    "multipose_enabled_partial",
    "multipose_enabled_refuted"
   ],
   "note": "The full claim is false of the code: the solved count covers exactly the sets described by multipose_enabled_iff. The partial theorem is the claim for those sets, the refuted one a set for which it fails."
  },
  {
   "property": "C33",
   "status": "partial",
   "theorems": [
    "sequence_jacobian_again_partial",
    "sequence_jacobian_again_refuted",
    "sequence_jacobian_history_refuted"
   ],
   "note": "The full claim is false of the code. The partial theorem: two consecutive calls agree, whatever the matrix held, when no active sequence function meets an enabled universal parameter. The refuted ones: universal columns of sequence functions are added to twice; a call at another point leaves entries in columns of other frames."
  },
  {
   "property": "C72",
   "status": "proved",
   "theorems": [
    "sequence_functions_added",
    "sequence_additions_succeed",
    "sequence_error",
    "sequence_gradient"
   ],
   "note": "Error functions are inputs with the contract that their own gradient is the derivative of their error."
  },
  {
   "property": "C73",
   "status": "proved",
   "theorems": [
    "sequence_jacobian",
    "sequence_jacobian_gradient",
    "motion_error_function"
   ],
   "note": "For an output matrix that is resized by the call or all zero (see C33 for other contents)."
  },
  {
   "property": "C34",
   "status": "proved",
   "theorems": [
    "motion_file_round_trip",
    "pose_list_round_trip",
    "motion_file_refused"
   ],
   "note": "Byte level. 32-bit floats are four bytes, size_t eight bytes little endian."
  },
  {
   "property": "C35",
   "status": "partial",
   "theorems": [
    "extra_parameters_round_trip_partial",
    "extra_parameters_empty_name_refuted",
    "extra_parameters_mixed_refuted",
    "extra_parameters_no_columns_refuted"
   ],
   "note": "Proved for nonempty extra names and parameter names not of the form __x__, with distinct names; refuted without these."
  },
  {
   "property": "C74",
   "status": "partial",
   "theorems": [
    "cut_motion_file_partial",
    "cut_motion_file_refuted"
   ],
   "note": "False of the code: a cut file loads without error and the missing values are uninitialised memory. Proved: what lies before the cut is right."
  },
  {
   "property": "C36",
   "status": "partial",
   "theorems": [
    "accessor_history_round_trip_partial",
    "aligned_reader_agrees",
    "accessor_append_keeps_others",
    "accessor_layout",
    "accessor_round_trip_refuted"
   ],
   "note": "Proved while the buffer stays below 4 GiB; beyond that the offset wraps to 32 bits and the claim is refuted."
  },
  {
   "property": "C75",
   "status": "partial",
   "theorems": [
    "array_starts_aligned_partial",
    "array_starts_aligned_refuted"
   ],
   "note": "Proved when every earlier array has 4-byte components or asked for alignment; false otherwise."
  },
  {
   "property": "C37",
   "status": "partial",
   "theorems": [
    "accessor_overread_iff",
    "accessor_read_in_bounds_partial",
    "accessor_read_in_bounds_refuted"
   ],
   "note": "False of the code: accessor_overread_iff describes exactly which documents make it read outside."
  },
  {
   "property": "C38",
   "status": "partial",
   "theorems": [
    "memory_stream_reads_data_partial",
    "memory_stream_read_outside_iff",
    "memory_stream_in_bounds_refuted"
   ],
   "note": "False of the code for histories that move the place out of the data; the partial theorem covers all others."
  },
  {
   "property": "C76",
   "status": "partial",
   "theorems": [
    "memory_stream_error_partial",
    "memory_stream_error_refuted"
   ],
   "note": "Proved for histories with a ClearError; without one the code reads an uninitialised member."
  },
  {
   "property": "C39",
   "status": "partial",
   "theorems": [
    "error_message_empty_iff",
    "accepted_polygons_triangulate_partial",
    "accepted_textures_triangulate",
    "accepted_polygons_triangulate_refuted"
   ],
   "note": "Proved for at most 2^31 vertices (indices are int); refuted beyond."
  },
  {
   "property": "C77",
   "status": "partial",
   "theorems": [
    "text_has_lines",
    "line_loop_sees_all_partial",
    "line_loop_drops_rest_refuted",
    "line_loop_endless_refuted"
   ],
   "note": "Proved for texts whose last line is ended by LF or CRLF. False of the code otherwise: an unended last line is dropped, and a lone CR at the end makes the loop run forever."
  },
  {
   "property": "C78",
   "status": "partial",
   "theorems": [
    "file_has_sections",
    "sections_found_partial",
    "sections_found_refuted"
   ],
   "note": "Proved for texts whose last line is ended by LF or CRLF; the last line is lost otherwise (refuted)."
  },
  {
   "property": "C40",
   "status": "partial",
   "theorems": [
    "unit_spelling",
    "unit_spelling_other",
    "marker_conversion_partial",
    "marker_up_axis",
    "marker_up_axis_refuted"
   ],
   "note": "Rotation and unit factor proved; the up axis goes to plus or minus Z, never to the documented Y."
  },
  {
   "property": "C41",
   "status": "partial",
   "theorems": [
    "trc_loaded",
    "trc_units_partial",
    "trc_units_refuted"
   ],
   "note": "False of the code: the unit is taken from a data field. Proved: what is loaded, and that it is right for files in centimetres."
  },
  {
   "property": "C51",
   "status": "partial",
   "theorems": [
    "build_hierarchy_partial",
    "leaves_partition"
   ],
   "note": "Proved: the build terminates and gives the described hierarchy, with smallest boxes, unless it overruns its 128-entry stack (C53), which needs more than 128 boxes."
  },
  {
   "property": "C52",
   "status": "partial",
   "theorems": [
    "query_complete_partial",
    "built_query_partial",
    "query_exact_partial",
    "query_single_refuted"
   ],
   "note": "Proved for every query that does not overrun its 64-entry stack (C53); it cannot for at most 64 boxes. Also: exact for one box per leaf and two boxes or more; a tree of one box returns it always."
  },
  {
   "property": "C53",
   "status": "partial",
   "theorems": [
    "stacks_partial",
    "build_stack_refuted",
    "query_stack_refuted",
    "query_buffer_refuted"
   ],
   "note": "False of the code: 130 boxes overrun the build stack, 70 the query stack, and a leaf of two boxes overruns a buffer of one. Proved for at most 64 boxes, and for the buffer with one box per leaf."
  },
  {
   "property": "C54",
   "status": "partial",
   "theorems": [
    "refit_partial",
    "refit_tight_refuted"
   ],
   "note": "Containment and complete queries proved; the boxes are the smallest only if the primitives grew, refuted otherwise."
  },
  {
   "property": "C55",
   "status": "partial",
   "theorems": [
    "overlapping_pairs_partial",
    "overlapping_pairs_with_partial",
    "leaf_pairs_refuted",
    "pairs_stop_refuted"
   ],
   "note": "Every overlapping pair, once, proved for one box per leaf; pairs within one leaf are missed otherwise (refuted); the request to stop is not honoured (refuted)."
  },
  {
   "property": "C56",
   "status": "proved",
   "theorems": [
    "closest_surface_point_correct",
    "closest_empty_refuted"
   ],
   "note": "For non-empty trees and projections nearer than the largest finite squared distance; the empty tree is read out of bounds. The scalar callback is modelled, not the packet one."
  },
  {
   "property": "C60",
   "status": "proved",
   "theorems": [
    "ray_test_exact",
    "branchless_test_exact",
    "ray_tests_agree",
    "box_tests_exact",
    "box_distance_exact"
   ],
   "note": "The branchless test covers ray parameters up to the largest finite scalar; scalars are exact rationals."
  },
  {
   "property": "C79",
   "status": "proved",
   "theorems": [
    "check_exact",
    "check_built"
   ],
   "note": ""
  },
  {
   "property": "C80",
   "status": "partial",
   "theorems": [
    "ray_query_partial",
    "ray_closest_partial",
    "ray_any_partial",
    "ray_empty_refuted"
   ],
   "note": "Proved for non-empty trees unless the 64-entry stack is overrun, which needs a tree of height above 63; the empty tree is read out of bounds (refuted)."
  },
  {
   "property": "C57",
   "status": "proved",
   "theorems": [
    "project_on_triangle_nearest",
    "nearest_point_unique",
    "project_lane_nearest",
    "project_on_triangle_refuted",
    "project_lane_refuted"
   ],
   "note": "Covers degenerate triangles too, except those whose first two corners coincide and differ from the third, for which the code divides zero by zero (refuted); the wide version is not finite whenever the last two corners coincide (refuted)."
  },
  {
   "property": "C81",
   "status": "proved",
   "theorems": [
    "ray_triangle_sound",
    "ray_triangle_complete",
    "ray_triangle_refuted"
   ],
   "note": "The margin that makes a crossing clear is the tolerance of the code and absolute, so that triangles with edges below it are never hit (refuted). Scalars are exact rationals; norms are compared by their squares."
  },
  {
   "property": "C82",
   "status": "partial",
   "theorems": [
    "mesh_make_partial",
    "mesh_closest_correct"
   ],
   "note": "More than 128 faces may overflow the stack of the builder (C53). The packet branch of the search and negative indices are not modelled."
  },
  {
   "property": "C83",
   "status": "partial",
   "theorems": [
    "closest_hit_partial",
    "all_hits_partial",
    "any_hit_partial"
   ],
   "note": "Trees of height above 63 and directions with a zero component are not covered."
  },
  {
   "property": "C58",
   "status": "proved",
   "theorems": [
    "kd_closest_correct",
    "kd_depth_bounded",
    "kd_closest_refuted"
   ],
   "note": "nDim = 3. std::partition and std::nth_element are arguments known only by what the standard says of them. Without the proviso the filler can be reported (refuted)."
  },
  {
   "property": "C59",
   "status": "partial",
   "theorems": [
    "kd_closest_normal_correct",
    "kd_closest_color_correct",
    "kd_closest_accept_partial",
    "kd_closest_accept_refuted",
    "kd_closest_normal_refuted"
   ],
   "note": "The queries with normals and colors report only points (proved). The acceptance callback can be given INT_MAX, and that index can be reported (refuted); it is right if the callback refuses INT_MAX. The filler can hide a point from the query with normals (refuted)."
  },
  {
   "property": "C84",
   "status": "partial",
   "theorems": [
    "kd_sphere_correct",
    "kd_sphere_refuted"
   ],
   "note": "Balls that do not contain the filler point (1e10, 1e10, 1e10); the others report INT_MAX (refuted)."
  },
  {
   "property": "C47",
   "status": "partial",
   "theorems": [
    "identity_rows",
    "identity_round_trip_partial",
    "identity_too_many_rows",
    "extract_parameters_correct",
    "identity_round_trip_refuted"
   ],
   "note": "Exactly the rows in the set are touched (proved for every type of numbers and every pair of operations). The round trip holds where subtracting undoes adding; in single precision it does not (refuted)."
  },
  {
   "property": "C49",
   "status": "partial",
   "theorems": [
    "frame_span_partial",
    "frame_span_refuses",
    "frame_span_refuted"
   ],
   "note": "firstFrame + maxFrames must not wrap; where it does, the span reaches behind the data (refuted)."
  },
  {
   "property": "C50",
   "status": "partial",
   "theorems": [
    "round_up_partial",
    "round_up_refuted",
    "aligned_alloc_partial",
    "aligned_alloc_succeeds",
    "aligned_alloc_refuted",
    "compute_offset_correct",
    "offset_passes_check"
   ],
   "note": "The offset is proved in full. Sizes within one alignment of 2^64 are rounded to zero (refuted)."
  },
  {
   "property": "C48",
   "status": "proved",
   "theorems": [
    "create_locator_succeeds",
    "create_locator_structure",
    "create_locator_limits",
    "locator_positions",
    "locators_stay",
    "extract_locators_correct",
    "extract_locators_identity"
   ],
   "note": "Characters whose locators are attached to joints (kInvalidIndex as parent is out of bounds in extractLocatorsFromCharacter). Over the reals."
  },
  {
   "property": "C44",
   "status": "partial",
   "theorems": [
    "ssd_before_zero",
    "ssd_partial",
    "skinned_unique",
    "ssd_refuted",
    "ssd_common_motion",
    "ssd_mesh_partial",
    "ssd_mesh_common_motion",
    "inverse_ssd_undoes"
   ],
   "note": "Rows whose zero weights come last, in every order of the vertices; other rows lose the influences behind the first zero (refuted). Also the mesh version with normals, common rigid motion and inverse skinning. Over the reals."
  },
  {
   "property": "C45",
   "status": "proved",
   "theorems": [
    "remap_skin_correct",
    "remap_zeros_last",
    "map_weights_correct"
   ],
   "note": "Over the reals, rows of any length."
  },
  {
   "property": "C46",
   "status": "partial",
   "theorems": [
    "simplify_structure",
    "simplify_throws",
    "simplify_worlds_partial",
    "simplify_zero_partial",
    "simplify_zero_refuted",
    "simplify_poses_partial",
    "simplify_rotation_refuted",
    "simplify_axes_refuted",
    "simplify_locators",
    "simplify_limits"
   ],
   "note": "Structure, joint map and parent order hold for every skeleton and every set with the roots; a missing root or an empty set throws. The worlds with zero joint parameters agree if the parameter transform has no constant offsets on the removed joints; with one they do not (refuted). Also for other poses, with the exact conditions (three refutations), the locators in the bind pose and the joints of the limits. Over the reals; mesh and collision geometry are not part of the model of the call."
  },
  {
   "property": "C85",
   "status": "partial",
   "theorems": [
    "active_joints_correct",
    "active_parameters_correct",
    "active_round_trip",
    "simplify_active_partial"
   ],
   "note": "The last part needs removed joints without pre-rotation and constant rotation, see C46."
  },
  {
   "property": "C43",
   "status": "partial",
   "theorems": [
    "blend_round_trip",
    "blend_round_trip_all",
    "blend_base_shifted",
    "blend_truncated_refuted",
    "header_truncated_refuted",
    "mppca_round_trip",
    "save_mppca_few_names",
    "mppca_roots_agree",
    "mppca_L_refuted"
   ],
   "note": "Blend shapes come back whole, or cut as asked. The square root L of a mixture is not stored but computed again: it gives the same distances, but is another matrix than the one Mppca::set gives (refuted), so that isApprox of the loaded mixture fails. The base-class reader takes the base shape of such a file for its first shape. A truncated file is accepted with the contents of uninitialised memory (refuted). Floats are their bytes."
  },
  {
   "property": "C86",
   "status": "proved",
   "theorems": [
    "cov_times_correct",
    "cov_inverse_correct",
    "cov_times_inverse",
    "cov_inverse_times_undoes",
    "cov_times_mat_correct",
    "cov_inverse_mat_correct",
    "cov_logdet_correct",
    "cov_logdet_refuted"
   ],
   "note": "Over the reals; the determinant is the one of mathcomp. A negative sigma gives the same matrix but fails the check in logDeterminant (refuted)."
  },
  {
   "property": "C87",
   "status": "proved",
   "theorems": [
    "mppca_set_correct",
    "mppca_roots_agree"
   ],
   "note": "Over the reals."
  },
  {
   "property": "C88",
   "status": "partial",
   "theorems": [
    "prior_new_succeeds",
    "prior_error_correct",
    "prior_gradient_correct",
    "prior_jacobian_correct",
    "prior_mean_correct",
    "prior_jump_refuted"
   ],
   "note": "Distinct parameter names, and for the Jacobian distinct names in the prior. Where two modes tie, the error jumps by the difference of their constants (refuted), so it has no derivative there. Over the reals."
  },
  {
   "property": "C89",
   "status": "partial",
   "theorems": [
    "prior_set_partial",
    "prior_set_refuted",
    "prior_set_jacobian_refuted"
   ],
   "note": "Priors with the same names. With other names the maps keep old entries: wrong coordinates are used, or a column that does not exist; a null prior is used without a test (refuted)."
  },
  {
   "property": "C90",
   "status": "partial",
   "theorems": [
    "compute_shape_correct",
    "compute_shape_too_many",
    "apply_deltas_correct",
    "set_vector_correct",
    "extract_weights_correct",
    "skin_blend_agrees",
    "skin_blend_partial",
    "skin_blend_refuted"
   ],
   "note": "Without a blend shape the code makes a reference to what a null pointer points to (refuted). Rows whose zero weights do not come last: see C44. The normals of the output are not modelled. Over the reals."
  },
  {
   "property": "C91",
   "status": "partial",
   "theorems": [
    "estimate_weighted",
    "estimate_least_partial",
    "estimate_recovers_partial",
    "estimate_stale_refuted",
    "estimate_regularization_refuted",
    "estimate_approx_refuted"
   ],
   "note": "With weights in full, unless regularization is zero and the shapes are dependent. Without weights the regularization is ignored (refuted), and after setShapeVectors the fit uses the old shapes (refuted); the partial theorems are for the other histories. isApprox tells a fitted object from an equal one that is not (refuted). That the solvers of Eigen solve is assumed as a hypothesis. Over the reals."
  },
  {
   "property": "C92",
   "status": "partial",
   "theorems": [
    "pose_shape_correct",
    "pose_shape_turned",
    "pose_shape_refuted"
   ],
   "note": "False as stated: a joint turned by 2 pi has the same transformation but the opposite quaternion and another shape (refuted). Proved: the value, and that turning the character changes nothing."
  },
  {
   "property": "C93",
   "status": "partial",
   "theorems": [
    "scale_domain",
    "scale_pose",
    "scale_parameters_partial",
    "scale_locators",
    "scale_capsules",
    "scale_mesh_skinned",
    "scale_mesh_normals",
    "scale_parameters_refuted",
    "scale_ellipsoid_refuted",
    "scale_blend_refuted"
   ],
   "note": "Proved for joints (with the translation parameters scaled as well), locators, collision geometry and the mesh. The same model parameters give the scaled pose only if they translate no joint (partial; refuted otherwise: the parameter transform is not scaled). Ellipsoid limits and blend shapes are not scaled (refuted). Over the reals."
  },
  {
   "property": "C94",
   "status": "partial",
   "theorems": [
    "transform_pose_partial",
    "transform_parameters_partial",
    "transform_locators",
    "transform_capsules",
    "transform_mesh_skinned",
    "transform_mesh_normals",
    "transform_parameters_refuted",
    "transform_roots_refuted",
    "transform_reflection_refuted"
   ],
   "note": "For skeletons with one root and unit pre-rotations, and with the translation of the root turned as well. Otherwise false: a root translated by its parameters is not turned, a second root is not moved, and a reflection passes the check but the skinned mesh is not reflected (refuted). What is assumed of the singular values of Eigen is a hypothesis. Over the reals."
  },
  {
   "property": "C95",
   "status": "partial",
   "theorems": [
    "remove_unknown",
    "remove_structure",
    "remove_worlds",
    "remove_parameters",
    "remove_pose_partial",
    "remove_forgets",
    "remove_skin",
    "remove_unskinnable",
    "remove_bind_partial",
    "remove_mesh_partial",
    "remove_locators",
    "remove_capsules",
    "remove_limits",
    "remove_pose_refuted",
    "remove_shapes_refuted",
    "remove_bind_refuted"
   ],
   "note": "Proved for joints, names, parameters, parameter sets, skin weights, locators, collision geometry and limits. The same model parameters give the same pose only if the remaining joints have no constant offsets (partial; otherwise refuted, the offsets are lost), and the inverse bind pose is kept only if it is that of zero parameters (partial; otherwise refuted). Pose constraints, blend shape parameters and the marks of active joint parameters are lost, and pose shapes keep the old joint numbers (refuted). Over the reals."
  },
  {
   "property": "C96",
   "status": "partial",
   "theorems": [
    "motion_size",
    "motion_rows",
    "motion_by_name",
    "motion_own",
    "identity_size",
    "identity_blocks",
    "identity_own",
    "motion_duplicates_refuted"
   ],
   "note": "In full for distinct names; with repeated names the result is stated exactly (the last row wins, and only the first parameter with the name gets it), so that a character's own motion is not kept (refuted)."
  },
  {
   "property": "C97",
   "status": "partial",
   "theorems": [
    "replace_unknown",
    "replace_duplicates",
    "replace_clash",
    "replace_structure",
    "replace_worlds",
    "replace_parameters",
    "replace_pose_partial",
    "replace_forgets",
    "replace_skin",
    "replace_bind_partial",
    "replace_mesh_partial",
    "replace_locators",
    "replace_capsules",
    "replace_limits",
    "replace_loops",
    "replace_loops_refuted",
    "replace_names_refuted",
    "replace_wrong_parent_refuted"
   ],
   "note": "Proved when both root joints have the same name and every joint that goes has its own name or that of its parent in the result. Otherwise false: with two unknown joints in a row the call never returns (proved for every such input, and a witness), with other root names it fails or attaches the joints to a wrong joint (refuted). Constant offsets are lost, so the same model parameters give the same pose only without them (partial); the inverse bind pose is kept only if it is that of zero parameters (partial). Over the reals."
  },
  {
   "property": "C98",
   "status": "partial",
   "theorems": [
    "simd_store_history",
    "simd_store_refuses",
    "simd_normal_store_history",
    "simd_normal_add_result",
    "simd_add_any_schedule",
    "simd_add_returns",
    "simd_normal_add_any_schedule",
    "simd_normal_count_bounded",
    "simd_add_unknown_joint_refuted",
    "simd_normal_fresh_refuted",
    "simd_count_overshoot_refuted"
   ],
   "note": "Every sequential history and every interleaving of the atomic steps of concurrent calls is covered, for joints of the skeleton. A joint number the skeleton does not have but that is below kMaxJoints passes the check and is written past the end of the memory; a normal store that was not cleared reports what its memory held; while a call on a full joint of a position or plane store runs, the count is above the capacity (refuted). The interleavings are sequentially consistent; the numbers are reals."
  },
  {
   "property": "C99",
   "status": "partial",
   "theorems": [
    "simd_error",
    "simd_error_plain",
    "simd_gradient_partial",
    "simd_jacobian_size",
    "simd_jacobian_partial",
    "simd_gradient_weight_refuted",
    "simd_plane_gradient_refuted",
    "simd_plane_jacobian_refuted",
    "simd_plane_differs_refuted",
    "simd_disabled_refuted",
    "simd_stale_offsets_refuted"
   ],
   "note": "The error is proved for every store and pose, and for positions and normals equal to that of the ordinary functions. Gradient of positions and normals: proved up to the factor weight_, which the code leaves out (refuted). Jacobian: proved for all three kinds, for planes only for parameters that turn no joint above a constraint. False of the code and refuted: the gradient of planes (the distance appears twice), the Jacobian of planes under turning, equality of wide and ordinary planes, zero entries for disabled parameters, rows after constraints were added without a new getJacobianSize. The drjit versions over the reals; the AVX ones are not modelled."
  },
  {
   "property": "C100",
   "status": "partial",
   "theorems": [
    "simd_jacobian_any_schedule",
    "simd_gradient_any_schedule_partial",
    "simd_gradient_race_refuted"
   ],
   "note": "getJacobian: every interleaving of the loads and stores of the tasks gives what one thread computes. getGradient: only if at most one joint has constraints; otherwise the additions to the shared gradient can be lost (refuted with a schedule). Sequentially consistent interleavings; over the reals."
  },
  {
   "property": "C101",
   "status": "partial",
   "theorems": [
    "ellipsoid_error_is_penalty",
    "ellipsoid_radial_exists",
    "ellipsoid_error_zero_iff",
    "ellipsoid_gradient_frozen",
    "ellipsoid_gradient_is_derivative_partial",
    "ellipsoid_jacobian_is_derivative_partial",
    "ellipsoid_closest_partial",
    "ellipsoid_closest_refuted",
    "ellipsoid_centre_refuted",
    "ellipsoid_gradient_refuted",
    "ellipsoid_moving_refuted"
   ],
   "note": "The error is the squared distance to the surface point on the ray from the centre, for every list of limits of all kinds. That point is the closest one, and gradient and Jacobian are exact, for spheres that the parameter does not move, or moves together with the point without scaling; refuted for other ellipsoids (the code leaves the motion of the surface point out), for a parameter that moves both joints when the ellipsoid does not carry the point, and at the centre, where the error is 0."
  },
  {
   "property": "C102",
   "status": "partial",
   "theorems": [
    "seg_sound",
    "seg_near_partial",
    "seg_closest_partial",
    "seg_parallel_partial",
    "seg_parallel_refuted",
    "seg_point_refuted",
    "seg_touch_refuted"
   ],
   "note": "What is reported is sound for all segments. Segments whose directions span a squared area of at least 1e-7: the smallest distance up to an explicit slack (numerators below 1e-7 are taken for 0), and exactly the closest points if they are clear of the first ends. Exactly parallel segments: only if the first ends are within the distance. Refuted: parallel segments, a point and a segment, and touching segments at a small angle are reported as far apart. Over the reals."
  },
  {
   "property": "C103",
   "status": "partial",
   "theorems": [
    "coll_pairs",
    "coll_make_wf",
    "coll_error_sound",
    "coll_error_partial",
    "coll_gradient_frozen",
    "coll_gradient_partial",
    "coll_jacobian_partial",
    "coll_roots_refuted",
    "coll_crossing_refuted",
    "coll_parallel_refuted",
    "coll_taper_refuted",
    "coll_scale_refuted",
    "coll_jacobian_refuted"
   ],
   "note": "In every pose what is counted is a true overlap. The error is exact when each pair is apart or has axes that are neither parallel nor crossing (the two other cases are missed: refuted). Gradient and Jacobian are exact for capsules with equal radii that the parameter does not scale; a taper or a scale is left out (refuted), and J^T r instead of 2 J^T r is the derivative (refuted). Two roots make the constructor read past the joints (refuted). The member collisionActive after a call with an empty pose is not modelled; the flags of the call itself are."
  },
  {
   "property": "C104",
   "status": "partial",
   "theorems": [
    "bcoll_make_same",
    "pair_hash_ok",
    "bcoll_box_covers",
    "bcoll_tree_contract",
    "bcoll_error_sound",
    "bcoll_error_partial",
    "bcoll_gradient_partial",
    "bcoll_jacobian_partial",
    "bcoll_history",
    "bcoll_history_free",
    "bcoll_order_refuted"
   ],
   "note": "The tree is represented by the pairs it visits, in any order that its contract allows; the contract is proved of the tree of C55 for up to 128 boxes with rational corners, beyond which the construction can overrun its stack (C55). Equality with the other function holds in settled poses; for others the error can depend on the order in which the tree names a pair (refuted). Gradient and Jacobian as for C103."
  },
  {
   "property": "C105",
   "status": "partial",
   "theorems": [
    "euler_matrices",
    "euler_any_axes",
    "euler_axes_needed",
    "euler_specialised",
    "euler_reversed",
    "euler_reversed_refuted",
    "matrix_angles_matrix",
    "matrix_angles_close",
    "matrix_angles_refuted",
    "angles_matrix_angles",
    "matrix_angles_range",
    "matrix_angles_general",
    "quat_angles_partial",
    "quat_angles_refuted"
   ],
   "note": "Angles to matrices: all axes and both conventions. Matrices to angles: exact if and only if the sine of the middle angle is not strictly inside the tolerance of 1 or -1, there off by at most sqrt(2 tol) in each entry (exactness everywhere is refuted). quaternionToEuler is exact away from the poles and wrong at them (refuted). The reversed form under the same convention that the header promises is refuted; it holds under the other convention. Eigen eulerAngles is an argument with its contract. Signed zeros and rounding are not modelled."
  },
  {
   "property": "C106",
   "status": "partial",
   "theorems": [
    "rotvec_meaning",
    "quat_vector_quat_partial",
    "quat_vector_small",
    "quat_vector_refuted",
    "vector_quat_vector_partial",
    "vector_quat_vector_refuted",
    "average_best",
    "average_signs",
    "average_weight_signs"
   ],
   "note": "Round trips are exact for rotations of at least about 0.0007 radians; smaller ones vanish (refuted), with a bound on what is lost. The average is stated with the eigenvector of the largest eigenvalue as an argument with its contract; weights enter squared, so that their sign is ignored."
  },
  {
   "property": "C107",
   "status": "partial",
   "theorems": [
    "gnqr_step",
    "gnqr_is_subset",
    "gnqr_frame",
    "gnqr_line_search_partial",
    "gnqr_line_search_refuted"
   ],
   "note": "Each iteration solves the regularised normal equations of all rows together, and the solver is the subset Gauss-Newton solver run for run, for a positive regularisation and exact reals. That line search never increases the error is refuted; it holds when one of the ten trials passes the test. Without regularisation only the frame is proved."
  },
  {
   "property": "C108",
   "status": "partial",
   "theorems": [
    "inverse_round_trip",
    "inverse_best",
    "inverse_undoes_apply",
    "inverse_offsets",
    "inverse_residual_refuted",
    "inverse_rejects_wrong_size"
   ],
   "note": "The sparse QR solver is an argument with its contract (a least squares solution), shown to be met by the normal equations for every transform of full rank. That the offsets of the result are the residual of the fit is refuted: they also contain the offsets of the transform."
  },
  {
   "property": "C109",
   "status": "partial",
   "theorems": [
    "multipose_error",
    "multipose_gradient",
    "multipose_jacobian",
    "multipose_jacobian_history",
    "multipose_jacobian_gradient",
    "multipose_residual_partial",
    "multipose_residual_refuted",
    "multipose_jacobian_added_refuted",
    "multipose_update"
   ],
   "note": "Error, gradient and Jacobian are proved in full for an object whose functions stay the same. That the squared norm of the residual is the error holds only when the matrix is resized, and is refuted after an earlier call; the Jacobian is refuted after a function is added between two calls with the same matrix."
  },
  {
   "property": "C110",
   "status": "partial",
   "theorems": [
    "cubic_complete",
    "cubic_three",
    "cubic_nearly_sound",
    "cubic_sound_refuted",
    "quadratic_roots_partial",
    "quadratic_roots_refuted",
    "coplanar_is_volume",
    "coplanar_times_cubic",
    "coplanar_times_lower_partial",
    "coplanar_times_refuted",
    "coplanar_times_avx"
   ],
   "note": "The cubic never misses a root; a number that is nearly a double root may be added (refuted as exact, bounded). The quadratic is exact unless its discriminant lies in [0, 1e-9), where it is refuted. Coplanar times are complete unless the polynomial is nearly degenerate; for sizes below a millimetre the absolute tolerances make it miss them (refuted). Exact reals."
  },
  {
   "property": "C111",
   "status": "partial",
   "theorems": [
    "edge_distance_sound",
    "edge_distance_closest_partial",
    "edge_distance_short",
    "edge_distance_short2",
    "edge_distance_fails",
    "edge_distance_closest_refuted"
   ],
   "note": "The parameters are those of points at the reported distance, always; the points are the closest ones for edges longer than 1/100 that are parallel or span a squared area above 1e-4; in between refuted; a short edge counts as its first point with a bound on the loss."
  },
  {
   "property": "C112",
   "status": "partial",
   "theorems": [
    "ccd_edge_sound",
    "ccd_edge_complete_partial",
    "ccd_edge_refuted",
    "ccd_vertex_sound",
    "ccd_vertex_complete_partial",
    "ccd_vertex_refuted",
    "ccd_vertex_near_refuted"
   ],
   "note": "Every reported collision is one. Contacts are found when neither the equation nor, for edges, their lengths are nearly degenerate; small edges never collide, a point that goes through a small triangle is missed, and so is one that only comes closer than the threshold between coplanar times (refuted). Exact reals."
  },
  {
   "property": "C113",
   "status": "proved",
   "theorems": [
    "state_sequence_error",
    "state_sequence_zero",
    "state_sequence_gradient",
    "state_sequence_jacobian",
    "state_sequence_in_a_sequence",
    "state_sequence_reachable",
    "state_sequence_reset_refuted"
   ],
   "note": "Over the reals; the ancestor walk is the one of the state error function (C20). The Jacobian needs weights that are not negative. reset() keeps the two overall weights (refuted as a way back to a new function; not part of the property)."
  },
  {
   "property": "C114",
   "status": "proved",
   "theorems": [
    "transform_pose_keeps",
    "transform_pose_needs_rigid",
    "transform_pose_close",
    "transform_pose_exact",
    "transform_pose_first",
    "transform_pose_others",
    "transform_pose_place_refuted",
    "transform_pose_gives_up_refuted",
    "transform_pose_roots_refuted"
   ],
   "note": "Over the reals, with distinct parameter names. The Gauss-Newton solver and the random numbers are arbitrary functions; of the solver only the contract that it leaves other parameters alone is used. That the character as a whole is moved as asked is false: the place is not checked, a failed search returns random numbers, and joints that do not descend from the last rigid joint are not moved."
  },
  {
   "property": "C115",
   "status": "partial",
   "theorems": [
    "block_qr_minimises_partial",
    "block_qr_minimises_unregularised_partial",
    "block_qr_gradient_partial",
    "block_qr_exact_test",
    "block_qr_single_columns",
    "block_qr_small_columns_refuted",
    "block_qr_block_gradient_refuted",
    "block_qr_block_gradient_sizes_refuted",
    "block_qr_skipped_block_refuted",
    "block_qr_history"
   ],
   "note": "Over the reals. The minimiser and A^T b are the right ones as long as no column that is not zero passes the isZero() test, which holds for every input with an exact test; columns of small entries are dropped (refuted), the gradient of a single block is wrong or adds vectors of different sizes (refuted), and a block that got no rows makes the dense results fail (refuted)."
  },
  {
   "property": "C116",
   "status": "partial",
   "theorems": [
    "multipose_solver_step_partial",
    "multipose_solver_step_exact",
    "multipose_solver_unused_partial",
    "multipose_solver_idle_frame_refuted",
    "multipose_solver_error_refuted"
   ],
   "note": "Over the reals, for every history of the function object. The step is the regularised Gauss-Newton step of all poses unless the QR solver takes a column of small entries for zero (C115). A frame without functions makes every iteration fail (refuted), and without a line search the error can grow (refuted)."
  },
  {
   "property": "C117",
   "status": "partial",
   "theorems": [
    "mesh_normals",
    "mesh_normals_numbers",
    "mesh_normals_order",
    "mesh_normals_turned",
    "mesh_normals_flipped",
    "mesh_normals_moved",
    "mesh_normals_flat",
    "mesh_normals_first_coordinate_refuted",
    "mesh_normals_average_refuted"
   ],
   "note": "Scalars are reals or NaN. Everything holds for meshes whose coordinates are numbers, except that the normals are weighted by area and not the average that the header promises (refuted); a NaN in a first coordinate reaches the normals of other vertices (refuted)."
  },
  {
   "property": "C118",
   "status": "partial",
   "theorems": [
    "extrapolate_each",
    "extrapolate_sizes",
    "extrapolate_active_each",
    "extrapolate_stays_close",
    "extrapolate_active_many_refuted",
    "extrapolate_negative_limit_refuted"
   ],
   "note": "Over the reals. Everything holds for limits that are not negative and up to 2048 parameters; beyond these the version with active parameters throws or has undefined behaviour (refuted)."
  },
  {
   "property": "C119",
   "status": "partial",
   "theorems": [
    "skin_weights_stored",
    "skin_weights_kept_partial",
    "skin_weights_sizes",
    "skin_weights_short_refuted",
    "skin_weights_ninth_refuted",
    "skin_weights_index_refuted",
    "skin_weights_equal_self",
    "skin_weights_equal_swap",
    "skin_weights_equal_close",
    "skin_weights_equal_transitive_refuted"
   ],
   "note": "Over the reals. Up to eight influences per vertex and joint indices below 2^32 are kept and skinned as given. A ninth influence is dropped even if it alone has weight, large indices wrap and missing weights are read out of bounds (refuted). Equality is reflexive, symmetric and implies closeness, but is not transitive (refuted)."
  },
  {
   "property": "C120",
   "status": "partial",
   "theorems": [
    "character_state_history_partial",
    "character_state_parts",
    "character_state_blend",
    "character_state_pose_shape",
    "character_state_bind_pose_partial",
    "character_state_rest_mesh",
    "character_state_stale_mesh_refuted",
    "character_state_stale_faces_refuted",
    "character_state_no_normals_refuted",
    "character_state_bind_pose_refuted"
   ],
   "note": "Over the reals, for every order in which vertices are treated and every history of calls with the same character. A state that is set by another character can keep the mesh or the faces of the old one (refuted), a mesh without normals is read out of bounds (refuted), and setBindPose applies limits that can exclude the bind pose (refuted)."
  },
  {
   "property": "C121",
   "status": "partial",
   "theorems": [
    "vertex_error_is_objective",
    "vertex_gradient_is_derivative_partial",
    "vertex_jacobian_is_derivative_partial",
    "vertex_jacobian_rows",
    "bones_visited_once",
    "vertex_gradient_negative_weight_refuted",
    "vertex_gradient_after_zero_refuted",
    "vertex_gradient_disabled_refuted",
    "vertex_jacobian_without_blend_shape_refuted"
   ],
   "note": "Over the reals. The error is proved for all four types of constraints; the derivatives for positions and for planes with the normal of the target, through joints, blend shapes and face expressions; not for the types that use the normal of the mesh, whose derivative the code approximates. Weights must not be negative and none may follow a zero; without either the gradient is wrong (refuted). Disabled parameters can get a gradient (refuted), and getJacobian for planes reads a blend shape that does not exist (refuted)."
  },
  {
   "property": "C122",
   "status": "partial",
   "theorems": [
    "joint_params_file_loaded",
    "joint_params_file_only",
    "joint_params_file_cut_partial",
    "joint_params_missing_file_refuted",
    "joint_params_cut_file_refuted",
    "joint_params_many_frames_refuted",
    "pose_shape_file_loaded",
    "loaded_pose_shape_fits",
    "pose_shape_cut_file_refuted",
    "pose_shape_other_character_refuted"
   ],
   "note": "Complete files are loaded exactly and whatever is loaded fits the character. Missing and cut files are not noticed: counts or values come from uninitialised memory (refuted). 2^31 frames overflow the counter (refuted). A pose shape for another character is only caught by assertions (refuted). Streams on a little-endian machine with 64-bit sizes; memory as in the notes of the model."
  },
  {
   "property": "C123",
   "status": "partial",
   "theorems": [
    "saved_locators_load",
    "loaded_locators_have_parents",
    "locator_limit_origin_refuted",
    "locator_name_with_colon_refuted",
    "locator_same_joint_name_refuted",
    "locator_parent_number_refuted",
    "locator_file_undefined_refuted",
    "locator_duplicate_names_refuted",
    "locator_cut_file_refuted"
   ],
   "note": "Round trip in both spaces for locators with distinct names without colons or line ends on joints that are the first of their name, for numbers that std::stof accepts as printed; termination and what any loaded list satisfies. Refuted: the limit origin is lost, names with colons, joints of the same name, numeric parents out of range, undefined behaviour on blank lines, locks that are no numbers and incomplete positions, duplicate names behind empty ones, cut files. Opening and reading the file itself and failures of writing are not modelled."
  },
  {
   "property": "C124",
   "status": "partial",
   "theorems": [
    "written_limits_parse",
    "parsed_limits_in_range",
    "limits_parse_ends",
    "limit_lines_independent",
    "other_limit_lines",
    "limits_written_apart",
    "limit_name_with_period_refuted",
    "linear_limit_lower_end_refuted",
    "linear_limit_weight_refuted",
    "linear_limit_gap_refuted",
    "limit_name_characters_refuted",
    "limit_keyword_refuted"
   ],
   "note": "Round trip for all six kinds of limits with names of letters, digits and underscores, linear limits in groups of segments that meet and start at the lowest number, and numbers that std::stof accepts as printed; what any parsed list satisfies; termination, lines and comments. Refuted: periods and other characters in names, lower ends of linear ranges, weights of later segments, segments that do not meet, words that merely start with limit. Scaling of half planes and decomposition of ellipsoids are arguments."
  },
  {
   "property": "C125",
   "status": "partial",
   "theorems": [
    "sets_accepted_iff",
    "parsed_sets",
    "parsed_poses",
    "loaded_definition_fits",
    "definition_lines_partial",
    "loaded_parameters_fit",
    "definition_first_line_refuted",
    "definition_last_line_refuted",
    "pose_constraint_blanks_refuted",
    "set_defined_twice_refuted",
    "load_parameters_exception_refuted",
    "load_parameters_empty_refuted"
   ],
   "note": "Sets and pose constraints are characterised for every text, and whatever is loaded fits. The lines of a whole definition only when the last one is ended. Refuted: the first line is not looked at, a last line without end is lost, blanks around an equality sign, sets defined twice, and loadParameters leaving old limits with a new transform after an exception or with an empty map. That parsing the transform ends is C12 (partial); numbers are reals."
  },
  {
   "property": "C126",
   "status": "partial",
   "theorems": [
    "main_subject_found",
    "main_subject_loaded",
    "unnamed_subject_refuted",
    "marker_errors_hidden_refuted"
   ],
   "note": "The choice of the main subject is characterised for every recording, and so is what is loaded for it, with the loaders of the formats as arguments. Refuted: an unnamed subject is only found when it is alone; files that cannot be read, unknown types and extensions in upper case give an empty result. Counts are assumed to fit an int."
  },
  {
   "property": "C127",
   "status": "partial",
   "theorems": [
    "full_character_loaded",
    "character_format",
    "parameters_without_header_refuted",
    "unknown_sections_refuted"
   ],
   "note": "For every character file (its loader is an argument), parameter text and locator text. Refuted: a parameter file without the line of the format, or with other section names, removes all parameters without an error, in the first case leaving limits of parameters that do not exist. Termination rests on C12, C77 and C123."
  },
  {
   "property": "C128",
   "status": "partial",
   "theorems": [
    "sets_json_round_trip",
    "sets_json_same",
    "sets_json_same_names_refuted",
    "fixed_matrix_json_round_trip",
    "dynamic_matrix_json_round_trip",
    "dynamic_matrix_json_rows_refuted",
    "ragged_matrix_json_refuted",
    "limits_json_round_trip",
    "limits_json_unknown_type",
    "limits_json_range_refuted",
    "limits_json_unknown_parameter_refuted",
    "limits_json_missing_values_refuted",
    "poses_json_round_trip",
    "sets_json_read",
    "poses_json_read",
    "limits_json_read",
    "poses_json_empty_refuted",
    "poses_json_order_refuted"
   ],
   "note": "The round trips hold for all sets, pose constraints, limits and matrices with names of their own, over the reals; for any JSON value it is proved which sets and pose constraints it is read as and that every index of a limit is one that exists or the invalid one. Refuted: the range of a linear limit is not written, so that the limit applies everywhere afterwards; pose constraints without values are lost and the order of values changes; a limit for an unknown parameter gets an invalid index without an error; missing values and columns that are too long are undefined; a matrix without columns loses its rows. The parameter transform is not part of this property."
  },
  {
   "property": "C129",
   "status": "partial",
   "theorems": [
    "transform_json_round_trip",
    "transform_json_any",
    "transform_json_no_entries_refuted",
    "transform_json_offsets_refuted",
    "transform_json_damaged_refuted"
   ],
   "note": "For every transform with names of its own, at least one entry and entries within its matrix, and for every JSON value that is read. Refuted: offsets are not written; a transform without entries, and any value with an error in it, becomes the identity with other parameters, without an error."
  },
  {
   "property": "C130",
   "status": "partial",
   "theorems": [
    "hierarchy_loaded",
    "hierarchy_ordered",
    "hierarchy_sorted",
    "hierarchy_map",
    "hierarchy_map_all",
    "hierarchy_ends",
    "hierarchy_defined",
    "hierarchy_once",
    "hierarchy_map_locators_refuted",
    "hierarchy_cycle_refuted",
    "hierarchy_index_refuted",
    "hierarchy_other_roots_refuted",
    "hierarchy_twice_refuted"
   ],
   "note": "For every list of nodes and roots. Refuted: the map is wrong for locators once they are sorted; a cycle of nodes is followed without end; a child with the number of nodes as index is read out of bounds; joints below a second root are left out; a child of two nodes is loaded twice. Which nodes are roots, and what is read from a node besides its kind, its children and its parent, is not modelled."
  },
  {
   "property": "C131",
   "status": "partial",
   "theorems": [
    "common_ancestor",
    "skin_roots_cover",
    "skin_roots_end",
    "skeletons_kept",
    "skeletons_cover_partial",
    "parents_of_scene",
    "parents_are_forest",
    "parents_end",
    "skeletons_same_root_refuted",
    "skeletons_several_roots_refuted",
    "parents_cycle_refuted",
    "parents_bounds_refuted"
   ],
   "note": "For every forest of nodes and every list of skins; the map of parents is proved to be the one of the scene. A scene with a cycle never ends and a child that is no node is written out of bounds (refuted). That every skin has a skeleton holds if no two skins have the same single root; two skins of one skeleton remove each other, or are counted twice if they have several roots, and the file is refused (refuted)."
  },
  {
   "property": "C132",
   "status": "partial",
   "theorems": [
    "mesh_vertices",
    "mesh_faces",
    "mesh_texture_partial",
    "mesh_texture_refuted",
    "mesh_indices_refuted",
    "mesh_no_indices_refuted"
   ],
   "note": "For every list of primitives, with the contents of their buffers as arguments. Faces are proved if the indices of every primitive are ones of its vertices, texture coordinates if every primitive has some; if only some have, faces use coordinates that do not exist (refuted). Indices are not checked, and an index buffer that cannot be read is undefined behaviour (refuted). Skin weights are not part of the property."
  },
  {
   "property": "C133",
   "status": "partial",
   "theorems": [
    "skin_loaded",
    "skin_sizes",
    "skin_joint",
    "skin_locator_refuted",
    "skin_dropped_refuted",
    "skin_node_refuted"
   ],
   "note": "For every skin, map of nodes and one or two complete sets of influences, with the contents of buffers as arguments. Refuted: an influence by the node of a locator becomes one by an unrelated joint, since the map holds both; sets that do not fit the mesh are dropped without an error; nodes of a skin that do not exist are read out of bounds. Influences by nodes that were not loaded become zeros, as the code intends with a warning."
  },
  {
   "property": "C134",
   "status": "partial",
   "theorems": [
    "character_fits_partial",
    "character_capsules_refuted",
    "character_joints_refuted"
   ],
   "note": "For every list of nodes and roots. Joints and locators always have parents that exist. Capsules have them unless the only meshes outside the hierarchy are ones without a skin: then the skeleton is replaced by a single joint, the joints of the file are lost and capsules keep joints that are gone (refuted)."
  },
  {
   "property": "C135",
   "status": "partial",
   "theorems": [
    "motion_round_trip",
    "motion_offsets_round_trip",
    "motion_fits",
    "motion_nothing",
    "motion_only_offsets_refuted",
    "motion_wrong_offsets_refuted"
   ],
   "note": "For every motion with at least one frame and one parameter and every contents of the extension; the values are abstract, so no rounding is involved. Missing: the accessors (C36), a file that has a motion already, and the animation of nodes. Refuted: offsets without frames are not saved; offsets of a wrong size are saved and then make the frames disappear on loading, without an error."
  }
 ]
}