{
 "claims": [
  {
   "property": "C01",
   "status": "proved",
   "theorems": [
    "C01_counts",
    "C01_minimum",
    "C01_accepted_sizes",
    "C01_accepts",
    "C01_rejects"
   ],
   "note": "Count identities, minimality, exact acceptance/rejection of sizes (rejection theorem assumes the old knot vector is not longer than the new one; the other case is C11)."
  },
  {
   "property": "C02",
   "status": "proved",
   "theorems": [
    "C02_initialised",
    "C02_evalD_safe",
    "C02_Phi_safe",
    "C02_jacobian_safe",
    "C02_knots_read"
   ],
   "note": "Every well-formed state; UB is a distinct outcome in the model."
  },
  {
   "property": "C03",
   "status": "partial",
   "theorems": [
    "C03_segment_lookup",
    "C03_outside",
    "C03_refuted"
   ],
   "note": "Proved when the last valid segment is at least as long as the snap distance 1e-10; without that hypothesis the property is false (C03_refuted: a bracketing failure with u<0 for every eps>0)."
  },
  {
   "property": "C04",
   "status": "proved",
   "theorems": [
    "C04_evalD_exact",
    "C04_eval_curve",
    "C04_high_derivatives"
   ],
   "note": "Against textbook Cox-de Boor polynomials/functions; last valid segment at least eps long."
  },
  {
   "property": "C05",
   "status": "proved",
   "theorems": [
    "C05_partition_of_unity",
    "C05_convex_hull",
    "C05_short_last_segment_refuted"
   ],
   "note": "Last valid segment at least eps long; a shorter one gives negative basis values (refuted)."
  },
  {
   "property": "C06",
   "status": "proved",
   "theorems": [
    "C06_constant_curve",
    "C06_initConstantSpline"
   ],
   "note": ""
  },
  {
   "property": "C07",
   "status": "proved",
   "theorems": [
    "C07_local_support"
   ],
   "note": "No well-formedness needed."
  },
  {
   "property": "C08",
   "status": "proved",
   "theorems": [
    "C08_linear",
    "C08_translate"
   ],
   "note": ""
  },
  {
   "property": "C09",
   "status": "proved",
   "theorems": [
    "C09_jacobian"
   ],
   "note": ""
  },
  {
   "property": "C10",
   "status": "proved",
   "theorems": [
    "C10_set_get",
    "C10_set_ok",
    "C10_get_set",
    "C10_wrong_size",
    "C10_set_local",
    "C10_set_get_local"
   ],
   "note": ""
  },
  {
   "property": "C11",
   "status": "partial",
   "theorems": [
    "C11_refuted",
    "C11_fresh_unchecked",
    "C11_out_of_bounds_refuted",
    "C11_same_length_partial"
   ],
   "note": "REFUTED as stated: verifyKnotSequence loops to the size of the OLD knot vector. True part: equal lengths."
  },
  {
   "property": "C12",
   "status": "proved",
   "theorems": [
    "C12_continuity"
   ],
   "note": ""
  },
  {
   "property": "C13",
   "status": "proved",
   "theorems": [
    "C13_linear_precision",
    "C13_polynomial_reproduction"
   ],
   "note": ""
  },
  {
   "property": "C14",
   "status": "proved",
   "theorems": [
    "C14_integral",
    "C14_antiderivative_exists",
    "C14_laws"
   ],
   "note": ""
  },
  {
   "property": "C15",
   "status": "proved",
   "theorems": [
    "C15_quadratic_integral",
    "C15_symmetric_psd",
    "C15_diag",
    "C15_sparse",
    "C15_diag_sparse"
   ],
   "note": "The integral is the difference of any piecewise antiderivative; sparse matrices are modelled by their dense content."
  },
  {
   "property": "C16",
   "status": "proved",
   "theorems": [
    "C16_initSpline_line",
    "exact_solver_exists"
   ],
   "note": "For every exact solver; values and all derivatives on the whole interval. The spline may be fresh or hold at most 2k knots."
  },
  {
   "property": "C17",
   "status": "partial",
   "theorems": [
    "C17_addCurveSegment",
    "C17_unchanged_low_order",
    "C17_unchanged_regular",
    "C17_unchanged_prefix",
    "C17_refuted"
   ],
   "note": "REFUTED as stated: for order >= 4 replacing the trailing knots changes earlier segments (C17_refuted). The rest is proved: one segment added, both ends interpolated, other coefficients kept; unchanged curve for orders 2 and 3, for regular trailing knots, and for segments whose local knots are kept. Needs a last valid segment of positive length."
  },
  {
   "property": "C18",
   "status": "partial",
   "theorems": [
    "C18_uniform_partial",
    "C18_order2_partial",
    "C18_interval",
    "C18_refuted"
   ],
   "note": "REFUTED as stated: the basis matrices are not shifted. True for uniform knots and for order 2."
  },
  {
   "property": "C19",
   "status": "proved",
   "theorems": [
    "C19_initSpline3",
    "C19_initSplineSparse",
    "C19_initSplineSparseKnots",
    "C19_initSpline2",
    "C19_cost_exists",
    "C19_same_system"
   ],
   "note": "initSpline2 minimises a different penalty (second derivatives at knots), stated as such."
  },
  {
   "property": "C20",
   "status": "proved",
   "theorems": [
    "C20_cumulative",
    "C20_cumulative_vector"
   ],
   "note": ""
  },
  {
   "property": "C21",
   "status": "partial",
   "theorems": [
    "C21_entries_partial",
    "C21_refuted"
   ],
   "note": "REFUTED as stated: the vector has numValidTimeSegments() entries, always fewer than there are coefficients. True part: the entries present are right."
  },
  {
   "property": "C22",
   "status": "partial",
   "theorems": [
    "C22_structure",
    "C22_too_few_knots",
    "C22_history",
    "C22_constructing_throws_partial",
    "C22_evaluable_throws_partial",
    "C22_getMinTime_refuted",
    "C22_addKnot_refuted",
    "time_double_exact",
    "time_nsec_exact"
   ],
   "note": "Counts and time bounds proved for every construction sequence and every later history. REFUTED as stated in the last part: getMinTime/getMaxTime before init dereference unset iterators, and addKnot after init is accepted and leads to reading an uninitialised basis matrix; the calls that do check the state throw and change nothing."
  },
  {
   "property": "C23",
   "status": "proved",
   "theorems": [
    "C23_lookup",
    "C23_unique",
    "C23_outside"
   ],
   "note": "Every history of public calls (built)."
  },
  {
   "property": "C24",
   "status": "proved",
   "theorems": [
    "C24_evalD",
    "C24_same_as_bspline",
    "C24_generic_euclidean",
    "C24_generic"
   ],
   "note": "Last valid segment of the BSpline at least as long as its snap distance."
  },
  {
   "property": "C25",
   "status": "proved",
   "theorems": [
    "C25_append",
    "C25_append_points",
    "C25_append_is_construct",
    "C25_curve_kept",
    "C25_generic_curve_kept"
   ],
   "note": "At the old end itself the derivative of order k-1 belongs to the new segment."
  },
  {
   "property": "C26",
   "status": "partial",
   "theorems": [
    "C26_set_vertices",
    "C26_set_bad_shape",
    "C26_manipulate",
    "C26_manipulate_order",
    "C26_too_many",
    "C26_local_round_trip",
    "C26_local_get",
    "C26_count_refuted",
    "C26_negative_offset_refuted"
   ],
   "note": "REFUTED as stated: fewer points than control vertices are accepted silently (only too many throw); a negative offset can move the iterator before begin(). The rest is proved."
  },
  {
   "property": "C27",
   "status": "proved",
   "theorems": [
    "C27_interval",
    "C27_interval_nsec",
    "C27_interval_nsec_total",
    "C27_interval_rejects",
    "C27_spline",
    "C27_delta",
    "C27_delta_steps",
    "C27_delta_steps_nsec",
    "C27_delta_extend",
    "C27_delta_diverges"
   ],
   "note": "Real and integer times; for integer times overflow is an explicit outcome and a sufficient range is proved."
  },
  {
   "property": "C28",
   "status": "partial",
   "theorems": [
    "C28_resolver_partial",
    "C28_end_refuted",
    "C28_resolver_nsec_partial",
    "C28_resolver_nsec_divisible",
    "C28_nsec_refuted"
   ],
   "note": "REFUTED as stated: at tmax the resolver returns one knot too many, and for integer times it can return one too few at a knot whose position was rounded. Proved for every other time inside the interval (integer times: up to that one-off, exact when the segment count divides the interval)."
  },
  {
   "property": "C29",
   "status": "proved",
   "theorems": [
    "C29_ends",
    "C29_error",
    "C29_increasing",
    "C29_only_if",
    "C29_total"
   ],
   "note": "Overflow is an explicit outcome; C29_total gives a range without it."
  },
  {
   "property": "C30",
   "status": "proved",
   "theorems": [
    "C30_simpson",
    "C30_trapezoid",
    "C30_simpson_vector",
    "C30_points",
    "C30_weights",
    "C30_too_few"
   ],
   "note": "At least two points; with fewer the code divides by zero (C30_too_few)."
  },
  {
   "property": "C31",
   "status": "proved",
   "theorems": [
    "C31_forward",
    "C31_backward",
    "C31_limit_behind"
   ],
   "note": "The limit must lie in the direction of movement; the other case is characterised too (C31_limit_behind)."
  },
  {
   "property": "C32",
   "status": "partial",
   "theorems": [
    "C32_unique",
    "C32_live",
    "C32_usage",
    "C32_destroy",
    "C32_values",
    "C32_fresh_partial",
    "C32_fresh_never_freed",
    "C32_stale_refuted",
    "C32_type_refuted",
    "C32_total"
   ],
   "note": "Slot uniqueness is proved for every history. REFUTED as stated for values: a re-used index shows the value and validity of its previous owner (C32_stale_refuted), undefined behaviour if the type differs (C32_type_refuted); C32_values gives the exact behaviour, C32_fresh_partial the condition under which the claim holds."
  },
  {
   "property": "C33",
   "status": "proved",
   "theorems": [
    "C33_unit_norm"
   ],
   "note": "every spline built by public calls with unit control vertices; exp assumed to give unit quaternions with exp 0 = 1 and to commute with its argument (exp_like); exact arithmetic"
  },
  {
   "property": "C34",
   "status": "proved",
   "theorems": [
    "C34_recursion",
    "C34_no_truncation",
    "C34_spline_derivatives",
    "C34_curve_jet",
    "C34_order1_undefined"
   ],
   "note": "recursion: any number >= 1 of factors, any order, any differential ring; whole spline for d <= 3 (the code throws above). Additional finding: order-1 splines have no factor and the recursion for d >= 2 is undefined (C34_order1_undefined). int overflow of the factorial is not modelled"
  },
  {
   "property": "C35",
   "status": "proved",
   "theorems": [
    "C35_angular_derivatives",
    "C35_omega",
    "C34_spline_derivatives"
   ],
   "note": "holds for every jet, also without unit norm; C34_spline_derivatives gives it for whole splines"
  },
  {
   "property": "C36",
   "status": "partial",
   "theorems": [
    "C36_calc_partial",
    "C36_fit_partial",
    "C36_init",
    "C36_fixed_kept",
    "C36_rejects",
    "C36_refuted"
   ],
   "note": "REFUTED as stated: with fixed vertices and lambda > 0 the regularisation block is shifted and the result is not optimal (also misses the coupling to the fixed vertices); proved for lambda = 0 or no fixed vertices; fixed vertices are kept in every case"
  },
  {
   "property": "C37",
   "status": "partial",
   "theorems": [
    "C37_lengths_partial",
    "C37_refuted"
   ],
   "note": "REFUTED as stated: the number of weights is smaller if and only if i0 + 3 < 2k (i0 segment of the first new time)"
  },
  {
   "property": "C38",
   "status": "proved",
   "theorems": [
    "C38_expression",
    "C38_designVariable",
    "C38_pose_blocks",
    "C38_opt_variables",
    "C38_opt_expression",
    "C38_opt_euclidean"
   ],
   "note": "BSplineDesignVariable / BSplineExpressions / BSplinePoseDesignVariable and OPTBSpline.  For OPTBSpline: splines built by addKnot/addControlVertex+init, initConstantSpline, appendSegments and copies; for initWithKnots and operator= the variables are wrong, see C52"
  },
  {
   "property": "C39",
   "status": "proved",
   "theorems": [
    "C39_update_revert"
   ],
   "note": "any interleaving over any number of variables and splines; usable: the pointer resolves and the manifold it refers to is alive (see C53)"
  },
  {
   "property": "C40",
   "status": "proved",
   "theorems": [
    "C40_in_step",
    "C40_step"
   ],
   "note": "all op sequences on which every call returns; C40_step says when a call returns"
  },
  {
   "property": "C41",
   "status": "partial",
   "theorems": [
    "C41_refuted",
    "C41_identity_partial",
    "C41_correct_jacobian"
   ],
   "note": "REFUTED as stated: with a quarter turn as orientation the reported (world-frame) Jacobian is not the derivative of the reported body-frame value. It is the derivative along position coefficients at identity orientation; the matrix C^T (J_a - a x (S J_theta)) is the derivative in general."
  },
  {
   "property": "C42",
   "status": "partial",
   "theorems": [
    "C42_registered",
    "C42_built",
    "C42_time_jacobian",
    "C42_refuted"
   ],
   "note": "REFUTED as stated: if the last valid segment is shorter than the snap distance (1e-10) an accepted time can use an unregistered coefficient (C42_refuted); proved for all splines whose last valid segment is at least that long"
  },
  {
   "property": "C43",
   "status": "proved",
   "theorems": [
    "C43_value",
    "C43_nonneg",
    "C43_quadratic",
    "C43_build",
    "C43_model",
    "C43_newton",
    "C43_descending_refuted"
   ],
   "note": "for symmetric W and variables whose blocks are in ascending order in the Hessian; C43_descending_refuted shows the order is needed"
  },
  {
   "property": "C44",
   "status": "proved",
   "theorems": [
    "C44_inverse",
    "C44_value_roundtrip",
    "C44_matrix_roundtrip"
   ],
   "note": "Any rotation parameterisation returning orthonormal matrices; both products are the identity."
  },
  {
   "property": "C45",
   "status": "partial",
   "theorems": [
    "C45_exact",
    "C45_antisymmetric",
    "C45_int_divisible_partial",
    "C45_int_constant",
    "C45_int_refuted"
   ],
   "note": "REFUTED as stated: with integer time types the step is rounded, so not even constants are integrated correctly unless the number of panels divides the length (C45_int_divisible_partial)."
  },
  {
   "property": "C46",
   "status": "proved",
   "theorems": [
    "C46_orientation",
    "C46_inverse_orientation",
    "C46_transformation",
    "C46_inverse_transformation",
    "C46_transform_vector"
   ],
   "note": "Derivatives in the epsilon-delta sense along every direction of coefficient change; rotation parameterisation assumed to satisfy rot_ext, rot_deriv, rot_proper (shown satisfiable by the Cayley parameterisation)."
  },
  {
   "property": "C47",
   "status": "proved",
   "theorems": [
    "C47_angular_body"
   ],
   "note": "All derivative orders d at once."
  },
  {
   "property": "C48",
   "status": "partial",
   "theorems": [
    "C48_refuted",
    "C48_opposite_partial"
   ],
   "note": "REFUTED as stated: the two functions return vectors of opposite sign; the AndJacobian variant is consistent with its own value S theta'."
  },
  {
   "property": "C49",
   "status": "proved",
   "theorems": [
    "C49_kinematics",
    "C49_body_rate"
   ],
   "note": "Interior of knot intervals, last valid interval not shorter than the 1e-10 tolerance."
  },
  {
   "property": "C50",
   "status": "partial",
   "theorems": [
    "C50_refuted",
    "C50_missing_term_partial"
   ],
   "note": "REFUTED as stated: for the linear parameter curve theta = (t,0,0) the code returns zero; the exact missing term is proved."
  },
  {
   "property": "C51",
   "status": "partial",
   "theorems": [
    "C51_refuted",
    "C51_append_partial"
   ],
   "note": "REFUTED as stated: at the old end of the curve the blocks go to the wrong variables; proved for times at least eps before the old end, any number of appends"
  },
  {
   "property": "C52",
   "status": "partial",
   "theorems": [
    "C38_opt_variables",
    "C52_initWithKnots_refuted",
    "C52_append_refuted",
    "C52_assign_refuted"
   ],
   "note": "REFUTED as stated: initWithKnots leaves the variable list empty, operator= copies the pointers of the other spline; proved for all other constructions"
  },
  {
   "property": "C53",
   "status": "partial",
   "theorems": [
    "C53_updatable_partial",
    "C53_copy_refuted"
   ],
   "note": "REFUTED as stated: a copy refers to the manifold of the original, updating it after the original is destroyed is undefined; proved for histories without destruction"
  },
  {
   "property": "C54",
   "status": "partial",
   "theorems": [
    "C54_new_fits",
    "C54_value_partial",
    "C54_jacobians_partial",
    "C54_out_of_bounds",
    "C54_value_refuted"
   ],
   "note": "REFUTED as stated: the evaluator cache compares the segment knot instead of the time; proved for the first evaluation and for all times that are not knots"
  },
  {
   "property": "C55",
   "status": "partial",
   "theorems": [
    "C55_rejects_inner",
    "C55_refuted"
   ],
   "note": "REFUTED as stated: for percentages strictly between 0 and 100 every batch that ends before the old end is rejected"
  },
  {
   "property": "C56",
   "status": "proved",
   "theorems": [
    "C56_keeps_old"
   ],
   "note": ""
  },
  {
   "property": "C57",
   "status": "partial",
   "theorems": [
    "C57_ignores_old",
    "C57_fits_both_partial"
   ],
   "note": "proved for percentage 0; between 0 and 100 needs the conditions whose failure C37 and C55 describe"
  },
  {
   "property": "C58",
   "status": "proved",
   "theorems": [
    "C58_segment_views",
    "C58_local_views",
    "C58_intervals_tile",
    "C58_interval_vertices",
    "C58_out_of_range",
    "C58_vertex_read",
    "C58_vertex_write",
    "C58_vertex_bad",
    "C58_set_matrix"
   ],
   "note": ""
  },
  {
   "property": "C59",
   "status": "proved",
   "theorems": [
    "C59_matrix_form",
    "C59_derivative_matrix",
    "C59_basis_blocks",
    "C59_basis_function"
   ],
   "note": ""
  },
  {
   "property": "C60",
   "status": "proved",
   "theorems": [
    "C60_integral",
    "C60_antiderivative_exists",
    "C60_ticks",
    "C60_outside",
    "C60_equal_times_refuted"
   ],
   "note": "dm_above: no piece is below the threshold 1e-16 of the code (automatic for integer times by C60_ticks); equal times are not range-checked (C60_equal_times_refuted)"
  },
  {
   "property": "C61",
   "status": "proved",
   "theorems": [
    "C61_append",
    "C61_knot_delta"
   ],
   "note": "numSegments as a non-negative int"
  },
  {
   "property": "C62",
   "status": "partial",
   "theorems": [
    "C62_add",
    "C62_next",
    "C62_history",
    "C62_plain",
    "C62_extend",
    "C62_extend_outcome",
    "C62_all_predefined_refuted",
    "C62_undefined_refuted"
   ],
   "note": "REFUTED as stated: extendBeyondTime drops predefined knots before its argument that were never delivered, and is undefined if no predefined knot is left; acceptance, order of the knots and the exact outcome of extendBeyondTime are proved"
  },
  {
   "property": "C63",
   "status": "partial",
   "theorems": [
    "C63_destroy_node",
    "C63_refuted"
   ],
   "note": "REFUTED as stated: the entries are deleted through a base class without virtual destructor; defined exactly for nodes that were never accessed"
  },
  {
   "property": "C64",
   "status": "proved",
   "theorems": [
    "C64_project",
    "C64_project_in",
    "C64_update",
    "C64_difference_update",
    "C64_update_difference",
    "C64_exp_log"
   ],
   "note": "the norm is assumed exact at the argument; exp and log are parameters, inverse to each other at the arguments"
  },
  {
   "property": "C65",
   "status": "proved",
   "theorems": [
    "C65_jacobians",
    "C65_other_orders",
    "C65_moved_value",
    "C65_meaning",
    "C65_minimal_difference",
    "C65_group_differentials"
   ],
   "note": "the differentials of exp and log are parameters (sm_kinematics)"
  },
  {
   "property": "C66",
   "status": "proved",
   "theorems": [
    "C66_init",
    "C66_add"
   ],
   "note": "solver exact on solvable systems as in C16/C17"
  },
  {
   "property": "C67",
   "status": "proved",
   "theorems": [
    "C67_body_world",
    "C67_transport",
    "C67_acceleration_jacobian"
   ],
   "note": ""
  },
  {
   "property": "C68",
   "status": "partial",
   "theorems": [
    "C68_interval",
    "C68_over_times",
    "C68_delta",
    "C68_interval_nsec_partial",
    "C68_nsec_refuted",
    "C68_rejects",
    "C68_delta_rejects"
   ],
   "note": "REFUTED as stated: with integer times and a segment count that does not divide the duration the result of initUniformSpline is not the optimum (knot index of C28); proved for real times, for every knot distance, and for integer times if the count divides the duration"
  },
  {
   "property": "C69",
   "status": "proved",
   "theorems": [
    "C69_terms",
    "C69_total",
    "C69_expression",
    "C69_exact",
    "C69_default",
    "C69_equal_bounds",
    "C69_too_few",
    "C69_reversed"
   ],
   "note": "square root assumed exact at the weights; C69_too_few and C69_reversed record that one point and bounds in the wrong order are not caught; ownership of the terms and the self-calling overload (80-83) are not modelled"
  },
  {
   "property": "C70",
   "status": "partial",
   "theorems": [
    "C70_pose_jacobian",
    "C70_delay_jacobian",
    "C70_delay_update",
    "C70_variables",
    "C70_active",
    "C70_registered_partial",
    "C70_registered_refuted"
   ],
   "note": "REFUTED as stated: after an update of the line delay over a knot the node hands a block to a control vertex it had not reported before; proved for line delays within one knot interval; values, Jacobians and numbering proved in full"
  },
  {
   "property": "C71",
   "status": "partial",
   "theorems": [
    "C71_optimum",
    "C71_prefix",
    "C71_refused",
    "C71_pose",
    "C71_pose_ends",
    "C71_interpolates_refuted"
   ],
   "note": "REFUTED as stated: with lambda not 0 and order at least 3 the end values are not interpolated, and the penalty is on the share of the last two control vertices in the acceleration (the fixed ones are left out), so a constant curve is not continued; proved: the unique minimum of the cost the code sets up, and interpolation for lambda = 0 or order 2; solver assumed exact"
  },
  {
   "property": "C72",
   "status": "partial",
   "theorems": [
    "C72_fixed_time",
    "C72_time_expression_partial",
    "C72_stale_time"
   ],
   "note": "proved in full for expressions at a fixed time with unit control vertices; for a time expression proved for the first evaluation and for all times that are not knots, since at knots the evaluator cache can be stale (C54_value_refuted); C72_stale_time says what is returned then"
  },
  {
   "property": "C73",
   "status": "partial",
   "theorems": [
    "C73_error_partial",
    "C73_dimension_refuted",
    "C73_euclidean"
   ],
   "note": "REFUTED as stated: the base class stores an error with one entry, so the evaluation breaks the precondition of the assignment for every dimension but one; proved for dimension one; Euclidean expressions proved in full; setError is external (assumed: assignment to a vector with one entry)"
  },
  {
   "property": "C74",
   "status": "proved",
   "theorems": [
    "C74_prepared",
    "C74_prepared_count",
    "C74_basis_to_knot",
    "C74_knot_to_basis",
    "C74_points"
   ],
   "note": "C74_prepared discharges the hypothesis np <= k+1 of the evaluation theorems"
  }
 ]
}