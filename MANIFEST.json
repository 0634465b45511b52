{
 "claims": [
  {
   "property": "C01",
   "status": "proved",
   "theorems": [
    "C01_expression_value",
    "C01_expression_value_concat"
   ],
   "note": "All expression trees over +,-,*,scalar *,compose,dot,neg(plain), and in-place += and *= of operands with suitable sizes (also of an object with itself), with any overloads, any debug mode; concatenation of abutting pieces included."
  },
  {
   "property": "C02",
   "status": "proved",
   "theorems": [
    "C02_neg_plain",
    "C02_neg_uses_first_operand_only",
    "C02_neg_aborts_with_assertions",
    "C02_unary_minus_refuted",
    "C02_double_negation_refuted"
   ],
   "note": "REFUTED as users expect it: holds for plain functions; -(f+g) evaluates to -f (release) or aborts (debug), -(-f) = -f. The exact behaviour for every expression is proved for any arithmetic."
  },
  {
   "property": "C03",
   "status": "proved",
   "theorems": [
    "C03_sub_plain",
    "C03_binary_minus_refuted"
   ],
   "note": "REFUTED for a compound right operand (f-(g+h) = f-g); proved for every left operand and any plain right operand."
  },
  {
   "property": "C04",
   "status": "proved",
   "theorems": [
    "C04_domain",
    "C04_domain_object",
    "C04_domain_concat",
    "C04_domain_moved_refuted",
    "C04_derivative",
    "C04_derivative_n"
   ],
   "note": "All smooth expression trees, all orders, all points, dot products included when operand domains agree. Orders above 1 require that no class written in Python is reached directly (C76)."
  },
  {
   "property": "C05",
   "status": "proved",
   "theorems": [
    "C05_sum_overloads",
    "C05_product_overloads",
    "C05_product_overloads_throw",
    "C05_compose_overloads",
    "C05_concat_overloads",
    "C05_compose_domain_refuted",
    "C05_concat_chain_refuted"
   ],
   "note": "+,- identical; * same operands and codomain; compose/concat identical except the rvalue overloads on composition/concatenation, REFUTED there with witnesses."
  },
  {
   "property": "C06",
   "status": "proved",
   "theorems": [
    "C06_sum_checks",
    "C06_difference_checks",
    "C06_product_checks",
    "C06_compose_checks",
    "C06_concat_checks",
    "C06_inplace_unchecked_refuted"
   ],
   "note": "Exact acceptance condition of every binary operator; REFUTED for += and *= (no check, evaluation is undefined)."
  },
  {
   "property": "C07",
   "status": "proved",
   "theorems": [
    "C07_concat_value",
    "C07_gap_throws",
    "C07_totality_refuted"
   ],
   "note": "Piecewise/clamped value proved for abutting pieces; REFUTED for accepted gaps below 1e-9 (throws inside the reported domain)."
  },
  {
   "property": "C08",
   "status": "proved",
   "theorems": [
    "C08_polynomial_value",
    "C08_polynomial_derivative",
    "C08_power_sum_meaning",
    "C08_empty_is_ub"
   ],
   "note": "Value, derivative of every order, and undefined behaviour for an empty coefficient vector."
  },
  {
   "property": "C09",
   "status": "proved",
   "theorems": [
    "C09_dot_value",
    "C09_dot_derivative",
    "C09_domain_mismatch_throws"
   ],
   "note": "Value for every overload and dimension; derivative of every order when the domains agree; derivate throws otherwise."
  },
  {
   "property": "C10",
   "status": "proved",
   "theorems": [
    "C10_numbers",
    "C10_matrices",
    "C10_symmetric",
    "C10_reflexive",
    "C10_shape",
    "C10_zero",
    "C10_not_transitive"
   ],
   "note": "Real arithmetic; the meaning of the answer is proved too. C10_not_transitive is the non-equivalence."
  },
  {
   "property": "C11",
   "status": "proved",
   "theorems": [
    "C11_legendre_values",
    "C11_degree",
    "C11_at_one",
    "C11_orthogonal",
    "C11_norm",
    "C11_safe_iff"
   ],
   "note": "Values, degree, value at 1, orthogonality and norm for every index; dimension < 2 is undefined behaviour (any arithmetic)."
  },
  {
   "property": "C12",
   "status": "proved",
   "theorems": [
    "C12_legendre_derivatives",
    "C12_time_derivative",
    "C12_tau_derivative",
    "C12_out_of_bounds",
    "C12_safe"
   ],
   "note": "All dimensions >= 2, orders < dimension, any window position; tau-derivative too; order >= dimension writes out of bounds (any arithmetic)."
  },
  {
   "property": "C13",
   "status": "proved",
   "theorems": [
    "C13_matrix_entries",
    "C13_rows_are_derivatives",
    "C13_block_differentiates"
   ],
   "note": "All dimensions, orders and coefficient vectors."
  },
  {
   "property": "C14",
   "status": "proved",
   "theorems": [
    "C14_gram_correct_iff",
    "C14_gram_order0",
    "C14_gram_refuted"
   ],
   "note": "REFUTED for every dimension and every order 1 <= k < dimension (exact iff proved); holds for k = 0 and k >= dimension."
  },
  {
   "property": "C15",
   "status": "proved",
   "theorems": [
    "C15_lagrange_gram_tau",
    "C15_legendre_gram_tau"
   ],
   "note": "Legendre and Lagrange, every order and tau > 0; for Lagrange whatever the uninitialised memory of C50 holds."
  },
  {
   "property": "C16",
   "status": "proved",
   "theorems": [
    "C16_values",
    "C16_cardinal",
    "C16_partition_of_unity",
    "C16_reproduction",
    "C16_safe",
    "C16_snap_refuted"
   ],
   "note": "Exact value, partition of unity and reproduction for all distinct nodes; REFUTED within the snapping tolerance 1e-9 of a node."
  },
  {
   "property": "C17",
   "status": "proved",
   "theorems": [
    "C17_entries",
    "C17_differentiates",
    "C17_eval_derivative",
    "C17_tau_derivative"
   ],
   "note": "All node sets and orders; also derivative evaluation on the window, in time, and its tau derivative (points not snapped)."
  },
  {
   "property": "C18",
   "status": "proved",
   "theorems": [
    "C18_no_match",
    "C18_correct_iff",
    "C18_refuted"
   ],
   "note": "REFUTED in general; exact condition for correctness proved (C18_correct_iff), witness C18_refuted."
  },
  {
   "property": "C19",
   "status": "proved",
   "theorems": [
    "C19_values",
    "C19_time_derivative",
    "C19_tau_derivative",
    "C19_safe"
   ],
   "note": "All orders, all alpha in (0,1): values, time derivatives and tau-sensitivity of the six functions; memory safety for any arithmetic."
  },
  {
   "property": "C20",
   "status": "proved",
   "theorems": [
    "C20_block_exponent",
    "C20_block_up_to_2",
    "C20_third_refuted"
   ],
   "note": "REFUTED for k>=3 (C20_third_refuted holds for every alpha in (0,1)); C20_block_exponent says what the order-k block is for every k >= 1: the 2^(k-1)-th derivative; C20_block_up_to_2 is the positive part."
  },
  {
   "property": "C21",
   "status": "proved",
   "theorems": [
    "C21_blocks",
    "C21_gram_orders_1_3",
    "C21_gram_order_0",
    "C21_factor_close",
    "C21_gram_order_2_value",
    "C21_gram_order_2_refuted",
    "C21_gram_tau",
    "C21_unsupported"
   ],
   "note": "Orders 0, 1, 3 proved entry by entry (order 0 entry (4,4) up to the rounding of the literal 0.33333333333333331); order 2 REFUTED: exact iff tau = 2, the block being tau^2/4 times the integral. The blocks write sqrt(2)/4 as a decimal literal; C21_blocks is stated for every value of the factor and C21_factor_close bounds the literal's relative error by 1e-16."
  },
  {
   "property": "C22",
   "status": "proved",
   "theorems": [
    "C22_history_independent",
    "C22_requests_succeed",
    "C22_block_differentiates"
   ],
   "note": "History independence for any arithmetic and any request sequence (blocks, spline matrices, copies); requests of fitting size succeed; the cached block differentiates (basis0101: orders 0-2, see C20)."
  },
  {
   "property": "C23",
   "status": "proved",
   "theorems": [
    "C23_continuity_history",
    "C23_derivative_history",
    "C23_reference_fresh",
    "C23_reference_refuted"
   ],
   "note": "History independence of both matrices proved for any arithmetic. REFUTED for references: the returned reference aliases a buffer that a later query with the same sizes overwrites (C23_reference_refuted)."
  },
  {
   "property": "C24",
   "status": "proved",
   "theorems": [
    "C24_lagrange_jumps",
    "C24_legendre_values",
    "C24_legendre_refuted",
    "C24_basis0101_refuted"
   ],
   "note": "Proved for Lagrange bases with end nodes -1 and +1, after any history; order 0 for Legendre. REFUTED for every Legendre basis at order 1 and for basis0101 at order 0 unless the interval length is 2."
  },
  {
   "property": "C25",
   "status": "proved",
   "theorems": [
    "C25_safe",
    "C25_no_interval"
   ],
   "note": "Any arithmetic (any Num instance)."
  },
  {
   "property": "C26",
   "status": "proved",
   "theorems": [
    "C26_value",
    "C26_interval",
    "C26_window",
    "C26_breakpoints",
    "C26_waypoints"
   ],
   "note": "For Lagrange bases at window positions not snapped to another node (exact_pt, see C16_snap_refuted)."
  },
  {
   "property": "C27",
   "status": "proved",
   "theorems": [
    "C27_derivative",
    "C27_one_sided"
   ],
   "note": "Interior and extrapolated points; basis0101 for k <= 2."
  },
  {
   "property": "C28",
   "status": "proved",
   "theorems": [
    "C28_throws",
    "C28_path",
    "C28_spline"
   ],
   "note": "All three bases."
  },
  {
   "property": "C29",
   "status": "proved",
   "theorems": [
    "C29_limit_refusals",
    "C29_limits",
    "C29_scalar_limits",
    "C29_samples",
    "C29_one_bound_refuted",
    "C29_one_scalar_bound_refuted",
    "C29_between_refuted",
    "C29_rest_refuted"
   ],
   "note": "Limits at the samples proved when the factor is positive, for vectors of bounds and for the overload with scalar bounds. REFUTED: one bound suffices (throws, both overloads); bounds between samples; spline at rest collapses."
  },
  {
   "property": "C30",
   "status": "proved",
   "theorems": [
    "C30_plus",
    "C30_minus",
    "C30_assign",
    "C30_scale",
    "C30_incompatible",
    "C30_start_refuted"
   ],
   "note": "REFUTED for different starts (C30_start_refuted); proved with equal starts, every overload."
  },
  {
   "property": "C31",
   "status": "proved",
   "theorems": [
    "C31_ctor",
    "C31_copy",
    "C31_lengths_refuted",
    "C31_evaluation_refuted"
   ],
   "note": "REFUTED: number of interval lengths unchecked (copy throws, evaluation out of bounds)."
  },
  {
   "property": "C32",
   "status": "proved",
   "theorems": [
    "C32_random",
    "C32_domain_refuted"
   ],
   "note": "REFUTED: result lives on [0,b] whatever the requested start (C32_domain_refuted gives the exact condition)."
  },
  {
   "property": "C33",
   "status": "proved",
   "theorems": [
    "C33_atomic",
    "C33_copies",
    "C33_shared_refuted"
   ],
   "note": "REFUTED on one shared object for every spline; proved for whole evaluations and for separate copies. Any arithmetic. Steps: buffer fill, component, next point."
  },
  {
   "property": "C34",
   "status": "proved",
   "theorems": [
    "C34_interpolates",
    "C34_function",
    "C34_free_function"
   ],
   "note": "Given an exact direct solver (SolverSpec.exact_solver; SparseLU is an argument). Interval lengths >= 1e-6 as the code demands; the window ends must be points where the basis is evaluated exactly (always true except for Lagrange bases with nodes within snapping distance of -1 or 1)."
  },
  {
   "property": "C35",
   "status": "proved",
   "theorems": [
    "C35_system",
    "C35_equivalent",
    "C35_arguments"
   ],
   "note": "For every solver, after every call history."
  },
  {
   "property": "C36",
   "status": "proved",
   "theorems": [
    "C36_differentiated_system",
    "C36_derivative"
   ],
   "note": "Stronger than stated: the returned vector is the derivative of the coefficients of the interpolating spline."
  },
  {
   "property": "C37",
   "status": "proved",
   "theorems": [
    "C37_short_interval",
    "C37_wrong_count",
    "C37_odd_dimension",
    "C37_fresh_failure",
    "C37_stale_refuted",
    "C37_unchecked_refuted",
    "C37_uninitialised_refuted"
   ],
   "note": "REFUTED in part: C37_stale_refuted (failed factorisation on a used interpolator returns the previous coefficients), C37_unchecked_refuted and C37_uninitialised_refuted (sensitivity with wrong count or index). The throwing cases are proved."
  },
  {
   "property": "C38",
   "status": "proved",
   "theorems": [
    "C38_structure",
    "C38_small_refuted"
   ],
   "note": "Any arithmetic. REFUTED for fewer than two points (uninitialised read / out-of-bounds store)."
  },
  {
   "property": "C39",
   "status": "proved",
   "theorems": [
    "C39_evaluation",
    "C39_newton",
    "C39_fixed_points",
    "C39_weights",
    "C39_residual",
    "C39_exact_small"
   ],
   "note": "Over the reals. The run of Newton's method, its stopping rule, the equation it solves and the weight formula; convergence is C56."
  },
  {
   "property": "C40",
   "status": "proved",
   "theorems": [
    "C40_points",
    "C40_weights",
    "C40_lengths_points",
    "C40_lengths_refuted",
    "C40_lengths_weights"
   ],
   "note": "REFUTED for the overload taking individual lengths (right exactly when all lengths are equal)."
  },
  {
   "property": "C41",
   "status": "proved",
   "theorems": [
    "C41_interpolates_all",
    "C41_polynomials_all",
    "C41_interpolates",
    "C41_polynomials",
    "C41_constructor_refuted"
   ],
   "note": "REFUTED for the constructor taking a function: it forwards (points, intervals) in the other order (C41_constructor_refuted, for all sizes; one interval is undefined behaviour). approximate() itself interpolates at all nodes (C41_interpolates) and reproduces polynomials of degree below the number of points everywhere the barycentric formula does not snap (C41_polynomials). Hypothesis good_nodes (computed nodes separated and inside [-1,1]) is discharged for nglp^2 <= 1e9 in C41_interpolates_all and C41_polynomials_all."
  },
  {
   "property": "C42",
   "status": "proved",
   "theorems": [
    "C42_from_function_all",
    "C42_equal_lengths",
    "C42_lengths_kept",
    "C42_refusals",
    "C42_assign_refuted",
    "C42_from_function"
   ],
   "note": "REFUTED in general (C42_assign_refuted): assignment keeps the old interval lengths. Proved for equal lengths in any arithmetic (C42_equal_lengths), the exact consequence for breakpoints (C42_lengths_kept), refusals (C42_refusals) and assignment from a function (C42_from_function; C42_from_function_all with no assumption on the nodes)."
  },
  {
   "property": "C43",
   "status": "proved",
   "theorems": [
    "C43_matrix_again",
    "C43_update_shape",
    "C43_inner_product",
    "C43_reassigned",
    "C43_reassigned_refusals",
    "C43_compose",
    "C43_linear",
    "C43_matrix_nodes",
    "C43_matrix_refusals",
    "C43_matrix_constant",
    "C43_matrix_symmetric",
    "C43_matrix_constant_refuted",
    "C43_integral",
    "C43_integral_update_refuted"
   ],
   "note": "Inner-product operator, reassignment, composition, linear combination, node-wise matrices and quadrature row proved for all sizes over R. REFUTED parts: update(matrix) applies the transpose (square), zero rows (rows > cols) or reads out of bounds (cols > rows): C43_matrix_constant, C43_matrix_constant_refuted; the length update of the integral functional throws for every input: C43_integral_update_refuted."
  },
  {
   "property": "C44",
   "status": "proved",
   "theorems": [
    "C44_differential_last",
    "C44_distance_all",
    "C44_distance"
   ],
   "note": "Value, non-negativity and gradient proved for every function, interval count and node count (C44_distance_all: no assumption on the nodes, nglp^2 <= 2e8). The derivative object of the function is an argument (its values F' are arbitrary)."
  },
  {
   "property": "C45",
   "status": "proved",
   "theorems": [
    "C45_constructor",
    "C45_constructor_refusals",
    "C45_value",
    "C45_weights",
    "C45_weights_refuted",
    "C45_integral",
    "C45_integral_0101",
    "C45_integral_iff",
    "C45_gradient",
    "C45_short_interval",
    "C45_wrong_count",
    "C45_unsupported",
    "C45_nonneg",
    "C45_energy_refuted",
    "C45_two_weights_refuted"
   ],
   "note": "REFUTED in part. Proved for every basis supported by the interpolator, every history of the object and every exact solver: construction and refusals, exact value of operator() (history- and solver-independent), non-negativity, gradient = derivative of operator() for every weight list. FINDINGS: the matrix is scaled after each added term, so each term is also multiplied by every later weight (exact iff for two weights, C45_weights_refuted, concrete case C45_two_weights_refuted); for the Legendre basis and orders 1..dim-1 the quadratic form is not the integral of the squared derivative (C45_integral_iff, concrete C45_energy_refuted). For basis 0101 orders 1 and 3 the value is the integral for the decimal-literal frequency, within 1e-16 relative of the exact one."
  },
  {
   "property": "C46",
   "status": "proved",
   "theorems": [
    "C46_accuracy",
    "C46_error_all",
    "C46_quadrature",
    "C46_expression",
    "C46_linear",
    "C46_exact",
    "C46_exact_two_points",
    "C46_exact_three_points",
    "C46_nodes_exist",
    "C46_error",
    "C46_error_small",
    "C46_stable",
    "C46_spline",
    "C46_no_interval",
    "C46_refusals"
   ],
   "note": "Value = composite quadrature for every integrand (also expression programs and splines); linear; exact up to degree 2 nglp - 3 with exact nodes (unconditional for 2 and 3 points); C46_accuracy and C46_error_all: explicit error bound with the computed nodes for any number of points with nglp^2 <= 2e8, using C56; existence of the exact nodes for every nglp (C46_nodes_exist); refusals. Rounding is not modelled."
  },
  {
   "property": "C47",
   "status": "proved",
   "theorems": [
    "C47_last_wins",
    "C47_no_duplicates",
    "C47_order",
    "C47_use_is_neutral"
   ],
   "note": "Proved for every sequence of settings from any start without duplicates. Recorded: options are kept per value type, so one name set under two types is kept and sent twice."
  },
  {
   "property": "C48",
   "status": "proved",
   "theorems": [
    "C48_start",
    "C48_feasible",
    "C48_constraint_jacobian",
    "C48_session",
    "C48_refused_refuted"
   ],
   "note": "C48_session: for every session (a tree of questions depending on earlier answers). REFUTED in one point: C48_refused_refuted, feasible length vectors with a component below 1e-6 make the cost throw. Linear solver assumed exact; IPOPT and ifopt are the session argument."
  },
  {
   "property": "C49",
   "status": "proved",
   "theorems": [
    "C49_round_trip",
    "C49_basis_round_trip",
    "C49_same_values",
    "C49_same_function",
    "C49_wrong_type",
    "C49_missing_key",
    "C49_bad_value",
    "C49_integers",
    "C49_booleans",
    "C49_get_basis",
    "C49_ignored_refuted",
    "C49_ignored_dim_refuted",
    "C49_coefficients",
    "C49_lengths_refuted"
   ],
   "note": "Proved in any arithmetic: dictionary and back gives the same spline for every basis the reader knows, same values, wrong types, negative sizes and lists with anything but numbers refused. REFUTED parts (theorems with suffix _refuted): parameters and dimension in the dictionary that the named basis does not use are ignored, and the number of interval lengths is not compared with the number of intervals. A boundary stored as an integer is refused by the reader. The object name is not kept. Numpy conversions are modelled as list conversions."
  },
  {
   "property": "C50",
   "status": "proved",
   "theorems": [
    "C50_lagrange_gram_uninitialised",
    "C50_lagrange_gram_garbage"
   ],
   "note": "REFUTED: theorems exhibit the uninitialised reads for every node set and the dependence on garbage."
  },
  {
   "property": "C51",
   "status": "proved",
   "theorems": [
    "C51_derivative_matrix",
    "C51_basis0101_refuted"
   ],
   "note": "Proved for Legendre and Lagrange, all orders, any history. REFUTED for basis0101 at order 1 unless the interval length is 2."
  },
  {
   "property": "C52",
   "status": "proved",
   "theorems": [
    "C52_exists",
    "C52_unique",
    "C52_history_independent"
   ],
   "note": "No solver assumed for existence and uniqueness."
  },
  {
   "property": "C53",
   "status": "proved",
   "theorems": [
    "C53_storage_all",
    "C53_storage",
    "C53_product",
    "C53_product_shapes",
    "C53_linear",
    "C53_norm",
    "C53_scalar",
    "C53_refusals",
    "C53_access",
    "C53_set_from_array",
    "C53_domains"
   ],
   "note": "Node-by-node semantics of every collocation operator, for all sizes and any arithmetic; C53_storage connects stored values and evaluation at the nodes over R (C53_storage_all: nglp^2 <= 1e9, no assumption on the nodes)."
  },
  {
   "property": "C54",
   "status": "proved",
   "theorems": [
    "C54_inner_product",
    "C54_sobolev",
    "C54_l2",
    "C54_l2_exact",
    "C54_form",
    "C54_norm_squares",
    "C54_refusal",
    "C54_symmetry_refuted",
    "C54_norm_refuted"
   ],
   "note": "Value, symmetry on a common domain, non-negativity and Cauchy-Schwarz for all expression programs. REFUTED parts: norms are squared (C54_norm_refuted, C54_norm_squares); not symmetric across different domains (C54_symmetry_refuted)."
  },
  {
   "property": "C55",
   "status": "proved",
   "theorems": [
    "C55_optimal",
    "C55_one_interval",
    "C55_paths",
    "C55_rojas",
    "C55_one_waypoint_refuted",
    "C55_no_waypoint_refuted",
    "C55_rojas_cost_refuted",
    "C55_rest_refuted"
   ],
   "note": "C55_optimal/C55_one_interval/C55_paths/C55_rojas: all outcomes described. REFUTED: what is minimised is not the energy (C55_rest_refuted: equal waypoints have energy 0 but positive cost in all five Legendre paths; C55_rojas_cost_refuted: the two weights are combined wrongly), one waypoint is undefined behaviour (C55_one_waypoint_refuted), none wraps the interval count (C55_no_waypoint_refuted)."
  },
  {
   "property": "C56",
   "status": "proved",
   "theorems": [
    "C56_converges",
    "C56_terminates",
    "C56_ordered",
    "C56_sharp",
    "C56_usable"
   ],
   "note": "Exact real arithmetic (rounding is not modelled). C56_converges and C56_ordered hold for every n; C56_sharp for n^2 <= 2e8, C56_usable for n^2 <= 1e9."
  },
  {
   "property": "C57",
   "status": "proved",
   "theorems": [
    "C57_constraint_shape",
    "C57_variable",
    "C57_session",
    "C57_bounds",
    "C57_minimum",
    "C57_attained",
    "C57_wrong_set",
    "C57_two_sets_refuted",
    "C57_size_refuted",
    "C57_update",
    "C57_update_refuted",
    "C57_names",
    "C57_names_refuted",
    "C57_cost_name"
   ],
   "note": "All sessions of any length. C57_minimum: first order conditions suffice (the cost is a convex quadratic). REFUTED parts: C57_two_sets_refuted, C57_size_refuted, C57_update_refuted, C57_names_refuted. ifopt is not part of the repository: the sets in scope and the calls are arguments."
  },
  {
   "property": "C58",
   "status": "proved",
   "theorems": [
    "C58_basis",
    "C58_spline",
    "C58_symmetric",
    "C58_reflexive",
    "C58_codom",
    "C58_values",
    "C58_domain_refuted",
    "C58_relative_refuted",
    "C58_space",
    "C58_transitive_refuted"
   ],
   "note": "Exact iff for the three comparisons. REFUTED parts: C58_domain_refuted (domain ignored), C58_relative_refuted (unbounded difference), C58_transitive_refuted."
  },
  {
   "property": "C59",
   "status": "proved",
   "theorems": [
    "C59_error",
    "C59_finite"
   ],
   "note": ""
  },
  {
   "property": "C60",
   "status": "proved",
   "theorems": [
    "C60_values",
    "C60_at"
   ],
   "note": ""
  },
  {
   "property": "C61",
   "status": "proved",
   "theorems": [
    "C61_search"
   ],
   "note": ""
  },
  {
   "property": "C62",
   "status": "proved",
   "theorems": [
    "C62_value",
    "C62_any_order",
    "C62_continuous",
    "C62_offset_refuted"
   ],
   "note": "REFUTED for large offsets: no error bound independent of the initial time holds (C62_offset_refuted: a continuous line evaluates to 7 instead of 8 at its own right end). Positive theorems: backward-forward error bound under an explicit smallness hypothesis (C62_value, C62_continuous), for every order of summation (C62_any_order)."
  },
  {
   "property": "C63",
   "status": "proved",
   "theorems": [
    "C63_calculus",
    "C63_sizes",
    "C63_set",
    "C63_differential",
    "C63_regrid",
    "C63_count_refuted"
   ],
   "note": "REFUTED for the component count after set (C63_count_refuted). Positive theorems: calculus of expressions, sizes (iff), set, differential, regridding of the integral."
  },
  {
   "property": "C64",
   "status": "proved",
   "theorems": [
    "C64_weights",
    "C64_values",
    "C64_spline"
   ],
   "note": "Rounding error bounds for weights, basis values and spline values under explicit hypotheses on node gaps and the Lebesgue function; exact at nodes."
  },
  {
   "property": "C65",
   "status": "proved",
   "theorems": [
    "C65_agrees",
    "C65_all_or_nothing",
    "C65_function_refused",
    "C65_sessions",
    "C65_function",
    "C65_array",
    "C65_array_refuted",
    "C65_function_refuted"
   ],
   "note": "REFUTED in part: C65_array_refuted and C65_function_refuted show that set_from_array and assignment from a function leave a changed object when they throw; the other theorems say exactly what is left."
  },
  {
   "property": "C66",
   "status": "proved",
   "theorems": [
    "C66_enclosure",
    "C66_centres",
    "C66_error",
    "C66_nearest",
    "C66_choice_refuted"
   ],
   "note": "Any expression in binary64, libm within eps: balls contain the computed components, centres are the exact ones; bound ((1+u)^N-1) times the expression of absolute values. REFUTED where a computed argument chooses the piece of a concatenation."
  },
  {
   "property": "C67",
   "status": "proved",
   "theorems": [
    "C67_derivatives",
    "C67_tau_derivatives"
   ],
   "note": "Derivatives and derivatives with respect to tau of the Legendre basis in binary64: finite, explicit error bound for every dimension and order within the range."
  },
  {
   "property": "C68",
   "status": "proved",
   "theorems": [
    "C68_system",
    "C68_residuals"
   ],
   "note": "Legendre basis only. The LU factorisation is an argument of the model (Eigen is not modelled): nothing is claimed about the residual it leaves."
  },
  {
   "property": "C69",
   "status": "proved",
   "theorems": [
    "C69_waypoints",
    "C69_breakpoints",
    "C69_interpolation"
   ],
   "note": "Legendre basis only; the residual of the external solver is a hypothesis."
  },
  {
   "property": "C70",
   "status": "proved",
   "theorems": [
    "C70_value",
    "C70_acceptance",
    "C70_dot_acceptance",
    "C70_foreign",
    "C70_negation",
    "C70_new_dot",
    "C70_domain",
    "C70_derivative",
    "C70_equality",
    "C70_splines_refuted",
    "C70_compose_refuted",
    "C70_difference_refuted"
   ],
   "note": "REFUTED in three points, positive theorems otherwise. Splines have no + - * nor unary minus in Python (TypeError), though C++ accepts them; Sin.compose(spline) is a TypeError though spline.compose(Sin) works; c - (s + c) gives c - s in release builds and aborts in debug builds (as in C03). Comparison with a non-spline raises TypeError. Trampoline classes are not modelled."
  },
  {
   "property": "C71",
   "status": "proved",
   "theorems": [
    "C71_axes",
    "C71_plot",
    "C71_compare",
    "C71_plane",
    "C71_plane_compare",
    "C71_plane_compare_refused",
    "C71_plane_compare_empty_refuted",
    "C71_not_plane",
    "C71_spline",
    "C71_scalar_refuted",
    "C71_bad_step",
    "C71_compare_refuted",
    "C71_plane_refuted",
    "C71_waypoint_refuted",
    "C71_legend_refuted",
    "C71_legend"
   ],
   "note": "REFUTED in part: one-component objects with derivatives raise ValueError; plot_compare ignores its step and raises IndexError without derivatives; plot2d always draws four rows; the limits can exclude the last waypoint; legend names go to the vertical lines of the first spline; plot2d_compare of an empty list raises IndexError. The guarded claims are proved."
  },
  {
   "property": "C72",
   "status": "proved",
   "theorems": [
    "C72_scaled",
    "C72_value",
    "C72_throws",
    "C72_same",
    "C72_same_refuted"
   ],
   "note": "REFUTED in part: scaling to the reported duration keeps every length bit for bit but can move the end of the domain (C72_same_refuted); the other statements are proved."
  },
  {
   "property": "C73",
   "status": "proved",
   "theorems": [
    "C73_matrix",
    "C73_coefficients",
    "C73_value"
   ],
   "note": "Relative error of row i of the derivative matrix satisfies e(i) = 2 e(i-1) + e(i-2) + 26 u; std::pow with an integer exponent is modelled as a repeated product."
  },
  {
   "property": "C74",
   "status": "proved",
   "theorems": [
    "C74_nearest",
    "C74_factor",
    "C74_values",
    "C74_derivatives",
    "C74_spline"
   ],
   "note": "Binary64 by Flocq. exp, cos, sin and pow(., 0.25) are arguments with a stated relative accuracy; C74_nearest shows that a library rounding to nearest has it. C74_spline compares with the exact piece at a nearby time because a time near a breakpoint may be assigned to the neighbouring interval."
  },
  {
   "property": "C75",
   "status": "proved",
   "theorems": [
    "C75_derivative",
    "C75_zero"
   ],
   "note": "Over R, for computed nodes that differ (C56 shows they do up to 31622 nodes). C75_derivative covers all three constructors and any sequence of both updates; C75_zero the zero spline."
  },
  {
   "property": "C76",
   "status": "proved",
   "theorems": [
    "C76_first_derivative",
    "C76_repeated_derivative",
    "C76_order_ignored",
    "C76_order_refuted",
    "C76_norm",
    "C76_norm_refuted"
   ],
   "note": "First derivatives and repeated first derivatives right for all expressions; orders at once when no Python leaf is reached directly (C04 with its hypothesis py_inside). REFUTED: derivate(k) honours k for a Python class; L2 norm of a Python class."
  },
  {
   "property": "C77",
   "status": "proved",
   "theorems": [
    "C77_least_cost",
    "C77_polynomial",
    "C77_exp_trig",
    "C77_least_cost_pieces",
    "C77_admissible"
   ],
   "note": "Over R, for an exact solver (as C34). Equality of costs forces equality of the functions on the whole domain. The cost is the plain integral, not what SobolevNorm computes (C14, C45)."
  },
  {
   "property": "C78",
   "status": "proved",
   "theorems": [
    "C78_points",
    "C78_weights",
    "C78_ordered",
    "C78_rule",
    "C78_nearest"
   ],
   "note": "IEEE binary64 (Flocq), at most 1001 points; accuracy of the library cosine and of M_PI are hypotheses, met by C78_nearest; pow(l, 2.0) is the product."
  },
  {
   "property": "C79",
   "status": "proved",
   "theorems": [
    "C79_rule",
    "C79_polynomials",
    "C79_lipschitz",
    "C79_grid",
    "C79_grid_weights"
   ],
   "note": "IEEE binary64 (Flocq); accuracy of the integrand and of the library cosine and M_PI are hypotheses; no overflow or underflow by bounds on interval and integrand; products added in index order."
  },
  {
   "property": "C80",
   "status": "proved",
   "theorems": [
    "C80_linear",
    "C80_components",
    "C80_constant",
    "C80_translation",
    "C80_reversed",
    "C80_dilated",
    "C80_cost_of_time",
    "C80_fewer_waypoints",
    "C80_stable",
    "C80_binary64"
   ],
   "note": "Exact arithmetic for an exact solver; binary64 relative to the solver residual. The stability constant K is shown to exist and is not computed."
  },
  {
   "property": "C81",
   "status": "proved",
   "theorems": [
    "C81_value_semantics",
    "C81_one_owner",
    "C81_no_cycles",
    "C81_variables_are_trees",
    "C81_variables_evaluate",
    "C81_moved_operand_refuted"
   ],
   "note": "REFUTED for a variable that is moved and named in the same operation (C81_moved_operand_refuted). Proved for all other programs; one owner per node and no cycles for all programs."
  },
  {
   "property": "C82",
   "status": "proved",
   "theorems": [
    "C82_values",
    "C82_gradient",
    "C82_one_vector_refuted",
    "C82_overwritten_refuted",
    "C82_feedback_refuted"
   ],
   "note": "REFUTED outside the rule: results of one function of one interpolator share one buffer, and a sensitivity passed back gives zero. Proved: under the rule programs cannot tell references from copies (any arithmetic, any solver), the gradient of the Sobolev norm keeps the rule. pybind11's handling of Eigen::Ref and Eigen's noalias product are modelled from their documented behaviour."
  },
  {
   "property": "C83",
   "status": "proved",
   "theorems": [
    "C83_values",
    "C83_moved_from",
    "C83_mixed",
    "C83_moved_value",
    "C83_moved_time",
    "C83_basis_left",
    "C83_moved_value_refuted",
    "C83_basis_gram_refuted",
    "C83_moved_time_refuted"
   ],
   "note": "REFUTED: a moved-from spline reports its domain and reads out of bounds when evaluated there (and, over the exponential basis, when rescaled); the basis left behind has no Gram matrices. Proved: programs that do not use a variable after its move behave as programs over piecewise functions; what an empty variable does. Moved-from vectors are taken to be empty."
  },
  {
   "property": "C84",
   "status": "proved",
   "theorems": [
    "C84_parallel",
    "C84_ends",
    "C84_buffers",
    "C84_shared_refuted",
    "C84_copies_refuted",
    "C84_counts"
   ],
   "note": "REFUTED outside the rules: a shared spline buffer and static counters of constructor calls make const operations race. Proved: compatible threads never race, end, and get the sequential results, for all schedules; an evaluation touches only the buffers of the splines in its own tree; a copy adds one call per expression node. How a spline fills and uses its buffer is an argument (C33 has the concrete one); derivatives of expressions are not among the operations (of splines: C85)."
  },
  {
   "property": "C85",
   "status": "proved",
   "theorems": [
    "C85_parallel",
    "C85_ends",
    "C85_prepare",
    "C85_first_refuted"
   ],
   "note": "REFUTED for two first-time derivatives of one spline: data race, and a schedule that leaves the array of differentiation matrices wrong. Proved: outside that, no race and sequential results for all schedules, termination, and how to prepare a spline. push_back is one access; what std::vector does inside it when it reallocates is not modelled."
  },
  {
   "property": "C86",
   "status": "proved",
   "theorems": [
    "C86_slopes",
    "C86_integral",
    "C86_polynomials",
    "C86_inner_product",
    "C86_norm"
   ],
   "note": "Exact values are those of the same expression evaluated over the reals (exact_on). Concatenations are excluded, as in C66: their choice of branch can change by rounding. fits keeps every intermediate size below the overflow limit of C66."
  },
  {
   "property": "C87",
   "status": "proved",
   "theorems": [
    "C87_library",
    "C87_python_refuted",
    "C87_constructor",
    "C87_copy",
    "C87_interpolator",
    "C87_norm",
    "C87_get_basis",
    "C87_methods",
    "C87_library_methods",
    "C87_dimension"
   ],
   "note": "REFUTED for bases defined in Python (C87_python_refuted); C87_library is the guarded statement for bases of the library. C87_constructor, C87_copy, C87_interpolator and C87_norm tie the constructors with pointers to the models used by the other properties."
  },
  {
   "property": "C88",
   "status": "proved",
   "theorems": [
    "C88_answers",
    "C88_one_writer",
    "C88_threads_refuted",
    "C88_numbers",
    "C88_matrices",
    "C88_zero",
    "C88_stale_refuted",
    "C88_equal_refuted",
    "C88_sums_store",
    "C88_mixed_refuted",
    "C88_zero_spline"
   ],
   "note": "Three parts are REFUTED (C88_stale_refuted, C88_equal_refuted, C88_threads_refuted); the guarded statements are C88_numbers, C88_matrices, C88_zero and C88_one_writer. Threads are sequentially consistent interleavings of stores; the library never reads the globals."
  },
  {
   "property": "C89",
   "status": "proved",
   "theorems": [
    "C89_same_function",
    "C89_collocation",
    "C89_inherited",
    "C89_assign",
    "C89_function_refuted",
    "C89_nodes_refuted",
    "C89_product_refuted",
    "C89_assign_refuted"
   ],
   "note": "REFUTED: splines over other bases become collocation splines whose coefficients are not values at nodes; the guarded statements are proved"
  },
  {
   "property": "C90",
   "status": "proved",
   "theorems": [
    "C90_value",
    "C90_error",
    "C90_refusal",
    "C90_reparametrisation_refuted"
   ],
   "note": "REFUTED: the value depends on the parametrisation; the value as a quadrature and its error are proved"
  },
  {
   "property": "C91",
   "status": "proved",
   "theorems": [
    "C91_nodes",
    "C91_values",
    "C91_values_refuted",
    "C91_product_refuted"
   ],
   "note": "REFUTED for intervals of different lengths; proved, with an exact condition, for equal ones"
  },
  {
   "property": "C92",
   "status": "proved",
   "theorems": [
    "C92_span",
    "C92_first",
    "C92_positions",
    "C92_axes",
    "C92_range_refuted",
    "C92_stale_refuted",
    "C92_refusals"
   ],
   "note": "REFUTED: after a second update the vertical lines still span earlier curves; the exact span is proved for all programs of updates"
  }
 ]
}