{"id": "C01", "title": "Expression evaluation is the pointwise mathematical operation", "statement": "For every function expression assembled with +, *, +=, *=, scalar *, compose and concat (any nesting, any number of operands, any mix of lvalue/rvalue operands) over functions whose own evaluation returns a matrix of the announced shape, evaluating the result on a batch of n points returns an n-row matrix whose i-th row is the sum / scalar-by-vector product / composition / piecewise selection of the operands' values at the i-th point. Flattening of nested sums and products, and putting the vector-valued factor first, never changes the value.", "quantifier": "all expression trees, all operand functions, all batches of points", "why_tests_cant": "The expression trees form an infinite family and the flattening code takes a different path for each combination of operand kinds; the tests evaluate one sum of exponentials and a few fixed compositions.", "anchors": ["src/Functions/FunctionSum.cpp: operator+, eval_sum_functions", "src/Functions/FunctionMul.cpp: operator*, eval_mul_functions", "src/Functions/FunctionsComp.cpp: compose, eval_compose_functions", "src/Functions/FunctionsConcat.cpp: concat, eval_concat_functions", "src/Functions/FunctionGenericOperations.cpp: *_operation_handler"]}
{"id": "C02", "title": "Unary minus negates the value", "statement": "Users expect (-f)(t) = -(f(t)) for every function or expression f. FINDING: this holds when f is a plain function (or an expression wrapping exactly one function) and for no other kind in general: for an expression that is a sum, product, composition, concatenation or itself a negation, -f evaluates to minus the value of the FIRST stored operand only (so -(f+g) = -f and -(-f) = -f) in a build without assertions, and aborts in a build with assertions when more than one operand is stored.", "quantifier": "all expressions and all points", "why_tests_cant": "A test can only show individual wrong values; the exact boundary (which kinds of expressions are negated properly) is a statement about every expression.", "anchors": ["src/Functions/FunctionMul.cpp: operator-() (142-154)", "src/Functions/FunctionExpression.cpp: eval_negative_functions, deriv_negative_functions"]}
{"id": "C03", "title": "Binary minus is pointwise subtraction", "statement": "Users expect (f-g)(t) = f(t)-g(t) for all f, g on the same domain and codomain. Proved when g is a plain function or single-function expression, for every f. FINDING: false when g is a compound expression: f-(g+h) evaluates to f-g.", "quantifier": "all pairs of expressions, all points", "why_tests_cant": "Depends on the kind of the right operand, an infinite family of trees; tests only subtract plain functions.", "anchors": ["src/Functions/FunctionSum.cpp: operator- (76-101)", "src/Functions/FunctionMul.cpp: operator-() (142-154)"]}
{"id": "C04", "title": "derivate(k) of an expression evaluates to the k-th derivative", "statement": "For every expression built from constants, the identity, linear dilations, exp, sin, cos and polynomials with +, *, scalar *, compose, and negation of single functions, and for every order k, evaluating f.derivate(k) at any real point returns, component by component, the k-th derivative of the function computed by f at that point (sum rule, n-ary product rule, n-ary chain rule, any nesting). The derivative of every order reports the interval of the function it was taken from, also for concatenations; FINDING: an expression moved into a composition keeps the interval of the outer function, so its derivative reports another interval than itself.", "quantifier": "all such expression trees, all derivative orders k, all real points", "why_tests_cant": "Derivation is recursive over the tree and over k; tests compare a handful of trees with finite differences at random points.", "anchors": ["src/Functions/FunctionSum.cpp: deriv_sum_functions", "src/Functions/FunctionMul.cpp: first_deriv_mul_functions, deriv_mul_functions", "src/Functions/FunctionsComp.cpp: first_deriv_compose_functions, deriv_compose_functions", "src/Functions/ElementalFunctions.cpp: *::deriv_impl"]}
{"id": "C05", "title": "Result does not depend on whether operands are copied or moved", "statement": "Every binary operation on expressions has four overloads (const&/&& on each side). Users expect all four to return expressions with the same value, codomain dimension and domain. Proved for + and - (same domain, codomain, operand list), and for * (same operand list and codomain; the domain may be the other operand's, which the compatibility check keeps within 1e-9). FINDING: refuted for compose and concat: rvalue.compose(const&) on a composition keeps the OLD domain instead of the inner function's, and rvalue.concat(...) on a concatenation keeps the old right end.", "quantifier": "all operand pairs and all four overloads", "why_tests_cant": "Overload selection multiplies the cases; the tests exercise at most one overload per operation and never compare domains.", "anchors": ["src/Functions/FunctionSum.cpp", "src/Functions/FunctionMul.cpp", "src/Functions/FunctionsComp.cpp: 82-120 vs 122-157", "src/Functions/FunctionsConcat.cpp: 79-134"]}
{"id": "C06", "title": "Incompatible operands are rejected, and only those", "statement": "+, -, * on expressions throw invalid_argument exactly when the domains differ by 1e-9 or more at either end, or the codomain dimensions are incompatible (different for +/-; both larger than one for *); compose throws exactly when the inner function is vector valued; concat exactly when codomains differ or the gap is larger than 1e-9. FINDING: the in-place += and *= perform none of these checks.", "quantifier": "all pairs of expressions", "why_tests_cant": "An equivalence over all operand pairs; tests only try compatible operands.", "anchors": ["src/Functions/FunctionSum.cpp: sum_throw, operator+=", "src/Functions/FunctionMul.cpp: compatibility_mul, operator*=", "src/Functions/FunctionsComp.cpp: comp_throw", "src/Functions/FunctionsConcat.cpp: concat_throw"]}
{"id": "C07", "title": "A concatenation is defined on its whole domain and clamps outside", "statement": "Evaluating a concatenation at t returns the value of the piece whose half-open domain [a,b) contains t; for t at or before the start it returns the first piece at its start, and at or after the end the last piece at its end. When the pieces abut exactly, evaluation never throws on any real t. FINDING: concat accepts pieces separated by a gap of up to 1e-9, and then evaluation at a t strictly inside the gap throws although t is inside the reported domain.", "quantifier": "all non-empty lists of pieces, all points", "why_tests_cant": "The gap is smaller than any sampling step a test would use, and piece lists are unbounded.", "anchors": ["src/Functions/FunctionsConcat.cpp: eval_concat_functions (183-222), concat_throw (7-17)", "src/Functions/FunctionBase.cpp: is_point_in_domain (41-43)"]}
{"id": "C08", "title": "Polynomials evaluate by the power sum and differentiate exactly at every order", "statement": "A canonic polynomial with coefficients c0..cn (at least one) evaluates at every t to sum ci t^i, and its derivate(k) evaluates to the k-th derivative for every k, including k larger than the degree (the zero polynomial). With an empty coefficient vector evaluation and differentiation access memory out of bounds.", "quantifier": "all coefficient vectors, all orders k, all t", "why_tests_cant": "The unsigned comparison that guards high orders only misbehaves for k larger than the number of coefficients; all orders cannot be sampled.", "anchors": ["src/Functions/ElementalFunctions.cpp: CanonicPolynomial::value_impl (156-165), deriv_impl (167-195)"]}
{"id": "C09", "title": "Dot product value and derivatives", "statement": "f.dot(g) evaluates at every t to the Euclidean inner product of f(t) and g(t) for every codomain dimension and every overload, and derivate(k) of it to the k-th derivative of that scalar function.", "quantifier": "all pairs of differentiable vector functions, all dimensions, all orders", "why_tests_cant": "Quantifies over dimension and order; the test checks one pair at first order.", "anchors": ["src/Functions/ElementalFunctions.cpp: DotProduct (197-256)", "src/Functions/FunctionBase.cpp: dot (50-64)"]}
{"id": "C10", "title": "Approximate equality is reflexive and symmetric (and not transitive)", "statement": "approx_equal(a,b,tol) on numbers and on equally shaped matrices gives the same answer when a and b are swapped, and approx_equal(a,a,tol) is true for every tol>0; it is false for differently shaped matrices. It is not an equivalence relation: there are a,b,c with a~b, b~c but not a~c.", "quantifier": "all numbers/matrices and all positive tolerances", "why_tests_cant": "A relational law over all pairs; the tests only use the predicate as an oracle.", "anchors": ["src/Tools.cpp: approx_equal (8-44)", "src/GSpline.cpp: operator==, same_vector_space"]}
{"id": "C11", "title": "Legendre basis values are the Legendre polynomials", "statement": "For every dimension d >= 2 and every s, evaluating the Legendre basis fills all d entries with P_0(s)..P_{d-1}(s): entry i is a polynomial of degree i with value 1 at s=1, and the entries are pairwise orthogonal on [-1,1] with squared norm 2/(2i+1). For d = 0 or 1 the evaluation writes out of bounds.", "quantifier": "all dimensions, all s", "why_tests_cant": "Orthogonality for all degrees is an integral identity; tests compare a few dimensions at random points.", "anchors": ["src/Basis/BasisLegendre.cpp: eval_on_window (89-100)"]}
{"id": "C12", "title": "Legendre derivative evaluation is the derivative", "statement": "For every dimension d >= 2, order k <= d-1, interval length tau and s, eval_derivative_on_window fills entry i with the k-th derivative of P_i (at s) times (2/tau)^k; that is the k-th time-derivative of the basis function on an interval of length tau. For k >= d the routine writes outside its scratch buffer.", "quantifier": "all dimensions, orders, tau, s", "why_tests_cant": "All orders/dimensions; tests use numerical differences for a few.", "anchors": ["src/Basis/BasisLegendre.cpp: eval_derivative_on_window (49-80)"]}
{"id": "C13", "title": "Legendre differentiation matrix", "statement": "For every dimension d >= 1 the first-order differentiation matrix of the Legendre basis has entry (2j+1) where i-j is positive and odd and 0 elsewhere (in the orientation that maps basis values to derivative values), and the order-k block applied to a coefficient vector yields the coefficients of the k-th derivative of the represented polynomial, for every k.", "quantifier": "all dimensions d, all orders k, all coefficient vectors", "why_tests_cant": "The matrix is filled by a three-term recurrence over previously computed entries; correctness for all d is an induction.", "anchors": ["src/Basis/BasisLegendre.cpp: derivative_matrix (153-177), gsplines_legendre_dmat (105-126), derivative_matrix_impl (179-191)"]}
{"id": "C14", "title": "Legendre Sobolev (Gram) matrix", "statement": "add_derivative_matrix(tau,k,M) should add to M the Gram matrix of k-th derivatives, i.e. the integrals over an interval of length tau of products of k-th derivatives of the basis functions. Proved for k=0 (every dimension and tau). FINDING: false for k >= 1: the transposed differentiation matrix is used, so already for dimension 2 and k=1 the code produces 2/3 in entry (0,0), whereas the true matrix has 2 in entry (1,1).", "quantifier": "all dimensions, orders and tau", "why_tests_cant": "The Python Sobolev tests are disabled and the C++ ones never compare against an integral.", "anchors": ["src/Basis/BasisLegendre.cpp: constructor (15-36), add_derivative_matrix (128-138)"]}
{"id": "C15", "title": "tau-derivative of the Gram matrix is consistent", "statement": "For every order k, dimension and tau > 0, what add_derivative_matrix_deriv_wrt_tau adds is the derivative with respect to tau of what add_derivative_matrix adds, entry by entry (Legendre and Lagrange bases).", "quantifier": "all orders, dimensions, tau > 0", "why_tests_cant": "A derivative identity at all real tau; never tested.", "anchors": ["src/Basis/BasisLegendre.cpp: 128-151", "src/Basis/BasisLagrange.cpp: 146-168"]}
{"id": "C16", "title": "Lagrange basis: cardinality, partition of unity, polynomial reproduction", "statement": "For every list of pairwise distinct nodes: at a node the basis vector is the corresponding unit vector; at every s not within the 1e-9 snapping tolerance of a node, entry j equals the Lagrange polynomial prod (s-x_k)/(x_j-x_k), the entries sum to 1 and reproduce every polynomial of degree < number of nodes. FINDING: within the tolerance the value snaps, so exactness fails there although s is not a node.", "quantifier": "all node sets, all s", "why_tests_cant": "Holds for all node sets and all real s by an algebraic identity that sampling cannot establish.", "anchors": ["src/Basis/BasisLagrange.cpp: eval_on_window (121-144), barycentric_weights (170-189), almost_equal (20-29)"]}
{"id": "C17", "title": "Lagrange differentiation matrices of every order", "statement": "For every list of pairwise distinct nodes and every order k, the order-k differentiation matrix has entry (i,j) equal to the k-th derivative of the j-th Lagrange polynomial at node i.", "quantifier": "all node sets, all orders k", "why_tests_cant": "Quantifies over node sets and the recursion on k.", "anchors": ["src/Basis/BasisLagrange.cpp: derivative_matrix (191-249)"]}
{"id": "C18", "title": "Change of interpolation points", "statement": "The matrix returned by change_interpolation_points should map values at the old nodes to values of the interpolating polynomial at the new nodes, for every pair of node sets. Proved when no new node matches an old node. FINDING: refuted in general: after the first new node that coincides with an old one, every later row is left zero (the match flag is never reset).", "quantifier": "all pairs of node sets", "why_tests_cant": "Order-dependent: only shows when a matching node precedes a non-matching one.", "anchors": ["src/Basis/BasisLagrange.cpp: change_interpolation_points (251-288)"]}
{"id": "C19", "title": "Exponential-trigonometric basis derivatives", "statement": "For every alpha in (0,1), tau > 0, order k and time t in the interval, evaluating the order-k derivative of the six basis functions gives the k-th derivative with respect to time of the values given by plain evaluation; and the tau-sensitivity routine gives the derivative of these with respect to tau at fixed window coordinate.", "quantifier": "all alpha, tau, s, and orders k", "why_tests_cant": "All orders and reals; tested by finite differences for a few values.", "anchors": ["src/Basis/Basis0101.cpp: eval_on_window (35-51), eval_derivative_on_window (52-82), eval_derivative_wrt_tau_on_window (84-103)"]}
{"id": "C20", "title": "Exponential-trigonometric basis differentiation matrix", "statement": "get_derivative_matrix_block(k) of the basis0101 should map coefficients to the coefficients of the k-th time derivative. Proved for k = 0, 1, 2. FINDING: false for every k >= 3 tried symbolically, refuted at k = 3: the loop squares the matrix repeatedly, giving the 2^(k-1)-th power, so derivate(3) of a basis0101 spline is the fourth derivative.", "quantifier": "all orders, alpha and coefficient vectors", "why_tests_cant": "Only orders 1 and 2 agree, which is what the tests use.", "anchors": ["src/Basis/Basis0101.cpp: derivative_matrix_impl (154-177)"]}
{"id": "C21", "title": "Exponential-trigonometric Gram matrices", "statement": "For basis0101, add_derivative_matrix(tau,k,M) should add the integrals over the interval of products of k-th derivatives, for k = 0..3. Proved (entry by entry, for all tau and k-parameter): order 0, 1 and 3 blocks. FINDING: the order-2 block is the true one multiplied by tau^2/4, so it is right only for tau = 2. The tau-derivative blocks provided (orders 1 and 3) are the derivatives of the corresponding blocks.", "quantifier": "all tau > 0, all alpha in (0,1)", "why_tests_cant": "Closed-form blocks of 36 transcendental expressions; Sobolev tests are disabled.", "anchors": ["src/Basis/Basis0101.cpp: compute_Q_block, compute_Qd1_block, compute_Qd2_block, compute_Qd3_block, compute_Qd1_dtau_block, compute_Qd3_dtau_block"]}
{"id": "C22", "title": "Differentiation-matrix cache is history independent", "statement": "Whatever sequence of derivative-matrix requests (any orders, any repetitions), clones and copies a basis has served before, asking for the order-k block returns exactly what a fresh basis would return.", "quantifier": "all request histories and orders", "why_tests_cant": "Histories are unbounded; a test sees a few.", "anchors": ["include/gsplines/Basis/Basis.hpp: get_derivative_matrix_block (140-152), copy constructor (78-90)"]}
{"id": "C23", "title": "Cached spline-matrix queries and returned references", "statement": "gspline_derivative_matrix and continuity_matrix return, for any history of previous queries with any interval lengths, the matrix for the interval lengths of the current query. FINDING: the returned reference aliases an internal buffer: a later query with the same sizes but other interval lengths changes the matrix a caller still holds.", "quantifier": "all query histories", "why_tests_cant": "History dependent; tests never keep two results.", "anchors": ["src/Basis/Basis.cpp: continuity_matrix (45-156), gspline_derivative_matrix (158-218)"]}
{"id": "C24", "title": "Continuity matrix detects exactly the jumps", "statement": "The continuity matrix times the coefficient vector should be the vector of jumps of derivatives 0..k at the interior breakpoints. Proved for nodal (Lagrange) bases whose first node is -1 and last node is +1, for every number of intervals, codomain dimension, order and interval lengths. FINDING: refuted for the Legendre basis at order >= 1 (rows of the differentiation matrix are used as if they were boundary values).", "quantifier": "all bases with end nodes, sizes, interval lengths, coefficients", "why_tests_cant": "Tests only use a Gauss-Lobatto basis with tolerance 0.1.", "anchors": ["src/Basis/Basis.cpp: continuity_matrix (45-156)"]}
{"id": "C25", "title": "Spline evaluation is memory safe and total", "statement": "For every spline with n >= 1 intervals, dim*codom*n coefficients and any coefficients, interval lengths and evaluation points whatsoever (including negative lengths, NaN or infinite values), evaluation reads only inside its buffers and the interval index is in [0,n-1]. With zero intervals evaluation reads out of bounds.", "quantifier": "all splines of consistent shape, all points, every arithmetic including IEEE doubles", "why_tests_cant": "NaN and unsorted inputs are never tested, memory safety is universally quantified.", "anchors": ["src/GSpline.cpp: value_impl (91-113), get_interval (115-131), coefficient_segment (133-147)"]}
{"id": "C26", "title": "Spline value is the basis expansion on the interval containing the point", "statement": "For positive interval lengths, evaluation at t inside the domain uses the unique interval (left open, right closed; the start belongs to the first interval) and returns for component j the sum over the basis of coefficient times basis function at the window coordinate, which lies in [-1,1] and is -1/+1 at the interval's ends. Beyond the ends the first/last piece is extrapolated. The reported breakpoints are the partial sums of interval lengths from the domain start.", "quantifier": "all splines with positive interval lengths, all t", "why_tests_cant": "Requires correct interval selection at every breakpoint for every partition.", "anchors": ["src/GSpline.cpp: value_impl, get_interval, interval_to_window (149-159), get_domain_breakpoints (179-188), get_waypoints (190-194)"]}
{"id": "C27", "title": "Spline derivate(k) is the k-th derivative", "statement": "For every spline over the Legendre or Lagrange basis and every k, the value of derivate(k) at every point strictly inside an interval is the k-th derivative of the spline; for basis0101 the same for k <= 2.", "quantifier": "all such splines, orders and interior points", "why_tests_cant": "All orders, dimensions and partitions.", "anchors": ["include/gsplines/GSpline.hpp: deriv_impl (108-143)"]}
{"id": "C28", "title": "Linear time scaling preserves the path", "statement": "linear_scaling_new_execution_time(T) throws when T < 1e-8 and otherwise returns a spline with the same start time, duration T and the same path: its value at start + T*u equals the old value at start + L*u for every u in [0,1], for polynomial bases and for basis0101 (whose parameter is recomputed); derivatives scale by (L/T)^k.", "quantifier": "all splines with positive lengths summing to the domain length, all T, all u", "why_tests_cant": "A law over all splines and times; tests use a few random ones starting at 0.", "anchors": ["include/gsplines/GSpline.hpp: linear_scaling_new_execution_time (233-264)"]}
{"id": "C29", "title": "Velocity/acceleration limited scaling respects the limits", "statement": "With both bounds given (positive), the rescaled spline's velocity and acceleration at the (rescaled) sample instants are within the bounds. FINDINGS: with only one of the two bounds given the call always throws bad_optional_access although the API promises that one suffices; and between samples the bound can be exceeded.", "quantifier": "all splines, bounds and sampling steps", "why_tests_cant": "Tests always pass both bounds and check at the same samples.", "anchors": ["include/gsplines/GSpline.hpp: linear_scaling_new_execution_time_max_velocity_max_acceleration (266-363)"]}
{"id": "C30", "title": "Spline vector-space operations are pointwise", "statement": "For splines in the same vector space (same basis, codomain, interval lengths), a+b, a-b, c*a, a*c and -a evaluate to the pointwise result at every t, whichever overload is used, when both domains start at the same instant. FINDING: the compatibility check ignores the domain start, so for splines starting at different instants a+b and a+std::move(b) are different functions with different domains.", "quantifier": "all compatible splines, all t, all overloads", "why_tests_cant": "Quantifies over all splines and overloads.", "anchors": ["include/gsplines/GSpline.hpp: operator+/- (150-231)", "src/GSpline.cpp: 196-222"]}
{"id": "C31", "title": "Construction validates the shape", "statement": "A spline is constructed iff the coefficient count equals intervals*dim*codom; for splines whose number of interval lengths equals the announced number of intervals, copying always succeeds and preserves every observable. FINDING: the number of interval lengths is not checked, so an accepted object can throw when copied, or read out of bounds when evaluated.", "quantifier": "all constructor arguments", "why_tests_cant": "Negative space of all argument combinations.", "anchors": ["src/GSpline.cpp: constructors (15-89)"]}
{"id": "C32", "title": "random_gspline returns a spline on the requested domain", "statement": "random_gspline(domain, codom) should return a spline whose domain is the requested one. Proved for domains starting at 0. FINDING: the start is ignored: for a domain [a,b] with a <> 0 the result lives on [0,b] (and the call throws when b < 1e-8).", "quantifier": "all domains and random draws", "why_tests_cant": "Tests only use domains starting at 0.", "anchors": ["src/GSpline.cpp: random_gspline (224-247)"]}
{"id": "C33", "title": "Concurrent evaluation of one spline", "statement": "Evaluation is a const operation, so users expect that two threads may evaluate the same spline object concurrently and each obtains the sequential result. FINDING: refuted: the basis buffer is shared mutable state, and an interleaving exists in which a thread returns the value for the other thread's point. With any interleaving of whole (atomic) evaluations the results are the sequential ones.", "quantifier": "all interleavings of two evaluations", "why_tests_cant": "Schedules cannot be enumerated by a test.", "anchors": ["src/GSpline.cpp: value_impl (107-111)", "include/gsplines/GSpline.hpp: basis_buffer_ (33)"]}
{"id": "C34", "title": "Interpolation conditions", "statement": "If the linear solver returns an exact solution of the assembled system, the interpolating spline passes through every waypoint at every breakpoint, its derivatives of order 1..dim-2 are continuous at all interior breakpoints, and its derivatives of order 1..dim/2-1 vanish at both ends; its domain is [0, sum of lengths]. This holds for every even basis dimension, codomain dimension, number of intervals >= 1, positive interval lengths and waypoints.", "quantifier": "all dims, codims, numbers of intervals, interval lengths, waypoints", "why_tests_cant": "Unbounded sizes; tests check random instances.", "anchors": ["src/Interpolator.cpp: fill_interpolating_matrix (48-111), fill_interpolating_vector (112-154), fill_*_block (182-234), interpolate (156-165)"]}
{"id": "C35", "title": "Interpolation system assembly is in bounds and complete", "statement": "For every even dimension >= 2, codomain dimension and number of intervals >= 1, the assembly writes only inside the matrix and right-hand side, every row of the square system is written by exactly one interpolation, continuity or boundary condition, and conversely the conditions are satisfied iff the system is: the system is equivalent to the interpolation conditions.", "quantifier": "all dims, codims and interval counts", "why_tests_cant": "Index arithmetic over unbounded sizes.", "anchors": ["src/Interpolator.cpp: constructor (9-45), fill_* (48-234)"]}
{"id": "C36", "title": "Sensitivity of the coefficients to interval lengths", "statement": "The matrix assembled by get_coeff_derivative_wrt_tau for interval i is the entrywise derivative, with respect to the i-th interval length, of the interpolation matrix; hence, given an exact solver, the returned vector v satisfies A v = -(dA/dtau_i) c, the derivative of A c = b.", "quantifier": "all dims, codims, interval counts, indices and lengths", "why_tests_cant": "The routine recomputes the row offsets by a closed formula for each interval class; all sizes matter.", "anchors": ["src/Interpolator.cpp: get_coeff_derivative_wrt_tau (255-345)"]}
{"id": "C37", "title": "Interpolator failure handling", "statement": "Interpolation throws when some interval length is below 1e-6 or the number of lengths is wrong. FINDING: if the sparse solver reports failure, a reused interpolator silently returns the coefficients of the previous problem; and a wrong index or size passed to the sensitivity routine returns the previous (or uninitialised) result without an error.", "quantifier": "all call sequences on one interpolator object", "why_tests_cant": "Needs a singular matrix in the middle of a call history.", "anchors": ["src/Interpolator.cpp: solve_interpolation (346-370), get_coeff_derivative_wrt_tau (255-268)"]}
{"id": "C38", "title": "Gauss-Lobatto points and weights: structure", "statement": "For every n >= 2 all n points and weights are assigned (no uninitialised entry is returned), the first and last points are -1 and 1, points are exactly antisymmetric and weights exactly symmetric about the middle, in any arithmetic including IEEE doubles. For n = 1 (and 0) the routine reads an uninitialised value or writes out of bounds.", "quantifier": "all n, every arithmetic", "why_tests_cant": "Loop bounds mix truncation and parity; all n.", "anchors": ["src/Collocation/GaussLobattoPointsWeights.cpp: legendre_gauss_lobatto_points_and_weights (57-121), q_and_evaluation (10-55)"]}
{"id": "C39", "title": "Gauss-Lobatto Newton iteration solves the right equation and weights are the right function of the nodes", "statement": "For n >= 3 the auxiliary evaluation returns q(t) = P_{n}(t) - P_{n-2}(t), its derivative, and P_{n-1}(t), for every t; hence a fixed point of the iteration is a root of (1-t^2)P'_{n-1}(t), and the weights are 2/(N(N+1)P_N(t)^2) with N=n-1.", "quantifier": "all n, all t", "why_tests_cant": "Identity over all degrees and reals.", "anchors": ["src/Collocation/GaussLobattoPointsWeights.cpp: q_and_evaluation (10-55)"]}
{"id": "C40", "title": "Composite Gauss-Lobatto grids", "statement": "For a uniform subdivision, points of interval i are the affine images of the reference points, so the first and last are the interval's ends and consecutive intervals share an end point; the weights sum to the domain length whenever the reference weights sum to 2. FINDING: the overload taking individual interval lengths places interval i at i*length_i instead of the sum of the previous lengths, so it is right only for equal lengths.", "quantifier": "all domains, numbers of points and intervals, interval lengths", "why_tests_cant": "Quantifies over all subdivisions; tests use uniform intervals.", "anchors": ["src/Collocation/GaussLobattoPointsWeights.cpp: 136-214"]}
{"id": "C41", "title": "Collocation spline construction from a function", "statement": "approximate(f, nglp, n) returns a spline that coincides with f at all collocation points. FINDING: the constructor taking a function swaps the numbers of points and intervals, so the object built has n points on nglp intervals.", "quantifier": "all functions, all nglp and n", "why_tests_cant": "Only shows when nglp <> n.", "anchors": ["src/Collocation/GaussLobattoLagrange.cpp: constructor (55-58), approximate (150-189)"]}
{"id": "C42", "title": "Assignment of collocation splines", "statement": "After a = b between collocation splines of equal discretisation, a should evaluate like b. Proved when the interval lengths agree. FINDING: assignment copies domain and coefficients but not interval lengths, so otherwise a's breakpoints no longer match its domain and it is a different function.", "quantifier": "all pairs of collocation splines", "why_tests_cant": "Only shows for different interval lengths.", "anchors": ["src/Collocation/GaussLobattoLagrange.cpp: operator= (60-122)"]}
{"id": "C43", "title": "Collocation functionals", "statement": "The left-multiplication operator built from a vector spline maps the coefficients of another one to the coefficients of the pointwise inner product at every collocation node; operator products compose. FINDINGS: the matrix-operator update loops over the wrong dimension and transposes, and the integral functional's length update throws for every input with more than one interval. A matrix of the wrong shape for any node is refused.", "quantifier": "all sizes and coefficients", "why_tests_cant": "Index arithmetic over all sizes.", "anchors": ["include/gsplines/Collocation/GaussLobattoLagrangeFunctionals.hpp: TransposeLeftMultiplication (229-321), MatrixLeftMultiplication (322-416)", "src/Collocation/GaussLobattoLagrangeFunctionals.cpp: Integral (58-81)"]}
{"id": "C44", "title": "Distance functional and its gradient", "statement": "The collocation Sobolev distance is non-negative for non-negative weights and its reported differential is the gradient of its value with respect to the coefficients.", "quantifier": "all coefficient vectors and sizes", "why_tests_cant": "A derivative identity for all sizes.", "anchors": ["src/Collocation/GaussLobattoLagrangeFunctionals.cpp: SobolevDistance (86-113)"]}
{"id": "C45", "title": "Weighted Sobolev norm", "statement": "The Sobolev inner product with weights w_k should be the weighted sum over k of the quadratic forms of the order-k Gram matrices, summed over intervals and components. Proved for a single weight. FINDING: with several weights the accumulated matrix is rescaled after each term, so the first term is multiplied by all later weights; refuted for two weights.", "quantifier": "all weight lists, splines and bases", "why_tests_cant": "All Sobolev tests are disabled.", "anchors": ["src/FunctionalAnalysis/Sobolev.cpp: SobolevNorm::inner_prod (68-95), deriv_wrt_interval_len (28-66)"]}
{"id": "C46", "title": "Numerical integral", "statement": "The integral routine returns the composite quadrature sum of the integrand over its domain and is linear in the integrand. With exact Gauss-Lobatto nodes it is exact for polynomials of degree at most 2 nglp - 3 on every domain and any number of intervals (2 and 3 points: unconditionally, because the library's nodes are exact there), and for a K-Lipschitz integrand its error is at most K (b-a)^2 / n. For any number of points with e = nglp^2/2e9 <= 1/10 the computed nodes change these statements by at most (b-a)(B e^6 + K (b-a)/(2n) e^3), B a bound of the integrand. Fewer than 2 points read and write out of bounds; a vector valued integrand fails the assertion; no interval gives 0.", "quantifier": "all integrands, domains, interval counts", "why_tests_cant": "Exactness is for all polynomials and domains.", "anchors": ["src/FunctionalAnalysis/Integral.cpp (7-32)"]}
{"id": "C47", "title": "Solver options behave like a map", "statement": "After any sequence of option settings, each option (per value type) sent to the solver has the value set last, options never set keep the value they start with, no option of a type appears twice, and sending the options changes nothing.", "quantifier": "all sequences of settings", "why_tests_cant": "Sequences are unbounded.", "anchors": ["src/Optimization/ipopt_solver.cpp (52-102)"]}
{"id": "C48", "title": "Time-allocation problem is well posed", "statement": "The initial guess handed to the optimiser is positive and sums to the requested duration for every number of intervals; the bounds and the equality constraint are satisfied exactly by the non-negative vectors summing to the duration, and its reported Jacobian is the derivative of its value. Whatever questions the optimiser asks, in whatever order, every answer is right for the point asked about (cost: the Sobolev functional, cost row: its gradient) and nothing undefined happens.", "quantifier": "all numbers of intervals, durations, bases, waypoints and all optimiser sessions", "why_tests_cant": "All sizes.", "anchors": ["src/Optimization/ipopt_interface.cpp"]}
{"id": "C49", "title": "Dictionary serialisation round trip", "statement": "For every spline, converting to a dictionary and back gives a spline equal in every observable: domain, codomain dimension, number of intervals, coefficients, interval lengths, basis name, dimension and parameters.", "quantifier": "all splines", "why_tests_cant": "Round trip over all values.", "anchors": ["python/gsplines/serialization.py", "src/Basis/Basis.cpp: get_basis (15-43)"]}
{"id": "C50", "title": "Lagrange Gram matrix is well defined", "statement": "The matrix added by BasisLagrange::add_derivative_matrix should be determined by the nodes and tau. FINDING: refuted for every node set with at least two nodes: l2normbase_matrix is allocated uninitialised and only its diagonal is assigned, so every off-diagonal entry of order 0 and every entry of order >= 1 is computed from memory nobody wrote; the result equals whatever that memory held.", "quantifier": "all node sets of size >= 2, all orders, any arithmetic", "why_tests_cant": "Fresh memory is often zero, so a test passes or fails depending on the allocator.", "anchors": ["src/Basis/BasisLagrange.cpp: constructor (33-59), add_derivative_matrix (146-168)"]}
{"id": "C51", "title": "Derivative matrix maps coefficients to coefficients of the derivative", "statement": "gspline_derivative_matrix(n, codom, k, tau) times the coefficient vector is the coefficient vector of the k-th time derivative of the piecewise function, for every Legendre or Lagrange basis, order, partition with non-zero lengths, and after any history of previous queries. FINDING: refuted for basis0101: the block already contains the time scaling, and the matrix applies (2/tau)^k again.", "quantifier": "all polynomial bases, orders, sizes, interval lengths, coefficients, query histories", "why_tests_cant": "All orders, sizes and partitions; tests compare a few random instances of the Legendre and Lagrange bases only.", "anchors": ["src/Basis/Basis.cpp: gspline_derivative_matrix (158-218)"]}
{"id": "C52", "title": "Exactly one interpolating spline", "statement": "For every basis (Legendre, Lagrange with distinct nodes, exponential-trigonometric) of even dimension, every number of intervals >= 1, codomain dimension, positive interval lengths and waypoints, exactly one coefficient vector meets all interpolation, continuity and boundary conditions: the assembled matrix is never singular. With an exact solver the result therefore does not depend on the history of the interpolator object.", "quantifier": "all bases, dimensions, interval counts, lengths and waypoints", "why_tests_cant": "Non-singularity of a matrix family of unbounded size; a numerical test can only look at single instances.", "anchors": ["src/Interpolator.cpp: fill_interpolating_matrix (48-111), solve_interpolation (346-370)"]}
{"id": "C53", "title": "Collocation operators act node by node", "statement": "Products, quotients, powers, norms, scalar factors, sums and differences of collocation splines store at every node the operation applied to the operands' node values; operands of a different shape are refused, and so are factors whose domains differ by more than a billionth relative to the size of their ends; element access and set_from_array address exactly the node they name and every stored value survives unrelated writes. FINDING: a failed size check in set_from_array happens after the object's domain and lengths were already changed, and two of its exceptions are constructed but never thrown.", "quantifier": "all sizes, codomains, node counts, interval lengths, node values, any arithmetic", "why_tests_cant": "The index arithmetic holds for all sizes; tests multiply a few random splines of one fixed size.", "anchors": ["src/Collocation/GaussLobattoLagrange.cpp: value_at (208-219), operators (223-562)", "include/gsplines/Collocation/GaussLobattoLagrange.hpp: set_from_array", "src/Functions/FunctionBase.cpp: same_domain, the member function (92-97)"]}
{"id": "C54", "title": "Inner products and norms of functions", "statement": "The Sobolev inner product of two function expressions is the quadrature, over the domain of the first operand, of the weighted sum over the requested orders of the products of the components' derivatives; on a common domain it is symmetric, non-negative and satisfies the Cauchy-Schwarz inequality; operands with different numbers of components fail the assertion. FINDINGS: the functions called norm return the square of a norm (scaling a function by s scales them by s*s), and the second operand's domain is ignored, so the product is not symmetric across domains.", "quantifier": "all expression programs, orders, weights, domains, numbers of points and intervals", "why_tests_cant": "Holds for all expressions and all derivative orders; the tests compare one random spline against scipy.", "anchors": ["src/FunctionalAnalysis/Sobolev.cpp (97-153)", "src/FunctionalAnalysis/Integral.cpp (7-32)", "src/Functions/ElementalFunctions.cpp: DotProduct (195-230)"]}
{"id": "C55", "title": "Minimum-energy paths", "statement": "For any optimiser behaviour, broken_lines_path, minimum_{acceleration,jerk,snap,crackle}_path and rojas_path return either nothing (the optimiser did not report success) or a spline on [0,1] that passes through all waypoints in order, is d-2 times continuously differentiable for a basis of dimension d and has zero derivatives of orders 1 to d/2-1 at both ends; what they minimise is the energy their name says.", "quantifier": "all waypoint matrices, all optimiser sessions, all exact linear solvers, all k", "why_tests_cant": "All waypoints and every possible behaviour of the external optimiser.", "anchors": ["src/Optimization/ipopt_solver.cpp (104-227)"]}
{"id": "C56", "title": "Gauss-Lobatto points: Newton's method converges for every number of points", "statement": "In exact arithmetic, for every n >= 2: from the library's starting guesses Newton's method never divides by zero and stops by its own tolerance test after at most 10 of the 100 allowed steps; the returned points are strictly increasing, at least 1.5/(n-1/2)^2 apart, and each is within a relative 1e-9 of its node of the one Gauss-Lobatto rule of n points; with e = n^2/2e9 <= 1/10 each point is within e^3 of its node and each weight within a relative e^6 of the exact weight. Consequently (n^2 <= 1e9) the nodes are usable by the Lagrange basis without confusion of two nodes.", "quantifier": "all numbers of points n, all nodes", "why_tests_cant": "Tests look at a handful of n and compare with tables; convergence from an asymptotic guess for every n, to the right root and in order, is an analytic fact.", "anchors": ["src/Collocation/GaussLobattoPointsWeights.cpp: q_and_evaluation, legendre_gauss_lobatto_points_and_weights (10-115)"]}
{"id": "C57", "title": "Collocation problem objects for the optimiser", "statement": "Build the variable set from a collocation spline, a CostWrapper around a SobolevDistance, and ConstraintWrappers around ContinuityErrors. For every sequence of questions (set variables, cost, gradient, constraint values, constraint Jacobians): the cost is the Sobolev distance at the variables set last, the gradient is its gradient, constraint rows are the jumps of the derivatives, the Jacobians are constant; bounds and sizes are as requested. A point with zero constraint residual whose gradient is a combination of the Jacobian rows is a global minimum over all points with zero residual. FINDING: a second variable set makes every gradient query throw; a vector of the wrong size is accepted and the next cost is undefined; update with another interval count leaves the row count; names collide.", "quantifier": "all functions, node counts, interval counts, degrees, bounds, all sequences of questions of any length", "why_tests_cant": "All sequences of calls an optimiser can make, and global optimality over an infinite set of points.", "anchors": ["include/gsplines/Collocation/GaussLobattoLagrangeFunctionals.hpp (14-30, 138-186, 418-586)", "src/Collocation/GaussLobattoLagrangeFunctionals.cpp (115-127)"]}
{"id": "C58", "title": "Equality of bases and splines", "statement": "Basis ==, same_vector_space and spline == are defined for every two objects and answer exactly: same family, same dimension and close parameters; same component count and close lengths; close coefficients and lengths and same basis. == is symmetric, holds between a spline and its copies, and equal splines with the same start, lengths and basis have values closer than 1e-7 times the largest coefficient times the size of the basis. FINDING: the domain is not compared (a time-shifted spline is equal), the difference is unbounded for large coefficients, == is not transitive.", "quantifier": "all bases and splines, all sizes, all points", "why_tests_cant": "Equality is a statement about all pairs; tests compare a few equal and a few very different splines.", "anchors": ["src/GSpline.cpp (161-166, 196-201)", "src/Tools.cpp (8-54)", "src/Basis/Basis.cpp (220-231)"]}
{"id": "C59", "title": "Polynomial evaluation in binary64", "statement": "CanonicPolynomial evaluated with IEEE double arithmetic, rounding to nearest: every finite result differs from the exact value of the polynomial with those coefficients at that point by at most ((1+u)^(2n)-1) sum |c_i||t|^i plus an explicit underflow term (u = 2^-53, n the degree). With finite coefficients and points of absolute value at most T >= 1 and (1+u)^(2n) T^n (sum|c_i| + n 2^-1075) below 2^1024, every result is finite: no infinity, no NaN.", "quantifier": "all coefficient vectors and point vectors of doubles, all degrees", "why_tests_cant": "A test compares with a tolerance at chosen points; a rounding bound for all coefficient vectors, including cancellation, subnormals and overflow, needs a proof.", "anchors": ["src/Functions/ElementalFunctions.cpp: CanonicPolynomial::value_impl (156-165)"]}
{"id": "C60", "title": "Legendre recurrence in binary64", "statement": "The Legendre recurrence run with doubles at an argument s within sg of some x in [-1,1] gives finite numbers, the k-th within k(k+1)/2 (3 sg + 21 u) of P_k(x), as long as that bound for the largest k is at most 1/16. In particular at s itself in [-1,1] the error of P_k is at most k(k+1)/2 * 21 u. The three-term recurrence is stable on [-1,1]: the error grows quadratically in the degree, not exponentially.", "quantifier": "all dimensions, all doubles in [-1,1] and close to it", "why_tests_cant": "Stability of a recurrence for every argument and every degree is not visible in samples.", "anchors": ["src/Basis/BasisLegendre.cpp: eval_on_window (89-100)"]}
{"id": "C61", "title": "Interval search in binary64", "statement": "For a spline with finite data, positive lengths and no overflow, and a finite time t: get_interval returns an interval index below the number of intervals; t lies between the two breakpoints that get_domain_breakpoints reports for it (the first interval takes everything before, the last everything after); the reported breakpoints are finite, non-decreasing, and the k-th is within ((1+u)^k-1)(|t0| + sum of the first k lengths) of the exact one.", "quantifier": "all splines of finite doubles, all interval counts, all finite times", "why_tests_cant": "The search adds lengths anew at each call; that its partial sums agree with the reported breakpoints and stay ordered in floating point for all data is a statement about all roundings.", "anchors": ["src/GSpline.cpp: get_interval, get_domain_breakpoints (115-131, 149-159)", "src/GSpline.cpp: interval_to_window (179-188)"]}
{"id": "C62", "title": "Value of a Legendre spline in binary64", "statement": "For a Legendre spline with finite data, the computed value at a time t of the domain is finite and differs from the exact value of a piece at a time t' of that piece, |t'-t| <= dl, by at most (leg_error + 3(dim+1)u) times the sum of absolute coefficients of that piece, plus an underflow term; dl = ((1+u)^(n+1)-1)(|t0| + sum tau) and the window coordinate is known up to 4 dl/tau + 6u. The bound holds for the scalar product taken in any order and any grouping, with or without fused multiply-adds. When consecutive pieces agree at the breakpoints, the value is that close to the exact spline at t'. FINDING: nothing relates the lengths to the size of the initial time. With t0 = 2^53 and eight intervals of 1/4, a continuous straight line from 0 to 8 evaluates at its own exact right end to 7.", "quantifier": "all Legendre splines of finite doubles (any dimension, interval count, component count), all times of the domain", "why_tests_cant": "The error bound concerns all coefficients, lengths, offsets and points; tests use offsets near zero, where the loss is invisible.", "anchors": ["src/GSpline.cpp: value_impl, get_interval, interval_to_window (91-113, 149-159, 179-188)", "src/Basis/BasisLegendre.cpp: eval_on_window (89-100)"]}
{"id": "C63", "title": "Linear functional objects", "statement": "An expression of linear functionals (product, sum, difference, negation, multiple) evaluates if and only if the sizes of its matrices fit; then applying the result to a spline applies the composed linear map to its coefficients, its matrix type is that of the leftmost operand, and its component count is the size of the result when this holds of the operands. `set` takes the values of the argument and keeps type and component count of the object; dense values into a sparse object always throw. The differential acts like the functional. Updating an integral to another grid gives the integral of that grid. FINDING: after `set` with a matrix of another number of rows the reported component count is that of the old matrix.", "quantifier": "all expressions of any depth, all matrix sizes and entries, all splines", "why_tests_cant": "Expressions nest to any depth and mix three matrix types; tests look at single operations of matching objects.", "anchors": ["include/gsplines/Collocation/GaussLobattoLagrangeFunctionals.hpp: LinearFunctional (14-204)", "src/Collocation/GaussLobattoLagrangeFunctionals.cpp: Integral (58-73)"]}
{"id": "C64", "title": "Lagrange basis and Lagrange splines in binary64", "statement": "For finite nodes in [-1, 1] with gaps of at least 1/G, (2G)^n <= 2^400: every barycentric weight is finite with relative error at most 2(2n+1)u. At a finite s, |s| <= 2, where 6(n+1)u times the Lebesgue function L(s) is at most 1/2, eval_on_window returns finite numbers: either exactly a unit vector, and then s is within 1.1e-9 of that node, or every entry has error at most 12(n+1)u(1+L(s)) relative to its Lagrange polynomial plus half the least positive number. The value of a Lagrange spline with finite data is, for a time t of the domain, either exactly the stored coefficient of a node, or within 33(dim+1)u L^2 times the sum of absolute coefficients of the exact piece at a time t' with |t'-t| <= 3 dl + 3 u tau, for every order of summation of the scalar product used.", "quantifier": "all node sets with such gaps, all window coordinates, all Lagrange splines of finite doubles of any size, all times of the domain", "why_tests_cant": "The barycentric formula divides by differences that may be tiny; tests cannot show that cancellation near every node of every node set stays harmless.", "anchors": ["src/Basis/BasisLagrange.cpp: almost_equal, eval_on_window, barycentric_weights (20-29, 121-144, 170-189)", "src/GSpline.cpp: value_impl, interval_to_window (91-113, 179-188)"]}
{"id": "C65", "title": "State of a collocation spline after an exception", "statement": "Copy, move, += and -= assignment are all or nothing: when they throw, the object is the one before the call. After any sequence of mutating calls (copy and move assignment, +=, -=, assignment from a function, set_from_array), each of which may return or throw and be caught, the sizes of the members still agree, and basis, codomain and number of intervals are unchanged. If the function assigned throws on interval k, the object has the new domain, the stretched lengths, the function's values on the intervals before k and the old values from k on; likewise node by node for set_from_array with a throwing callback. REFUTED: that every throwing operation leaves the object as it was. set_from_array with a wrong number of elements changes the domain and not the lengths.", "quantifier": "all collocation splines, all operands, functions and arrays, all throwing positions, all sequences of calls", "why_tests_cant": "An exception can come at any interval or element of any call; tests exercise the returning path and at most one throwing position.", "anchors": ["src/Collocation/GaussLobattoLagrange.cpp: operator= (60-122)", "include/gsplines/Collocation/GaussLobattoLagrange.hpp: set_from_array (134-161)", "include/gsplines/GSpline.hpp: operator+=, operator-= (216-231)"]}
{"id": "C66", "title": "Function expressions in binary64", "statement": "Let f be any expression of the library's functions and u = 2^-53. An independent arithmetic of balls (a real centre and a radius) gives every component of f at a ball of arguments a ball, or fails where a result could overflow or where the arguments of the ball choose different pieces of a concatenation. If exp, cos, sin are accurate to eps, the components the library computes in binary64 at arguments within the balls are finite and within the resulting balls, and the centres are the components of the same expression evaluated over the reals. For expressions without concatenations whose intermediate results stay below 2^1000, with N roundings on the way to a component, N u <= 1/2, and eps <= 2u, the computed component at a finite double t differs from the exact one by at most ((1+u)^N - 1) times the expression of absolute values. A libm with results rounded to nearest meets the hypothesis. REFUTED: that the error stays small where a computed argument chooses the piece of a concatenation.", "quantifier": "all expressions, all finite arguments, all batches of arguments, all libm implementations within the accuracy", "why_tests_cant": "The number of expressions and arguments is unbounded and the exact values are not available to a test; the worst case of accumulated roundings is met by no sample.", "anchors": ["src/Functions/ElementalFunctions.cpp: value_impl of all classes", "src/Functions/FunctionSum.cpp, FunctionMul.cpp, FunctionsComp.cpp, FunctionsConcat.cpp: eval_*", "src/Functions/FunctionExpression.cpp: eval_unique_functions, eval_negative_functions (204-245)"]}
{"id": "C67", "title": "Derivatives of the Legendre basis in binary64", "statement": "For 2 <= dim, deg < dim, a finite s in [-1,1], a finite tau > 0: where the error estimate deriv_error(dim-1, deg) is at most 1/16 of the size (dim-1)^(2 deg) of the derivatives and (2 max(2/tau, tau/2) (dim-1)^2)^deg <= 2^900, eval_derivative_on_window returns finite numbers, each within 2 deriv_error (2/tau)^deg of the deg-th time derivative of its polynomial; deriv_error is u = 2^-53 times an explicit recursion in deg. eval_derivative_wrt_tau_on_window is finite and within 3 deriv_error (2/tau)^deg deg/tau of the derivative of that with respect to tau.", "quantifier": "all dimensions, orders, finite window coordinates and lengths in the range", "why_tests_cant": "The exact derivatives are not available to a test, and the worst case of accumulated roundings of the recursion is met by no sample.", "anchors": ["src/Basis/BasisLegendre.cpp: eval_derivative_on_window (49-80), eval_derivative_wrt_tau_on_window (82-87)"]}
{"id": "C68", "title": "The interpolation system in binary64", "statement": "For an interpolator with a Legendre basis of even dimension after any sequence of calls, finite waypoints, and finite lengths of at least the double 1e-6 for which the derivatives at the ends are in the range of C67: the matrix holds finite numbers only, the right-hand side holds the waypoints unrounded, and row by row A c - b differs from the residual of one interpolation condition (each condition has one row) by at most the errors of C67 times the absolute coefficients of the pieces it involves, for every real c. Hence, whatever vector the external LU solver returns, interpolate returns the spline with exactly these coefficients, and every condition (waypoints, continuity of derivatives, rest at the ends) is missed by no more than the residual the solver left plus that bound.", "quantifier": "all dimensions, numbers of intervals, components, finite waypoints, lengths in the range, histories of the object, solvers", "why_tests_cant": "A test compares a computed spline with its waypoints for some inputs; the split of the error into what the solver left and what the matrix already contains holds for all inputs and any solver.", "anchors": ["src/Interpolator.cpp: fill_interpolating_matrix (48-111), fill_interpolating_vector (112-154), interpolate (156-165), fill_* (182-260), solve_interpolation (345-370)"]}
{"id": "C69", "title": "A binary64 spline passes its waypoints at its own breakpoints", "statement": "With the hypotheses of C68 and C62: let interpolate return g from a solution whose residual is at most r. get_domain_breakpoints of g succeeds; evaluating g at these n+1 computed doubles, which is get_waypoints, succeeds with finite values; value k differs from waypoint k by at most r + the error of the matrix row + the error of evaluation (C62) + the move of the computed breakpoints times the slope bound (2/tau)(dim-1)^2, all times the absolute coefficients of one of the two pieces that meet at k. The same for any finite times within eta of the exact breakpoints, for any finite Legendre spline whose end conditions hold up to eps.", "quantifier": "all dimensions, interval counts, components, waypoints, lengths and coefficients in the range, solvers, times near breakpoints", "why_tests_cant": "Which of the two neighbouring pieces a rounded breakpoint selects depends on the last bits of the accumulated lengths; a test samples a few such sums.", "anchors": ["src/Interpolator.cpp: interpolate (156-180)", "src/GSpline.cpp: value_impl, get_interval, interval_to_window, get_domain_breakpoints, get_waypoints (190-194)"]}
{"id": "C70", "title": "Functions used from Python compute what they denote", "statement": "Every object that Python code builds from the exported constructors with + - *, unary minus, compose, dot, concat and deriv evaluates at every array of points to the function it denotes, without an exception. For each method and each pair of classes it is determined whether Python raises TypeError (no overload), ValueError (incompatible domains or components) or succeeds; dot is checked in debug builds only. The domain of each result is the one the operation should have. deriv(k) is the k-th derivative of any smooth object. == and != on splines are opposite. Refuted: splines take + - * and unary minus (they have none in Python); compose is available in both orders; subtracting an expression subtracts all of it.", "quantifier": "all objects (expression trees of any shape built through the bindings), classes, methods, points, orders, build types", "why_tests_cant": "Which overload Python selects depends on the classes of both operands and on the order of registration; tests call a few combinations, trees are unbounded.", "anchors": ["bindings/bindings.cpp: Function, FunctionExpression, GSpline and elementary function classes", "src/Functions/FunctionBase.cpp, include/gsplines/Functions/FunctionExpression.hpp: operators"]}
{"id": "C71", "title": "What the plotting functions draw", "statement": "plot draws, for every order up to the requested one and every component, the line of the samples of that derivative at times from the start of the domain in steps of dt, for a spline adds a vertical line at each breakpoint over the height of what is drawn and the waypoints in the first row, and sets the limits so that they leave one percent of the extent of the lines on each side. plot_compare draws all objects on one grid in this way and hands the legend names to the lines of each object. plot2d draws the curve of a two-component object with the waypoints of a spline, and its derivatives up to order 3, and does nothing otherwise. plot2d_compare does the same for a list of two-component objects in one picture, hands the names to the curves in order, and does nothing if one of them is not plane. Refuted: a one-component object can be plotted with derivatives; plot_compare uses the given step and works without derivatives; plot2d works for every number of derivatives; the limits contain all waypoints; each legend name belongs to a line of its object; plot2d_compare accepts an empty list.", "quantifier": "all objects with any number of components and intervals, orders, steps, numbers of compared objects", "why_tests_cant": "There are no tests of the plotting package, and pictures are looked at for one example only; the shape of the array returned by subplots changes with the number of rows and columns.", "anchors": ["python/gsplines/plot/plot.py 10-209", "python/gsplines/plot/LinesContainer.py 8-68", "bindings/bindings.cpp 100-111, 359-365"]}
{"id": "C72", "title": "Linear time scaling in binary64", "statement": "Scaling a Legendre spline to a new duration L with doubles keeps basis, coefficients and start of the domain, sets the end to the rounded start + L, and multiplies every length by the exact ratio of durations up to 4 units of roundoff. The value of the scaled spline at t is, up to the evaluation error of the original one, the value of the original spline at a time whose distance from the exact preimage of t is bounded by the rounding errors of the breakpoints. A duration below 1e-8 throws. Scaling to the duration that the domain reports keeps every length bit for bit. Refuted: it also keeps the domain.", "quantifier": "all Legendre splines of any dimension and number of intervals with finite data, all durations away from overflow and underflow, all evaluation times in the domain, every mathematical library", "why_tests_cant": "Tests compare scaled splines at sampled times with a fixed tolerance; they show neither how errors grow with the number of intervals nor that the end of the domain can move.", "anchors": ["include/gsplines/GSpline.hpp 233-264", "include/gsplines/Functions/FunctionBase.hpp 50-52"]}
{"id": "C73", "title": "Derivative of a Legendre spline in binary64", "statement": "Every entry of the derivative matrix computed with doubles is exactly zero where the exact one is, and otherwise within an explicit relative error of the coefficient in the Legendre expansion of the derivative. The object returned by derivate(k), k >= 1, has the same basis, domain and interval lengths, finite coefficients, and coefficients within an explicit error of those of the exact k-th derivative of each piece. Its values are within an explicit error of the exact k-th derivative of a piece of the original spline at a time within the rounding error of the breakpoints of the requested one.", "quantifier": "all Legendre splines of any dimension, number of intervals and components with finite data, all orders k >= 1, all cache histories, all evaluation times in the domain, every mathematical library, as long as the stated error terms are below 1/16 and 1/2 and numbers are below 2^300", "why_tests_cant": "Tests compare a few derivatives with finite differences or automatic differentiation at fixed tolerances; they do not show how the error of the recursively built matrix grows with the dimension and order.", "anchors": ["src/Basis/BasisLegendre.cpp 153-192", "include/gsplines/GSpline.hpp 103-143"]}
{"id": "C74", "title": "Exponential-trigonometric basis in binary64", "statement": "The factor k computed from alpha has relative error at most 12 units (2^-53) of the exact sqrt(2)/4 (alpha/(1-alpha))^(1/4). Every value filled by eval_on_window and every value filled by eval_derivative_on_window is finite and within an explicit error of the exact function, respectively of its exact derivative of that order with respect to time. Every value of a spline in this basis is finite and within an explicit error of the exact piece at a time within the rounding error of the breakpoints of the requested one.", "quantifier": "all doubles 0 < alpha < 1, all interval lengths and window coordinates with argument |tau k s| <= 450, all derivative orders up to 2^20 whose scale stays between 2^-900 and 2^900, all splines of any number of intervals and components with finite data, every mathematical library whose exp, cos, sin and fourth root have relative error at most 2^-52", "why_tests_cant": "Tests compare a few points with automatic differentiation at fixed tolerances; they do not show that the error grows with exp |p| and linearly with the order, nor for which alpha and interval lengths nothing overflows.", "anchors": ["src/Basis/Basis0101.cpp 35-82", "src/GSpline.cpp: value_impl, get_interval, interval_to_window (91-113, 179-188)"]}
{"id": "C75", "title": "Collocation derivative operator", "statement": "A Derivative operator constructed from interval lengths, from a domain cut into equal parts or from a spline, and then updated any number of times with vectors of lengths or with one common length, maps a collocation spline on the current intervals to a collocation spline whose pieces are the derivatives of the requested order of its pieces. The zero spline constructor yields a spline that is zero everywhere.", "quantifier": "all numbers of nodes >= 2 whose computed nodes differ, all numbers of intervals and components, all orders, all nonzero lengths, all sequences of updates (also ones that change the number of intervals), all coefficients", "why_tests_cant": "Tests build the operator for one uniform grid and never update it with another number of intervals; the matrix is a cached buffer, so a stale entry shows only after particular sequences of updates.", "anchors": ["src/Collocation/GaussLobattoLagrangeFunctionals.cpp 13-53", "include/gsplines/Collocation/GaussLobattoLagrangeFunctionals.hpp 143-155, 206-227", "src/Collocation/GaussLobattoLagrange.cpp 32-39"]}
{"id": "C76", "title": "Function classes written in Python", "statement": "In an expression that contains objects of classes written in Python, the first derivative is always right and so is a derivative of any order taken one order at a time; a derivative of order k asked for at once is right when no Python object is reached directly (outside products and compositions, whose rules are built from first derivatives). FINDING: the trampolines call the Python method deriv_impl without the order, so derivate(k) of such an object, alone or in a sum, is the first derivative for every k, also for k = 0; the L2 norm of such an object is therefore the integral of the squared first derivative.", "quantifier": "all expression trees over library functions, splines and Python classes, all orders, all points, all dimensions", "why_tests_cant": "The tests of the bindings subclass Function once and differentiate it once; orders 0 and 2 and deep expressions are never asked for.", "anchors": ["bindings/pyfunctions.hpp 18-64", "src/Functions/FunctionSum.cpp", "src/Functions/FunctionMul.cpp", "src/FunctionalAnalysis/Integral.cpp"]}
{"id": "C77", "title": "The interpolating spline has the least cost", "statement": "For given waypoints and interval lengths the interpolating spline of a polynomial basis of dimension 2h minimises the integral of the squared derivative of order h, and the one of the exponential-trigonometric basis with weight a minimises the integral of a f'^2 + (1-a) f'''^2, among all functions of class C^h (also piecewise C^h with continuous derivatives below order h) that take the waypoint values at the breakpoints and have vanishing derivatives of orders 1..h-1 at both ends. The minimiser is unique, and the spline is itself one of the functions compared.", "quantifier": "all waypoints, numbers of intervals and components, lengths >= 1e-6, even dimensions, weights in (0,1), all competing functions", "why_tests_cant": "The claim quantifies over all functions. Tests can compare with a few other curves only; an interpolant with one wrong continuity condition still passes through all waypoints and looks smooth.", "anchors": ["src/Interpolator.cpp 48-165", "src/Basis/Basis0101.cpp", "README.md 122-128"]}
{"id": "C78", "title": "Gauss-Lobatto points and weights in binary64", "statement": "Computed in IEEE binary64 with the library's starting values, Newton loop and stopping test, every point of the rule with n <= 1001 points is finite and within 16 N^(3/2) 2^-53 (N = n - 1) of its node, every weight is finite, positive and within a relative 32 N^(5/2) 2^-53 of the exact weight. The points increase strictly from exactly -1 to exactly 1; points and weights mirror each other exactly. Used as an exact rule, the computed numbers integrate polynomials of degree at most 2 n - 3 over any interval up to these errors.", "quantifier": "all n from 2 to 1001, all math libraries whose cosine is within 1e-9 and whose pi is within 4 units of 2^-53, all nodes, all polynomials of the admitted degree", "why_tests_cant": "The loop may stop early or run all 100 steps depending on rounding, and the result depends on the cosine of the platform. A test runs one library and compares with tabulated values for a few n only.", "anchors": ["src/Collocation/GaussLobattoPointsWeights.cpp 10-125"]}
{"id": "C79", "title": "Numerical integrals and composite grids in binary64", "statement": "integral, computed in IEEE binary64 with np <= 1001 Gauss-Lobatto points on each of n equal parts of [a, b], gives a finite number. When the computed integrand is within delta of F and F is bounded by B and K-Lipschitz slightly beyond [a, b], it differs from the exact Gauss-Lobatto sum of F by at most (b - a) times a bound that is explicit in np, n, B, K, delta and 2^-53; the same bound holds against the integral of polynomials of degree at most 2 np - 3, and with K (b - a)^2 / n added against the integral of any such F. Points of the composite grid are within 20 * 2^-53 * max(|a|, |b|) plus the scaled node error of their exact places; its weights have a relative error of at most that of the rule plus 5 * 2^-53.", "quantifier": "all intervals with finite ends up to 2^400 and length at least 2^-400, all np from 2 to 1001, all n up to 2^53 / 1000, all integrands meeting the stated bounds, all math libraries with an accurate cosine and pi", "why_tests_cant": "Rounding errors accumulate over np times n terms and differ for every interval and integrand; a test samples a few integrals with known values and a loose tolerance.", "anchors": ["src/FunctionalAnalysis/Integral.cpp 7-32", "src/Collocation/GaussLobattoPointsWeights.cpp 136-179"]}
{"id": "C80", "title": "Dependence of the interpolating curve on its data", "statement": "For an exact solver the curve returned by interpolate is linear in the waypoints; each component depends on its own waypoints only and not on the other components or their number; equal waypoints give a constant and moving all waypoints moves the curve; reversing waypoints and lengths gives the same curve run backwards; multiplying all lengths by f gives the same path f times slower, at a cost divided by f^(2h-1) for the polynomial bases of dimension 2h; dropping waypoints never raises the cost; and for given lengths there is a K such that moving the waypoints by r moves the curve by at most K r. In binary64 the computed coefficients and the derivatives of the curve are within K e of the exact ones, e the solver residual plus the rounding errors of the conditions.", "quantifier": "all bases of even dimension, all numbers of components and intervals, all lengths >= 1e-6, all waypoints, all reachable states of the interpolators involved, all exact solvers (binary64: all Legendre dimensions, all finite waypoints, all solvers with the stated residual)", "why_tests_cant": "These are relations between the results of several calls with different data; a test compares a few pairs up to a tolerance, and no finite set of pairs shows the existence of a stability constant.", "anchors": ["src/Interpolator.cpp 10-330", "include/gsplines/Interpolator.hpp 1-76", "src/GSpline.cpp 91-140"]}
{"id": "C81", "title": "Ownership and value semantics of expression variables", "statement": "Programs over FunctionExpression variables that copy, move, add, subtract, multiply, scale, compose, concatenate, negate and update in place: a program that does not use a moved variable behaves as if variables held values (same exceptions, no null pointer met, every variable ends with the value the operators give, shared operands included) and moved variables own nothing; a straight-line program means the tree obtained by substitution and evaluates to it; in every execution, disciplined or not, each node allocated is owned by exactly one pointer and points to older nodes only, so nothing is leaked, freed twice or cyclic. A variable that is moved and named in the same operation is not protected: x += std::move(x) leaves the value, std::move(x) + std::move(x) holds a null pointer, std::move(x) + x dereferences one.", "quantifier": "all programs (any number of statements and variables, any aliasing), all function classes at the leaves, every arithmetic (values: the reals)", "why_tests_cant": "Sharing and moving interact over the whole history of a program; a test runs a few histories, and leaks or double ownership need not change any value.", "anchors": ["src/Functions/FunctionExpression.cpp 19-93", "src/Functions/FunctionGenericOperations.cpp 7-132", "src/Functions/FunctionSum.cpp 18-168", "src/Functions/FunctionMul.cpp 49-194", "src/Functions/FunctionsComp.cpp 21-157", "src/Functions/FunctionsConcat.cpp 19-134"]}
{"id": "C82", "title": "Vectors handed out by an interpolator", "statement": "solve_interpolation and get_coeff_derivative_wrt_tau return references to buffers of the interpolator (in Python: numpy views of them). A program that uses a result only until the next call of the same function on the same object (or the end of the object), and does not pass a sensitivity back to the function that produced it, behaves as if every call returned a vector of its own: same exceptions, same values. SobolevNorm::deriv_wrt_interval_len is such a program. Outside the rule: all results of one function of one object are one vector, so a second interpolation rewrites the result of the first, and a sensitivity passed back to get_coeff_derivative_wrt_tau is zeroed before it is read, so that the answer is zero.", "quantifier": "all programs (any number of interpolators and calls), every solver behaviour and every arithmetic; the zero answer for all bases, sizes, interval lengths and vectors over the reals with an exact solver", "why_tests_cant": "Each call returns the right numbers when it is made; the damage shows in an earlier result after a later call, and depends on which variables a whole program keeps.", "anchors": ["src/Interpolator.cpp 255-370", "include/gsplines/Interpolator.hpp 26-30, 58-65", "bindings/pybasis.hpp 68-82", "bindings/bindings.cpp 344-359", "src/FunctionalAnalysis/Sobolev.cpp 27-66"]}
{"id": "C83", "title": "Moving splines", "statement": "In a program that creates, copies, moves, adds, subtracts, scales, negates, differentiates and rescales spline variables and does not use a variable after moving it away, no statement fails, every remaining variable keeps its domain, shape and interval lengths and evaluates to the function the formulas of the program give, and exactly the variables the overloads use up (only the left one of two moved operands) are empty. An empty variable can be copied, moved, scaled, negated and differentiated (the result is empty), and combining it with a live one throws. It still reports its domain, but evaluating it there reads out of bounds, as does rescaling it over the exponential basis; the basis that stays behind evaluates as before (polynomial bases) and has lost its Gram matrices, so that every norm computed with it reads out of bounds.", "quantifier": "all programs of any length over all bases, sizes, points and derivative orders (over the reals; the basis left behind for every arithmetic)", "why_tests_cant": "Tests move a temporary or two; which of many variables are still usable depends on the overload chosen by every statement of the program, and reads of the emptied vectors often go unnoticed in a release build.", "anchors": ["src/GSpline.cpp 15-40, 91-113, 196-222, 241-262", "include/gsplines/GSpline.hpp 108-264", "include/gsplines/Basis/Basis.hpp 78-90", "src/Basis/BasisLegendre.cpp 38-47", "src/Basis/BasisLagrange.cpp 65-79", "src/Basis/Basis0101.cpp 147-152"]}
{"id": "C84", "title": "Expression variables used by several threads", "statement": "Evaluating and copying a function are const operations. Threads that evaluate different expression variables, threads that evaluate the same variable if it contains no spline, and one thread that copies a variable never race, whatever the schedule; every schedule ends and every thread gets the result it gets alone. Outside these rules: two threads that evaluate the same spline race at its scratch vector, and one can return the value that belongs to the point of the other; two threads that copy expressions race at the static counter of constructor calls even if the expressions have nothing in common, and calls get lost.", "quantifier": "all expression trees, any number of threads and points, all interleavings of the accesses to shared memory, every arithmetic", "why_tests_cant": "A test sees a few schedules; a race on a scratch vector shows only if two threads are at the same spline within one point, and which objects are shared depends on how the whole tree was built.", "anchors": ["include/gsplines/GSpline.hpp 33", "src/GSpline.cpp 91-113", "src/Functions/FunctionExpression.cpp 14-17, 34, 56, 69, 78, 85, 92, 204-238", "src/Functions/FunctionSum.cpp 105-118", "src/Functions/FunctionMul.cpp 199-215", "src/Functions/FunctionsComp.cpp 162-186", "src/Functions/FunctionsConcat.cpp 140-155, 183-222"]}
{"id": "C85", "title": "Splines used by several threads", "statement": "Threads that use different spline variables never race. On one spline variable, one thread may compute values while others copy the spline and take derivatives of it, any number of threads may copy it, and any number may take derivatives of orders that were taken before; whatever the schedule there is no race and every thread gets the result it gets alone. Taking the derivative of order k once prepares the variable for all orders up to k. Every schedule ends. Outside these rules: two threads that take the first derivative of a spline for the first time race at the array of differentiation matrices of its basis; even if the append were indivisible, the array can be left with the first matrix twice, so that later second derivatives of the variable are wrong without any thread.", "quantifier": "all splines over all bases, any number of threads and operations, all interleavings of the accesses to shared memory, every arithmetic", "why_tests_cant": "derivate is a const method; the array it fills is a mutable member of the basis, the race needs two first calls within a few instructions, and its damage shows only at a later call with a higher order.", "anchors": ["include/gsplines/Basis/Basis.hpp 140-152", "include/gsplines/GSpline.hpp 33, 108-143", "src/GSpline.cpp 15-33, 91-113"]}
{"id": "C86", "title": "Integrals of function expressions in binary64, with an error known from their text", "statement": "For an expression built from constants, dilations, exponentials, cosines, sines, polynomials, inner products, sums, products, compositions and negations, the size of each component and the rate at which it changes are bounded by formulas read off the text of the expression, for all arguments up to a given magnitude. With these bounds the numerical integral of a scalar expression in binary64 is a finite number, and its distance from the exact integral is at most an explicit error: a term of first order in the length of the parts plus the rounding error, which depends on the text, the number of points and parts and the interval only. If the exact values form a polynomial of degree at most twice the number of points minus three, only the rounding error remains. The same holds for the inner product and the norm of vector expressions (the norm is the integral of the sum of squares, no root is taken), with the bounds read off the text of the product the code builds. Nothing is assumed about the accuracy of the integrand.", "quantifier": "all such expressions, all intervals between 2^-400 and 2^400, 2 to 1001 points, all numbers of parts up to 2^53/1000, all libraries whose exp, cos and sin are accurate to two units", "why_tests_cant": "a test compares one integral with a value known in another way; the bound must hold for every expression, and the error of the integrand, of its nodes and of the sums have to be followed together.", "anchors": ["src/FunctionalAnalysis/Integral.cpp 7-32", "src/Collocation/GaussLobattoPointsWeights.cpp", "src/Functions/ElementalFunctions.cpp: value_impl of all classes", "src/Functions/FunctionSum.cpp, FunctionMul.cpp, FunctionsComp.cpp, FunctionsConcat.cpp: eval_*", "src/Functions/FunctionExpression.cpp: eval_unique_functions, eval_negative_functions (204-245)", "src/FunctionalAnalysis/Sobolev.cpp 97-153"]}
{"id": "C87", "title": "Bases defined in Python", "statement": "Splines, interpolators and norms own a copy of the basis they are given. In a Python program that hands only bases of the library (made by their constructors or returned by get_basis) to these constructors, no null pointer is dereferenced, every spline owns a basis with the announced number of functions, and get_basis returns the basis the spline was made with. REFUTED for bases that are defined in Python by deriving from Basis, which the bindings offer: their clone is a null pointer, and the first call of any of these constructors dereferences it, whatever its other arguments are, so even a wrong number of coefficients is not reported. Called from Python, the methods of such a basis are those the class defines; a method it does not define raises an exception.", "quantifier": "all programs (sequences of calls) over any number of bases and splines, all bases of the library with at least two functions, all Python classes", "why_tests_cant": "the tests of the bindings never define a basis in Python; that no program with library bases meets a null pointer is a statement about all sequences of calls.", "anchors": ["bindings/pybasis.hpp 21-66", "bindings/bindings.cpp 28-58, 100-118, 341-382", "src/GSpline.cpp 15-33, 42-64", "src/Interpolator.cpp 9-45", "src/FunctionalAnalysis/Sobolev.cpp 9-17"]}
{"id": "C88", "title": "The error report of the comparisons", "statement": "The comparisons of the tools namespace store the error and the relative error of a comparison in two global variables. If both operands reach the tolerance, the report holds the error and the error divided by the smaller operand, and the answer is 'equal' exactly if the reported relative error is below the tolerance; comparisons with zero always report. The stores change no answer. Threads of which at most one stores do not race, and the report is the one of that thread. REFUTED: that the report is about the last comparison (it is left as it was when an operand is small or the shapes differ, also when the answer is 'different'); that after == of splines it tells the distance of the coefficients (for equal lengths it says 0); that operations on different splines are independent (every sum, difference and == of splines, and every product of collocation splines, compares, so two threads that add splines of their own race on the globals).", "quantifier": "all numbers, matrices and splines, all tolerances, all previous reports, any number of threads and all interleavings", "why_tests_cant": "the tests print the report after a failed comparison and rely on it; whether it belongs to that comparison depends on the operands, and the race needs two threads.", "anchors": ["src/Tools.cpp 6-79", "include/gsplines/Tools.hpp 7-8", "src/GSpline.cpp 161-166, 196-201", "src/Basis/Basis.cpp 220-231", "include/gsplines/GSpline.hpp 150-231", "src/Functions/FunctionBase.cpp 92-97", "tests/collocation.cpp 243, 294-295, 312, 334"]}
{"id": "C89", "title": "Collocation splines made from other splines", "statement": "A GaussLobattoLagrangeSpline can be constructed from any GSpline by copy or move and, through the inherited constructors, with any basis. Every well-formed spline is accepted and the result is the same function; from a collocation spline it is a collocation spline with the same values at the nodes; the inherited constructors refuse a wrong number of coefficients and nothing else; assigning to a collocation spline with the same sizes stores the coefficients of the source as values at the nodes. REFUTED: that a collocation spline obtained this way has its values at the nodes as coefficients (a spline of two Legendre coefficients has them only if it is zero), that its product with another spline is the product of the functions at the nodes (given by an explicit condition on the coefficients), that assigning a function to it stores the values of the function (the points of a Legendre basis are the empty vector, and every coefficient stays indeterminate), and that assignment preserves the function of the source.", "quantifier": "all splines over all three bases, all numbers of intervals, components and nodes, all coefficients", "why_tests_cant": "the tests convert only splines that were made as collocation splines; the conversion is implicit and accepts everything.", "anchors": ["src/Collocation/GaussLobattoLagrange.cpp 41-53, 60-122, 223-358", "include/gsplines/Collocation/GaussLobattoLagrange.hpp 77-78, 97-101", "src/GSpline.cpp 15-89"]}
{"id": "C90", "title": "The integral of a path along a reparametrisation", "statement": "collocation::integral(diffeo, path) is the ten-point Gauss-Lobatto quadrature of |path(diffeo(t))|^2 over the domain of diffeo; for a Lipschitz integrand it is within an explicit distance of the integral; a diffeo with more than one component is refused with an exception. REFUTED: that the result does not depend on the parametrisation of the path (the derivative of diffeo is not a factor: t on [0,2] and 2t on [0,1] give about 2 and about 1 for the constant path 1).", "quantifier": "all functions and expressions that programs over the library can build, over the reals", "why_tests_cant": "no test calls the function; a wrong factor shows only when two parametrisations are compared.", "anchors": ["src/Collocation/GaussLobattoLagrange.cpp 198-203", "src/Functions/FunctionBase.cpp 49-52, 66-73, 187-189", "include/gsplines/FunctionalAnalysis/Integral.hpp 9-10"]}
{"id": "C91", "title": "Collocation splines with intervals of different lengths", "statement": "The points of get_domain_discretization are the nodes at which a collocation spline stores its values exactly if all its intervals have the same length; then the spline evaluated at the discretization gives value_at(k) at the k-th point. REFUTED for different lengths: the value at the k-th point is not value_at(k), and the product of two splines over the same domain with different lengths is not the product of the functions (the lengths are not compared).", "quantifier": "all collocation splines with at least two nodes, all numbers of intervals and components, all positive lengths", "why_tests_cant": "all collocation splines in the tests have equal intervals; different lengths arise from the inherited constructors and from assignment.", "anchors": ["include/gsplines/Collocation/GaussLobattoLagrange.hpp 77-78, 114-117", "src/Collocation/GaussLobattoLagrange.cpp 204-218, 223-358"]}
{"id": "C92", "title": "Repeated updates of curves and vertical lines", "statement": "CurveVsTime and VerticalLines keep their lines and are updated again and again, as in an animation. At the first update the vertical lines reach from the lowest to the highest value drawn in their axis; after any program of updates they reach from the lowest to the highest value that any curve has shown at this or an earlier update of the vertical lines; with as many breakpoints as lines they stand at the breakpoints; if no axis raises, each is updated; an axis without data raises and nothing changes in it, one breakpoint too many raises after all lines have been set. REFUTED: that the vertical lines span the curve that is shown (they count themselves among the drawn lines, so they never shrink), and that only the breakpoints given last are marked (with fewer breakpoints the remaining lines keep their old places).", "quantifier": "all programs of updates, all numbers of curves and vertical lines, all data, over the reals", "why_tests_cant": "the tests draw each figure once; the defects need a second update.", "anchors": ["python/gsplines/plot/LinesContainer.py 8-32, 35-73"]}
