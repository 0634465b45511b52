# Formal model of gsplines_cpp in Rocq

The C++ sources in `/repo` are read as text and transcribed function by function
into total Gallina functions; the properties of `properties.jsonl` are theorems
about those functions.  Nothing of `/repo` is compiled or run.

## 1. How the code is modelled

* **Numbers.**  `Num T` (file `Num.v`) is a record of *operations only*
  (0, 1, +, -, *, /, opposite, abs, comparisons, integer injection, exp, cos, sin,
  sqrt, real power) with no laws.  Model functions are polymorphic in it.
  Structural theorems (memory safety, indices, symmetry, which branch is taken)
  are proved for **every** `Num`, hence also for IEEE doubles with NaN and
  infinities.  Analytic theorems use the instance at Coq's real numbers `R`:
  `double` is idealised as `R` there.  A third instance, `B64num` (file
  `IEEEModel.v`), is IEEE 754 binary64 as defined by Flocq; C59-C62, C64, C66-C69, C72-C74, C78, C79, C86 bound the
  rounding errors of evaluation with it.
* **Outcomes.**  A call returns `Ok v`, `Throw e` (a C++ exception with its
  class) or `UB` (out-of-bounds access, read of an uninitialised cell, failed
  Eigen size assertion with assertions off ...).
* **Vectors and matrices** (`Outcome.v`) carry their size; a cell is
  `option T`, `None` being "allocated but never written".  Reads and writes are
  bounds checked and reading `None` is `UB`.
* **Loops** use the combinator `for_ lo hi body` with one invariant rule.
* **Overloads.** Each lvalue/rvalue overload that has its own body is a separate
  definition.
* **External code** (Eigen's SparseLU, IPOPT, the random generator) appears as a
  function argument with the needed contract as an explicit hypothesis of the
  theorem.

Every definition has a comment with the file and lines it transcribes and the
simplifications made.

Specifications are separate files that do not mention model helpers: pointwise
denotations of expressions, Legendre/Lagrange polynomials defined
mathematically, Coquelicot derivatives (`is_derive`, `Derive_n`) and integrals
(`RInt`, `is_RInt`), finite sums, permutation/partition statements.

## 2. Findings

Some properties users would expect are false of this commit.  For those the
exact boundary is proved (the guarded positive theorem) *and* a theorem whose name ends in
`_refuted` exhibits a counterexample computed by the model.  The
`note` in `MANIFEST.json` repeats it per property.  Collected here:

**Expressions** (C01-C09, C66, C81)
* `-(f+g)`, `-(f*g)`, `-(-f)` evaluate only the first operand; with assertions on they abort (C02).  `f-(g+h)` is `f-g` (C03).
* The rvalue overloads of `compose` and `concat` extend a composition or concatenation in place and keep its old domain (C05).
* Because of that, the derivative of a composition extended in place reports another interval than the composition (C04).
* `+=` and `*=` check nothing; evaluating the result on operands of unsuitable sizes is undefined behaviour (C06).  With suitable sizes the value and derivatives are right (C01, C04).
* Pieces may be concatenated with a gap below 1e-9, inside which evaluation throws (C07).
* An empty coefficient vector of `CanonicPolynomial` is undefined behaviour (C08); `derivate` of a dot product throws when the operands' domains differ (C09).
* A variable moved and named in one operation: `x += std::move(x)` leaves the value, `std::move(x) + std::move(x)` returns an expression with a null pointer, `std::move(x) + x` dereferences one, `std::move(x).concat(x)` of a concatenation does not end (C81).
* A rounding error of an inner function that falls on a breakpoint changes the value by the whole jump of the outer concatenation (C66).

**Bases** (C11-C24, C50, C51)
* Legendre Gram matrices of order 1 <= k < dim are wrong for every dimension (exact iff, C14).
* A Lagrange basis snaps points within 1e-9 of a node (C16); its Gram matrices read memory that was never written (C50); `change_interpolation_points` never clears its match flag (C18).
* `Basis0101`: the order-k differentiation block is squared instead of multiplied, so order k >= 3 is wrong (C20); the order-2 Gram block is off by tau^2/4 (C21); literals are decimal approximations (C21).
* Continuity and derivative sparse matrices scale basis0101 rows by powers of 2/tau, right only for tau = 2; Legendre continuity rows are wrong from order 1 (C24, C51).
* Returned references alias a buffer which a later query with the same sizes overwrites (C23).

**Splines** (C25-C33, C49, C58, C62, C72)
* The number of interval lengths is not checked (C31, also when read from a dictionary, C49).
* `+` and `-` ignore the start of the domain (C30); `==` ignores the domain and is relative to the largest coefficient, and it is not transitive (C58).
* Velocity/acceleration scaling needs both bounds, bounds only the samples, and collapses a spline at rest (C29).
* Scaling to the duration the domain reports keeps the lengths but can move the end of the domain: start + (end - start) rounds twice (C72).
* `random_gspline` ignores the left end of the requested domain (C32).
* Lengths and initial time are not related: when a length is below the spacing of doubles near the initial time, all computed breakpoints coincide and the value at the exact right end of a continuous spline is off by a whole interval (C62).
* Evaluations of one object share a buffer: a data race on every concurrent use (C33).

**Interpolation** (C34-C37, C52)
* A failed factorisation returns the previous coefficients; the waypoint shape and the solver status in the sensitivity are unchecked; a wrong index returns old or uninitialised data (C37).

**Collocation** (C38-C46, C53, C54, C56, C57, C63, C65)
* Fewer than two Gauss-Lobatto points is undefined behaviour (C38).  Composite points for given lengths are misplaced unless all lengths are equal (C40).
* The constructor from a function swaps points and intervals (C41); assignment keeps the old interval lengths (C42).
* `update(matrix)` applies the transpose or runs out of bounds; the length update of `Integral` always throws (C43).
* `LinearFunctional::set` leaves the reported number of components unchanged when the new matrix has another number of rows (C63).
* `norm` functions return squares, the domain of the right operand is ignored (C54).
* `ContinuityError::update` with another number of intervals leaves the reported number of rows unchanged; a problem with a second variable set throws in every Jacobian query; `SetVariables` takes any size; names of wrappers collide between classes and all costs are called `cost_0` (C57).
* `set_from_array` changes the domain before it checks the number of elements and builds two exceptions without throwing them, so that a vector of the wrong size is undefined behaviour; assignment from a function that throws leaves domain, lengths and part of the values changed (C65).
* `SobolevDistance` ignores its degree argument and all its differentials share one matrix (C44).

**Optimisation** (C45, C47, C48, C55)
* In `SobolevNorm` each weight also multiplies all earlier terms (C45).  The Legendre energies inherit C14, hence so do the five Legendre paths, and `rojas_path` inherits the weights (C55).
* Feasible lengths below 1e-6 make the cost throw (C48).  One waypoint is undefined behaviour, none wraps the interval count (C55).
* An option set under two value types is kept and sent twice (C47).

**Python** (C70, C71, C76)
* The trampoline of `deriv_impl` drops the order: `derivate(k)` of a class written in Python is its first derivative for every k, also for k = 0, so its L2 norm is the integral of the squared derivative (C76).  Products and compositions are right.
* Splines have no `+ - *` and no unary minus; `compose` depends on the class of the receiver; subtraction inherits C03.  The bindings register `__neq__`/`__nq__` instead of `__ne__`, which is harmless: Python derives `!=` from `==`.
* Plots (C71): one-component objects with derivatives raise ValueError (`atleast_2d` makes a row of what `subplots` squeezed from a column); `plot_compare` ignores its step and raises IndexError without derivatives;
  `plot2d` always draws four rows (IndexError if there are fewer, empty axes if more); the limits can exclude the last waypoint; legend names go to the vertical lines of the first spline; `plot2d_compare` of an empty list raises IndexError.

**References** (C82)
* All vectors returned by `solve_interpolation` of one interpolator are the same memory, so are those of `get_coeff_derivative_wrt_tau`; the Python views do not keep the interpolator alive.  A sensitivity passed back to `get_coeff_derivative_wrt_tau` gives zero (`noalias` on a vector that is also the operand).

**Moved splines** (C83)
* A spline that was moved away still reports its domain and codomain; evaluating it there reads out of bounds (`C83_moved_value_refuted`), and so does `linear_scaling_new_execution_time` over the exponential basis (`C83_moved_time_refuted`).  Its `get_basis()` has no Gram matrices left: every norm computed with it reads out of bounds (`C83_basis_gram_refuted`).  `std::move(a) + std::move(b)` uses up only `a`.

**Threads** (C33, C84, C85)
* An expression that contains a spline cannot be evaluated by two threads at the same time (`C84_shared_refuted`); copies of it can, each in its own thread.
* Making the copies must itself be left to one thread: the constructors of `FunctionExpression` increment static counters without synchronisation, so two threads that copy or differentiate expressions race even if they share no object (`C84_copies_refuted`).
* `GSpline::derivate` is `const` but fills the mutable array of differentiation matrices of the basis.  Two threads that take a first derivative of the same spline race; the array can be left as `I, D, D`, and every later second derivative of that spline is computed with `D` instead of its square (`C85_first_refuted`).  Taking the highest derivative once before the threads start avoids it (`C85_prepare`).

**Bases defined in Python** (C87)
* `PyBasis::clone` returns a null pointer, so no spline, interpolator or norm can be made with a basis that is defined in Python: the constructors dereference it (`C87_python_refuted`).

**Error report** (C88)
* `last_error` and `last_relative_error` keep their old values when an operand is below the tolerance or the shapes differ (`C88_stale_refuted`).  After `==` of splines they describe the interval lengths or the parameters of the basis, not the coefficients (`C88_equal_refuted`).
* Two threads that add, subtract or compare splines race on these globals, even if they share no spline (`C88_threads_refuted`, `C88_sums_store`).  The report can hold the error of one comparison and the relative error of another (`C88_mixed_refuted`).

**Domains of factors** (C53)
* Products of collocation splines compare the domains with the member function `same_domain`, which is relative to the size of the ends; sums and products of expressions use the static function of the same name, which is absolute (`C53_domains_case`).

**Conversions to collocation splines** (C89)
* `GaussLobattoLagrangeSpline` can be made from any `GSpline`.  With a Legendre basis it evaluates like the source, but `value_at` and the products treat the coefficients as values at the nodes (`C89_nodes_refuted`, `C89_product_refuted`), and assigning a function to it leaves all coefficients indeterminate (`C89_function_refuted`).

**Intervals of different lengths** (C91)
* `get_domain_discretization` spaces the intervals evenly whatever their lengths are, so for different lengths it does not return the nodes (`C91_nodes`, `C91_values_refuted`).  `operator*` compares the ends of the domains and the sizes, not the lengths (`C91_product_refuted`).

**Updates of figures** (C92)
* `VerticalLines.update` takes the range of all lines of its axis, its own included, so after a second update the vertical lines still span the range of the first curve (`C92_range_refuted`); lines for which there is no breakpoint any more stay (`C92_stale_refuted`).

**Path integral** (C90)
* `collocation::integral(diffeo, path)` does not multiply by the derivative of `diffeo`, so the value depends on the parametrisation (`C90_reparametrisation_refuted`).

Seen while reading and not modelled: the 3-argument overload of `set_from_array` calls a signature that does not exist;
`best_approximation` is declared and not defined.

## 3. Plan per property

| id | modelled | proof |
|----|----------|-------|
| C01 | expression objects (type tag, domain, codomain, operand list), all +,*,compose,concat overloads, in-place += and *= (also of an object with itself), operation handlers, batch evaluators | structural induction on trees and operand lists: batch row i = denotation at point i |
| C02 | unary minus, negative evaluator | evaluation lemma for single operand; refutation by computation |
| C03 | binary minus overloads | from C01 and C02 |
| C04 | derivative builders of every node and elemental function, their intervals | induction over tree and order; `is_derive` product and chain rules over lists; invariant that every part reports the interval of its operands |
| C05 | all overloads | equality of resulting objects; refutations |
| C06 | throw predicates | case analysis, iff |
| C07 | concatenation evaluator | induction on the piece list |
| C08 | Horner loop, derivative coefficients | loop invariant, `Derive_n` |
| C09 | dot product value and derivative | product rule under finite sums |
| C10 | approx_equal on numbers and matrices | real arithmetic; any shape |
| C11 | Legendre recurrence loop | loop invariant; Legendre identities by strong induction, orthogonality through the ODE and `RInt` |
| C12 | derivative loop nest | two-level loop invariant against `Derive_n` |
| C13 | recurrence filling of D, powers | entry formula by induction; derivative of Legendre series |
| C14 | Gram construction | k=0 proof from C11; refutation by computation |
| C15 | tau powers | `is_derive` of power functions |
| C16 | barycentric evaluation with snapping | Lagrange interpolation algebra (products over lists) |
| C17 | order-m matrix recursion | recursion of Lagrange derivative polynomials |
| C18 | change_interpolation_points | loop invariant; refutation |
| C19 | basis0101 value/derivative routines | `auto_derive`, induction on order |
| C20 | derivative matrix of basis0101 | computation and `is_derive`; refutation |
| C21 | Gram blocks | each entry is an antiderivative difference: `is_RInt` by `is_derive` in tau, refutation for order 2 |
| C22 | cache as list of matrices | invariant over request histories |
| C23 | cached map + buffer as a heap cell | invariant over histories; aliasing counterexample |
| C24 | matrix assembly | row/column index lemmas, sum splitting |
| C25 | value_impl, get_interval, segment arithmetic | any `Num`; loop invariants, `nia` on indices |
| C26 | same at R | partial sums of positive lengths |
| C27 | deriv_impl | C13/C17 and chain rule of the window map |
| C28 | linear_scaling | case analysis of intervals; basis0101 parameter identity |
| C29 | max velocity/acceleration scaling | sup over sample list; refutations |
| C30 | spline operators, all overloads | linearity of sums; refutation |
| C31 | constructors, copy | iff; refutation |
| C32 | random_gspline with draws as input | computation; refutation |
| C33 | two threads as interleaved micro-steps on the shared buffer | trace exhibiting race; atomic interleavings by induction |
| C34 | assembly of A and b, interpolate | A c = b implies conditions, via row lemmas for all sizes |
| C35 | same | row layout partition |
| C36 | derivative assembly | entrywise `is_derive` |
| C37 | solver outcome as argument, object state | state machine; refutation |
| C38 | points and weights | any `Num` loop invariants |
| C39 | q_and_evaluation at R | Legendre identities |
| C40 | composite grids | algebra; refutation |
| C41 | approximate, constructor | index lemmas; refutation |
| C42 | assignment | equality; refutation |
| C43 | functionals | index lemmas; refutations; a second update replaces the first |
| C44 | SobolevDistance | quadratic form derivative; the shared matrix is that of the last call |
| C45 | inner_prod | list induction; refutation |
| C46 | integral | loop invariant; exactness of the quadrature; error bounds with the computed nodes |
| C47 | option tables | list induction |
| C48 | variable set, constraint | sums |
| C49 | dictionary functions, get_basis | case analysis |
| C50 | Lagrange Gram matrix with the uninitialised buffer of its constructor | computation: which cells are never written; dependence on the garbage |
| C51 | gspline_derivative_matrix applied to coefficients | C13/C17 and block diagonal sums |
| C52 | interpolation system as a linear map | energy argument: homogeneous solution has zero highest derivative; rank |
| C53 | every operator of the collocation spline | index lemmas on blocks; any `Num` |
| C54 | inner products and norms through expressions and quadrature | C01/C04/C46; Cauchy-Schwarz for weighted sums |
| C55 | the six path functions around the optimiser session | C34/C28/C48; refutations by concrete energies |
| C56 | the Newton iteration from the library's guesses | Sturm comparison locating the Lobatto nodes, contraction in the angle variable, finite step count |
| C57 | ContinuityError, variable set, CostWrapper, ConstraintWrapper | representation of the problem object kept over every session; quadratic form is convex, first order conditions suffice |
| C58 | Basis ==, same_vector_space, spline == | C10 lifted; refutations with explicit splines |
| C59 | Horner loop at binary64 | error invariant of the loop: relative (1+u)^2 per step plus underflow units |
| C60 | Legendre recurrence at binary64 | perturbed recurrence; a quadratic form conserved by the exact recurrence bounds the growth |
| C61 | get_interval and breakpoints at binary64 | both loops take the same partial sums; monotonicity of rounding |
| C62 | value of a Legendre spline at binary64 | C60 and C61, error of the dot product for every order of summation; refutation by computation |
| C63 | expressions of LinearFunctional objects, set, differential, Integral on another grid | induction over expressions against a linear map given by sums |
| C64 | barycentric weights, eval_on_window, value of a Lagrange spline at binary64 | relative errors closed under products and quotients; the quotient of sums is stable up to the Lebesgue function |
| C65 | mutating operations of a collocation spline as sequences of changes, and exceptions between them | simulation of the functional model; loop invariants up to the throwing iteration; refutations |
| C66 | evaluation of any function expression at binary64, exp, cos, sin with an accuracy given as hypothesis | ball arithmetic; one simulation proof for two arithmetics, binary64 within the balls and reals at the centres; counted roundings times the expression of absolute values |
| C67 | eval_derivative_on_window and eval_derivative_wrt_tau_on_window of the Legendre basis at binary64 | the recursion of errors is a forced Legendre recursion, stable by its quadratic form; Markov bound of derivatives |
| C68 | assembly of the interpolation system at binary64, any solver | the fill functions proved for any arithmetic; every stored entry is an entry of C67; row by row comparison with the residual of a condition |
| C69 | interpolate, then evaluation at the reported breakpoints, at binary64 | C68, C61, C62; Markov bound of the slope between the time at which a piece is evaluated and the breakpoint |
| C70 | Python objects (BindModel.v): class table of bindings.cpp, overload selection along the method resolution order, operators, deriv, call, domain, comparison | structural induction over `pymeans`; C01-C09 on the C++ side; case analysis of the class table |
| C71 | plotting functions (PlotModel.v): matplotlib axes as lists of lines, vertical lines, points and limits; subplots with squeezing; numpy arange | loop invariant over rows and columns; C25-C26 for the spline objects |
| C72 | linear_scaling_new_execution_time at binary64, then evaluation | relative error of quotient, difference and product; C61, C62 on the scaled object, exact change of time |
| C73 | derivate(k) of a Legendre spline at binary64: derivative matrix, its powers, coefficients, values | induction over rows with relative errors (exact zeros stay exact); products of nonnegative matrices keep relative errors; C62 on the derivative |
| C74 | values and derivatives of the exponential-trigonometric basis, and values of its splines, at binary64 | relative error of the factor k from an accurate fourth root; mean value bound for exp, cos, sin of a perturbed argument; induction over the order for derivatives; dot product of C62 |
| C75 | collocation derivative operator after any construction and sequence of updates; the zero spline | invariant: the basis caches are those left by some list of requests; C23 and C51 for the matrix |
| C76 | function classes written in Python as leaves of expressions (`FPy`): deriv_impl without the order | C04's induction with a predicate that says where such leaves may occur; computation for the counterexamples |
| C77 | nothing new: the interpolant of C34 against all competitors | integration by parts on every piece; the boundary terms telescope, the pieces solve the Euler equation of the cost; continuity for uniqueness |
| C78 | the model of C38 and C39 at binary64 (`gl_points_weights`, unchanged) | forward error of the three-term recurrence; Newton's method with a perturbed step contracts to the rounding level from the starting values of C56; the stopping test may hold at any step or never; slope of P_N at its extrema for the weights |
| C79 | the model of C46 and C40 at binary64 (`integral`, `gl_grid_points`, `gl_grid_weights`, unchanged) | interval length, left ends and evaluation points with first-order error bounds; products and sums over points and intervals by the running-sum bound of C61; perturbation of the exact rule by C78 |
| C80 | the model of C34 (`ip_interpolate`, `gs_value`, unchanged), at the reals and at binary64 | linearity, components and stability from the linear forms of the conditions and their nonsingular matrix (C52); constants, reversal and fewer waypoints from the least cost (C77), which needs no symmetry of the basis; dilation from the scaling lemma of C48; binary64 from C68 and stability.  K is not given explicitly |
| C81 | heap of nodes, unique_ptr lists, clone / move_clone / algorithm std::move, every operator as the sequence of reads and moves of its source text, same variable named twice | counting argument: pointers in hand plus owners = allocated addresses, per operation; simulation of the value operators of FunModel, by a reading function monotone in heap and fuel; substitution to the trees of C01 |
| C82 | programs over interpolators and the vectors they return: references with the size at creation, buffers that are rewritten or reallocated, Eigen's product into a buffer it also reads | simulation of a machine with copies under a rule on the program text; sizes are invariant; an accumulation that starts from its own zeroed input stays zero |
| C83 | programs over spline variables; what copy and move constructors of splines and bases take from their source and leave in it; parameters_float_ of the basis kept apart from the basis functions | simulation of programs over piecewise functions, statement by statement; what an emptied object does is computed |
| C84 | evaluation and copying as programs over shared memory (spline buffers, counter of constructor calls), interleaved by an arbitrary scheduler | alone, the programs compute `eval`; they stay inside the buffers of their variable; threads with disjoint locations cannot influence each other (invariant over steps); paths from variables are different heap nodes by C81 |
| C85 | value, derivate and copy of a spline as programs over its two mutable members (scratch vector, array of differentiation matrices), interleaved by an arbitrary scheduler | as C84, with reads and writes of a thread kept apart; a prepared array is only read; the bad schedule is constructed for any basis |
| C86 | the models of C66 (`eval`) and C79 (`integral`) at binary64, unchanged | slopes by the rules of differentiation with absolute values (`rates`), proved over the reals by induction on the expression at two points at once; the rounding error of one value from C66; both feed C79; the exact integral exists because the values are Lipschitz; for `l2_inner_product` and `l2_norm` the text the code builds (a zero constant plus 1 times the dot product of the derivatives of degree 0) evaluates as `product_text` does (`same`), so the bounds are read off `product_text`; `exact_rows` asks that the expression has exact values (over the reals) at all arguments up to the magnitude |
| C87 | bases as a sum of library bases and Python instances (methods optional), owned pointers that may be null, constructors in the order of their initialiser lists, Python programs over bases and splines | kinds of the variables read off the program text; invariant by induction over statements; on library bases the constructors equal those of GSplineModel, InterpModel, SobolevModel |
| C88 | the comparisons with the stores to the two globals in order, spline operations that call them, threads as lists of stores | answers equal those of ToolsModel and GSplineModel; stores come in pairs, so two storing threads race at once; values over the reals |
| C89 | the conversions from GSpline and the inherited constructors, with the spline, basis and collocation models unchanged | a conversion changes nothing but who owns the members; refutations by solving for the coefficients of a spline of dimension 2 |
| C90 | dot, compose and integral of the expression and integral models, composed | denotation of the composed expression, then the quadrature of C46 and its error bound |
| C91 | the collocation model unchanged | ends of each interval of the grid against ends of the interval; counterexamples with two nodes on three intervals |
| C92 | lines of one axis as a state that updates change, loop over the axes up to the first exception | invariant over programs: the first vertical line spans all values recorded so far, the others at most that |

## 4. Trusted base

1. **Coq 8.16.1**: its kernel and `coqc`.  No kernel check is switched off, there is no plugin, no own axiom, no `Admitted`.
2. **Axioms.**  `theories/Assumptions.v` runs `Print Assumptions` on every theorem of `MANIFEST.json` during the build.  What is listed there is a subset of
   * `ClassicalDedekindReals.sig_forall_dec`, `ClassicalDedekindReals.sig_not_dec`, `FunctionalExtensionality.functional_extensionality_dep` (standard library: the real numbers),
   * `Classical_Prop.classic` (standard library, through `Reals` and Coquelicot).
   Coquelicot and Flocq themselves add no axiom.  Theorems for any arithmetic are mostly closed under the global context.
3. **The transcription.**  Nothing connects the Gallina functions to the compiled C++ except reading; every definition cites file and lines so that it can be compared.
4. **The meaning given to the language and to libraries** (`Num.v`, `Outcome.v`, `LinAlg.v`):
   * `double` is an arbitrary `Num` in theorems "for any arithmetic", the reals in all others, except in C59-C62, C64, C66-C69, C72-C74, C78, C79, C86, where it is IEEE binary64.  Rounding, overflow, NaN are covered by the first and the last only.
     In particular C56 is about exact Newton iterations; C78 about rounded ones, for up to 1001 points.  C78 assumes a cosine within 1e-9 and a constant M_PI within 4 * 2^-53 (`C78_nearest` shows that correctly rounded ones satisfy both); it says nothing about when the loop stops.
     C79 takes the accuracy of the integrand (`near_on`) as a hypothesis (C86 proves it for expressions whose text fits, `fits`, at the magnitude of the interval) and excludes overflow and underflow by bounds on the interval (2^-400 to 2^400) and on the integrand (2^-500 to 2^400); the order in which Eigen adds the products of one part is taken from first to last.
   * `std::pow` with an integer exponent is the repeated product (`npown`).  Over the reals this is the same; in C73 (binary64) a library `pow` that is correct to one unit in the last place has a smaller error than the one proved for the product, and likewise the square in the weights of C78.  Matrix products in `derivate` are summed in index order there.
   * Binary64 is Flocq's `binary_float 53 1024`: round to nearest even, gradual underflow, signed zeros, one NaN without payload.  CMakeLists.txt 6 (`-O3 -DNDEBUG -funroll-loops -mfpmath=sse`, no `-ffast-math`, no `-march`) leaves the compiler no contraction to fused multiply-adds on x86-64.  The model sums from left to right, where Eigen may vectorise; `C62_any_order` covers every order, grouping and fusion of the scalar product of a value.  What exp, cos, sin, pow return is an argument.
   * `std::size_t`, `unsigned`, `int`, `long` are naturals; `x - 1` at 0 is singled out where the code can reach it (`usub1`, or the note at the definition).  Sizes beyond 2^32/2^64 are not modelled.
   * Eigen: sizes are checked as its assertions do, a mismatch is `UB`; products are sums from the left; sparse matrices are their stored values, absent entries count as 0; `maxCoeff` is a fold of `max`; lazy evaluation and aliasing are resolved as written at the definitions.
   * Unqualified `abs` in FunctionBase.cpp 29-31 and FunctionsConcat.cpp 14 is taken to be the overload for `double` (which headers make visible depends on the platform; with the C function for `int` differences below 1 would count as 0).
   * Moved-from objects are not inspected afterwards, except where a theorem is about them (C81, C83).  Moved-from standard and Eigen vectors are empty, as libstdc++ and Eigen leave them.
   * Objects are values; sharing is modelled where it matters (C23, C33, C44, C81-C85).  Interleavings are sequentially consistent; C++ promises that for programs without data races.  Allocation never fails.
5. **External code as arguments**: Eigen's SparseLU (`lu`; theorems about interpolation assume an exact solver where they say so), IPOPT/ifopt (an arbitrary session), the random generator (its draws), uninitialised memory (`fresh`).

### What is modelled

| source | model | not modelled |
|--------|-------|--------------|
| src/Functions/*.cpp, include/gsplines/Functions | FunModel (values), HeapModel (who owns which node, copies, moves and null pointers) | print functions, names, `PiecewiseFunction.hpp` (declarations only) |
| src/Basis/Basis.cpp, Basis.hpp | BasisModel, SerialModel (get_basis) | copying of the caches is copying of values |
| src/Basis/BasisLegendre.cpp | LegendreModel | `get` (a make_shared of the constructor) |
| src/Basis/BasisLagrange.cpp | LagrangeModel | `get` (a make_shared of the constructor) |
| src/Basis/Basis0101.cpp | Basis0101Model | |
| src/GSpline.cpp, GSpline.hpp | GSplineModel, MoveModel | print functions |
| src/Interpolator.cpp | InterpModel (values), RefModel (returned references) | print functions |
| src/Tools.cpp | ToolsModel, ReportModel | |
| src/FunctionalAnalysis/Sobolev.cpp, Integral.cpp | SobolevModel, IntegralModel | |
| src/Collocation/GaussLobattoPointsWeights.cpp | GLModel | |
| src/Collocation/GaussLobattoLagrange.cpp | GLLModel, ExnModel, ConvModel, PathIntModel | |
| src/Collocation/GaussLobattoLagrangeFunctionals.{hpp,cpp} | GLFModel, GLOModel, LFModel | |
| `double` | Num (any), R, IEEEModel (binary64) | |
| src/Optimization/*.cpp | OptModel, OptionsModel | |
| python/gsplines/serialization.py, bindings it uses | SerialModel | see next rows |
| bindings of bases | PyBasisModel | the private virtual functions of a Python basis (Gram and differentiation matrices): no C++ object can own such a basis; basis comparison |
| bindings of functions, expressions and splines | BindModel | trampolines of GSplineBase (pyfunctions.hpp), ownership of Python objects, optimisation and collocation bindings, examples |
| python/gsplines/plot (plot_derivatives_in_axes, plot, plot_compare with its legends, plot2d, plot2d_compare) | PlotModel, UpdateModel (repeated updates) | colours, styles, titles, label texts; numbers are reals |

## 5. Mutation testing

`seeded/LOG.jsonl` has one line per wrong program tried: a definition of the model is edited in a scratch copy, everything that depends on it is rebuilt, and the theorems whose proofs no longer go through are recorded.
A theorem counts as failed when its own proof or the proof of a lemma it uses breaks, so the list is an upper bound of the theorems that are false for the wrong program.
Where an edit went unnoticed, a theorem was added or tightened (last field).
