{"id": "C01", "title": "Run-time simplify() never changes a real value", "statement": "Whenever a run-time expression e has a well-defined real value r at a point v, simplify(e) evaluates at v without exception and to the same r.", "quantifier": "every run-time expression tree (constants, variables, all unary and binary operations, arbitrary nesting) and every point", "why_tests_cant": "the rewrite rules (0+x, 0-x, x-0, 0*x, 1*x, 0/x, x/1, constant folding, dot product expansion) fire in unboundedly many combinations; tests only sample a few", "anchors": ["viennamath/manipulation/simplify.hpp:simplify", "viennamath/manipulation/simplify.hpp:inplace_simplify", "viennamath/manipulation/detail/binary_operations.hpp:simplify_impl", "viennamath/runtime/binary_expr.hpp:simplify", "viennamath/runtime/unary_expr.hpp:simplify"]}
{"id": "C02", "title": "Run-time simplify() is safe in IEEE double arithmetic", "statement": "With IEEE-754 binary64 arithmetic, if every intermediate result of evaluating e at v is finite, then simplify(e) evaluates at v to the same double, up to the sign of a zero.", "quantifier": "every run-time expression and every vector of doubles for which no intermediate result overflows, is NaN or infinite", "why_tests_cant": "double rounding/sign-of-zero effects occur only for particular operand combinations out of 2^64 per operand", "anchors": ["viennamath/manipulation/simplify.hpp:simplify", "viennamath/manipulation/detail/binary_operations.hpp:simplify_impl", "viennamath/compiletime/binary_op_tags.hpp"]}
{"id": "C03", "title": "inplace_simplify() always terminates", "statement": "The loop 'while can_simplify() e = simplify()' of inplace_simplify terminates after finitely many iterations for every expression and every numeric type, whatever ==, +, * return (NaN included).", "quantifier": "every run-time expression over every numeric type", "why_tests_cant": "non-termination for some rare tree shape cannot be excluded by running examples", "anchors": ["viennamath/manipulation/simplify.hpp:inplace_simplify", "viennamath/manipulation/detail/binary_operations.hpp:can_simplify_impl", "viennamath/runtime/binary_expr.hpp:can_simplify", "viennamath/runtime/unary_expr.hpp:can_simplify"]}
{"id": "C04", "title": "simplify() result is final", "statement": "After simplify(e) the result reports can_simplify() == false, and applying simplify() again returns a structurally identical expression.", "quantifier": "every run-time expression on which simplify succeeds", "why_tests_cant": "quantifies over all results of an unbounded loop", "anchors": ["viennamath/manipulation/simplify.hpp:simplify", "viennamath/manipulation/detail/binary_operations.hpp:can_simplify_impl"]}
{"id": "C05", "title": "simplify() introduces no new dependencies", "statement": "Every variable, function symbol and formal operator (grad, div, partial derivative, integral) occurring in simplify(e) already occurs in e; hence simplify(e) can be evaluated wherever e can.", "quantifier": "every run-time expression", "why_tests_cant": "must hold for every tree, not just sampled ones", "anchors": ["viennamath/manipulation/simplify.hpp:simplify", "viennamath/manipulation/detail/binary_operations.hpp:simplify_impl"]}
{"id": "C06", "title": "diff() computes the partial derivative", "statement": "If e is built from constants, variables, + - * /, id, exp, sin, cos, tan, sqrt, log, log10 and is regular at v (no zero denominator, positive log/sqrt arguments, nonzero cos under tan), then diff(e, x_i) is defined at v and its value is the partial derivative of t -> e(v with v_i := t) at v_i.", "quantifier": "every such expression, every variable index, every regular point", "why_tests_cant": "a derivative is a limit over all real neighbourhoods of all points; no finite test can decide it", "anchors": ["viennamath/manipulation/diff.hpp:diff", "viennamath/manipulation/detail/binary_operations.hpp:diff_impl", "viennamath/manipulation/detail/unary_operations.hpp:diff_impl", "viennamath/runtime/variable.hpp:diff", "viennamath/runtime/constant.hpp:diff"]}
{"id": "C07", "title": "diff() with respect to an absent variable is zero", "statement": "If variable x_i does not occur in e then diff(e, x_i), where it is defined, evaluates to 0 at every point at which e is regular.", "quantifier": "every differentiable expression, variable and regular point", "why_tests_cant": "universally quantified over trees and points", "anchors": ["viennamath/manipulation/diff.hpp:diff", "viennamath/manipulation/detail/binary_operations.hpp:diff_impl", "viennamath/manipulation/detail/unary_operations.hpp:diff_impl"]}
{"id": "C08", "title": "diff() fails exactly on non-differentiable constructs", "statement": "diff(e, x_i) throws if and only if e contains fabs, grad, div, a formal partial derivative, an integral, or a function symbol at a position differentiation reaches, or a binary node without binary operation; otherwise it returns an expression. The exception is expression_not_differentiable except for the malformed binary node.", "quantifier": "every run-time expression and variable", "why_tests_cant": "the absence of exceptions must be shown for every tree in the fragment", "anchors": ["viennamath/manipulation/diff.hpp:diff", "viennamath/manipulation/detail/unary_operations.hpp:diff_impl", "viennamath/runtime/function_symbol.hpp:diff", "viennamath/runtime/op_interface.hpp"]}
{"id": "C09", "title": "Gateaux derivative with respect to a function symbol", "statement": "diff(e, u) for a function symbol u is the derivative of e with respect to the value substituted for u: the real function c -> eval(substitute(u, c, e), v) has derivative eval(substitute(u, c, diff(e, u)), v) at every regular point.", "quantifier": "every differentiable expression over variables and function symbols, every point and value", "why_tests_cant": "limit statement over all points and trees", "anchors": ["viennamath/manipulation/diff.hpp:diff", "viennamath/runtime/function_symbol.hpp:diff", "viennamath/manipulation/substitute.hpp:substitute"]}
{"id": "C10", "title": "Mixed second derivatives commute", "statement": "diff(diff(e,x),y) and diff(diff(e,y),x) have equal values at every regular point.", "quantifier": "every differentiable expression, pair of variables and regular point", "why_tests_cant": "the two expressions are syntactically different and of unbounded size", "anchors": ["viennamath/manipulation/diff.hpp:diff", "viennamath/manipulation/detail/binary_operations.hpp:diff_impl", "viennamath/manipulation/detail/unary_operations.hpp:diff_impl"]}
{"id": "C11", "title": "Substitution lemma", "statement": "eval(substitute(x_i, r, e), v) equals eval(e, v') where v' is v with entry i replaced by eval(r, v), whenever these are defined.", "quantifier": "every expression e, replacement r, variable and point", "why_tests_cant": "universally quantified over pairs of trees", "anchors": ["viennamath/manipulation/substitute.hpp:substitute", "viennamath/runtime/binary_expr.hpp:substitute", "viennamath/runtime/unary_expr.hpp:substitute", "viennamath/runtime/variable.hpp:substitute"]}
{"id": "C12", "title": "Simultaneous substitution", "statement": "Vector substitution substitute({x_i1,...},{r_1,...},e) replaces all occurrences simultaneously (first match wins; replacements are not searched again), so for instance exchanging two variables works.", "quantifier": "every expression, every search/replacement list of variables of equal length", "why_tests_cant": "arbitrary lists and trees", "anchors": ["viennamath/manipulation/substitute.hpp:substitute", "viennamath/runtime/binary_expr.hpp:substitute"]}
{"id": "C13", "title": "Substituting something that does not occur is the identity", "statement": "If no subexpression of e is deep_equal to the search expression, the substitution step returns a structurally identical copy of e.", "quantifier": "every expression, search expression and replacement", "why_tests_cant": "universally quantified over trees", "anchors": ["viennamath/runtime/binary_expr.hpp:substitute", "viennamath/runtime/unary_expr.hpp:substitute", "viennamath/runtime/vector_expr.hpp:substitute", "viennamath/runtime/constant.hpp:substitute"]}
{"id": "C14", "title": "Substituting constants for all variables equals evaluation", "statement": "If every variable of e is replaced by a constant then unwrap() of the result yields exactly (bit for bit, also for doubles, before simplification) the value of eval at the corresponding vector.", "quantifier": "every evaluable expression and every vector covering its variables", "why_tests_cant": "arbitrary trees", "anchors": ["viennamath/runtime/binary_expr.hpp:unwrap", "viennamath/runtime/unary_expr.hpp:unwrap", "viennamath/manipulation/substitute.hpp:substitute", "viennamath/manipulation/eval.hpp:eval"]}
{"id": "C15", "title": "Scalar evaluation is evaluation at a one-entry vector", "statement": "e(t) for a scalar t and e({t}) for the vector with the single entry t have the same outcome, including the exception thrown and the index/size it reports.", "quantifier": "every run-time expression and scalar", "why_tests_cant": "two separately written recursive code paths must agree on every tree", "anchors": ["viennamath/runtime/variable.hpp:eval", "viennamath/runtime/binary_expr.hpp:eval", "viennamath/runtime/unary_expr.hpp:eval"]}
{"id": "C16", "title": "eval() succeeds exactly on evaluable expressions", "statement": "eval(e, v) returns a number iff every variable occurring in e has index < v.size() and e contains no function symbol, vector, formal operator or malformed binary node; in every other case an exception is thrown, never undefined behaviour, and whether it succeeds (and the value) does not depend on the order in which operands are evaluated.", "quantifier": "every expression, vector and operand evaluation order", "why_tests_cant": "C++ leaves operand order unspecified; all schedules and trees are covered", "anchors": ["viennamath/runtime/binary_expr.hpp:eval", "viennamath/runtime/unary_expr.hpp:eval", "viennamath/runtime/variable.hpp:eval", "viennamath/runtime/function_symbol.hpp:eval", "viennamath/runtime/vector_expr.hpp:eval"]}
{"id": "C17", "title": "eval() depends only on the variables that occur", "statement": "If two vectors agree on the indices of the variables occurring in e then eval gives the same result; in particular appending entries to the vector does not change a successful result.", "quantifier": "every expression and pair of vectors", "why_tests_cant": "infinitely many vectors", "anchors": ["viennamath/runtime/binary_expr.hpp:eval", "viennamath/runtime/unary_expr.hpp:eval", "viennamath/runtime/variable.hpp:eval"]}
{"id": "C18", "title": "is_constant() expressions can be unwrapped and are independent of the point", "statement": "If is_constant() holds for an expression built by the library operators, unwrap() succeeds, eval succeeds at every vector and scalar, and all give the same number.", "quantifier": "every expression reporting is_constant and every point", "why_tests_cant": "all trees and points", "anchors": ["viennamath/runtime/binary_expr.hpp:is_constant", "viennamath/runtime/constant.hpp:is_constant", "viennamath/runtime/binary_expr.hpp:unwrap"]}
{"id": "C19", "title": "unwrap() agrees with eval()", "statement": "Whenever unwrap() returns a number, eval at any vector returns the same number.", "quantifier": "every expression and vector", "why_tests_cant": "all trees and points", "anchors": ["viennamath/runtime/binary_expr.hpp:unwrap", "viennamath/runtime/unary_expr.hpp:unwrap", "viennamath/runtime/constant.hpp:unwrap"]}
{"id": "C20", "title": "deep_equal() is an equivalence on plain expressions", "statement": "On expressions free of NaN constants, vectors and integrals, deep_equal is reflexive, symmetric and transitive, and coincides with structural identity up to numeric equality of constants.", "quantifier": "all pairs/triples of such expressions", "why_tests_cant": "relations over infinitely many trees", "anchors": ["viennamath/runtime/binary_expr.hpp:deep_equal", "viennamath/runtime/unary_expr.hpp:deep_equal", "viennamath/runtime/constant.hpp:deep_equal", "viennamath/runtime/variable.hpp:deep_equal", "viennamath/runtime/unary_operators.hpp:equal"]}
{"id": "C21", "title": "deep_equal() expressions are interchangeable", "statement": "If two real-valued expressions without integrals are deep_equal, then they evaluate to the same result everywhere, have the same variables, and differentiating them gives deep_equal results.", "quantifier": "all pairs of deep_equal expressions and all points", "why_tests_cant": "observational equivalence over all points", "anchors": ["viennamath/runtime/binary_expr.hpp:deep_equal", "viennamath/runtime/unary_expr.hpp:deep_equal"]}
{"id": "C22", "title": "deep_equal() on integrals and vectors is unsound (defect)", "statement": "deep_equal does not distinguish integrals over different intervals, variables or symbolic interval ids; for vectors it is asymmetric (a longer left operand equals any prefix) and reads out of bounds when the right operand is longer.", "quantifier": "existence of such pairs; and for the out-of-bounds read, every pair of vectors where the other is longer and the common prefix is equal", "why_tests_cant": "the failing comparisons are characterised for all vectors, not for one sample", "anchors": ["viennamath/runtime/vector_expr.hpp:deep_equal", "viennamath/runtime/unary_operators.hpp:unary_op_equal", "viennamath/runtime/integral.hpp"]}
{"id": "C23", "title": "Expression handles have value semantics", "statement": "In any sequence of constructions, copies, assignments, derivatives, substitutions (single, simultaneous, and of the interval of symbolic integrals), in-place simplifications and destructions of expr objects, each object always denotes the expression a purely functional store would give it; modifying or destroying one object never affects another.", "quantifier": "every finite history of operations on any number of expr objects", "why_tests_cant": "unbounded histories with aliasing; tests sample a few", "anchors": ["viennamath/runtime/expr.hpp:rt_expr", "viennamath/runtime/expr.hpp:operator=", "viennamath/runtime/binary_expr.hpp:clone", "viennamath/runtime/unary_expr.hpp:clone", "viennamath/runtime/vector_expr.hpp:clone"]}
{"id": "C24", "title": "No leak, double free or dangling pointer in any history", "statement": "In every such history without exceptions and without differentiating a gradient by a function symbol, every heap node is owned by exactly one live object, and after destroying all objects the heap is empty. No node is freed twice or used after being freed; the only undefined behaviour is reading an expr that was default-constructed and never assigned, combining vectors of different or zero size, or substituting with fewer or more replacements than searched expressions. (Defects, proved as such: a derivative that throws leaks the derivatives already computed; the derivative of a gradient by a function symbol always leaks; assigning a binary_expr its own left operand uses freed memory; an expr made from another's get() frees its nodes twice.)", "quantifier": "every finite history of operations on expr objects", "why_tests_cant": "memory safety over all histories", "anchors": ["viennamath/runtime/expr.hpp:rt_expr", "viennamath/runtime/binary_expr.hpp:rt_binary_expr", "viennamath/runtime/unary_expr.hpp:rt_unary_expr", "viennamath/runtime/vector_expr.hpp:rt_vector_expr"]}
{"id": "C25", "title": "Traversal visits every node once in the documented order", "statement": "recursive_traversal with a visitor that always steps in calls the visitor exactly once per node of the scalar expression tree: binary nodes in infix order (left, node, right), unary nodes before their operand; step_into == false prunes exactly the operands of that binary node.", "quantifier": "every expression and every visitor predicate", "why_tests_cant": "order and multiplicity over arbitrary trees", "anchors": ["viennamath/runtime/binary_expr.hpp:recursive_traversal", "viennamath/runtime/unary_expr.hpp:recursive_traversal", "viennamath/runtime/functor_wrapper.hpp:rt_traversal_wrapper"]}
{"id": "C26", "title": "Manipulation replaces exactly the outermost selected nodes", "statement": "recursive_manipulation applies the functor to each outermost node for which modifies() holds and to each remaining leaf, and rebuilds all other nodes unchanged; the default functor yields an identical copy.", "quantifier": "every expression and every functor", "why_tests_cant": "functor is an arbitrary function", "anchors": ["viennamath/runtime/binary_expr.hpp:recursive_manipulation", "viennamath/runtime/unary_expr.hpp:recursive_manipulation", "viennamath/runtime/expression_interface.hpp:recursive_manipulation"]}
{"id": "C27", "title": "Replacing a symbolic integration interval", "statement": "After substitute(symbolic_interval, (interval, variable), e) every outermost symbolic integral of e has become an integral over the given interval and variable with the same integrand and everything else is unchanged; the id of the searched interval is ignored (defect), so symbolic integrals over other intervals are replaced too.", "quantifier": "every expression, symbolic interval, interval and variable", "why_tests_cant": "arbitrary trees", "anchors": ["viennamath/manipulation/substitute.hpp:substitute", "viennamath/manipulation/substitute.hpp:integral_substitution_functor"]}
{"id": "C28", "title": "One-point Gauss quadrature is exact for affine integrands", "statement": "numerical_quadrature with gauss_quad_1 returns the exact integral for every integrand that is affine in the integration variable over every constant interval, and for integrands without the integration variable.", "quantifier": "every integrand expression that denotes an affine function, every interval with constant bounds (also reversed)", "why_tests_cant": "an identity over all reals and all affine integrands", "anchors": ["viennamath/runtime/numerical_quadrature.hpp:rt_gauss_quad_1"]}
{"id": "C29", "title": "Numerical quadrature is additive over + and - and rejects everything else", "statement": "For expressions composed by + and - of integrals and zero constants the quadrature value is the corresponding sum/difference; any other expression makes it throw integration_without_integral; only a symbolic integral leads to undefined behaviour (null dereference, defect).", "quantifier": "every run-time expression", "why_tests_cant": "all trees", "anchors": ["viennamath/runtime/numerical_quadrature.hpp:rt_numerical_quadrature"]}
{"id": "C30", "title": "Vector expression arithmetic is component-wise and v*w is the dot product", "statement": "For vectors of equal positive size, +, -, scaling, diff and substitution act on each entry, and the value of v*w is the sum of the products of the entries; sizes are preserved.", "quantifier": "all vectors of any size and entries, all points", "why_tests_cant": "arbitrary length", "anchors": ["viennamath/runtime/vector_expr.hpp:operator*", "viennamath/runtime/vector_expr.hpp:operator+", "viennamath/runtime/vector_expr.hpp:diff", "viennamath/runtime/vector_expr.hpp:substitute"]}
{"id": "C31", "title": "Textual representation identifies the expression", "statement": "deep_str of two scalar expressions without integrals coincides only if they are the same expression up to constants printing alike.", "quantifier": "all pairs of expressions", "why_tests_cant": "injectivity over infinitely many strings", "anchors": ["viennamath/runtime/binary_expr.hpp:deep_str", "viennamath/runtime/unary_expr.hpp:deep_str", "viennamath/runtime/variable.hpp:deep_str", "viennamath/runtime/constant.hpp:deep_str", "viennamath/runtime/function_symbol.hpp:deep_str"]}
{"id": "C32", "title": "apply_coordinate_system eliminates gradient and divergence of u and v", "statement": "For Cartesian coordinates of dimension 1, 2, 3 and simplified scalar input the result contains no grad(u), grad(v), div(u), div(v) for the unknown and test symbols with id 0, introduces only partial derivatives of those symbols with respect to the given coordinates, writes products of two gradients out as dot products and otherwise leaves the expression unchanged; for every meaningful input the meaning is preserved. An expression in which neither symbol occurs is only simplified, so gradients of expressions and of symbols with other ids, which the manual says are computed, remain and can be evaluated nowhere (defect). For unsimplified input grad(u) can remain (defect).", "quantifier": "every expression and choice of coordinates", "why_tests_cant": "arbitrary trees", "anchors": ["viennamath/manipulation/apply_coordinate_system.hpp:apply_coordinate_system"]}
{"id": "C33", "title": "LaTeX output depends only on the expression and registered customisations; copies lose customisations (defect)", "statement": "The translator is a total function of the expression and the customisation table; copying a translator drops the variable and function-symbol customisations, so the copy may render differently.", "quantifier": "every expression and customisation table", "why_tests_cant": "all trees and tables", "anchors": ["viennamath/manipulation/latex.hpp:rt_latex_translator"]}
{"id": "C34", "title": "LaTeX parenthesisation is faithful", "statement": "Reading the LaTeX output of an expression of + - * / over variables, function symbols and non-negative constants with the usual precedence rules gives an expression with the same value.", "quantifier": "every such expression and point", "why_tests_cant": "unambiguity over all nestings", "anchors": ["viennamath/manipulation/latex.hpp:rt_latex_binary_expr_processor"]}
{"id": "C35", "title": "Compile-time simplify() preserves the value", "statement": "Whenever result_of::simplify<E> compiles and no rational numerator/denominator leaves the range of int, the resulting type denotes the same value as E at every point where E is defined.", "quantifier": "every compile-time expression", "why_tests_cant": "about 50 overlapping template specialisations applied in a loop to arbitrary trees", "anchors": ["viennamath/manipulation/simplify.hpp:result_of::simplify", "viennamath/manipulation/simplify.hpp:result_of::detail::simplify_impl"]}
{"id": "C36", "title": "Compile-time simplify() terminates and is final", "statement": "The recursive instantiation of result_of::simplify is finite for every E, and simplifying the result again yields the same type.", "quantifier": "every compile-time expression", "why_tests_cant": "infinite template recursion cannot be excluded by examples", "anchors": ["viennamath/manipulation/simplify.hpp:result_of::simplify"]}
{"id": "C37", "title": "No silent integer wrap-around under a size bound", "statement": "If the product over all integer constants c in E of 2*max(|c|,1) is below 2^31 then no intermediate numerator, denominator or gcd is narrowed; without the bound values can silently change (defect).", "quantifier": "every compile-time expression satisfying the bound", "why_tests_cant": "overflow conditions over all constants", "anchors": ["viennamath/manipulation/simplify.hpp:simplify_impl", "viennamath/forwards.h:gcd"]}
{"id": "C38", "title": "gcd metafunction", "statement": "gcd<a,b> (not both zero, in range) is a common divisor of a and b of greatest absolute value, and instantiation terminates.", "quantifier": "all pairs of integers", "why_tests_cant": "all integers", "anchors": ["viennamath/forwards.h:gcd"]}
{"id": "C39", "title": "Compile-time to run-time conversion preserves the value", "statement": "Converting a compile-time expression of constants, variables and binary operations to an expr gives a tree of the same shape, which evaluates at every point to the value of the compile-time expression.", "quantifier": "every compile-time expression and point", "why_tests_cant": "eight constructor overloads, arbitrary trees", "anchors": ["viennamath/runtime/binary_expr.hpp:rt_binary_expr", "viennamath/runtime/expr.hpp:rt_expr", "viennamath/compiletime/ct_binary_expr.hpp"]}
{"id": "C40", "title": "Operator-level constant folding preserves the value", "statement": "The special operator overloads (c1+(c2+X), c1-(c2-X), x+x, x-x, x/x, e/e, (A+B)-A, ...) return an expression with the same real value as the plain operation wherever the latter is defined.", "quantifier": "all constants, subexpressions and points", "why_tests_cant": "infinitely many operands", "anchors": ["viennamath/compiletime/operations/ct_constant.hpp", "viennamath/compiletime/operations/ct_variable.hpp", "viennamath/compiletime/operations/ct_expr.hpp", "viennamath/runtime/operations/constant.hpp"]}
{"id": "C41", "title": "Compile-time diff() computes the partial derivative", "statement": "result_of::diff<E, x_i> denotes the partial derivative of E at every point where no denominator vanishes, and agrees in value with differentiating the run-time conversion of E.", "quantifier": "every compile-time expression without unary nodes, every variable and point", "why_tests_cant": "limit statement, all trees", "anchors": ["viennamath/manipulation/diff.hpp:result_of::diff"]}
{"id": "C42", "title": "expand() preserves the value and terminates", "statement": "result_of::expand<E> is a finite instantiation for every E and denotes the same value as E wherever E is defined.", "quantifier": "every compile-time expression and point", "why_tests_cant": "non-structural recursion on types, all trees", "anchors": ["viennamath/manipulation/expand.hpp:result_of::expand"]}
{"id": "C43", "title": "expand() really expands", "statement": "In expand<E> no factor of a product (outside denominators and unary arguments) contains a sum or difference, so coefficient() and the polynomial degree never hit the 'not fully expanded' compile error.", "quantifier": "every compile-time expression", "why_tests_cant": "all trees", "anchors": ["viennamath/manipulation/expand.hpp", "viennamath/manipulation/coefficient.hpp:has_factor"]}
{"id": "C44", "title": "coefficient() and drop_dependent_terms() decompose linear expressions", "statement": "For E at most linear in x (x not in denominators, no product containing x twice), E = x*coefficient(x,E) + drop_dependent_terms(x,E) at every point, and neither part depends on x.", "quantifier": "every such compile-time expression and point", "why_tests_cant": "identity over all points and trees", "anchors": ["viennamath/manipulation/coefficient.hpp:coefficient", "viennamath/manipulation/drop_dependent_terms.hpp"]}
{"id": "C45", "title": "drop_dependent_terms() is evaluation at zero", "statement": "Whenever it compiles, drop_dependent_terms(x, E) denotes E with x replaced by 0 and does not contain x.", "quantifier": "every compile-time expression and point", "why_tests_cant": "all trees", "anchors": ["viennamath/manipulation/drop_dependent_terms.hpp"]}
{"id": "C46", "title": "Compile-time integrate() computes the definite integral of polynomials", "statement": "For a polynomial E in the integration variable whose coefficients do not depend on it, integrate(interval, E, x) equals the definite integral over every interval; nested calls give the iterated integral; for an integrand consisting of a single different variable it is wrong (defect).", "quantifier": "every polynomial expression, interval and parameter values", "why_tests_cant": "integral identity over all polynomials and intervals", "anchors": ["viennamath/manipulation/integrate.hpp:result_of::integrate"]}
{"id": "C47", "title": "pow and polynomial_degree metafunctions", "statement": "pow<T,n> denotes the n-th power of T for every n and terminates; polynomial_degree of a monomial product is the exponent of the variable.", "quantifier": "all n, all product expressions", "why_tests_cant": "all naturals and trees", "anchors": ["viennamath/manipulation/integrate.hpp:pow", "viennamath/manipulation/integrate.hpp:polynomial_degree"]}
{"id": "C48", "title": "Compile-time substitution lemma", "statement": "substitute<x_i, R, E> denotes E evaluated with variable i set to the value of R; exact matches take precedence over recursion.", "quantifier": "every compile-time expression, replacement and point", "why_tests_cant": "all trees", "anchors": ["viennamath/manipulation/substitute.hpp:result_of::substitute"]}
{"id": "C49", "title": "Compile-time eval agrees with run-time eval", "statement": "If result_of::eval<E, V> compiles for a compile-time vector V of integers (no narrowing), its value is the real value of E at V.", "quantifier": "every evaluable compile-time expression and integer vector", "why_tests_cant": "all trees and integers", "anchors": ["viennamath/manipulation/eval.hpp:result_of::eval"]}
{"id": "C50", "title": "Evaluating compile-time variables is bounds checked except through eval()", "statement": "Calling a compile-time expression with a run-time vector throws variable_index_out_of_bounds exactly if some variable index is >= size; the free function eval(ct_variable, v) accesses v[id] unchecked (defect: undefined behaviour iff id >= size).", "quantifier": "every compile-time expression without unary nodes and every vector", "why_tests_cant": "all trees and vectors", "anchors": ["viennamath/compiletime/ct_variable.hpp:operator()", "viennamath/manipulation/eval.hpp:eval"]}
{"id": "C51", "title": "Assigning a constant to a binary_expr makes it unusable (defect)", "statement": "After assigning a number, constant, ct_constant or a compile-time binary expression of two constants to a binary_expr, is_constant() is true but eval, unwrap and simplify throw rhs_provided_for_unary_operation for every value; ordinary binary expressions never do. unary_expr objects built from or assigned constants, variables and numbers stay usable. Assigning any other compile-time expression to a binary_expr gives what constructing from it gives.", "quantifier": "every assigned value; every expression built by operators", "why_tests_cant": "all values and histories of construction", "anchors": ["viennamath/runtime/binary_expr.hpp:operator=", "viennamath/runtime/op_interface.hpp:apply"]}
{"id": "C52", "title": "Simplification preserves the meaning of symbolic expressions", "statement": "simplify() succeeds on every expression that is meaningful as a function (or vector of functions) on some domain and preserves that meaning, whatever function symbols, gradient, divergence, partial derivatives and integrals stand for; exception: 0 times a vector becomes the scalar 0.", "quantifier": "every domain, every interpretation of the symbols, every expression including vectors and integrals", "why_tests_cant": "quantifies over all interpretations of the formal operators", "anchors": ["viennamath/manipulation/simplify.hpp:simplify", "viennamath/manipulation/detail/binary_operations.hpp:simplify_impl"]}
{"id": "C53", "title": "diff() called k times is the k-th derivative", "statement": "If an expression is regular on an open interval of one variable, k successive calls of diff() by that variable succeed for every k and the result evaluates to the k-th derivative on the interval.", "quantifier": "every expression, interval, point and k", "why_tests_cant": "limit statement iterated k times, all k", "anchors": ["viennamath/manipulation/diff.hpp:diff"]}
{"id": "C54", "title": "Chain rule for substitute() and diff()", "statement": "Differentiating e[x_i := r] by x_j gives the value of diff(e,x_j)[x_i := r] + diff(e,x_i)[x_i := r] * diff(r,x_j) (first summand absent if i = j) wherever r is regular and e is regular at the substituted point; all calls succeed.", "quantifier": "every pair of expressions, variables and point", "why_tests_cant": "relates two operations on all trees and points", "anchors": ["viennamath/manipulation/diff.hpp:diff", "viennamath/manipulation/substitute.hpp:substitute"]}
{"id": "C55", "title": "Error bound of Gauss quadrature", "statement": "If the value of diff(diff(f,x),x) is bounded by M between the bounds A and B, the quadrature of the integral of f differs from the Riemann integral by at most M |B-A|^3 / 24.", "quantifier": "every integrand regular between the bounds, all bounds", "why_tests_cant": "statement about the exact integral of arbitrary functions", "anchors": ["viennamath/runtime/numerical_quadrature.hpp:rt_gauss_quad_1"]}
{"id": "C56", "title": "Algebra of substitution", "statement": "Substitutions for different variables commute up to substituting in the replacement; renaming to an absent variable and back is the identity; two successive substitutions equal the simultaneous one if the second variable is absent from the first replacement; substituting an expression without the variable eliminates it and is idempotent.", "quantifier": "all expressions, variables and replacements, every numeric type", "why_tests_cant": "equations between results for all triples of trees", "anchors": ["viennamath/manipulation/substitute.hpp:substitute"]}
{"id": "C57", "title": "Simplification never enlarges an expression", "statement": "simplify() of an expression without vectors has at most as many nodes and at most the height of the original, introduces no vectors, and the loop of inplace_simplify() takes at most four iterations per node and fewer than twice the height (fewer than the height for doubles, which is attained); with vectors the dot product may grow.", "quantifier": "every expression without vectors, every numeric type", "why_tests_cant": "size bound on all trees and on a loop", "anchors": ["viennamath/manipulation/simplify.hpp:simplify", "viennamath/manipulation/simplify.hpp:inplace_simplify"]}
{"id": "C58", "title": "Expressions written with operators and functions have the value written", "statement": "Whatever is written with numbers, compile-time and run-time constants and variables, the operators + - * /, the functions exp, sin, cos, tan, sqrt, fabs, log, log10 and conversions to expr: if it compiles, the resulting object evaluates to the real value of what was written wherever that is defined (no quotient of operands both holding rt_constants).  Run-time expressions compile and hold exactly the tree written, but exp(sin(x)) does not; assignment to an expr stores what initialisation does, except for a ct_variable, which is stored as its index (defect).", "quantifier": "every source expression, point and numeric type", "why_tests_cant": "quantifies over all program texts and all mixtures of operand classes", "anchors": ["viennamath/runtime/operations/rt_rt.hpp:operator+", "viennamath/compiletime/operations/ct_expr.hpp:operator/", "viennamath/runtime/unary_operators.hpp:exp", "viennamath/runtime/expr.hpp:operator="]}
{"id": "C59", "title": "All ways of evaluating an expression agree", "statement": "Calling an expression of any class at a number, rt_constant, ct_constant, std::vector, other vector class or ct_vector gives the value of its tree at the coordinates and throws exactly if that does; eval() is the call; exactly the stated combinations compile.  Exceptions: an rt_variable other than the first called with a double (failed assert), and ct_vector_1/2 keep references (dangling).", "quantifier": "every class of expression, every form of point and content of memory", "why_tests_cant": "all combinations of classes, points and memories", "anchors": ["viennamath/runtime/variable.hpp:operator()", "viennamath/runtime/expr.hpp:operator()", "viennamath/compiletime/ct_vector.hpp:make_vector", "viennamath/manipulation/eval.hpp:eval"]}
{"id": "C60", "title": "Equations, intervals and integrals hold what they were made from", "statement": "If make_equation(a,b) or make_interval(a,b) compiles, the sides have the values of what was written for a and b; two run-time expressions always compile; integral() holds the interval, variable and integrand given.  Exceptions are stated: a ct_variable with a run-time upper bound is ambiguous, a number with an rt_constant or function symbol has no overload; exactly which pairs compile is stated by their classes.", "quantifier": "every pair of source expressions, points, numeric types", "why_tests_cant": "all combinations of argument classes and all expressions", "anchors": ["viennamath/runtime/equation.hpp:make_equation", "viennamath/runtime/interval.hpp:make_interval", "viennamath/compiletime/ct_interval.hpp:make_interval", "viennamath/runtime/integral.hpp:integral"]}
{"id": "C61", "title": "All overloads of diff() agree", "statement": "For numbers, constants, compile-time and run-time expressions, differentiated by a run-time variable, compile-time variable or function symbol: if the call compiles, its result converted to run time and simplified is the simplified derivative of the tree, and it throws exactly if that does.  Exception: a bare function symbol by a variable.  Exactly which calls compile is stated by the classes of the arguments.", "quantifier": "every object and differentiation variable, every numeric type", "why_tests_cant": "all classes of arguments and all trees", "anchors": ["viennamath/manipulation/diff.hpp:diff"]}
{"id": "C62", "title": "All overloads of substitute() agree", "statement": "For run-time expressions every overload that compiles gives the simplified substitution in the tree; compile-time substitution of compile-time expressions agrees with it after conversion.  A number substituted for a compile-time variable is lost (defect), a run-time object is never found in a compile-time expression.  Exactly which substitutions into run-time expressions compile is stated by the classes of the arguments.", "quantifier": "every search, replacement and expression object", "why_tests_cant": "all classes of arguments and all trees", "anchors": ["viennamath/manipulation/substitute.hpp:substitute"]}
{"id": "C63", "title": "Nothing is left to simplify at compile time", "statement": "In the type computed by the compile-time simplify there is, outside unary operations, no sum with 0, no difference minus 0, no product with 0 or 1, no quotient of 0, by 0 or by 1, no negated summand, no inverted factor, and no two numbers are combined except in fractions p/q with p not 0 and q none of 0, 1, -1.  An expression of constants only becomes an integer or such a fraction.", "quantifier": "every compile-time expression that simplifies", "why_tests_cant": "quantifies over all types and all chains of template instantiations", "anchors": ["viennamath/manipulation/simplify.hpp:simplify_impl", "viennamath/manipulation/simplify.hpp:result_of::simplify"]}
{"id": "C64", "title": "The derivative of what was written is returned", "statement": "For an expression written with numbers, constants, variables, operators and functions of any classes: if diff(e, x) compiles, it returns an expression whose value is the derivative by x of the real function written, at every point where that is defined, no fabs is written and no square root of zero is taken.", "quantifier": "every source expression, run-time or compile-time variable and real point", "why_tests_cant": "derivatives over the reals of all program texts", "anchors": ["viennamath/manipulation/diff.hpp:diff", "viennamath/runtime/operations/rt_rt.hpp:operator+"]}
{"id": "C65", "title": "Substitution in what was written evaluates at the substituted point", "statement": "For expressions e and r written with any classes: if substitute(x, r, e) compiles, its value is the real value of what was written for e with the coordinate x replaced by the value of what was written for r.  A variable searched in a compile-time expression must be a compile-time variable with a compile-time replacement.", "quantifier": "every pair of source expressions, every variable and real point", "why_tests_cant": "quantifies over all program texts and points", "anchors": ["viennamath/manipulation/substitute.hpp:substitute"]}
{"id": "C66", "title": "Quadrature of what was written", "statement": "For bounds written with numbers and constants and an integrand written with the integration variable: if make_interval() and integral() compile, the one-point Gauss quadrature returns the value of the integrand at the midpoint times the signed length, and differs from the Riemann integral of the function written by at most M |B-A|^3 / 24 if its second derivative is bounded by M.", "quantifier": "every triple of source expressions, all real bounds and bounds of the second derivative", "why_tests_cant": "an analytical error bound for all integrands", "anchors": ["viennamath/runtime/numerical_quadrature.hpp:operator()", "viennamath/runtime/integral.hpp:integral", "viennamath/runtime/interval.hpp:make_interval"]}
{"id": "C67", "title": "LaTeX translators behave as values and free their processors once", "statement": "A program creates, copies, customizes, uses and destroys latex_translators and gives processors made with new to add_processor(), each once.  No deleted processor is used, the texts printed are those of independent translators, every processor belongs to exactly one translator, and none is left when all translators are destroyed.  Assigning one translator to another, or adding one processor twice, makes their destruction undefined.", "quantifier": "every sequence of these operations on any number of translators and processors, all expressions printed", "why_tests_cant": "all orders of creation, copy and destruction; a double delete need not crash a test", "anchors": ["viennamath/manipulation/latex.hpp:rt_latex_translator", "viennamath/manipulation/latex.hpp:add_processor", "viennamath/manipulation/latex.hpp:process_impl"]}
{"id": "C68", "title": "Rounding error of an evaluation", "statement": "If no subexpression overflows and the libm functions have relative error at most d, the double returned by evaluating e differs from the exact real value of e by at most the bound of the standard rounding error analysis of e, and so does the double returned after simplify(e).  For sums, differences and products of variables and constants with a finite result and without underflow the bound is ((1+2^-53)^k - 1) times the value of e with all terms taken positive, k counting the roundings.  A bound relative to the result does not hold.", "quantifier": "every expression, every point of doubles, every libm and every d", "why_tests_cant": "quantifies over all trees and all doubles; the exact value cannot be computed by a test", "anchors": ["viennamath/compiletime/binary_op_tags.hpp:op_plus", "viennamath/compiletime/unary_op_tags.hpp:op_exp", "viennamath/runtime/binary_expr.hpp:eval"]}
{"id": "C69", "title": "Quadratures behave as values, wrappers are moved, both free what they own once", "statement": "A program creates, copies, assigns, calls and destroys numerical_quadrature objects, or wrappers of manipulation and traversal functors, and gives each rule or functor made with new to one of them.  If no ruleless quadrature is copied and no emptied wrapper called, no deleted object is used, the calls return what they return for values (a copied quadrature is equal to the original, a copied wrapper takes the functor from the original), every heap object has one owner and none is left in the end.  A default-constructed quadrature cannot be copied, so not kept in a container, nor called on an integral; a wrapper copied from cannot be used; a rule given to two objects is deleted twice.", "quantifier": "every sequence of these operations on any number of objects, every rule, functor and expression", "why_tests_cant": "all orders of creation, copy and destruction; undefined behaviour need not show in a test", "anchors": ["viennamath/runtime/numerical_quadrature.hpp:rt_numerical_quadrature", "viennamath/runtime/functor_wrapper.hpp:rt_manipulation_wrapper", "viennamath/runtime/functor_wrapper.hpp:rt_traversal_wrapper"]}
{"id": "C70", "title": "Constants of other scalar types behave as the numbers they convert to", "statement": "In expressions with rt_constant<int>, rt_constant<long> and rt_constant<float>: evaluation, unwrap(), is_constant(), simplification, derivatives by variables and substitution for variables or function symbols give what they give when every constant is written as a double; hence simplification keeps the real value and diff() is the partial derivative.  Constants found deep_equal() convert to equal doubles.  Folding two constants in c1+(c2+x) and the like gives the double that evaluating c1+c2 gives for int, double and long up to 2^52 and for a double with anything, gives the nearest float for a float with an int, long or float, and is undefined exactly when an int or long overflows.  But rt_constant<long>(6) is not deep_equal() to 6.0 and not found by substitution for 6.0, is printed as unknown in LaTeX, and a gradient of it has the derivative grad(0); float and larger long constants are folded to other values.", "quantifier": "every expression with constants of the four types, every point, numeric type and libm", "why_tests_cant": "all trees and all values of the types", "anchors": ["viennamath/runtime/constant.hpp:rt_constant", "viennamath/runtime/operations/constant.hpp:operator+", "viennamath/compiletime/promote_traits.hpp:promote_traits", "viennamath/manipulation/latex.hpp:rt_latex_constant_processor"]}
{"id": "C71", "title": "Error of values, derivatives and integrals computed from inexact data", "statement": "Let the doubles in an expression and a point stand for real numbers they differ from. Whatever bound the rules of error analysis give for these errors and the rounding errors, as long as nothing overflows: eval() returns a double within the bound of the real value meant; diff(e, x) evaluated in doubles is within the bound for the unsimplified derivative of the true partial derivative; and the one-point quadrature in doubles is within the bound for its formula, plus M |b-a|^3/24, of the true integral.  For sums, differences and products over a box nothing overflows if the bounds for value and error are below 2^1000.", "quantifier": "every expression, point, interval, relative accuracy of libm and error of the data", "why_tests_cant": "all trees, points and rounding errors", "anchors": ["viennamath/manipulation/diff.hpp:diff", "viennamath/manipulation/eval.hpp:eval", "viennamath/runtime/numerical_quadrature.hpp:rt_gauss_quad_1"]}
{"id": "C72", "title": "Arithmetic with vector expressions", "statement": "For whatever is written with vector_expr objects (construction by size, entries assigned and read, + - * / among vectors, numbers and scalar expressions): if it compiles and has a meaning as arithmetic of real vectors, no assert is violated and the object evaluates, entry by entry, to that meaning.  v*w adds the products of the entries from left to right; a product or quotient with a scalar acts on every entry, on the side written.  The asserts are equal sizes for + - * of two vectors and, for *, that they are not empty.  What compiles yields a vector of the size written, and its behaviour is undefined exactly if one of these sizes or an index is wrong.  vector/vector and vector+number do not compile; vector+expression compiles but can never be evaluated.", "quantifier": "every program text of these constructs, every real point; order of summation, asserts and overloads for every numeric type", "why_tests_cant": "quantifies over all texts, sizes and entries", "anchors": ["viennamath/runtime/vector_expr.hpp:operator*", "viennamath/runtime/vector_expr.hpp:operator/", "viennamath/runtime/vector_expr.hpp:rt_vector_expr", "viennamath/forwards.h:operator+"]}
{"id": "C73", "title": "The Newton solver of the tutorial", "statement": "For two equations made of the elementary functions: one step of newton_solve solves the linearised system built with the true partial derivatives.  Near a solution a step squares the error, with a constant given by bounds of the derivatives that diff() computes; close enough the solver stops and returns a point within 8L/m 1e-10 of the solution (over the reals); in doubles, if near the solution the errors of a step and of a residual are below eta and eps, small against 1e-10, within 8L/m (1.0001e-10 + eps).  A step in doubles is within the bound of error analysis of the exact step, and the tutorial's system converges in doubles from every guess within 1/100 of (sqrt 2, 1), to within 6.01e-10.  A linear system is solved by one step.  Whatever it returns has a residual not strictly between 1e-10 and 1e10.  But where the Jacobian is singular it stops and returns undefined numbers, and further entries of the guess are lost by the first step.", "quantifier": "every pair of equations, every guess and every number of rounds; bounds r, L, M, m arbitrary", "why_tests_cant": "convergence for all systems and guesses; a test sees one run", "anchors": ["examples/tutorials/newton_solve.cpp:newton_solve_impl", "examples/tutorials/newton_solve.cpp:newton_solve", "viennamath/manipulation/diff.hpp:diff"]}
{"id": "C74", "title": "What simplify() leaves, and putting numbers in for variables", "statement": "The result of simplify() contains (outside vectors and integral bounds) no operation with two constant operands, no addition or subtraction of 0 or from 0, no multiplication by 0 or 1, no division by 1 or of 0 and no product of two vectors; simplify() returns an expression unchanged exactly if it contains none.  substitute() of numbers for all variables of an expression written with + - * / returns one constant, the value there, bit for bit; for one variable, in doubles, it returns an expression without the variable and without such operations that evaluates, as long as all intermediate values are finite, to the same double up to the sign of a zero.  But functions of a number are computed in advance only if something else in the tree can be simplified: exp(x)+x with a number for x keeps the call of exp.", "quantifier": "every expression, number, point, numeric type and libm", "why_tests_cant": "quantifies over all trees and all doubles", "anchors": ["viennamath/manipulation/simplify.hpp:inplace_simplify", "viennamath/manipulation/substitute.hpp:substitute", "viennamath/runtime/unary_expr.hpp:can_simplify", "examples/tutorials/model_benchmark.cpp:main"]}
{"id": "C75", "title": "Classes at run time: callback_if_castable, shallow_equal, shallow_str", "statement": "A functor that tries classes one after the other with callback_if_castable and returns at the first success calls exactly one overload, the one for the class of the node, with that node, if the class is among those tried, and none otherwise; the order of the tests does not matter.  shallow_equal() holds exactly for nodes of the same class (constants of different scalar types are of different classes, all unary operations and integrals of the same); it is an equivalence and implied by deep_equal().  The functor of the traversal tutorial prints one line per node, in infix order, which tells its class.  Equal shallow_str() mean the same kind of node; but contrary to its description the string also contains ids and values of the leaves.", "quantifier": "every list of classes, every expression, every pair and triple of expressions", "why_tests_cant": "all trees and all sequences of tests", "anchors": ["viennamath/runtime/functor_wrapper.hpp:callback_if_castable", "examples/tutorials/traversal.cpp:cout_functor", "viennamath/runtime/expression_interface.hpp:shallow_equal", "viennamath/runtime/expression_interface.hpp:shallow_str"]}
{"id": "C76", "title": "What a caught exception tells", "statement": "eval(), unwrap() and diff() throw exactly if some node on the way has no value or derivative although its operands have; the object thrown is about such a node, its message says which kind (function symbol, vector, variable, formal operator, integral, modulus), and, as the order of evaluation is open, every such node may be the one reported by eval() and unwrap().  If the point has an entry for every variable, what() of every std::exception thrown by eval() can be read and is not empty, as is always that of those thrown by unwrap() and diff(), which throws nothing else; but what() of the exception for a missing entry refers to a destroyed string, and evaluating a formal gradient, divergence or partial derivative throws a string literal, which catch (std::exception const &) does not catch.  Nothing else does.", "quantifier": "every expression, point and order of evaluation", "why_tests_cant": "all trees and all orders of evaluation; a test sees one order and a dangling pointer may happen to look right", "anchors": ["viennamath/exception.hpp:what", "viennamath/compiletime/unary_op_tags.hpp:op_gradient", "viennamath/runtime/function_symbol.hpp:eval", "viennamath/manipulation/detail/unary_operations.hpp:diff_impl"]}
{"id": "C77", "title": "Growth of derivatives and substitutions", "statement": "diff(e, x) has at most 3 * nodes * height nodes and three times the height of e; k calls of diff() give at most 3^(k(k+1)/2) * height^k * nodes nodes.  No bound proportional to the nodes alone holds.  substitute(x, r, e) has, before simplification, exactly the nodes of e plus (nodes of r - 1) for every occurrence of x; simplification makes it no larger; with any searched expressions and several replacements at most nodes of e times nodes of the largest replacement.", "quantifier": "every expression, numeric type, number of derivatives and list of replacements", "why_tests_cant": "bounds over all trees; a test measures one", "anchors": ["viennamath/manipulation/diff.hpp:diff", "viennamath/manipulation/substitute.hpp:substitute", "viennamath/manipulation/simplify.hpp:inplace_simplify", "viennamath/manipulation/detail/binary_operations.hpp:diff_impl"]}
{"id": "C78", "title": "What was streamed can be read from the text", "statement": "operator<< of every class of the library: two objects (compile-time expressions, rt_constants, run-time nodes, rt_exprs; likewise two equations, two intervals, two compile-time vectors) that are streamed as the same text, whatever follows it, are of the same compile-time type with rt_constants that print alike, or are run-time objects holding the same expression; no compile-time object prints like a run-time one.  Every run-time object can be streamed; a compile-time expression exactly if it contains no ct_function_symbol, a ct_equation or ct_interval exactly if in addition it contains no rt_constant, a compile-time vector if its one to three entries can.  The stream operator of ct_function_symbol never compiles.", "quantifier": "every pair of objects, followed by arbitrary text; numbers printed without a closing parenthesis; symbols of the families unknown and test", "why_tests_cant": "injectivity over all pairs of types and trees; every type is a separate instantiation", "anchors": ["viennamath/compiletime/ct_binary_expr.hpp:operator<<", "viennamath/compiletime/ct_unary_expr.hpp:operator<<", "viennamath/compiletime/ct_function_symbol.hpp:operator<<", "viennamath/compiletime/ct_interval.hpp:operator<<", "viennamath/compiletime/ct_vector.hpp:operator<<", "viennamath/runtime/expr.hpp:operator<<"]}
{"id": "C79", "title": "Amount of work", "statement": "Counting every entry into a virtual function of a node: eval() and unwrap() enter each node at most once, exactly once if they succeed; deep_equal() at most min(nodes, nodes) times, once per node if the answer is true; a pass of simplification and the test before it at most 3 * nodes * height times each; simplify() of an expression without vectors at most 12 * nodes * height^2 times; substitute() at most nodes * (1 + nodes of the searched expressions) and nodes * (1 + number of them * height) times, exactly twice per node for a variable; diff() less than 2 * nodes * 2^g times for g nested gradients, once per node without gradients, and the simplification after it 324 * nodes * height^3 times more.  simplify() of x + x + ... + x is quadratic; the derivative of k nested gradients of u by u makes 3 * 2^k - 2 calls, more than any polynomial in the nodes.", "quantifier": "every expression, numeric type, point, list of searched expressions and differentiation variable", "why_tests_cant": "complexity bounds over all trees; a test times one", "anchors": ["viennamath/manipulation/simplify.hpp:inplace_simplify", "viennamath/manipulation/substitute.hpp:substitute", "viennamath/manipulation/diff.hpp:diff", "viennamath/runtime/binary_expr.hpp:can_simplify", "viennamath/manipulation/detail/unary_operations.hpp:diff_impl"]}
{"id": "C80", "title": "Growth of compile-time types", "statement": "result_of::simplify never nests a type from more template-ids than its argument and instantiates simplify_impl at the top at most twice per template-id.  result_of::expand gives a sum of exactly as many terms as multiplying out by hand does; its size is bounded by the argument with sums of sizes replaced by products at the products, at most 2^nodes, and by no polynomial: k factors (x+1) become 2^k terms.  A derivative has at most 3 * nodes * height template-ids and is nested at most three times as deep; substituting a variable adds (size of the replacement - 1) per occurrence; coefficients and drop_dependent_terms are not larger than the expanded type; the k-th power has k copies nested log2(k) deep; an integral at most the expanded integrand times the size of the bounds.", "quantifier": "every compile-time type, replacement, exponent, integration variable and bounds for which the metafunction compiles", "why_tests_cant": "bounds over all types; a test instantiates one, and compilers differ in when they give up", "anchors": ["viennamath/manipulation/simplify.hpp:simplify", "viennamath/manipulation/expand.hpp:expand", "viennamath/manipulation/coefficient.hpp:coefficient", "viennamath/manipulation/integrate.hpp:integrate", "viennamath/manipulation/diff.hpp:diff"]}
{"id": "C81", "title": "Constants in the output", "statement": "The text of a finite double constant (deep_str, operator<<, LaTeX) is the decimal number of at most six significant digits nearest to it, ties going to an even last digit: wrong by at most 5/1000000 of the value, of the same sign, and monotone; integers of at most six digits appear as such, exponents exactly for rounded values below 1/10000 or from 1000000 on.  A constant written with at most six significant digits is printed as written and reads back as the same double, so LaTeX output of such expressions reads back exactly (numbers with exponents; as 1e-07 they are not conventional LaTeX).  Two expressions that print alike are identical up to constants that differ by at most 5/1000000 of the sum of their sizes, but may differ: 1000000 and 1000001 print alike.", "quantifier": "every finite double, every literal of six digits in the normal range, every pair of expressions", "why_tests_cant": "2^64 doubles and all trees over them; a test prints a few round numbers", "anchors": ["viennamath/runtime/constant.hpp:deep_str", "viennamath/manipulation/latex.hpp:rt_latex_constant_processor"]}
{"id": "C82", "title": "Programs compute with real functions", "statement": "A program that declares, initialises, copies, assigns, simplifies, differentiates by variables, substitutes variables in (one or several at a time), evaluates and destroys rt_expr objects shows exactly what the same program shows if every object were a real function of several variables, operators and elementary functions acted pointwise, diff() were the partial derivative, substitute() composition, and simplification nothing: no exception, no undefined behaviour, and exactly the values of the functions (in real arithmetic), whatever the order of evaluation of arguments and whether or not copies are left out; when all objects are destroyed no memory is left.  Where the objects are built from differentiable functions the derivatives exist.  inplace_simplify() can be inserted anywhere without any visible change.", "quantifier": "every program, number of variables and point of the domains", "why_tests_cant": "all programs of any length; a test runs one", "anchors": ["viennamath/runtime/expr.hpp:rt_expr", "viennamath/manipulation/diff.hpp:diff", "viennamath/manipulation/substitute.hpp:substitute", "viennamath/manipulation/simplify.hpp:inplace_simplify", "viennamath/runtime/operations/rt_rt.hpp:operator+"]}
{"id": "C83", "title": "Programs compute with functions on doubles", "statement": "In double arithmetic a program that declares, initialises, copies, assigns, simplifies, substitutes variables in, evaluates and destroys rt_expr objects returns, up to the signs of zeros, the doubles obtained by carrying out the operations as written on functions on doubles, with substitution as composition and simplification as nothing, rounding included, as long as all intermediate results at the points considered are finite; no exception, no undefined behaviour, no memory left.  inplace_simplify() can be inserted anywhere without changing a number, except for signs of zeros, which do change (0 + x at -0).", "quantifier": "every program, libm symmetric at the zeros, and point of the domains", "why_tests_cant": "all programs of any length over all doubles; a test runs one", "anchors": ["viennamath/runtime/expr.hpp:rt_expr", "viennamath/manipulation/substitute.hpp:substitute", "viennamath/manipulation/simplify.hpp:inplace_simplify", "viennamath/runtime/operations/rt_rt.hpp:operator+"]}
{"id": "C84", "title": "Integrals over many small intervals", "statement": "A sum (or difference, with the direction reversed) of integrals of one integrand over intervals that lead from A to B, handed to the numerical quadrature, approximates the integral from A to B: the error is at most M h^2 / 24 times the total length of the intervals if none is longer than h and diff(diff(f, x), x) is at most M; at most M |B - A|^3 / (24 N^2) for N equal parts.  For every continuous integrand the error per length falls below any bound once the intervals are short enough, so that the sums over equal parts converge to the integral.  In doubles the bound for the roundings of every integral and of every addition comes on top.", "quantifier": "every expression as integrand, partition, nesting of the sums, direction of the intervals and number of parts", "why_tests_cant": "a limit and error bounds over all integrands and partitions; a test checks one sum with a tolerance", "anchors": ["viennamath/runtime/numerical_quadrature.hpp:rt_numerical_quadrature", "viennamath/runtime/numerical_quadrature.hpp:rt_gauss_quad_1", "viennamath/runtime/integral.hpp:integral"]}
{"id": "C85", "title": "Functors with state and exceptions", "statement": "Whatever a traversal functor does - keep a state, answer differently each time, throw - recursive_traversal() calls it in the documented order, at most once for each node, asks step_into() at most once for each binary node and makes no other call; a traversal that ends normally has visited exactly the nodes all of whose binary ancestors were to be stepped into; an exception stops it at once and comes out unchanged.  Each call gets the node at its position.  recursive_manipulation() with a functor that may throw from modifies() or operator() either returns the manipulated expression, made of new nodes only and leaving no others, or throws one of the functor's exceptions, which happens exactly if the functor throws at a node it is asked about; either way the expression manipulated and everything else is intact.  Copies made before an exception are leaked.", "quantifier": "every functor, state, expression, heap and order of evaluation of arguments", "why_tests_cant": "quantifies over all functors and over the point at which they throw", "anchors": ["viennamath/runtime/functor_wrapper.hpp:rt_traversal_interface", "viennamath/runtime/functor_wrapper.hpp:rt_manipulation_interface", "viennamath/runtime/binary_expr.hpp:recursive_manipulation", "viennamath/runtime/unary_expr.hpp:recursive_traversal"]}
{"id": "C86", "title": "Integer data are computed exactly", "statement": "For sums, differences and products of variables and integer constants, evaluated at integers, the double returned is exactly the value, as long as the value with all terms taken positive (and factors less than 1 replaced by 1) is at most 2^53; so any two ways of writing the same polynomial give the same number.  simplify() then does not change the value and yields the same expression as in exact arithmetic.  If that bound times the number of nodes is at most 2^53, diff() followed by evaluation gives exactly the partial derivative.  The bound 2^53 cannot be raised.", "quantifier": "every such expression, every point of integers, every libm", "why_tests_cant": "quantifies over all trees and all integers; the bound is only reached by large numbers", "anchors": ["viennamath/runtime/binary_expr.hpp:eval", "viennamath/runtime/binary_expr.hpp:simplify", "viennamath/manipulation/diff.hpp:diff", "viennamath/compiletime/binary_op_tags.hpp:op_mult"]}
{"id": "C87", "title": "Calls of a manipulation functor with a state", "statement": "recursive_manipulation() with a functor that has a state and may throw: modifies() is called at most once for each inner node and operator() at most once for each node, only below nodes for which modifies() answered false, operator() only for leaves and for nodes for which it answered true.  If it returns, all these calls were made, each value returned by operator() is where its node was, and the other nodes are as they were.  Otherwise the last call threw, and its exception comes out.  Each call gets the node at its position.  A node is asked about before anything below it, and the calls for one operand are all made before those for the other.  If the answers do not depend on the state, the result does not depend on the order the compiler chooses; otherwise it may.", "quantifier": "every functor, state, expression and order of evaluation of arguments", "why_tests_cant": "quantifies over all functors and over the orders compilers may choose", "anchors": ["viennamath/runtime/functor_wrapper.hpp:rt_manipulation_interface", "viennamath/runtime/functor_wrapper.hpp:rt_manipulation_wrapper", "viennamath/runtime/binary_expr.hpp:recursive_manipulation", "viennamath/runtime/unary_expr.hpp:recursive_manipulation"]}
{"id": "C88", "title": "Calls of a quadrature rule with a state", "statement": "numerical_quadrature applied to an expression, with a rule of the user that has a state and may throw: the rule is called at most once for each integral in the sum or difference, and for nothing else.  If a number is returned, the rule was called for every integral and the number is the sum of its answers with the signs of the integrals.  Otherwise the last call threw and its exception comes out, or all calls returned and the expression is not a sum or difference of integrals.  If the answers do not depend on the state, neither the number nor whether there is one depends on the order the compiler chooses, and the quadrature of C29 has undefined behaviour exactly if it has for some order; otherwise the number may depend on the order.", "quantifier": "every rule, state, expression and order of evaluation of operands; the value over the reals", "why_tests_cant": "quantifies over all rules and over the orders compilers may choose", "anchors": ["viennamath/runtime/numerical_quadrature.hpp:numerical_quadrature_interface", "viennamath/runtime/numerical_quadrature.hpp:rt_numerical_quadrature"]}
{"id": "C89", "title": "Calls of LaTeX processors with a state", "statement": "A LaTeX translator with processors of the user that have a state and may throw asks its processors in the order they were added, none twice, until one returns a non-empty text, which is the result, or throws, in which case its exception comes out.  If all return the empty text, the result is the text for unknown expressions.  Each processor is given the expression and the flag for parentheses.  If the answers do not depend on the state, the text of an equation or interval is made of the texts of its two sides, whatever order the compiler chooses, and if there is none, the exception is that of one of the sides; if they do depend on the state, the text may depend on that order.", "quantifier": "every list of processors, state, expression and order of evaluation of operands", "why_tests_cant": "quantifies over all processors and over the orders compilers may choose", "anchors": ["viennamath/manipulation/latex.hpp:process_impl", "viennamath/manipulation/latex.hpp:rt_latex_processor_interface", "viennamath/manipulation/latex.hpp:rt_latex_translator"]}
