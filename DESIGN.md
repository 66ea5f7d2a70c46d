# Formal model of ViennaMath: design

Target: `/repo/viennamath` (header-only C++ library, run-time expression trees
plus compile-time expression templates).  Everything is read as text; nothing is
compiled or run.  Prover: Rocq/Coq 8.16.1, files under `rocq/theories`, logical
name `Verif`.

## 1. What is modelled, and how

### Files

| model | code | specification | theorems |
|---|---|---|---|
| `RtModel.v` | `runtime/{constant,variable,function_symbol,unary_expr,binary_expr,vector_expr,unary_operators,binary_operators,functor_wrapper,integral}.hpp`, `manipulation/detail/*_operations.hpp`, run-time parts of `manipulation/{simplify,diff,substitute,eval}.hpp` | `RtSpec.v`, `RealSpec.v`, `DenSpec.v` | `PropsSimplify`, `PropsEval`, `PropsSubst`, `PropsEqual`, `PropsVisit`, `PropsDiff`, `PropsFloat`, `PropsCalc`, `PropsAlg` |
| `HeapModel.v` | the same functions with the pointers they allocate, copy and delete, `runtime/expr.hpp`, `runtime/interval.hpp`, `runtime/operations/rt_rt.hpp` | `HeapSpec.v` | `PropsHeap` |
| `AssignModel.v` | `runtime/binary_expr.hpp` 160-229 (assignments), `runtime/unary_expr.hpp` 54-120 | | `PropsAssign` |
| `QuadModel.v` | `runtime/numerical_quadrature.hpp`, `runtime/vector_expr.hpp` (operators) | `QuadSpec.v` | `PropsQuad`, `PropsCalc` |
| `StrModel.v` | `str()`, `deep_str()` and `operator<<` of the run-time classes | | `PropsStr` |
| `LatexModel.v` | `manipulation/latex.hpp` | `LatexSpec.v` | `PropsLatex` |
| `CoordModel.v` | `manipulation/apply_coordinate_system.hpp` | `CoordSpec.v` | `PropsCoord` |
| `CtModel.v` | `compiletime/*`, compile-time part of `manipulation/simplify.hpp` | `CtSpec.v`, `CtNormalSpec.v` | `PropsCtSimplify` |
| `CtOpsModel.v` | `compiletime/operations/*`, `runtime/operations/constant.hpp`, conversions to run-time expressions | `CtSpec.v` | `PropsCtOps` |
| `CtManipModel.v` | `manipulation/{expand,coefficient,drop_dependent_terms,integrate}.hpp`, compile-time parts of `{diff,substitute,eval}.hpp` | `CtManipSpec.v` | `PropsCtManip` |
| `ApiModel.v` | overload sets of `runtime/operations/*`, `compiletime/operations/*`, `runtime/unary_operators.hpp` (functions), `grad`, `div`, `laplace`, constructors and assignments of `runtime/expr.hpp` | `ApiSpec.v` | `PropsApi` |
| `CallModel.v` | call operators of all expression classes, `compiletime/ct_vector.hpp`, `eval` | `CallSpec.v` | `PropsCall` |
| `OverModel.v` | overload sets of `make_equation`, `make_interval`, `integral`, `diff`, `substitute`: `runtime/{equation,interval,integral}.hpp`, `compiletime/{ct_equation,ct_interval}.hpp`, `manipulation/{diff,substitute}.hpp` | `OverSpec.v`, `WhichSpec.v` | `PropsOver`, `PropsWhich` |
| `VecModel.v` | `runtime/vector_expr.hpp` (operators as overloads, entries), the generic operators of `forwards.h` for vectors | `VecSpec.v` | `PropsVec` |
| `NewtonModel.v` | `examples/tutorials/newton_solve.cpp` | `NewtonSpec.v` | `PropsNewton`, `PropsNewton64` |
| (none; combines `ApiModel.v`, `OverModel.v`, `QuadModel.v`) | | `WrittenSpec.v` | `PropsWritten` |
| `TransModel.v` | `manipulation/latex.hpp` 57-217: life of translators and processors on the heap, dispatch | `TransSpec.v` | `PropsTrans` |
| `HoldModel.v` | ownership in `runtime/numerical_quadrature.hpp` 86-230 and `runtime/functor_wrapper.hpp` 30-110 | `HoldSpec.v` | `PropsHold` |
| `TypedModel.v` | `runtime/constant.hpp` for other scalar types, `compiletime/promote_traits.hpp`, folding in `runtime/operations/constant.hpp`, `compiletime/operations/ct_expr.hpp` | `TypedSpec.v` | `PropsTyped` |
| (none; `simplify`, `substitute` of `RtModel.v`) | `examples/tutorials/model_benchmark.cpp` 105-108 | `NormalSpec.v` | `PropsNormal` |
| `ClassModel.v` | `runtime/functor_wrapper.hpp` 111-131, `shallow_equal`, `shallow_str`, `examples/tutorials/traversal.cpp` | `ClassSpec.v` | `PropsClass` |
| `ExnModel.v` | `exception.hpp`, the throw expressions reached by `eval`, `unwrap`, `diff` | `ExnSpec.v` | `PropsExn` |
| (none; `diff`, `substitute`, `simplify` of `RtModel.v`) | | `GrowSpec.v` | `PropsGrow` |
| `CtStrModel.v` | `operator<<` of the compile-time classes and of every object: `compiletime/{ct_constant,ct_variable,ct_function_symbol,ct_unary_expr,ct_binary_expr,ct_interval,ct_equation,ct_vector}.hpp`, `runtime/{constant,variable,function_symbol,unary_expr,binary_expr,vector_expr,expr,equation,interval}.hpp`. Not modelled: the member `ct_variable::operator<<` (line 166), output of numbers | `CtStrSpec.v` | `PropsCtStr` |
| `WorkModel.v` | the recursive virtual functions of `RtModel.v` once more, with the calls they make counted: `runtime/{constant,variable,function_symbol,unary_expr,binary_expr,vector_expr}.hpp`, `manipulation/detail/{unary,binary}_operations.hpp`, `manipulation/{simplify,substitute,diff}.hpp`. Not counted: clone(), constructors, destructors, `op_->apply` and the like; if one of two operands throws the calls of the other are counted too | `WorkSpec.v` | `PropsWork` |
| `CtGrowSpec.v`, `CtGrowFacts.v`, `PropsCtGrow.v` | C80: sizes of the types of `CtModel.v` and `CtManipModel.v`; nothing new is modelled |
| `NumTextModel.v` | output of a double through `operator<<`: `runtime/constant.hpp` 81, `manipulation/latex.hpp` 437 with the formatting prescribed by the C++ standard (`%g`, precision 6) | `NumTextSpec.v` | `PropsNumText.v` |
| (no new model: `HeapModel.v`, `RtModel.v`) | programs over `rt_expr` objects read as programs over real functions | `ProgSpec.v` | `PropsProg.v` |
| (the same) | programs over `rt_expr` objects read as programs over functions on doubles | `Prog64Spec.v` | `PropsProg64.v` |
| (`QuadModel.v`) | sums of integrals over many intervals | `PartsSpec.v` | `PropsParts.v` |
| `VisitorModel.v` | `recursive_traversal` and `recursive_manipulation` with functors of the user that have a state and may throw: `runtime/functor_wrapper.hpp` 30-103, `expression_interface.hpp` 75-77, `unary_expr.hpp` 320-334, `binary_expr.hpp` 421-442 | `VisitorSpec.v` | `PropsVisitor.v` |
| (no new model: `RtModel.v`, `NumB64.v`) | evaluation, simplification and differentiation in doubles on integer data | `ExactSpec.v` | `PropsExact.v` |
| `StatefulModel.v` | `recursive_manipulation` with functors that have a state, on values: `runtime/functor_wrapper.hpp` 33-66, `expression_interface.hpp` 75, `unary_expr.hpp` 320-327, `binary_expr.hpp` 421-429 | `StatefulSpec.v` | `PropsStateful.v` |
| `RuleModel.v` | `rt_numerical_quadrature::operator()` with rules that have a state: `runtime/numerical_quadrature.hpp` 36-54, 131-206 | `RuleSpec.v` | `PropsRule.v` |
| `ProcModel.v` | dispatch to LaTeX processors that have a state: `manipulation/latex.hpp` 57-84, 154-167, 198-215 | `ProcSpec.v` | `PropsProc.v` |
| `TestSuite.v` | examples only: `tests/src/{compiletime_test,runtime_test,equation_test,diff_test,compiletime_evaluation,compiletime_manipulation}.cpp`, `examples/tutorials/{basic,integration,substitute,vector_expr,latex_output}.cpp`, `doc/manual/{basic-types,manipulation,additional}.tex` | | |
| (none; `eval` over `numB64` against `numR`) | | `ErrSpec.v` | `PropsErr` |
| (none; `eval`, `diff`, `quadrature` over `numB64` against `numR`) | | `DataSpec.v` | `PropsData` |

The other files contain auxiliary lemmas only.

### Outcomes
Each modelled function returns an `outcome`: `Ok v`, `Throw exn` (one constructor per
exception class of `exception.hpp`), or `UB` (null dereference, out-of-range access,
violated `assert`, use after free).  Template metafunctions return an `option`, `None`
for a failed or ambiguous instantiation.  Where C++ leaves the order of two operand
computations open, the tree model returns `UB` if either computation is `UB`; which of
two exceptions is thrown is left-first, and a separate relational semantics (all orders)
is proved equivalent up to the exception identity.  The heap model takes the order, and
which copies the compiler elides, as arbitrary functions of the state.

### Numeric types
`Record num` bundles a carrier with the operations the code uses (`+ - * / == <= >=`,
literals, libm functions).  The code is modelled once, for every such record.  Three
instances are used:
* `option R` with strict operations: the real semantics; `None` is "undefined"
  (division by zero, log of a non-positive number, ...).  Coq's total division is
  therefore never relied on.
* IEEE-754 binary64 (`Flocq.IEEE754.BinarySingleNaN`), libm functions as parameters.
* small concrete carriers for executable examples.

### Run-time expression trees
`EConst | EVar | EFun | EUn | EInt | EBin | EVec`, one constructor per C++ node class
(`rt_constant`, `rt_variable`, `rt_function_symbol`, `rt_unary_expr`, `rt_unary_expr`
holding an `op_rt_integral`, `rt_binary_expr`, `rt_vector_expr`), each C++ virtual
function becoming a structural recursion, the `while` loop of `inplace_simplify`
becoming a fuelled loop whose out-of-fuel result is excluded by a theorem.

### Compile-time expressions
`CConst | CVar | CFun | CBin | CUn`; template specialisation tables are modelled as
lists of patterns with the C++ rule "unique most specialised match, otherwise the
program is ill-formed".  `long` is 64 bits, `int` 32 bits with conversion modulo 2^32.

### Ownership
A heap of nodes with explicit addresses; constructors, `clone`, copy, assignment and
destruction (`std::auto_ptr`) manipulate it, as do simplification, derivatives and substitutions (single,
simultaneous, intervals of symbolic integrals); refinement to a pure store of trees.

## 2. Per-property plan

| id | plan |
|----|------|
| C01 | generic theorem "one simplify step preserves the value" over an algebraic-laws structure, induction on the tree, then on the loop; instance `option R` |
| C02 | same generic theorem, instance binary64 with "finite" as definedness and equality up to sign of zero; refutations without the hypotheses |
| C03 | weight measure, `can_simplify = true` implies strict decrease of the weight |
| C04 | loop exit condition + determinism |
| C05 | induction on tree/loop: inclusion of occurrence sets |
| C06 | induction, Coquelicot `is_derive`, then C01 for the final simplification |
| C07 | corollary of C06/C17 plus direct argument |
| C08 | induction with syntactic predicate in the statement |
| C09 | as C06 with a valuation of function symbols |
| C10 | both orders are the derivative expression values; algebraic identity by induction (`field`) |
| C11-C14 | induction on the tree |
| C15-C19 | induction on the tree; relational semantics for operand orders |
| C20-C22 | induction on pairs of trees; refutations by computation |
| C23-C24 | heap model, invariant over histories, refinement |
| C25-C27 | induction; specification = independently defined node list / tree relation |
| C28-C29 | real integral (Coquelicot RInt) compared with the model of the quadrature |
| C30 | induction on lists |
| C31 | unambiguous grammar / prefix-code argument on strings |
| C32 | substitution lemmas |
| C33-C34 | model of the LaTeX string functions; separate reader/grammar |
| C35-C37 | pattern table model, rule-by-rule correctness, weight measure, magnitude measure |
| C38 | Euclid with truncated division |
| C39-C40 | case analysis, induction |
| C41 | as C06 for compile-time trees |
| C42-C43 | polynomial interpretation for termination; value by induction on fuel |
| C44-C45 | induction on expanded expressions |
| C46-C47 | Coquelicot integral; induction on monomials |
| C48-C50 | induction |
| C51 | case analysis plus invariant over constructor history |
| C52 | relational meaning (`means`) including integrals, gradients and vectors; C01's argument generalised |
| C53 | C06 iterated, derivative on an open interval |
| C54 | substitution lemma plus induction on the tree |
| C55 | Taylor's theorem at the midpoint, second derivative from C53 |
| C56 | both sides as one simultaneous replacement, extensionality |
| C57 | induction on the tree, then on the loop; weight of C03 at most four times the nodes; passes: operands that are stable after k passes make an operation that is stable after k + 1 (k + 2) |
| C58 | induction on the source text, values of C39/C40 for mixed operands |
| C59 | case analysis on class and point; compile-time trees by induction |
| C60 | case analysis on both classes, values from C58; which calls compile (also C61, C62): case analysis |
| C61 | C41 for compile-time expressions, C04 for the final simplification |
| C62 | induction relating type equality and deep_equal of the converted trees |
| C63 | a result is a fixed point of the metafunction, so no specialisation applies at any of its nodes; case analysis over the specialisations |
| C64 | every node of the built tree was written (induction), so regularity of the tree follows from smoothness of what was written; C06 and C41 for the two kinds of derivatives; slices of tree and text agree |
| C65 | C58 for replacement and expression, substitution lemma C11, C48 for compile-time expressions |
| C66 | trees of arithmetic bounds contain constants only; C28, and the midpoint error of C55 |
| C67 | simulation of the heap of processors by values: fresh addresses, disjoint owners, every allocated processor owned; translation through the processors equals `latex` |
| C68 | induction over the derivation of the bound: Flocq's error lemmas for one rounding, Lipschitz bounds of the elementary functions; closed form by induction over the tree |
| C69 | simulation of the heap by values, objects owning at most one heap object; composed of dropping, adding and moving one object |
| C70 | replacing constants by their conversion is a homomorphism for every function; folding by Flocq's correctness of rounding for exact sums |
| C71 | as C68, for two trees of the same shape; composed with the value of simplification in doubles (C02), the derivative (C06) and the error of the rule (C55) |
| C72 | induction on the text with vectors, using C40's value of scalar texts; case analysis of the overloads |
| C73 | (doubles: the step as the value of a tree (C71), the test of the loop by the errors of sqrt and of the sum of squares, the error halved plus eta in every round; the tutorial's trees sized one by one) the step by the value of diff() (C06); Taylor's formula along the segment to the solution (derivative along a line by induction on the tree), the 2x2 system solved explicitly; induction on the rounds |
| C74 | `can_simplify` is false exactly on the normal expressions (induction on the tree); with C02, C11 and C04 |
| C75 | case analysis on the node; induction on the list of tests |
| C76 | induction on the tree; relation of a thrown object to the node at fault |
| C77 | induction on the tree and on the number of derivatives; products of variables for the refutation |
| C78 | induction on the type, reading the text back from the left; first characters tell the classes apart |
| C79 | induction on the tree with the calls as the second component; the passes from C57, the size of derivatives from C77; two families of expressions with exact counts for the refuted bounds |
| C80 | per rule of the compile-time simplifier, then along its recursion; `expand` by its induction principle (C43) with the number of terms and with the product-for-sum size as invariants; one family for the refuted polynomial bound |
| C81 | the digits as `round` to six digits in base ten (Flocq's `FLX`), reading of digit lists by induction; literals by the gap between numbers of six digits; with C31 and C34 |
| C82 | simulation: an object represents a function if it evaluates to its values and is regular where the function is smooth; every statement keeps this (C01, C06, C12 and uniqueness of derivatives), then C23 and C24 |
| C83 | the same simulation for doubles with C02: an object represents a function if it evaluates to its values up to the sign of a zero, all intermediate values finite; the operations respect this |
| C84 | induction on the sum with Chasles' relation; each part by the error of the midpoint rule (C55) or by uniform continuity (Heine); in doubles the error of each integral (C71) and of each addition (C68) |
| C85 | traversal: induction on the tree over the record of calls, relative to the position; manipulation: the heap refinement of C24 with the functor's specification at the leaves of the recursion |
| C86 | induction on the tree in lockstep over doubles and reals: integers up to 2^53 are in the format, so every rounding is the identity; the measure `extent` bounds all intermediate results and does not grow under `simplify`; derivative: `extent` grows at most by the number of nodes, then C06 |
| C87 | the record of calls is described by an inductive relation with relative positions; each claim by induction on it through the membership of calls in the parts of the record |
| C88 | as C87, with the record of calls of the rule; the value by induction on the record, aligning the answers with the integrals |
| C89 | as C88, with the record of calls of the processors, by induction on the list of processors |

Status and theorem names: `MANIFEST.json`.

## 3. Trusted base

* Coq's kernel.
* Axioms listed by `Print Assumptions` per theorem (section 5).
* Faithfulness of the model to the C++ text; each definition cites file and lines.

## 4. Not modelled

* `rt_constant<T>` for a `T` other than the numeric type occurs in `TypedModel.v` only (int, long, float); C70 reduces it
  to the other models.
* Stream formatting of numbers is a parameter function in C31, C33, C34 and C78.  C81 models the one of doubles (default
  flags, "C" locale, exact rounding as in glibc; checked against `printf` on 300 random doubles) and instantiates C31 and C34.
* Allocation failure.  Exceptions thrown by objects of the user are modelled for traversal and manipulation functors
  (C85, C87), quadrature rules (C88) and, for the dispatch, equations and intervals only, LaTeX processors (C89): the
  built-in processors' calls back to the translator are pure in C31-C34.
* Ids of variables and function symbols are unbounded (`unsigned long` in the code).
* Parts of headers that cannot be instantiated (they do not compile), listed in section 6.

### Tests of the model
`TestSuite.v` replays the library's own test programs (`tests/src/*.cpp`) and tutorials (`examples/tutorials/*.cpp`; `traversal.cpp`
and `newton_solve.cpp` are in `PropsClass.v` and `PropsNewton.v`) in the model: every call in them compiles in the model, the one
commented out as "not allowed" does not, and all stated values come out.  The snippets of the manual (`doc/manual/*.tex`) are
replayed as well (`manual_*`); section 6 lists where the library does not do what the manual says.  These are tests on literals and count for no property;
they guard against errors in the overload and specialisation tables.  (`tests/src/compiletime_test.cpp` 89-92 itself writes
`p[2]` of a vector of size 2; `external_1.cpp`/`external_2.cpp` test linking two translation units, `model_benchmark.cpp` measures time: neither has a counterpart in the model.)

## 5. Axioms per theorem

All are axioms of Coq's standard library: `functional_extensionality_dep`
(`Coq.Logic.FunctionalExtensionality`), `classic` (`Coq.Logic.Classical_Prop`),
`sig_forall_dec` and `sig_not_dec` (`Coq.Reals.ClassicalDedekindReals`).  They come from
Coq's real numbers, Coquelicot and Flocq.  The table is printed by `tools/axioms.py`.

* **none ("Closed under the global context")**: `C56_substitutions_commute`, `C56_renaming_round_trip`, `C56_sequential_is_simultaneous`, `C56_substitution_eliminates`, `C56_without_conditions_refuted`, `C57_simplify_never_enlarges`, `C57_iterations_linear_in_size`, `C57_with_vectors_refuted`, `C58_run_time_expressions_compile`, `C58_exp_of_function_refuted`, `C58_laplace_of_expression_refuted`, `C58_results_hold_their_arguments`, `C58_assignment_is_initialisation`, `C51_assigned_number_is_unusable`, `C51_assigned_ct_constants_are_unusable`, `C51_unary_expressions_are_usable`, `C51_assignment_agrees_with_construction`, `C51_assignment_always_agrees_refuted`, `C51_ordinary_expressions_never_throw_it`, `C51_operations_keep_expressions_ordinary`, `C59_calls_are_evaluation`, `C59_compile_time_calls`, `C59_every_coordinate_is_read`, `C59_which_calls_compile`, `C59_variable_at_number_refuted`, `C59_eval_is_call`, `C59_eval_of_compile_time_variable`, `C59_vector_3_keeps_values`, `C59_vector_2_keeps_values_refuted`, `C75_dispatched_to_its_class_once`, `C75_order_of_tests_irrelevant`, `C75_shallow_equal_is_same_class`, `C75_shallow_equal_is_equivalence`, `C75_tutorial_output`, `C75_tutorial_one_line_per_node`, `C75_shallow_str_tells_kind`, `C75_shallow_str_just_the_type_refuted`, `C32_cartesian_form`, `C32_cartesian_form_of_equation`, `C32_eliminates_grad_and_div`, `C32_introduces_only_partial_derivatives`, `C32_unsimplified_input_refuted`, `C32_nothing_else_is_replaced`, `C32_gradient_of_expression_refuted`, `C80_simplify_never_enlarges`, `C80_size_of_expansion`, `C80_expansion_is_polynomial_refuted`, `C80_size_of_derivative`, `C80_size_of_substitution`, `C80_size_of_coefficients`, `C80_size_of_powers`, `C80_size_of_integrals`, `C43_expand_expands`, `C43_degree_compiles`, `C43_degree_of_expansion_refuted`, `C44_coefficient_of_subexpression_refuted`, `C44_not_linear_refuted`, `C46_quotient_refuted`, `C46_always_compiles_refuted`, `C47_negative_exponent_refuted`, `C49_constants_are_computed`, `C39_conversion_keeps_shape`, `C40_which_operators_compile`, `C41_diff_agrees_with_run_time`, `C50_call_is_checked`, `C50_free_eval_unchecked_refuted`, `C36_instantiation_is_finite`, `C36_simplify_is_final`, `C36_single_fraction_is_reduced_refuted`, `C36_constant_minus_zero`, `C37_without_bound_refuted`, `C38_gcd_is_greatest_common_divisor`, `C38_large_gcd_refuted`, `C63_nothing_left_to_do`, `C63_constants_fold`, `C78_text_identifies_object`, `C78_text_identifies_sides`, `C78_text_identifies_vector`, `C78_what_can_be_streamed`, `C78_everything_can_be_streamed_refuted`, `C08_diff_succeeds_iff`, `C08_diff_failure`, `C20_deep_equal_is_identity_up_to_constants`, `C20_deep_equal_is_an_equivalence`, `C21_deep_equal_same_variables`, `C21_diff_respects_deep_equal`, `C21_eval_respects_deep_equal`, `C22_integrals_not_distinguished`, `C22_symbolic_integrals_not_distinguished`, `C22_vector_equals_its_prefixes`, `C22_soundness_refuted`, `C15_scalar_eval_is_vector_eval`, `C16_eval_succeeds_iff_evaluable`, `C16_eval_independent_of_order`, `C16_some_order_exists`, `C17_eval_depends_on_occurring_variables`, `C17_extra_entries_are_ignored`, `C18_constant_expressions_unwrap`, `C19_unwrap_agrees_with_eval`, `C76_exceptions_of_evaluation`, `C76_message_names_the_fault`, `C76_exceptions_of_unwrap`, `C76_diff_message`, `C76_what_is_readable`, `C76_what_of_diff_and_unwrap`, `C76_what_of_index_refuted`, `C76_std_exceptions`, `C76_catch_std_exception_refuted`, `C57_passes_at_most_height`, `C57_height_is_attained`, `C77_size_of_derivative`, `C77_size_of_repeated_derivative`, `C77_size_of_substitution`, `C77_size_of_any_substitution`, `C23_objects_behave_as_values`, `C23_other_objects_untouched`, `C23_binary_assignment_copies`, `C24_every_node_has_one_owner`, `C24_heap_empty_at_the_end`, `C24_no_undefined_behaviour`, `C24_reading_an_empty_object_is_undefined`, `C24_assignment_from_own_operand_refuted`, `C24_adopting_a_pointer_refuted`, `C24_gradient_by_function_symbol_leaks_refuted`, `C24_exception_leaks_refuted`, `C24_vectors_of_different_size_refuted`, `C69_quadratures_are_values`, `C69_wrappers_are_moved`, `C69_every_heap_object_has_one_owner`, `C69_default_constructed_in_containers_refuted`, `C69_integrating_without_a_rule_refuted`, `C69_copied_wrapper_refuted`, `C69_copied_traversal_wrapper_refuted`, `C69_shared_pointer_refuted`, `C34_output_reads_back`, `C34_equation_reads_back`, `C33_last_customization_wins`, `C33_output_depends_on_symbols_only`, `C33_copy_without_customized_symbols`, `C33_copy_keeps_customizations_refuted`, `C33_empty_customization_refuted`, `C33_added_processors_are_asked_last`, `C73_step_keeps_two_entries`, `C74_what_is_left`, `C74_unchanged_exactly_if_nothing_to_do`, `C74_all_numbers_leave_one_number`, `C74_benchmark_expression`, `C74_functions_of_numbers_refuted`, `C60_run_time_arguments_compile`, `C60_all_pairs_compile_refuted`, `C60_integral_holds_its_arguments`, `C61_diff_overloads_agree`, `C61_same_for_every_class_refuted`, `C62_substitute_overloads_agree`, `C62_always_as_written_refuted`, `C89_calls_of_the_processors`, `C89_processors_are_given_the_expression`, `C89_equations_and_intervals`, `C89_exceptions_in_equations_and_intervals`, `C89_order_matters_refuted`, `C29_quadrature_outcome`, `C29_only_symbolic_integrals_are_undefined`, `C29_symbolic_integral_throws_refuted`, `C30_sum_and_difference_are_componentwise`, `C30_size_mismatch_is_undefined`, `C30_scaling_is_componentwise`, `C30_diff_is_componentwise`, `C30_substitution_is_componentwise`, `C88_calls_of_the_rule`, `C88_stateless_rules`, `C88_undefined_behaviour`, `C88_order_matters_refuted`, `C03_inplace_simplify_terminates`, `C03_simplify_top_is_the_loop`, `C04_simplify_is_final`, `C05_simplify_introduces_nothing`, `C87_calls_of_a_manipulation`, `C87_order_of_the_calls`, `C87_functor_is_given_the_nodes`, `C87_stateless_functors`, `C87_order_matters_refuted`, `C31_deep_str_identifies`, `C31_streamed_text_identifies`, `C31_streamed_equation_identifies`, `C31_other_function_families_refuted`, `C11_substitution_lemma`, `C12_simultaneous_substitution`, `C12_simultaneous_substitution_value`, `C13_absent_is_identity`, `C13_absent_is_identity_simultaneous`, `C14_substituting_constants_is_evaluation`, `C67_translators_are_values`, `C67_every_processor_has_one_owner`, `C67_no_processor_leaks`, `C67_assignment_refuted`, `C67_shared_processor_refuted`, `C70_evaluates_as_converted`, `C70_simplifies_as_converted`, `C70_differentiates_as_converted`, `C70_substitutes_symbols_as_converted`, `C70_own_constants`, `C70_latex_shows_constants_refuted`, `C72_dot_product_order`, `C72_scaling_acts_on_entries`, `C72_which_operators_compile`, `C72_what_is_asserted`, `C72_sizes_and_undefined_behaviour`, `C72_vector_plus_scalar_refuted`, `C25_traversal_visits_each_node_once_in_order`, `C25_order_is_strict`, `C26_manipulation_replaces_outermost_selected_nodes`, `C26_default_functor_copies`, `C27_symbolic_interval_replacement`, `C27_no_symbolic_integral_left`, `C27_searched_interval_is_ignored`, `C27_nested_refuted`, `C85_calls_of_a_traversal`, `C85_functor_is_given_the_nodes`, `C85_manipulation_with_throwing_functor`, `C85_exceptions_are_the_functors`, `C85_exception_leaks_refuted`, `C60_which_equations_compile`, `C60_which_intervals_compile`, `C60_which_symbolic_integrals_compile`, `C61_which_calls_compile`, `C62_which_calls_compile`, `C79_counting_changes_nothing`, `C79_calls_of_queries`, `C79_calls_of_simplify`, `C79_every_pass_is_counted`, `C79_simplify_is_linear_refuted`, `C79_calls_of_substitute`, `C79_calls_of_diff`, `C79_diff_is_polynomial_refuted`
* **`functional_extensionality_dep`, `sig_forall_dec`**: `C42_expand_preserves_value`, `C44_linear_decomposition`, `C45_drop_is_evaluation_at_zero`, `C46_other_variable_refuted`, `C47_pow`, `C47_degree_is_exponent`, `C49_eval_value`, `C41_diff_is_partial_derivative`, `C48_substitute_variable`, `C48_exact_match_first`, `C35_simplify_preserves_value`, `C35_without_range_condition_refuted`, `C37_no_narrowing_below_bound`
* **`classic`, `functional_extensionality_dep`, `sig_forall_dec`, `sig_not_dec`**: `C58_value_is_what_was_written`, `C58_assignment_of_ct_variable_refuted`, `C53_repeated_diff_is_nth_derivative`, `C54_chain_rule`, `C55_gauss_error_bound`, `C32_preserves_meaning`, `C52_simplify_preserves_meaning`, `C52_meaning_is_unique`, `C52_meaning_extends_eval`, `C52_zero_times_vector_refuted`, `C46_integrate_polynomial`, `C46_integrate_univariate`, `C46_iterated_integral`, `C49_eval_of_numbers`, `C39_conversion_keeps_value`, `C40_operators_keep_value`, `C40_quotient_of_same_type_refuted`, `C71_evaluation_error`, `C71_derivative_error`, `C71_derivatives_correspond`, `C71_quadrature_error`, `C71_integral_error`, `C71_polynomials_over_a_box`, `C06_diff_is_partial_derivative`, `C06_whenever_defined`, `C07_absent_variable_gives_zero`, `C09_gateaux_derivative`, `C10_mixed_derivatives_commute`, `C20_reals_have_equal_laws`, `C21_deep_equal_reals_identical`, `C68_evaluation_error`, `C68_simplified_expression_error`, `C68_correctly_rounded_libm`, `C68_polynomial_error`, `C68_rearranged_polynomial_error`, `C68_error_relative_to_the_result_refuted`, `C68_underflow_refuted`, `C86_evaluation_is_exact`, `C86_rearrangement`, `C86_simplify_is_exact`, `C86_derivative_is_exact`, `C86_beyond_the_bound_refuted`, `C02_simplify_is_safe_for_doubles`, `C02_without_finiteness_refuted`, `C02_sign_of_zero_refuted`, `C21_signed_zero_refuted`, `C20_doubles_have_equal_laws`, `C20_nan_refuted`, `C77_linear_bound_refuted`, `C34_reading_preserves_meaning`, `C34_same_output_same_meaning`, `C73_step_solves_linearised_system`, `C73_why_it_stops`, `C73_quadratic_convergence`, `C73_solver_converges`, `C73_linear_systems_in_one_step`, `C73_singular_jacobian_refuted`, `C73_parameters_lost_refuted`, `C73_why_it_stops_in_doubles`, `C73_residual_in_doubles`, `C73_step_in_doubles`, `C73_solver_converges_in_doubles`, `C73_tutorial_in_doubles`, `C74_partial_evaluation_in_doubles`, `C81_nearest_six_digits`, `C81_printed_value`, `C81_integers`, `C81_exponents`, `C81_literals_print_as_written`, `C81_same_text`, `C81_text_determines_value_refuted`, `C81_text_identifies_up_to_rounding`, `C81_latex_reads_back`, `C81_latex_of_small_numbers_refuted`, `C60_sides_are_what_was_written`, `C62_compile_time_agrees`, `C84_smooth_integrands`, `C84_continuous_integrands`, `C84_equal_parts`, `C84_equal_parts_converge`, `C84_parts_in_doubles`, `C82_programs_compute_functions`, `C82_programs_leave_no_memory`, `C82_simplification_is_invisible`, `C82_smooth_functions_have_derivatives`, `C83_programs_compute_in_doubles`, `C83_programs_leave_no_memory`, `C83_simplification_is_invisible`, `C83_signs_of_zeros_refuted`, `C28_gauss_is_exact_for_affine`, `C28_gauss_value`, `C29_quadrature_is_additive`, `C30_product_is_dot_product`, `C88_value`, `C01_simplify_preserves_value`, `C11_substitute_then_simplify`, `C14_substitute_all_over_reals`, `C70_gradient_refuted`, `C70_simplify_preserves_value`, `C70_diff_is_partial_derivative`, `C70_deep_equal_is_sound`, `C70_equal_value_refuted`, `C70_substitution_refuted`, `C70_folding_is_evaluation`, `C70_folding_undefined_iff_overflow`, `C70_folding_with_floats`, `C70_folding_of_others_refuted`, `C72_value_is_what_was_written`, `C64_derivative_of_what_was_written`, `C65_substitution_in_what_was_written`, `C66_quadrature_of_what_was_written`, `C66_quadrature_error`

## 6. Findings

Defects found while modelling.  Those with a theorem name are proved about the model, the
others follow from reading the code.  Paths are relative to `/repo/viennamath`.

### Memory
* Differentiating a gradient by a function symbol leaks the node allocated first
  (`manipulation/detail/unary_operations.hpp` 642-664; `C24_gradient_by_function_symbol_leaks_refuted`).
* An exception while differentiating leaks the operands' derivatives computed before
  (`C24_exception_leaks_refuted`).  So does an exception of a manipulation functor with the operands manipulated before
  (`runtime/binary_expr.hpp` 426-428; `C85_exception_leaks_refuted`).
* The order in which the operands of a binary node are manipulated is left to the compiler (`runtime/binary_expr.hpp` 426-428), so the
  result of a manipulation with a functor that has a state may differ between compilers (`C87_order_matters_refuted`).  Likewise
  for quadrature rules with a state (`runtime/numerical_quadrature.hpp` 182-183; `C88_order_matters_refuted`)
  and for LaTeX processors with a state (`manipulation/latex.hpp` 157, 164; `C89_order_matters_refuted`).
* `rt_binary_expr::operator=` from its own left operand uses freed memory
  (`runtime/binary_expr.hpp` 200-206; `C24_assignment_from_own_operand_refuted`).
* `rt_expr::operator=(rt_expr const &)` and everything that reads an empty `rt_expr` dereference NULL
  (`runtime/expr.hpp` 129-133; `C24_reading_an_empty_object_is_undefined`).
* `expr g(f.get())` compiles and frees twice (`runtime/expr.hpp` 53; `C24_adopting_a_pointer_refuted`).
* The product of vectors of different or zero size is undefined when simplified, the sum of vectors of
  different sizes when computed (`C24_vectors_of_different_size_refuted`, `C30_size_mismatch_is_undefined`).
* `rt_interval::operator=` does not return (`runtime/interval.hpp` 55-59), undefined when called.
* `what()` of `variable_index_out_of_bounds_exception` returns a pointer into a destroyed string (`exception.hpp` 125-130;
  `C76_what_of_index_refuted`).
* Evaluating a formal gradient, divergence or partial derivative throws a `char const *`, which
  `catch (std::exception const &)` does not catch (`compiletime/unary_op_tags.hpp` 184, 204, 234;
  `C76_catch_std_exception_refuted`).
* The implicit `operator=` of the LaTeX translators leaks and deletes twice (`C67_assignment_refuted`); so does a
  processor added twice (`C67_shared_processor_refuted`).
* A default-constructed `numerical_quadrature`, provided "for support with STL containers", cannot be copied: NULL is
  dereferenced (`runtime/numerical_quadrature.hpp` 109, 119; `C69_default_constructed_in_containers_refuted`).  Integrating with it
  does the same (144, 212; `C69_integrating_without_a_rule_refuted`).
* Copying a manipulation or traversal wrapper empties the original, whose next use is undefined
  (`runtime/functor_wrapper.hpp` 65, 107; `C69_copied_wrapper_refuted`).
* `ct_vector_1` and `ct_vector_2` keep references to the numbers they were made from, so
  `make_vector(1.0, 2.0)` kept in a variable dangles (`C59_vector_2_keeps_values_refuted`).
* An `rt_variable` other than the first, called with a `double`, fails an assertion where all other classes throw
  (`C59_variable_at_number_refuted`).
* Quadrature of a symbolic integral dereferences NULL (`C29_symbolic_integral_throws_refuted`).

### Time
* `diff` of a gradient by a function symbol differentiates the operand twice (`manipulation/detail/unary_operations.hpp`
  649 and 659), so k nested gradients need 3 * 2^k - 2 calls (`C79_diff_is_polynomial_refuted`).
* `can_simplify` and `simplify` ask `is_constant` of both operands, twice, at every node: for x + x + ... + x the calls
  grow with the square of the number of terms even though nothing is simplified (`C79_simplify_is_linear_refuted`).
* `result_of::expand` (and so `coefficient`, `drop_dependent_terms` and `integrate`) instantiates exponentially large types:
  k factors (x+1) become 2^k terms (`C80_expansion_is_polynomial_refuted`).

### Wrong results
* `deep_equal` ignores the interval and variable of an integral, the id of a symbolic integral, and compares
  a vector with a longer one out of bounds (`C22_*`); a NaN constant is not `deep_equal` to itself
  (`C20_nan_refuted`), `1/0` and `1/(-0)` are (`C21_signed_zero_refuted`).
* `0*v` for a vector `v` simplifies to the number 0 (`C52_zero_times_vector_refuted`).
* Simplification is unsafe for doubles when intermediate values overflow, and changes the sign of zeros
  (`C02_without_finiteness_refuted`, `C02_sign_of_zero_refuted`).
* `rt_expr::operator=(ct_variable)` builds a constant instead of a variable (`runtime/expr.hpp` 161-166;
  `C58_assignment_of_ct_variable_refuted`).
* A number assigned to an `rt_binary_expr` gives an expression that throws everywhere (`C51_*`).
* `rt_constant<long>(6)`, used in the tutorials, is not `deep_equal` to 6.0 (`C70_equal_value_refuted`), not found by
  substitution for 6.0 (`C70_substitution_refuted`), printed as unknown by the LaTeX translator
  (`C70_latex_shows_constants_refuted`), and its gradient has derivative `grad(0)` (`C70_gradient_refuted`).  Folding float
  constants rounds to float (`C70_folding_of_others_refuted`).
* An `rt_binary_expr` assigned a compile-time sum of two constants throws when used, one constructed from it works
  (`C51_assignment_always_agrees_refuted`).
* In a program over expression objects, simplification may change the sign of a zero, and so the sign of an infinity
  computed from it (`C83_signs_of_zeros_refuted`).
* Substitution does not search the bounds of an integral; nested symbolic integrals are not replaced
  (`C27_nested_refuted`); the searched interval is ignored (`C27_searched_interval_is_ignored`).
* The derivative of `grad(u)` by `u` is `grad(1)`.
* `apply_coordinate_system` leaves `grad(u)` behind if its argument was not simplified
  (`C32_unsimplified_input_refuted`).
* `apply_coordinate_system` replaces gradient and divergence of the function symbols with id 0 only.  The manual
  (doc/manual/additional.tex 36-48) has `grad(x+y)` and `div(grad(x*x + y*y))`, which do not compile
  (`C58_laplace_of_expression_refuted`), evaluated by it; trees of this kind, such as `grad(sin(x))` or `grad(v)`
  for the manual's `function_symbol v(1)`, are returned unchanged and can be evaluated nowhere
  (`C32_gradient_of_expression_refuted`, `C32_nothing_else_is_replaced`).
* Calls in the manual that do not compile with the types it names (`TestSuite.v`, `manual_*`): `substitute(x, 1, f)` with an `int`,
  `substitute(x, y, f)` with compile-time variables and a run-time `f`, `substitute(v, 1.0 - x, f)` for a function symbol
  (an `rt_binary_expr` as replacement), `integral(make_interval(0, 1), x * x, x)` (an `rt_binary_expr` by an
  `rt_variable`).  Results that differ from the manual: `c2 + c5` prints `ct_constant<7>`, not `7`; the coefficient of `x` in
  `1 + x + y + 2xy` comes out as `((0+1)+0)+2y`, equal to `1+2y` in value only.
* Function symbols of different families print identically (`C31_other_function_families_refuted`).
* Constants are printed with six significant digits: `1000000` and `1000001` print alike, in text and in LaTeX
  (`C81_text_determines_value_refuted`); small and large ones appear in LaTeX as `1e-07`
  (`C81_latex_of_small_numbers_refuted`).
* LaTeX: copying a translator drops its customisations (`C33_copy_keeps_customizations_refuted`); an empty
  customisation prints as unknown (`C33_empty_customization_refuted`); vectors print as unknown; constants are
  printed with six digits; function symbols with a tag other than 1 all print as `u`.
* Compile-time: a single fraction 6/4 is not reduced (`C36_single_fraction_is_reduced_refuted`); the gcd is
  computed with `int` (`C38_large_gcd_refuted`), so `1/65537 + 1/65537` becomes `131074/131073`
  (`C35_without_range_condition_refuted`, `C37_without_bound_refuted`).
* `integrate` of another variable than the integration variable is wrong (`C46_other_variable_refuted`; a
  test of the library passes only because both results are 1/6); of a quotient it integrates the numerator
  only (`C46_quotient_refuted`).
* `coefficient` of x in x*x contains x (`C44_not_linear_refuted`).
* `coefficient` of a compound sub-expression, which its documentation allows, does not compile if it is a term of the
  expression (`C44_coefficient_of_subexpression_refuted`).
* `pow` with a negative exponent does not terminate (`C47_negative_exponent_refuted`).
* `e1/e2` of the same type is 1 although run-time constants in them may differ
  (`compiletime/operations/ct_expr.hpp` 158-164; `C40_quotient_of_same_type_refuted`).
* Compile-time `substitute` default-constructs its result (`manipulation/substitute.hpp` 146-153): a number
  substituted for a compile-time variable becomes 0, and a run-time search object is never found
  (`C62_always_as_written_refuted`).
* `diff` of a function symbol gives a symbolic derivative, `diff` of an `rt_expr` holding it throws
  (`C61_same_for_every_class_refuted`).
* The free function `eval(ct_variable, v)` does not check bounds (`C50_free_eval_unchecked_refuted`).
* Vector plus or minus a scalar expression (`forwards.h` 717-760, no overload in `runtime/vector_expr.hpp`) compiles to
  a binary expression on the whole vector, which cannot be evaluated at any point (`C72_vector_plus_scalar_refuted`).
* The tutorial's Newton solver returns not-a-number where the Jacobian is singular, as if it had converged
  (`C73_singular_jacobian_refuted`), and drops all but two entries of the guess, so that equations with a parameter
  throw in the second round (`C73_step_keeps_two_entries`, `C73_parameters_lost_refuted`).
* `rt_unary_expr::can_simplify` does not report a function of a number (unary_expr.hpp 231-239), although `simplify`
  would fold it (214-228): after substituting numbers `exp(c)` is computed in advance only if something else in the
  tree can be simplified, otherwise at every evaluation (`C74_functions_of_numbers_refuted`; no wrong value, but
  contrary to the purpose stated in the tutorial model_benchmark.cpp).
* `shallow_str()` of leaves is `deep_str()`, although described as "identifying just the type"
  (`C75_shallow_str_just_the_type_refuted`).

### Does not compile when used
* `vector / vector` (ambiguous between `runtime/vector_expr.hpp` 281-289 and 291-299) and `vector + 1.0`
  (`C72_which_operators_compile`).
* `rt_unary_expr::operator=` (`runtime/unary_expr.hpp` 94-99), `rt_vector_expr::optimize` and `optimizable`
  (`runtime/vector_expr.hpp` 191-210), `inplace_simplify` for `rt_unary_expr` and `rt_binary_expr`
  (`manipulation/simplify.hpp` 912-925), `laplace(rt_expr)` (`C58_laplace_of_expression_refuted`),
  `exp` of an `rt_unary_expr` (`C58_exp_of_function_refuted`), calls with an `int` (`C59_which_calls_compile`), the LaTeX `operator()(rt_constant)`
  (`manipulation/latex.hpp` 150-151), the call operator of `ct_unary_expr`, `operator<<` of `ct_function_symbol` and of a `ct_equation` or
  `ct_interval` with an `rt_constant` in it (`C78_everything_can_be_streamed_refuted`).
* `diff` of an `rt_variable` (`C61_same_for_every_class_refuted`); `substitute` of an `rt_expr`, `int` or
  `ct_constant` for an `rt_variable` (`C62_always_as_written_refuted`); `make_interval` from a `ct_variable`
  to a run-time object; `make_equation` of a number and an `rt_constant` or function symbol
  (`C60_all_pairs_compile_refuted`).
* Ambiguous specialisations: `c-0` for a compile-time constant other than 1 and -1 (`C36_constant_minus_zero`),
  `(1/2)*2`.
* `polynomial_degree` of a sum in a denominator; `integrate` of `(0-x)-1`, or of `2*x` over `[0,1]`
  (`C46_always_compiles_refuted`).
* The `value + other.lhs()` overloads; a `ct_binary_expr` containing an `rt_constant` with generic operators.
