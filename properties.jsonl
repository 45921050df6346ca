{"id": "C01", "title": "Overloaded arithmetic and its simplifications are sound", "statement": "Building an expression with CG's overloaded operators (+ - * / and the compound assignments, unary minus, pow, the unary maths functions, conditional expressions) yields an object whose recorded graph, evaluated at any values of the independent variables, gives exactly the value of the same operation applied to the operands' values; in particular constant folding and the 0/1 identities (x+0, 0*x, 1*x, x/1, 0/x, x/x, pow(x,0), ...) never change the meaning in a field (divisors assumed non-zero where a quotient is simplified away).", "quantifier": "all base fields, all operand pairs (parameter or variable), all graphs already recorded, all values of the independents", "why_tests_cant": "the simplification that fires depends on which operands are constants and on their values; tests sample a few literal models", "anchors": ["include/cppad/cg/arithmetic.hpp: operator+ - * /", "include/cppad/cg/arithmetic_assign.hpp", "include/cppad/cg/math.hpp", "include/cppad/cg/math_other.hpp: pow, sign", "include/cppad/cg/cond_exp_op.hpp"]}
{"id": "C02", "title": "Values stored while recording agree with the graph", "statement": "If the user gives values to the independent variables (setValue) before taping, any CG object produced afterwards that reports isValueDefined() has getValue() equal to the value of its recorded graph at those independents.", "quantifier": "all sequences of operations, all values, any mix of variables with and without values", "why_tests_cant": "an induction over arbitrary operation sequences is needed; a test only compares specific tapes", "anchors": ["include/cppad/cg/variable.hpp: getValue/isValueDefined", "include/cppad/cg/arithmetic.hpp", "include/cppad/cg/math.hpp"]}
{"id": "C03", "title": "Recording never disturbs what was recorded before and keeps the graph acyclic", "statement": "Performing any arithmetic operation only appends operations to the handler: the meaning of every CG object obtained earlier is unchanged, and every recorded operation only refers to operations recorded earlier (so the expression graph has no cycle).", "quantifier": "all histories of operations on a handler", "why_tests_cant": "the statement is about every earlier object after every later operation", "anchors": ["include/cppad/cg/code_handler_impl.hpp: makeNode", "include/cppad/cg/arithmetic.hpp"]}
{"id": "C04", "title": "Variables owned by different handlers are never combined", "statement": "Combining two variables that belong to different CodeHandlers is rejected with an exception, never silently recorded.", "quantifier": "all pairs of operands, every binary operation of the API", "why_tests_cant": "needs every operator and every operand shape; one missing check is invisible unless that very operator is tested", "anchors": ["include/cppad/cg/arithmetic.hpp", "include/cppad/cg/arithmetic_assign.hpp", "include/cppad/cg/math_other.hpp: pow", "include/cppad/cg/cond_exp_op.hpp"]}
{"id": "C05", "title": "generateCode: the emitted assignments compute every dependent", "statement": "For a model built from scalar operations, executing the emitted assignments in order, from any initial content of the temporaries array, leaves in y[i] the value that the i-th dependent expression has at the independents x, for every i.", "quantifier": "all scalar operation graphs (any size, any sharing), all dependents vectors (with repeated, constant or directly-independent entries), all x, all initial memory contents, any node-size limit per assignment", "why_tests_cant": "correctness depends on sharing, order and reuse of temporaries in every graph; tests compare a few dozen models at a few points", "anchors": ["include/cppad/cg/code_handler_impl.hpp: generateCode, checkVariableCreation, reduceTemporaryVariables", "include/cppad/cg/lang/c/language_c.hpp: generateSourceCode"]}
{"id": "C06", "title": "Re-used temporaries never hold two live values", "statement": "When the handler is asked to re-use temporary variables, two temporaries that share a storage location are never simultaneously live: no assignment overwrites a temporary whose value is still needed by a later assignment.", "quantifier": "all evaluation orders and all use patterns of temporaries", "why_tests_cant": "liveness clashes only show with particular interleavings of first and last uses", "anchors": ["include/cppad/cg/code_handler_impl.hpp: reduceTemporaryVariables, determineLastTempVarUsage"]}
{"id": "C07", "title": "Evaluation order respects dependencies and evaluates each shared operation once", "statement": "In the emitted sequence every temporary is assigned exactly once per generation and before any assignment that reads it.", "quantifier": "all operation graphs and dependents vectors", "why_tests_cant": "a property of the whole order for every graph", "anchors": ["include/cppad/cg/code_handler_impl.hpp: checkVariableCreation, addToEvaluationQueue/setEvaluationOrder, depthFirstGraphNavigation"]}
{"id": "C08", "title": "Printed C expressions have the value of the expression graph", "statement": "The text printed for an expression, read with C's grammar (precedence and associativity of + - * / unary minus, calls and parentheses), denotes in any field the value of the expression graph: parentheses are omitted only where this is harmless.", "quantifier": "all expression trees over + - * / unary minus, function calls, variables, and (possibly negative) constants", "why_tests_cant": "parenthesisation errors show only for particular nestings; there are unboundedly many nestings", "anchors": ["include/cppad/cg/lang/c/language_c.hpp: printOperationAdd/Minus/Mul/Div/UnaryMinus, encloseInParenthesesMul/Div"]}
{"id": "C09", "title": "Printed C expressions keep the recorded association of operations", "statement": "The generated code performs the same floating-point operations in the same association as the recorded graph, so a generated model returns the same floating-point result as evaluating the graph.", "quantifier": "all expression trees, all double inputs", "why_tests_cant": "re-association is invisible for well-conditioned samples compared with a tolerance", "anchors": ["include/cppad/cg/lang/c/language_c.hpp: encloseInParenthesesMul, printOperationAdd, printOperationMul"]}
{"id": "C10", "title": "Sub-expressions of the generated C are evaluated in the base type", "statement": "Every sub-expression of a generated assignment is of the base floating-point type, so that / is never an integer division.", "quantifier": "all expression trees", "why_tests_cant": "requires typing every possible printed expression", "anchors": ["include/cppad/cg/lang/c/language_c.hpp: printSignFunction? (sign), writeParameter"]}
{"id": "C11", "title": "Pieces of generated text are emitted in order and exactly once", "statement": "The text produced for an assignment is the left-to-right in-order expansion of its expression: every pushed piece of text and every sub-expression is written once, in the order pushed, whatever the nesting.", "quantifier": "all nesting depths and push sequences", "why_tests_cant": "needs an induction over the explicit stack machine", "anchors": ["include/cppad/cg/lang/lang_stream_stack.hpp: LangStreamStack"]}
{"id": "C12", "title": "Array storage handed out for atomic functions never overlaps live storage", "statement": "Array slots reserved for live arrays of the generated code never overlap one another, and the declared work array is large enough for all of them.", "quantifier": "all sequences of reserve/free, all sizes and blacklists", "why_tests_cant": "fragmentation/merging bugs need particular histories", "anchors": ["include/cppad/cg/array_id_compresser.hpp: ArrayIdCompresser"]}
{"id": "C13", "title": "Iteration-range set operations are exact", "statement": "Combining two lists of iteration ranges yields precisely the union of the iterations, and inverting yields precisely the complement.", "quantifier": "all range lists, all iteration numbers", "why_tests_cant": "boundary cases (adjacent, nested, single-iteration ranges) are unbounded in number", "anchors": ["include/cppad/cg/range.hpp"]}
{"id": "C14", "title": "Loop index conditions test membership exactly", "statement": "The C condition printed for an if-branch in a generated loop is true exactly for the iterations contained in its ranges.", "quantifier": "all range lists, all iteration indices", "why_tests_cant": "every list shape prints a different condition", "anchors": ["include/cppad/cg/lang/c/language_c.hpp: printIndexCondExpr"]}
{"id": "C15", "title": "Detected index patterns reproduce the indices", "statement": "The index pattern detected for an index sequence (linear, sectioned, or tabulated), when evaluated at each position, gives exactly the original index.", "quantifier": "all index vectors and all index maps, all section limits", "why_tests_cant": "section splitting depends on the sequence; unboundedly many shapes", "anchors": ["include/cppad/cg/patterns/index/index_pattern_impl.hpp: IndexPattern::detect", "include/cppad/cg/patterns/index/sectioned_index_pattern.hpp: detectLinearSections"]}
{"id": "C16", "title": "Two-dimensional index patterns reproduce the indices", "statement": "A detected plane pattern z = f(x) + g(y) evaluates exactly to the given index at every given pair.", "quantifier": "all maps from index pairs to indices", "why_tests_cant": "unbounded maps", "anchors": ["include/cppad/cg/patterns/index/plane_2d_index_pattern.hpp: detectPlane2D"]}
{"id": "C17", "title": "Printed index expressions equal the index pattern", "statement": "The C index expression printed for a pattern evaluates (with C integer semantics) to the pattern's value for every loop index.", "quantifier": "all patterns, all index values", "why_tests_cant": "omitted terms, negative offsets and divisions interact for arbitrary parameters", "anchors": ["include/cppad/cg/lang/c/language_c_index_patterns.hpp"]}
{"id": "C18", "title": "Sparsity-pattern products are boolean matrix products", "statement": "The set-of-columns sparsity helpers (transpose, sum, products with optionally transposed factors) compute exactly the boolean matrix expression in their documentation, including their identity and empty short-cuts.", "quantifier": "all patterns of all dimensions", "why_tests_cant": "the short-cuts fire only for special patterns; dimension mix-ups are invisible on square samples", "anchors": ["include/cppad/cg/util.hpp: multMatrixMatrixSparsity, multMatrixTransMatrixSparsity, multMatrixMatrixSparsityTrans, addMatrixSparsity, addTransMatrixSparsity, transposePattern"]}
{"id": "C19", "title": "Sparsity index lists enumerate the pattern", "statement": "Generating (row, col) lists from a pattern lists each non-zero exactly once in row-major order, and rebuilding a pattern from the lists returns the original.", "quantifier": "all patterns", "why_tests_cant": "unbounded patterns", "anchors": ["include/cppad/cg/extra/sparsity.hpp: generateSparsityIndexes, generateSparsitySet"]}
{"id": "C20", "title": "Colouring for the joint Jacobian/Hessian sweep never merges conflicting columns", "statement": "Columns given the same colour never contribute to a common requested Jacobian or Hessian element, so every requested element can be read from its colour's sweep.", "quantifier": "all sparsity patterns and requested element sets", "why_tests_cant": "greedy colouring outcomes depend on the whole pattern", "anchors": ["include/cppad/cg/extra/sparse_forjac_hessian.hpp: colorForwardJacobianHessian"]}
{"id": "C21", "title": "Solving an equation for a variable returns a solution", "statement": "When solveFor succeeds for a variable that occurs once in an expression (and is not the expression itself), substituting the returned expression makes the original expression equal zero (under the domain conditions of the inverted functions), and the variable does not occur in the returned expression.", "quantifier": "all expression graphs with a single occurrence path, all values", "why_tests_cant": "every nesting of operations has its own inversion chain", "anchors": ["include/cppad/cg/solver.hpp: solveFor"]}
{"id": "C22", "title": "isSolvable predicts solveFor", "statement": "isSolvable returns true exactly when solveFor on the same path would not throw.", "quantifier": "all expressions and paths", "why_tests_cant": "two independent case analyses must agree on every operation and argument position", "anchors": ["include/cppad/cg/solver.hpp: isSolvable, solveFor"]}
{"id": "C23", "title": "Collecting repeated occurrences of a variable preserves the equation", "statement": "When a variable occurs several times below additions and subtractions, rewriting the expression so that it occurs once preserves its value.", "quantifier": "all expressions whose bifurcation is an addition/subtraction", "why_tests_cant": "sign bookkeeping depends on argument positions along both paths", "anchors": ["include/cppad/cg/collect_variable.hpp: collectVariable, collectVariableAddSub"]}
{"id": "C24", "title": "Found paths are paths; the path graph contains exactly the nodes on paths", "statement": "Every path returned by findPaths starts at the root, ends at the target and follows argument links; the graph returned by findPathGraph contains only nodes lying on some path from the root to the target, and all of them when the limit of bifurcations is not reached.", "quantifier": "all DAGs, roots and targets, all limits", "why_tests_cant": "depends on sharing in arbitrary DAGs", "anchors": ["include/cppad/cg/operation_path.hpp", "include/cppad/cg/bidir_graph.hpp"]}
{"id": "C25", "title": "Evaluator replays the graph exactly", "statement": "Evaluating a recorded graph with new values for the independents returns for every dependent the value of the recorded expression, each operation being computed at most once.", "quantifier": "all graphs, all values, all target types", "why_tests_cant": "memoisation with re-entrancy must be right for every DAG", "anchors": ["include/cppad/cg/evaluator/evaluator.hpp: Evaluator"]}
{"id": "C26", "title": "DAE equation/variable matching stays a matching", "statement": "Each successful augmentation keeps every previously matched equation matched, matches the requested equation, matches only variables that occur in the equation and never matches one variable to two equations; a failed one changes no assignment.", "quantifier": "all bipartite incidence graphs and current matchings", "why_tests_cant": "recursive re-assignment chains of any length", "anchors": ["include/cppad/cg/dae_index_reduction/augment_path_depth_lookahead.hpp", "include/cppad/cg/dae_index_reduction/augment_path_depth_lookahead_a.hpp"]}
{"id": "C27", "title": "A failed augmentation proves structural singularity of the coloured set", "statement": "If no augmenting path is reported for an equation, none exists: the visited equations together have fewer candidate variables than equations.", "quantifier": "all bipartite graphs", "why_tests_cant": "needs a Hall-type argument over the explored set", "anchors": ["include/cppad/cg/dae_index_reduction/augment_path_depth_lookahead.hpp", "include/cppad/cg/dae_index_reduction/pantelides.hpp: detectSubset2Dif"]}
{"id": "C28", "title": "Thread pool runs each added job exactly once and wait returns only afterwards", "statement": "For every interleaving of worker threads, each added job is executed exactly once, and thpool_wait returns only when all jobs added before it have finished.", "quantifier": "all numbers of workers, jobs and all schedules", "why_tests_cant": "schedules are unbounded; races show rarely", "anchors": ["include/cppad/cg/model/threadpool/pthread_pool.c"]}
{"id": "C29", "title": "Job ordering is longest-first", "statement": "thpool_update_order makes later submissions start jobs in descending order of measured time; whatever the order array, each job is still submitted once.", "quantifier": "all measured times and all job counts", "why_tests_cant": "an inverted permutation looks right on sorted or involutive samples", "anchors": ["include/cppad/cg/model/threadpool/pthread_pool.c: cppadcg_thpool_update_order, cppadcg_thpool_add_jobs"]}
{"id": "C30", "title": "Static and guided grouping partition the jobs", "statement": "The groups of jobs formed by the static and guided schedulers contain every queued job exactly once and the grouping never reads outside the queue.", "quantifier": "all durations, numbers of jobs and of threads, all tuning factors", "why_tests_cant": "depends on all duration vectors and factors", "anchors": ["include/cppad/cg/model/threadpool/pthread_pool.c: jobqueue_push_static_jobs, jobqueue_pull"]}
{"id": "C31", "title": "Orderings handed to the standard library are strict weak orders", "statement": "Every comparison function the library passes to std::sort/std::map is a strict weak ordering on the values it is used with.", "quantifier": "all element triples", "why_tests_cant": "transitivity/asymmetry quantify over all triples", "anchors": ["include/cppad/cg/util.hpp: SetComparator", "include/cppad/cg/dae_index_reduction/dummy_deriv_util.hpp", "include/cppad/cg/operation_path_node.hpp", "include/cppad/cg/patterns/independent_node_sorter.hpp", "include/cppad/cg/variable_name_generator.hpp / lang nodes"]}
{"id": "C32", "title": "Generated variable names never collide", "statement": "The default name generator gives different storage to different variables: independent, dependent and temporary variables never share a name, and two temporaries share one only if they share an id.", "quantifier": "all ids and indices", "why_tests_cant": "injectivity over all ids", "anchors": ["include/cppad/cg/lang/c/lang_c_default_var_name_gen.hpp"]}
{"id": "C33", "title": "Text splitting and joining are inverse; replacing terminates", "statement": "implode(explode(t,d),d) returns t, and replaceString returns the text with all occurrences replaced.", "quantifier": "all strings and delimiters", "why_tests_cant": "unbounded strings, delimiter overlaps", "anchors": ["include/cppad/cg/util.hpp: explode, implode, replaceString"]}
{"id": "C34", "title": "Per-node side tables stay aligned with the handler's nodes", "statement": "After any sequence of node creation, deletion and table adjustments, information stored for a node is found again for that node and for no other.", "quantifier": "all histories of makeNode/deleteManagedNodes/adjustSize", "why_tests_cant": "alignment depends on the whole history", "anchors": ["include/cppad/cg/code_handler_vector.hpp", "include/cppad/cg/code_handler_impl.hpp: deleteManagedNodes"]}
{"id": "C35", "title": "Substituting an independent by an equation preserves solutions", "statement": "After substituteIndependent, evaluating any dependent gives the value of the original expression with the independent replaced by the solved expression; undo restores the original graph; removeIndependent drops exactly that independent.", "quantifier": "all graphs and dependents", "why_tests_cant": "in-place aliasing affects every user of the node", "anchors": ["include/cppad/cg/graph_mod.hpp"]}
{"id": "C36", "title": "Linked equation groups are the connected components of the links", "statement": "After any sequence of links between equations, two equations are in the same linked group exactly when a chain of links joins them.", "quantifier": "all sequences of links", "why_tests_cant": "union order varies without bound", "anchors": ["include/cppad/cg/patterns/equation_group.hpp: addLinkedEquationsByNonIndexed"]}
{"id": "C37", "title": "Array views access exactly their window", "statement": "An ArrayView segment/head/tail reads and writes exactly the requested window of the parent data, at() rejects indices outside it and assignment copies element-wise even for overlapping views or throws on size mismatch.", "quantifier": "all sizes, offsets, nested views", "why_tests_cant": "composition of arbitrary nested windows", "anchors": ["include/cppad/cg/array_view.hpp"]}
{"id": "C38", "title": "Custom Jacobian/Hessian element filters keep exactly the requested elements", "statement": "Filtering a sparsity pattern with user-requested positions keeps exactly the requested non-zero elements.", "quantifier": "all patterns and requests", "why_tests_cant": "unbounded patterns", "anchors": ["include/cppad/cg/custom_position.hpp"]}
{"id": "C39", "title": "Repeated generation from one handler is consistent", "statement": "Calling generateCode again on the same handler (same or other dependents) produces code equivalent to that of a fresh handler.", "quantifier": "all sequences of generations and resets", "why_tests_cant": "stale per-node state only matters for particular histories", "anchors": ["include/cppad/cg/code_handler_impl.hpp: generateCode, reset, resetManagedNodes"]}
{"id": "C40", "title": "Splitting generated code over several functions preserves it", "statement": "With a limit on the assignments per function, the generated functions called in order perform exactly the assignments of the unsplit code, in the same order, and every function body stays within the limit.", "quantifier": "all statement sequences and all limits", "why_tests_cant": "limit/remainder combinations", "anchors": ["include/cppad/cg/lang/c/language_c.hpp: generateSourceCode, saveLocalFunction"]}
{"id": "C41", "title": "Constants of the generated code are the recorded constants", "statement": "With the default settings every floating-point constant of a recorded expression is written so that the compiler reads back the same number; LaTeX and MathML show the same number; with setParameterPrecision(17) or more nothing is lost.", "quantifier": "all base-type constants and all precisions", "why_tests_cant": "There are 2^64 constants; tests use short decimal numbers, which survive.", "anchors": ["include/cppad/cg/lang/c/language_c.hpp:145", "include/cppad/cg/lang/c/language_c.hpp:2091-2107", "include/cppad/cg/lang/latex/language_latex.hpp:2069-2089", "include/cppad/cg/lang/mathml/language_mathml.hpp:2054-2082", "include/cppad/cg/lang/dot/language_dot.hpp:605-646"]}
{"id": "C42", "title": "The thread pool does not stall", "statement": "Whatever the schedule, after the last call the pool reaches, in finitely many steps, a state where every added job has been run and every thpool_wait has returned.", "quantifier": "all numbers of workers, all sequences of calls, all schedules and spurious wake-ups", "why_tests_cant": "lost wake-ups need a particular interleaving", "anchors": ["include/cppad/cg/model/threadpool/pthread_pool.c: thread_do, thpool_wait, bsem_wait, bsem_post, jobqueue_pull"]}
{"id": "C43", "title": "Shutting the thread pool down is safe and ends", "statement": "thpool_destroy ends, and no thread touches the memory of the pool after it was freed.", "quantifier": "all schedules", "why_tests_cant": "the window between the last decrement and the unlock is a few instructions", "anchors": ["include/cppad/cg/model/threadpool/pthread_pool.c: thpool_destroy, thread_do"]}
{"id": "C44", "title": "Pantelides' reduction delivers an index-one structure", "statement": "When the structural index reduction with Pantelides' method returns, every equation that was not differentiated is matched to a variable of that equation which is a highest derivative, no two equations to the same variable; every added equation contains exactly the variables of the equation it differentiates and their derivatives; the original equations and variables are kept. No null pointer is dereferenced on the way.", "quantifier": "all DAE structures (incidence of variables in equations, derivative relations)", "why_tests_cant": "the number of passes and of differentiations is unbounded and depends on the structure", "anchors": ["include/cppad/cg/dae_index_reduction/pantelides.hpp: detectSubset2Dif", "include/cppad/cg/dae_index_reduction/bipartite_graph.hpp: createDerivate"]}
{"id": "C45", "title": "Pantelides' reduction ends, with a result exactly for regular structures", "statement": "For every model accepted by the constructor, the reduction ends; it returns a result exactly when distinct derivative chains can be assigned to the equations, and reports an error otherwise.", "quantifier": "all DAE structures accepted by the check on the number of unknowns", "why_tests_cant": "non-termination cannot be observed by a test, and the tests use regular models", "anchors": ["include/cppad/cg/dae_index_reduction/pantelides.hpp: detectSubset2Dif", "include/cppad/cg/dae_index_reduction/bipartite_graph.hpp: BipartiteGraph"]}
{"id": "C46", "title": "Solving for a variable always ends and isolates it", "statement": "For an expression and a variable of a handler, whatever the number of occurrences of the variable, solving either returns or throws an exception; the variable does not occur in what is returned, and the existing operations do not change. Asking whether an equation is solvable always gets an answer, which tells whether solving returns.", "quantifier": "all expressions, variables and evaluation orders of operands", "why_tests_cant": "the loop rewrites the expression until one occurrence is left; that it ends for every expression cannot be tested", "anchors": ["include/cppad/cg/solver.hpp: solveFor, isSolvable", "include/cppad/cg/collect_variable.hpp: collectVariable"]}
{"id": "C47", "title": "Arrays given to atomic functions hold their arguments", "statement": "In the generated code, whenever an atomic function is called or an element of an array is used, every array element holds the value of the argument it was created with (or the value computed by the atomic function which filled the array), although arrays share one work array and assignments of values which are already there are skipped.", "quantifier": "all graphs with any number of arrays and atomic function calls, in any evaluation order, all releases of arrays after their last use", "why_tests_cant": "whether a place is reused depends on the sizes and lifetimes of all arrays; tests only cover a few layouts", "anchors": ["include/cppad/cg/array_id_compresser.hpp: reserveArraySpace, addFreeArraySpace", "include/cppad/cg/lang/c/language_c_arrays.hpp: pushArrayCreationOp, markArrayChanged", "include/cppad/cg/code_handler_impl.hpp: reduceTemporaryVariables"]}
{"id": "C48", "title": "Sparsity answers of atomic functions", "statement": "The sparsity patterns an atomic function built from a compiled model (or bridged from a tape with cached sparsities) reports to the differentiation engine are exactly the boolean products of its Jacobian and Hessian patterns with the given patterns, independent of what the output arguments contained before the call.", "quantifier": "all Jacobian/Hessian patterns, all seed patterns of all dimensions, all previous contents of the outputs", "why_tests_cant": "a missing entry only shows for particular patterns and silently drops derivatives", "anchors": ["include/cppad/cg/model/atomic_generic_model.hpp: for_sparse_jac, rev_sparse_jac, rev_sparse_hes", "include/cppad/cg/atomic_fun_bridge.hpp: for_sparse_jac, rev_sparse_jac, rev_sparse_hes"]}
{"id": "C49", "title": "Atomic functions receive their arrays", "statement": "Whenever the generated C code calls an atomic function, every Array structure passed to it describes the array of that call: data pointer, size, sparsity flag, and for sparse arrays the number of non-zeros and the indexes.", "quantifier": "all sequences of atomic calls, all nestings of blocks, all numbers of iterations and all branches taken", "why_tests_cant": "the printer leaves out fields it believes to be set already; whether they are depends on the whole history of the function and on the path taken", "anchors": ["include/cppad/cg/lang/c/language_c_arrays.hpp: printArrayStructInit", "include/cppad/cg/lang/c/language_c.hpp: pushAtomicForwardOp, pushAtomicReverseOp, generateArrayContainersDeclaration"]}
{"id": "C50", "title": "Related dependents stay consistent while loops are searched", "statement": "While the library looks for loops, the groups of dependent variables which must be evaluated in the same iteration are disjoint, never hold two dependents of the same equation, and each loop gets exactly the groups of its own equations; an attempt to combine two loops which is given up leaves everything as it was.", "quantifier": "all sets of equation patterns, all sequences of attempts with any relations between dependents, accepted or rejected", "why_tests_cant": "the groups are shared through pointers, merged, copied and deleted in an order which depends on the whole history of attempts", "anchors": ["include/cppad/cg/patterns/dependent_pattern_matcher.hpp: makeDependentRelation, findLoops", "include/cppad/cg/patterns/loop.hpp: setLinkedDependents"]}
{"id": "C51", "title": "Every dependent of a loop is computed in one iteration", "statement": "When the library creates a loop, every dependent variable of its equations is computed in exactly one iteration, the related dependents are computed in the same iteration, no iteration has two dependents of the same equation, and the assignment always terminates without undefined behaviour.", "quantifier": "all equations of a loop, all relations between their dependents and all groups of equations linked by non-indexed variables", "why_tests_cant": "the assignment depends on the order of all the dependents and on which of them are related; the tested models have ordered relations", "anchors": ["include/cppad/cg/patterns/loop.hpp: generateDependentLoopIndexes, findBestDependent"]}
{"id": "C52", "title": "Sparse Jacobians and Hessians assembled from directional functions hold the requested elements", "statement": "When the sparse Jacobian or Hessian of a generated model is computed by calling its functions of first order forward or reverse mode or second order reverse mode, every requested element receives its own derivative, no access is out of bounds, nothing depends on the previous content of the arrays, and with several threads no two of them write in the same place and every schedule gives the same result; the Hessian generated directly gives each element requested, in the requested triangle.", "quantifier": "all lists of requested elements, in any order, all contents of the arrays, all modes, with and without atomic functions, all schedules of the threads", "why_tests_cant": "the place of each element depends on the order of the whole list, and with threads on the schedule; the tests use a few lists of elements and run a few schedules", "anchors": ["include/cppad/cg/model/model_c_source_gen_jac.hpp: generateSparseJacobianForRevSingleThreadSource, generateSparseJacobianForRevMultiThreadSource", "include/cppad/cg/model/model_c_source_gen_hes.hpp: generateSparseHessianSourceFromRev2SingleThread, generateSparseHessianSourceFromRev2MultiThread, generateSparseHessianSourceDirectly", "include/cppad/cg/model/model_c_source_gen_for1.hpp", "include/cppad/cg/model/model_c_source_gen_rev1.hpp", "include/cppad/cg/model/model_c_source_gen_rev2.hpp"]}
{"id": "C53", "title": "Directional derivatives are the products of the Jacobian or Hessian by the given directions", "statement": "The first order forward and reverse mode methods and the second order reverse mode method of a compiled model give, for each output, the sum over the directions of the requested element of the Jacobian (or of the Hessian of the weighted equations) times the seed of the direction; they change nothing else in the arrays of the caller, do not depend on what these had before, and report a lack of memory; the methods with sparse arguments give the same as those with dense arguments.", "quantifier": "all models, all lists of requested elements, all points and seeds, all contents of the arrays, all failures of memory allocation, all lists of directions", "why_tests_cant": "the result depends on which directions have elements and seeds, on the order of the elements and on the failures of allocation; tests use a few dense directions and never run out of memory", "anchors": ["include/cppad/cg/model/model_c_source_gen_for1.hpp: generateForwardOneSources", "include/cppad/cg/model/model_c_source_gen_rev1.hpp: generateReverseOneSources", "include/cppad/cg/model/model_c_source_gen_rev2.hpp: generateReverseTwoSources", "include/cppad/cg/model/model_c_source_gen_impl.hpp: generateGlobalDirectionalFunctionSource, generateSparsity1DSource2", "include/cppad/cg/model/functor_generic_model.hpp: ForwardOne, ReverseOne, ReverseTwo"]}
{"id": "C54", "title": "Atomic functions keep their values and derivatives in recordings and in the generated code", "statement": "When a sweep (orders 0 and 1 forward, first and second order reverse) goes through a call of a user atomic function with right sparsity patterns, every coefficient it gives has in the generated code the value which the function gives for the values of the operands there, and as stored value the one for the stored values of the operands; coefficients are only left out (zero) when they are zero.", "quantifier": "all atomic functions, all mixes of parameters, variables and known values in the operands and partial derivatives, all values at run time", "why_tests_cant": "which coefficients become elements of arrays, zeros or parameters depends on each combination of parameters, sparsity and orders; tests have a few functions, and the one for nonlinear operations after the call is disabled", "anchors": ["include/cppad/cg/abstract_atomic_fun.hpp: CGAbstractAtomicFun::forward, reverse", "include/cppad/cg/base_abstract_atomic_fun.hpp: makeArray, makeSparseArray, makeZeroArray", "include/cppad/cg/atomic_fun.hpp: zeroOrderDependency, sparsityIndeps", "include/cppad/cg/model/atomic_external_function_wrapper.hpp: forward, reverse, convert, convertAdd", "include/cppad/cg/model/generic_model_external_function_wrapper.hpp: reverse", "include/cppad/cg/lang/c/language_c.hpp: pushAtomicForwardOp, pushAtomicReverseOp"]}
{"id": "C55", "title": "Model objects follow the life of their libraries and of their external functions", "statement": "Over any sequence of opening, moving and closing libraries, obtaining, moving and destroying model objects, giving external functions and evaluating, in which only objects in use are used: an evaluation of a model object whose library was closed throws the exception that says so, and with an open library it throws if and only if a function is absent, a size is wrong or an external function was not given, otherwise the compiled code is called with the external functions last given for each name; nothing undefined happens, files stay mapped as long as libraries are open on them and the on-close function is called once per library.", "quantifier": "all files and all histories of operations on any number of libraries and model objects", "why_tests_cant": "the objects refer to one another by plain pointers, so validity depends on the whole history of moves, destructions and registrations; tests destroy objects in one order", "anchors": ["include/cppad/cg/model/dynamic_lib/linux/linux_dynamiclib.hpp: LinuxDynamicLib", "include/cppad/cg/model/dynamic_lib/linux/linux_dynamiclib_model.hpp: LinuxDynamicLibModel", "include/cppad/cg/model/functor_model_library.hpp: validate, setThreadNumber, getThreadNumber", "include/cppad/cg/model/functor_generic_model.hpp: init, addExternalFunction, evaluation methods, modelLibraryClosed", "include/cppad/cg/model/generic_model.hpp: asAtomic, move constructor"]}
{"id": "C56", "title": "A library created from models holds the functions that were asked for, and creating it leaves nothing behind", "statement": "When a dynamic or static library is created from a set of models, the library has one object for each function asked for by the settings of each model, and nothing else; it can be loaded; each model in it reports exactly the functions that were asked for; whatever fails, no temporary file is left and no other file is changed; and creating the library again after a failure gives what the first attempt would have given.", "quantifier": "all sets of models, names and settings, all histories of settings, added models and creations, and a failure of the compiler or linker at any call", "why_tests_cant": "name clashes depend on pairs of model names, and failures can happen at each of the calls of the compiler; the tests create a library once from one model and the compiler succeeds", "anchors": ["include/cppad/cg/model/model_c_source_gen_impl.hpp: getSources, generateSources", "include/cppad/cg/model/model_library_c_source_gen.hpp", "include/cppad/cg/model/model_library_c_source_gen_impl.hpp: getLibrarySources", "include/cppad/cg/model/compiler/abstract_c_compiler.hpp: compileSources, cleanup", "include/cppad/cg/model/compiler/gcc_compiler.hpp: buildDynamic", "include/cppad/cg/model/dynamic_lib/dynamic_library_processor.hpp: createDynamicLibrary, createStaticLibrary", "include/cppad/cg/model/functor_generic_model.hpp: loadFunctions"]}
{"id": "C57", "title": "A model reports the patterns of its derivatives, and its sparse results are stored where the reported positions say", "statement": "The sparsity patterns that a loaded model reports (as sets, as booleans, as lists of rows and columns) for the Jacobian, the Hessian and the Hessian of each equation are exactly the elements CppAD finds, or, if elements were requested, those of them that CppAD finds, in the order of the request; sparse Jacobians and Hessians are returned so that value, row and column of each element agree, in the dense, vector and array forms; calls with wrong sizes are rejected and nothing outside of the given vectors is accessed; the Hessian of one equation and the marks of variable results are right.", "quantifier": "all recorded functions and their patterns, all requested elements, all sizes and values of the vectors given by the user", "why_tests_cant": "which equations share a colour depends on the whole pattern, and an element of the wrong equation appears only for particular combinations of patterns and requests; an access outside of a vector or an uninitialised element is not visible in the result of a test", "anchors": ["include/cppad/cg/model/model_c_source_gen_jac.hpp: determineJacobianSparsity", "include/cppad/cg/model/model_c_source_gen_hes.hpp: determineHessianSparsity", "include/cppad/cg/model/model_c_source_gen_impl.hpp: colorByRow, generateSparsity2DSource, generateSparsity2DSource2", "include/cppad/cg/model/functor_generic_model.hpp: JacobianSparsity, HessianSparsity, SparseJacobian, SparseHessian, ForwardZero, createDenseFromSparse", "include/cppad/cg/model/generic_model.hpp: Hessian"]}
{"id": "C58", "title": "Equations found to have the same pattern can be computed by one loop without changing their values", "statement": "When the user gives sets of dependent variables that may be related, two of them are found to have the same pattern exactly if their expressions are the same but for the independents used; and in a loop made from such patterns each iteration computes, for each equation, the value that the original model gives for the dependent variable of that iteration, with operations that are the same in all iterations computed outside of the loop; dependents that are independents do not change.", "quantifier": "all recorded models, all sets of related candidates, all loops made from the patterns found, all values of the independents", "why_tests_cant": "a wrong value appears only if operations are shared inside or between the equations in particular ways; tests have a few regular models, in which every equation shares operations in the same way", "anchors": ["include/cppad/cg/patterns/equation_pattern.hpp: EquationPattern::testAdd, comparePath, saveOperationReference, detectNonIndexedIndependents", "include/cppad/cg/patterns/dependent_pattern_matcher.hpp: findRelatedVariables, findLoops", "include/cppad/cg/patterns/loop.hpp: createLoopModel, createLoopTapeNModel, makeGraphClones", "include/cppad/cg/patterns/loop_model.hpp: LoopModel"]}
{"id": "C59", "title": "The model made by an index reduction is the user's model with time derivatives of its equations", "statement": "The model returned by an index reduction has the user's equations first and unchanged; every other equation is the total time derivative of the equation it is reported to be the derivative of, along every trajectory, so every solution of the user's model is a solution of the new one and the other way round; the reported derivative, antiderivative, order and original antiderivative of every variable agree with each other; removing differentiated equations ends and keeps all this; no new model is made exactly if no equation was differentiated.", "quantifier": "all models and variable informations, all sequences of differentiations of variables and equations and of removals of equations, all trajectories", "why_tests_cant": "the identity of derivatives holds at every point and for every trajectory; the chain of recorded models, one for each order, has no bound; indexes are shifted by removals only after particular histories", "anchors": ["include/cppad/cg/dae_index_reduction/bipartite_graph.hpp: BipartiteGraph, createDerivate, remove, generateNewModel, reverseTimeDiff, prepareTimeDependentVariables, determineVariableOrder", "include/cppad/cg/dae_index_reduction/time_diff.hpp: TimeDiff", "include/cppad/cg/dae_index_reduction/dae_var_info.hpp: DaeVarInfo", "include/cppad/cg/dae_index_reduction/dae_equation_info.hpp: DaeEquationInfo"]}
{"id": "C60", "title": "Dummy derivatives give a model with as many equations as unknowns, the same solutions and consistent information", "statement": "The method of dummy derivatives selects exactly one dummy derivative for each equation that was made by differentiation, never a variable the user wants to avoid unless the others are not enough, and prefers derivatives of originally algebraic variables if this is asked for; removal of variables by substitution, the semi-explicit form and the new order give models with the same residuals and the same solutions; after each of them the reported derivatives, antiderivatives, assigned variables, explicit equations and the order of variables are the documented ones and no element outside of the arrays is used.", "quantifier": "all graphs made by index reductions, all Jacobians and pivot orders, all sets of removed variables and equations, all orders, all values of the variables", "why_tests_cant": "selections depend on the values of the Jacobian and on pivots; positions after removals depend on every combination of what is removed; equality of solutions is for all values", "anchors": ["include/cppad/cg/dae_index_reduction/dummy_deriv.hpp: reduceIndex, addDummyDerivatives, reduceEquations, generateSemiExplicitDAE, reorderModelEqNVars, generateReorderedModel, selectDummyDerivatives, setReorder, setAvoidConvertAlg2DifVars", "include/cppad/cg/dae_index_reduction/dummy_deriv_util.hpp: sortVariablesByOrder, sortEquationByAssignedOrder2"]}
{"id": "C61", "title": "Calling a compiler, or any other program, ends and reports what the program did", "statement": "A call of an external program with callExecutable ends for every program that ends, whatever the speed of the two processes: it returns if and only if the program ended with 0, it stores all that the program wrote in the given string, it throws an exception with the code or the signal and what the program wrote about the error otherwise, and with the path and the reason if the program could not be executed; the program receives exactly the given input; no descriptor stays open, no zombie is left and the calling process is not ended.", "quantifier": "all programs (as what they read, write and how they end), all inputs, all interleavings of the two processes, all capacities of pipes, failures of pipe and fork, ignored SIGPIPE and SIGCHLD", "why_tests_cant": "a test sees one schedule of two processes and small outputs; the order in which pipes get full or closed, and which process ends first, decide the outcome", "anchors": ["include/cppad/cg/model/system/linux_system.hpp: callExecutable, FDHandler, PipeHandler", "include/cppad/cg/model/system/system.hpp: callExecutable", "include/cppad/cg/model/compiler/gcc_compiler.hpp: compileSource, buildDynamic", "include/cppad/cg/model/compiler/clang_compiler.hpp: getVersion, compileSource"]}
{"id": "C62", "title": "The structural index reduction of Soares and Secchi", "statement": "For every structure of a DAE system (variables, their derivatives, the equations they occur in), reduceIndex with the method of Soares and Secchi ends, and never follows a null pointer: either it refuses the structure with an exception, or it returns a system in which every equation that has no derivative is assigned the highest derivative of its own variable, no two the same, the added equations are the derivatives of the given ones, and the equations differentiated last can be removed again; the given equations and variables are kept. A structure is refused if and only if it is structurally singular, and the answer depends on the structure alone.", "quantifier": "all structures with any number of variables and equations and any chains of derivatives; all orders in which marked equations are differentiated (addresses of objects)", "why_tests_cant": "the number of passes and of augmenting paths depends on the structure, and the order of differentiation on memory addresses; a test sees a few structures and one order each", "anchors": ["include/cppad/cg/dae_index_reduction/soares_secchi.hpp: reduceIndex, detectSubset2Dif", "include/cppad/cg/dae_index_reduction/augment_path_depth_lookahead_a.hpp: augmentPath", "include/cppad/cg/dae_index_reduction/augment_path_depth_lookahead.hpp: augmentPath", "include/cppad/cg/dae_index_reduction/bipartite_graph.hpp: createDerivate, uncolorAll"]}
{"id": "C63", "title": "Results of a generated loop which exist in some iterations only", "statement": "In the loops of generated code, a result (a dependent variable, an element of a Jacobian, a contribution to an element of a Hessian) is assigned or added in exactly the iterations it belongs to, once, at the location it has in that iteration, and a contribution which counts several times in an iteration is added that many times. Iterations in which several results are conditional share if/else structures without changing this, and the generated conditions, read as C, hold for exactly the iterations of their branch.", "quantifier": "all numbers of iterations, all sets of iterations and locations of results, all numbers of additions per iteration, all sequences of results of one loop; loops which run only a group of the iterations", "why_tests_cant": "conditions are simplified by merging with iterations of earlier branches and with the last iteration, an else stands for all that is left, and existing structures are reused; errors show up only for particular sets of iterations in a particular order", "anchors": ["include/cppad/cg/model/patterns/model_c_source_gen_loops.hpp: createIndexConditionExpression, createConditionalContribution, createLoopResult, findExistingIfElse", "include/cppad/cg/model/patterns/model_c_source_gen_loops_hess.hpp: createHessianContribution", "include/cppad/cg/model/patterns/model_c_source_gen_loops_rev2.hpp: createReverseMode2Contribution", "include/cppad/cg/lang/c/language_c.hpp: pushStartIf, pushElseIf, pushElse, pushEndIf, pushCondResult"]}
{"id": "C64", "title": "Values and sparse Jacobian of a model with loops", "statement": "When a model is given as loops (groups of equations which repeat with other variables) plus equations outside loops, the generated function for its values gives every dependent variable its value, and the generated sparse Jacobian gives every requested element the derivative of its equation, whether the dependence is through variables that change with the iteration, through variables common to all iterations or through temporaries computed outside the loop. Equations missing in some iterations do not matter, nor what is read for variables an iteration does not have. A request that repeats an element computed in a loop is refused.", "quantifier": "all numbers of loops, iterations, equation patterns and temporaries, all tables of indexes, all sparsity patterns covering the dependencies, all lists of requested elements in any order, all points where the tapes are differentiable", "why_tests_cant": "an element may get contributions through several kinds of variables in one iteration and none in another; positions are kept per kind of variable and per iteration, and a wrong or lost position shows only for particular index tables", "anchors": ["include/cppad/cg/model/patterns/model_c_source_gen_loops_jac.hpp: analyseSparseJacobianWithLoops, prepareSparseJacobianWithLoops, prepareSparseJacobianRowWithLoops, createJacobianElement", "include/cppad/cg/model/patterns/model_c_source_gen_loops_for0.hpp: prepareGraphForward0WithLoops", "include/cppad/cg/model/patterns/loop_model.hpp", "include/cppad/cg/model/patterns/loop_free_model.hpp"]}
{"id": "C65", "title": "Sparse Jacobian and Hessian of a model with loops built from its directional functions", "statement": "When the sparse Jacobian or Hessian of a model with loops reuses the functions of single directions (columns or rows), the generated function adds, for every requested element, the contribution of the equations outside loops and of every group of loop results to the place of that element, whatever the order in which elements were requested, and it never reads or writes outside its arrays, whatever the uninitialised work array contains.", "quantifier": "all requested lists of elements, all sets of directions outside loops, all groups of loop results with any directions and any subsets of elements per direction, all initial contents of the result and of the work array", "why_tests_cant": "places come from index patterns detected over the directions of a group, conditions chosen by number of elements and a work array sized from some of the directions only; which of these are used depends on the order of the request and on all groups together", "anchors": ["include/cppad/cg/model/patterns/model_c_source_gen_loops.hpp: determineForRevUsagePatterns, printForRevUsageFunction", "include/cppad/cg/model/patterns/model_c_source_gen_loops_jac_fr1.hpp: generateSparseJacobianWithLoopsSourceFromForRev", "include/cppad/cg/model/patterns/model_c_source_gen_loops_hess_r2.hpp: generateSparseHessianWithLoopsSourceFromRev2"]}
{"id": "C66", "title": "Directional derivatives of a model with loops", "statement": "ForwardOne, ReverseOne and ReverseTwo of a compiled model with loops give the same sums of derivatives times seeds as for a model without loops: every direction with a seed contributes what the equations outside loops and all the groups of loop results give for it, once, whatever the arrays of the caller and the work arrays contained before, and whatever was called before. This includes the methods which receive only the directions different from zero.", "quantifier": "all requested elements, all sets of directions outside loops and in groups of loop results, all seeds, all lists of directions, all previous contents of outputs and work arrays, all failures of memory reallocation", "why_tests_cant": "functions of loops add to a work array which other calls have used; what is left there depends on the history of calls and on which directions also have equations outside loops", "anchors": ["include/cppad/cg/model/patterns/model_c_source_gen_loops.hpp: generateGlobalForRevWithLoopsFunctionSource", "include/cppad/cg/model/model_c_source_gen_for1.hpp: generateForwardOneSources", "include/cppad/cg/model/model_c_source_gen_rev1.hpp: generateReverseOneSources", "include/cppad/cg/model/model_c_source_gen_rev2.hpp: generateReverseTwoSources", "include/cppad/cg/model/functor_generic_model.hpp: ForwardOne, ReverseOne, ReverseTwo"]}
{"id": "C67", "title": "First order reverse mode of a model with loops", "statement": "For a model with loops, ReverseOne and the sparse Jacobian in reverse mode give exact derivatives: for every weight vector py the result is the product of py and the Jacobian of the equations, including equations which iterations of a loop do not have, variables which only some iterations use and derivatives through temporaries computed outside of the loops; and each requested element of the sparse Jacobian is the partial derivative, in every place where it was requested.", "quantifier": "all models made of loops, all tapes differentiable at the point, all points, all lists of requested elements, all weights, all previous contents of outputs and work arrays", "why_tests_cant": "which function computes an element, at which position of its row and in which iteration depends on the patterns of indexes, on which iterations have the equation and on the order of the request", "anchors": ["include/cppad/cg/model/patterns/model_c_source_gen_loops_rev1.hpp: prepareSparseReverseOneWithLoops, createReverseOneWithLoopsNL, generateLoopRev1Jac", "include/cppad/cg/model/patterns/model_c_source_gen_loops.hpp: createLoopDependentFunctionResult, generateGlobalForRevWithLoopsFunctionSource", "include/cppad/cg/model/patterns/model_c_source_gen_loops_jac.hpp: analyseSparseJacobianWithLoops", "include/cppad/cg/model/patterns/model_c_source_gen_loops_jac_fr1.hpp: generateSparseJacobianWithLoopsSourceFromForRev"]}
{"id": "C68", "title": "First order forward mode of a model with loops", "statement": "For a model with loops, ForwardOne and the sparse Jacobian in forward mode give exact derivatives: for every direction the first order coefficients of the results are the product of the Jacobian and the direction, including variables which several iterations or only some iterations use, variables used both with and without an index and derivatives through temporaries computed outside of the loops; each requested element of the sparse Jacobian is the partial derivative, and the sources are generated for every requested sparsity.", "quantifier": "all models made of loops, all tapes differentiable at the point, all points, all lists of requested elements, all directions, all previous contents of outputs and work arrays", "why_tests_cant": "which group of variables and iterations computes an element, at which position of its column, and how many iterations the function of a variable runs depend on the patterns of indexes and on the request", "anchors": ["include/cppad/cg/model/patterns/model_c_source_gen_loops_for1.hpp: prepareSparseForwardOneWithLoops, generateForwardOneGroupOps, subgroupForOneByContrib, createForwardOneWithLoopsNL, generateLoopFor1Jac", "include/cppad/cg/model/patterns/model_c_source_gen_loops.hpp: createLoopDependentFunctionResult, generateGlobalForRevWithLoopsFunctionSource", "include/cppad/cg/model/patterns/model_c_source_gen_loops_jac.hpp: analyseSparseJacobianWithLoops", "include/cppad/cg/model/patterns/model_c_source_gen_loops_jac_fr1.hpp: generateSparseJacobianWithLoopsSourceFromForRev"]}
{"id": "C69", "title": "Expressions which do not depend on the index are computed before a loop", "statement": "In the source of a model with loops, an expression which does not depend on the index of a loop is computed once before the loop, and the loop uses its value. This changes no result: in every iteration each operation has the value it would have had with everything computed inside of the loop. Nothing which depends on the index leaves the loop, the operations still have an order in which they can be computed, and no operation which depends on the index is left with an argument that could have been computed before.", "quantifier": "all expression graphs of a loop, all ends of loops, all meanings of the operations, all values of the index before the loop and in an iteration", "why_tests_cant": "which operations move depends on the whole graph below the end of the loop; the search changes the graph while it visits it, and shares its marks between all results of the loop", "anchors": ["include/cppad/cg/model/patterns/model_c_source_gen_loops.hpp: moveNonIndexedOutsideLoop, LoopNonIndexedLocator", "include/cppad/cg/code_handler_vector.hpp: adjustSize"]}
{"id": "C70", "title": "Equations chosen to eliminate derivatives can be solved for them", "statement": "When dummy derivatives are to be eliminated or a semi-explicit DAE is wanted, the index reduction chooses for derivatives and dummy derivatives the equations with which they are eliminated. The choice always ends. The equations chosen can be solved for their variables one after the other, each in what the previous substitutions left; no equation and no variable is used twice, no equation outside of the model and no other variable is assigned, and a semi-explicit DAE is only accepted if each derivative has an equation. It stops only when each elimination still possible would leave another variable without equation.", "quantifier": "all DAE models, all sets of derivatives and dummy derivatives, all structures of the equations, all outcomes of the symbolic solver and of the substitutions", "why_tests_cant": "the choice is made by four nested loops with backtracking over a graph which each substitution changes; which variables can be solved for depends on all previous choices", "anchors": ["include/cppad/cg/dae_index_reduction/dummy_deriv.hpp: matchVars2Eqs4Elimination, assignVar2Equation", "include/cppad/cg/dae_index_reduction/bipartite_nodes.hpp: Enode::addVariable, Enode::deleteNode, Vnode::deleteNode"]}
{"id": "C71", "title": "Paths made of folders and files name what they are made of", "statement": "The path of a file in given folders names the file below these folders, in their order, whether or not the folders end with a slash, and it is absolute exactly if the first folder is. The directory and the file name of a path put together name the same file; the file name of a path made of folders and a name is that name and its directory is the path of the folders. A path is reported as absolute exactly if it starts at the root.", "quantifier": "all strings as folders, files and paths, any number of folders", "why_tests_cant": "all strings, with any number and position of slashes and dots", "anchors": ["include/cppad/cg/model/system/linux_system.hpp: createPath, filenameFromPath, directoryFromPath, isAbsolutePath"]}
{"id": "C72", "title": "The information on the use of atomic functions is exact", "statement": "The atomic functions reported for a model are exactly those with a call which some dependent variable needs, each once and with the registered function. The independent variables reported for one are exactly those which affect such a call, and the pairs of sizes exactly those of such calls. Asking again gives the same.", "quantifier": "all models: any number of variables and operations, any sharing of results, calls of any atomic functions nested in any way; with and without debug assertions", "why_tests_cant": "all graphs of operations, with results shared by any number of other operations and visited once", "anchors": ["include/cppad/cg/atomic_dependency_locator.hpp: AtomicDependencyLocator::findAtomicsUsage"]}
