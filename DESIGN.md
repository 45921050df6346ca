# Formal model of CppADCodeGen in Rocq (Coq 8.16.1)

## How the model is organised

* `rocq/theories/*_model.v` – executable Gallina models of the C++/C code, no proofs.  Every definition has a
  comment naming the file and lines in /repo that it models and every simplification.
* `rocq/theories/*_spec.v` / `*_proofs.v` – small independent specifications and the supporting lemmas.
* `rocq/theories/*_thm.v` – the property theorems, `Print Assumptions` under each, and next to each an
  `Example` with a concrete non-trivial instance meeting the hypotheses.  In the smaller areas the specification and the
  lemmas are in the same file, the specification first.

Names: `Cnn_…` is the full property or a self-contained part of it; `…_partial` means only part of the English claim is
proved (what is missing is said beside it); `…_refuted` is a machine-checked counterexample showing that the faithful model
(hence, as far as the model is faithful, the code) violates the claim.

Undefined behaviour, thrown exceptions, failed assertions and lack of fuel are explicit outcomes, never default values.  A
positive theorem says that the outcome is the regular one.  CPPADCG_ASSERT_KNOWN throws in every build;
CPPADCG_ASSERT_UNKNOWN and CppAD's CPPAD_ASSERT_KNOWN only exist in debug builds, so that the models carry on after them as
a release build does (undefined behaviour where that is what follows).

Proof methods: invariants over all histories of calls (handler, tables, streams, pool, relations), simulation between the
emitted program and the graph (generateCode), loop invariants (index patterns, colouring, matching), induction on graphs or
lists elsewhere.  No theorem bounds a size, a depth or a number of steps.

## Trusted base

* Coq's kernel.
* What `Print Assumptions` lists for each theorem: the table at the end.
* The faithfulness of the models to /repo, which was read as text and never run.
* The specifications, which are stated without the functions of the models (for instance the C grammar of `CSyntax.v` and the
  C typing rules of `CTyped.v`, boolean matrices for sparsity, reachability for paths, matchings for the DAE algorithms).

Simplifications common to the models: memory allocation never fails; pointers are indexes into a list (the nodes a handler
manages); `std::set` and `std::map` are sorted duplicate-free lists or functions; exceptions end the operation; `size_t` is
unbounded except where its maximum value is used as a mark; iostream formatting of numbers is exact unless the property is
about it.

## What is modelled

Each model file with the parts of /repo/include/cppad/cg (lines as cited beside each definition).

| model | subject | source cited |
|---|---|---|
| `ArrayPrint_model.v` | The code printed for temporary arrays, and what it does. | `language_c_arrays.hpp`, `language_c.hpp`, `code_handler_impl.hpp` |
| `Arrays_model.v` | The places of temporary arrays inside the work array of the generated code. | `array_id_compresser.hpp`, `language_c_arrays.hpp`, `language_c.hpp`, `code_handler_impl.hpp` |
| `Assemble_model.v` | The sparse Jacobian and Hessian put together from the directional functions | `model_c_source_gen_jac.hpp`, `model_c_source_gen_hes.hpp`, `model_c_source_gen_for1.hpp`, `model_c_source_gen_rev1.hpp`, `model_c_source_gen_rev2.hpp`, `model_c_source_gen_impl.hpp`, `model_c_source_gen.hpp`, `functor_generic_model.hpp` |
| `AtomicRec_model.v` | Calls of atomic functions in recordings and in the generated code | `abstract_atomic_fun.hpp`, `base_abstract_atomic_fun.hpp`, `atomic_fun.hpp`, `language_c.hpp`, `atomic_external_function_wrapper.hpp`, `generic_model_external_function_wrapper.hpp`, `cg.hpp`, `variable.hpp`, `argument.hpp`, `language_c_arrays.hpp` |
| `AtomicUse_model.v` | How a model uses its atomic functions | `atomic_dependency_locator.hpp`, `code_handler_impl.hpp` |
| `CGArith_model.v` | Recording operations with CG<Base> (C01-C04) | `cg.hpp`, `variable.hpp`, `default.hpp`, `arithmetic.hpp`, `arithmetic_assign.hpp`, `unary.hpp`, `math.hpp`, `math_other.hpp`, `cond_exp_op.hpp`, `code_handler_impl.hpp` |
| `CPrint_model.v` | The C text of the generated assignments | `language_c.hpp`, `language_c_double.hpp`, `language_c_float.hpp` |
| `CSyntax.v` | A small fragment of C expression syntax (specification file) | (the C language) |
| `CTyped.v` | The C types of generated expressions (specification) | `language_c.hpp` |
| `Codegen_model.v` | generateCode for scalar operation graphs | `code_handler_impl.hpp`, `language_c.hpp`, `code_handler_vector.hpp`, `operation_stack.hpp`, `language_generation_data.hpp`, `lang_c_default_var_name_gen.hpp` |
| `Color_model.v` | Joint sparse Jacobian and Hessian with a colouring | `sparse_forjac_hessian.hpp` |
| `Compare_model.v` | Model of the comparison functions given to the standard library | `util.hpp`, `model_c_source_gen_loops_rev2.hpp`, `model_c_source_gen_loops_for1.hpp`, `dependent_pattern_matcher.hpp`, `independent_node_sorter.hpp`, `loop.hpp`, `dummy_deriv_util.hpp`, `operation_path_node.hpp` |
| `Containers_model.v` | The Array structures given to atomic functions by the generated C code | `language_c_arrays.hpp`, `language_c.hpp` |
| `DaeGen_model.v` | The index reduced model of a DAE | `bipartite_graph.hpp`, `time_diff.hpp`, `dae_var_info.hpp`, `dae_equation_info.hpp`, `pantelides.hpp`, `soares_secchi.hpp`, `bipartite_nodes.hpp` |
| `Decimal_model.v` | The text of constants | `language_c.hpp`, `language_latex.hpp`, `language_mathml.hpp`, `language_dot.hpp` |
| `Drivers_model.v` | Directional derivatives of the generated models | `model_c_source_gen_for1.hpp`, `model_c_source_gen_rev1.hpp`, `model_c_source_gen_rev2.hpp`, `functor_generic_model.hpp`, `model_c_source_gen_impl.hpp` |
| `DummyD_model.v` | Dummy derivatives | `dummy_deriv.hpp`, `dummy_deriv_util.hpp`, `dae_equation_info.hpp` |
| `Elim_model.v` | The choice of the equations which eliminate derivatives and dummy derivatives | `dummy_deriv.hpp`, `bipartite_nodes.hpp` |
| `Eval_model.v` | Evaluating a recorded graph with other values or another type (C25) | `evaluator.hpp`, `evaluator_cg.hpp`, `code_handler_impl.hpp` |
| `Exec_model.v` | The call of an external program: [system::callExecutable] of | `linux_system.hpp`, `gcc_compiler.hpp`, `clang_compiler.hpp`, `ar_archiver.hpp` |
| `Graph_model.v` | Operation graphs: the data a CodeHandler records | `operation_node.hpp`, `argument.hpp`, `operation.hpp`, `code_handler_impl.hpp`, `math.hpp` |
| `Index_model.v` | Index patterns | `linear_index_pattern.hpp`, `sectioned_index_pattern.hpp`, `plane_2d_index_pattern.hpp`, `random_1d_index_pattern.hpp`, `index_pattern_impl.hpp`, `language_c_index_patterns.hpp` |
| `LibGen_model.v` | Creating a library from models | `model_c_source_gen_impl.hpp`, `model_library_c_source_gen.hpp`, `model_library_c_source_gen_impl.hpp`, `abstract_c_compiler.hpp`, `gcc_compiler.hpp`, `dynamic_library_processor.hpp`, `functor_generic_model.hpp`, `functor_model_library.hpp`, `multi_threading_type.hpp`, `language_c.hpp`, `model_c_source_gen_jac.hpp`, `model_c_source_gen_hes.hpp`, `model_c_source_gen.hpp`, `pthread_pool.c`, `openmp.c`, `thread_pool_access.c` |
| `Library_model.v` | Model objects and model libraries: opening and closing dynamic libraries, | `linux_dynamiclib.hpp`, `linux_dynamiclib_model.hpp`, `functor_model_library.hpp`, `functor_generic_model.hpp`, `generic_model.hpp`, `generic_model_external_function_wrapper.hpp`, `atomic_generic_model.hpp` |
| `Linked_model.v` | Model of the groups of equations linked by temporary variables | `equation_group.hpp`, `loop.hpp` |
| `LoopAsm_model.v` | The sparse Jacobian and Hessian of models with loops put together from their directional functions | `model_c_source_gen_loops.hpp`, `model_c_source_gen_loops_jac_fr1.hpp`, `model_c_source_gen_loops_hess_r2.hpp` |
| `LoopCond_model.v` | Results of a generated loop which exist in some of its iterations only | `model_c_source_gen_loops.hpp`, `model_c_source_gen_loops_hess.hpp`, `model_c_source_gen_loops_rev2.hpp`, `language_c.hpp` |
| `LoopDir_model.v` | Directional derivatives of models with loops | `model_c_source_gen_loops.hpp`, `model_c_source_gen_for1.hpp`, `model_c_source_gen_rev1.hpp`, `model_c_source_gen_rev2.hpp`, `functor_generic_model.hpp` |
| `LoopFor1_model.v` | First order forward mode of a model with loops | `model_c_source_gen_loops_for1.hpp`, `language_c_index_patterns.hpp` |
| `LoopIter_model.v` | Model of the assignment of the dependents of a loop to its iterations | `dependent_pattern_matcher.hpp`, `equation_group.hpp`, `loop.hpp` |
| `LoopJac_model.v` | Values and sparse Jacobian of a model with loops | `model_c_source_gen_loops_jac.hpp`, `model_c_source_gen_loops_for0.hpp`, `model_c_source_gen_loops.hpp`, `loop_model.hpp`, `loop_free_model.hpp` |
| `LoopMove_model.v` | Expressions which do not depend on the index of a loop | `model_c_source_gen_loops.hpp`, `code_handler_vector.hpp` |
| `LoopRev1_model.v` | First order reverse mode of a model with loops | `model_c_source_gen_loops_rev1.hpp`, `model_c_source_gen_loops.hpp`, `model_c_source_gen_rev1.hpp` |
| `LoopTape_model.v` | Equation patterns and the models of loops | `equation_pattern.hpp`, `dependent_pattern_matcher.hpp`, `loop.hpp`, `loop_model.hpp`, `equation_group.hpp` |
| `Match_model.v` | The bipartite graph of equations and variables, the two augmenting path | `bipartite_nodes.hpp`, `bipartite_graph.hpp`, `augment_path_depth_lookahead.hpp`, `augment_path_depth_lookahead_a.hpp`, `pantelides.hpp` |
| `Names_model.v` | Names of variables in C source code | `lang_c_default_var_name_gen.hpp`, `lang_c_custom_var_name_gen.hpp`, `lang_c_default_hessian_var_name_gen.hpp`, `lang_c_default_reverse2_var_name_gen.hpp` |
| `Path_model.v` | Finding a node inside an expression (C24) | `operation_path.hpp`, `bidir_graph.hpp`, `operation_path_node.hpp` |
| `Paths_model.v` | Paths of files | `linux_system.hpp` |
| `PoolSys_model.v` | Thread pool: the concurrent system | `pthread_pool.c` |
| `Pool_model.v` | Thread pool: jobs, order, groups and the job queue | `pthread_pool.c` |
| `Range_model.v` | Model of include/cppad/cg/range.hpp and of LanguageC::printIndexCondExpr | `range.hpp`, `model_c_source_gen_loops.hpp`, `language_c.hpp` |
| `Regen_model.v` | Several generations from one handler | `code_handler.hpp`, `code_handler_vector.hpp`, `code_handler_impl.hpp` |
| `Relations_model.v` | Model of the relations between the dependent variables of a loop | `equation_pattern.hpp`, `dependent_pattern_matcher.hpp`, `loop.hpp` |
| `Report_model.v` | Sparsity patterns reported by a model and the layouts of its sparse results | `model_c_source_gen_jac.hpp`, `model_c_source_gen_hes.hpp`, `model_c_source_gen_impl.hpp`, `functor_generic_model.hpp`, `generic_model.hpp`, `debug.hpp`, `model_c_source_gen.hpp`, `util.hpp` |
| `Soares_model.v` | The structural index reduction of Soares and Secchi. | `soares_secchi.hpp` |
| `Solve_model.v` | Solving an expression for a variable (C21, C22, C23, C35) | `solver.hpp`, `collect_variable.hpp`, `evaluator_solve.hpp`, `graph_mod.hpp`, `default.hpp`, `evaluator.hpp` |
| `Sparsity_model.v` | Model of the sparsity pattern helpers | `debug.hpp`, `util.hpp`, `atomic_generic_model.hpp`, `atomic_fun_bridge.hpp`, `sparsity.hpp`, `custom_position.hpp` |
| `Split_model.v` | Splitting generated code over several C functions | `language_c.hpp` |
| `Stream_model.v` | LangStreamStack (include/cppad/cg/lang/lang_stream_stack.hpp 58-141) | `lang_stream_stack.hpp`, `language_c.hpp` |
| `Subst_model.v` | Substituting independent variables (C35) | `graph_mod.hpp`, `code_handler_impl.hpp`, `operation_node.hpp`, `code_handler.hpp` |
| `Tables_model.v` | Model of the handler's nodes and of the tables with data for each node | `code_handler.hpp`, `code_handler_impl.hpp`, `code_handler_vector.hpp` |
| `Text_model.v` | Model of the text functions of util.hpp | `util.hpp` |
| `View_model.v` | Model of ArrayView | `array_view.hpp` |

## What is not modelled

The C compiler (only how it is called, C61), the work of the dynamic loader (a reference count in C55) and LLVM (`model/llvm`); CppAD's own recording and sweeps
(the derivatives themselves); the model classes which write the source files of a library (`model/model_c_source_gen*`,
except the grouping of jobs, the splitting of functions, colouring, sparsity, the assembly of sparse Jacobians and Hessians, the directional derivatives and the names and sets of sources of a library, C56); saving sources to disk (`ModelLibraryCSourceGen::saveSources` calls `getSources()` without its argument, so it cannot be instantiated); the printing of loops, index assignments and
conditions inside loops in LaTeX, dot and MathML; `patterns/loop_model.hpp` and `patterns/loop_free_model.hpp` but for their tables of indexes and lookups, the functions of second order of models with loops (what calls them is C65 and C66; first order is C67 and C68), loops of several groups of equations and the search of
shared temporaries in `patterns/dependent_pattern_matcher.hpp` (the relations it records are modelled for any calls);
`dae_index_reduction` beyond the augmenting paths, Pantelides, Soares and Secchi, their graph, the regeneration of the model and dummy derivatives (with the choice of
equations for elimination, C70, without the values of the Jacobian; no consistent initialization); atomic functions other than `CGAtomicFun` (the patterns, `CustomPosition` and the Evaluator of atomic operations); file system access and timing (time is a number supplied to
the model of the pool).

## Plan for each property

| id | what is modelled | how it is proved |
|----|------------------|------------------|
| C01 | CG objects (parameter / node+optional value), handler = growing node list, all operators | denotation preserved, case analysis over simplifications, any field (record of operations + laws) |
| C02 | same + stored values | invariant `stored value = denotation at the recorded values` over all operations |
| C03 | same | append-only invariant, `arg index < own index` |
| C04 | several handlers | theorem for checked operators; `_refuted` for operators lacking the check |
| C05 | generateCode pipeline for scalar graphs: use counting, variable creation, ordering, temporary ids, assignment emission | simulation between the emitted assignment list and graph denotation |
| C06 | determineLastTempVarUsage + reduceTemporaryVariables | liveness invariant over the order |
| C07 | depth-first ordering | topological-order invariant of the DFS |
| C08 | printing to C tokens, C grammar for the subset | printed tokens parse (grammar relation / executable parser) to a tree with equal field value |
| C09 | same with float primitives | `_refuted` by concrete doubles if the faithful printing re-associates |
| C10 | printing + C typing (int/double) of printed expression | `_refuted`/`_partial` |
| C11 | LangStreamStack machine | invariant: pending stack denotes the remaining in-order text |
| C12 | ArrayIdCompresser maps | interval-disjointness invariant over operations |
| C13 | range.hpp on `N` with 2^64-1 as size_t max | membership equivalence, induction over lists |
| C14 | printIndexCondExpr → boolean C expression AST | evaluation = membership |
| C15 | IndexPattern::detect, detectLinearSections (vector and map version) | loop invariant: sections so far reproduce the prefix |
| C16 | detectPlane2D | consequence of C15 plus case analysis |
| C17 | index printing → C integer expression AST | evaluation = pattern evaluation |
| C18 | sparsity helpers over lists of sets | extensional equality with boolean matrix definitions |
| C19 | generateSparsityIndexes/Set | enumeration theorem |
| C20 | greedy colouring | invariant over columns |
| C21 | solveFor path inversion | induction on the path, side conditions explicit |
| C22 | isSolvable, solveFor | agreement by induction |
| C23 | collectVariableAddSub | `_refuted` for the general claim + `_partial` positive fragment |
| C24 | findPathGraph, findPaths | soundness/completeness by induction on DAG |
| C25 | Evaluator recursion with memo table | memo invariant |
| C26, C27 | bipartite graph, augmentPath DFS (both variants), Pantelides | matching invariant; Hall argument over coloured set |
| C28 | thread pool as n-worker transition system | invariant over all interleavings |
| C29, C30 | order / grouping arithmetic | permutation and partition theorems; refutations with concrete timings |
| C31 | comparison functions | strict weak order laws / counterexamples |
| C32 | default name generator | injectivity of names as strings |
| C33 | explode/implode/replaceString on strings | induction; non-termination as explicit outcome |
| C34 | CodeHandlerVector + deleteManagedNodes | alignment invariant over histories |
| C35 | GraphMod | semantics of aliasing |
| C36 | EquationGroup links | partition = connected components |
| C37 | ArrayView | window algebra over a heap list |
| C38 | CustomPosition filter | set equality |
| C39 | generateCode called repeatedly / reset | `_refuted` for stale state, `_partial` otherwise |
| C40 | splitting over functions | concatenation equality and bounds |
| C41 | the text of constants (`writeParameter`, `printParameter`), operator<< with a precision, the grammar of C constants and rounding to double as an exact relation on rationals | spacing of doubles against spacing of decimals with 17 and with 15 digits (exact rational arithmetic); `_refuted` by concrete doubles |
| C42, C43 | thread pool: waiting, pausing, destroying | invariants of the transition system of C28; `_refuted` by schedules |
| C44, C45 | Pantelides over the augmenting path search | matching invariants, measure for termination; `_refuted` by structures |
| C46 | solveFor with several occurrences | measure on the number of paths |
| C47 | values cached for the work array and code printed for arrays | simulation of the printed code over all histories; `_refuted` |
| C48 | for_sparse_jac, rev_sparse_jac, rev_sparse_hes of the atomic models | boolean matrix semantics as C18; `_refuted` |
| C49 | the structures passed to atomic functions | invariant relating what the printer remembers and the memory, for every execution |
| C50 | relations between dependents while loops are searched | partition invariant over all histories of attempts |
| C51 | assignment of dependents to iterations | loop invariant under an ordering condition; `_refuted` without it |
| C52 | assembly of sparse Jacobians and Hessians from directional functions | specification by position; interleavings of the writes of the jobs; the arrays given to each function; `_refuted` for repeated elements and for the multipliers in threads |
| C53 | directional derivatives of generated models (dense and sparse arguments) | loop invariants for any values; products over the rationals; `_refuted` for repeated elements, malloc and empty directions |
| C54 | recording of calls of atomic functions and their evaluation in the generated code | denotation of the recorded arrays; case analysis of forward and reverse; soundness of sparsity patterns as hypothesis; `_refuted` for the rest |
| C55 | life of libraries, model objects and external functions | simulation of a machine of pointers, reference counts and observers by a specification machine, over all histories; `_refuted` for moves |
| C56 | creation of libraries from models: names, sources, object files, symbols, failures | words between underscores for the names; invariant of caches over histories; permutation of sources and object files; `_refuted` for clashes, stale caches and exceptions |
| C57 | reported sparsity patterns, their colouring by rows, and the layouts of sparse results | invariant of the colours (disjoint rows), order of requested elements as sorted selections, scatter lemma for dense results; `_refuted` for unchecked sizes, uninitialised multipliers and marks |
| C58 | equation patterns (comparison of expressions, independents, aliases), the independents of loops and the cloned tape of an iteration | shapes of expressions by well-founded recursion on the recorded graph, colours as an invariant of visited pairs, simulation of the clone by the original operation in each iteration; `_refuted` for repeated and crossing operations |
| C59 | the graph of an index reduction (creation, differentiation, removal) and the model generated from it with the atomic function for time | invariant of the graph under any calls, chains of antiderivatives, induction on the levels of derivatives; differentiation of expressions along trajectories over the reals |
| C60 | dummy derivatives: the selection with any Jacobian and any pivots, marks, removals, semi-explicit form, new order, regenerated model | levels of chains of derivatives for the rounds, permutations for the pivots, positions after erasures by induction from the end, substitution of variables in systems of equations |
| C61 | two processes and up to three bounded pipes with tables of descriptors; programs as well-founded trees of reads and writes; schedules as sequences of turns | invariant: what was received, what is in the pipes and what the program will still do add up to its effect without pipes; a measure for ends under fairness; `_refuted` for deadlocks, cut output, SIGPIPE and lost diagnostics |
| C62 | the passes of Soares and Secchi: searches with and without algebraic variables, marks, differentiation in any order | invariant of a pass (assignments, colours, marked equations and their neighbours), number of equations against variables for the end, Hall's condition for refusals; `_refuted` for regular structures refused and for dependence on addresses |
| C63 | ranges of a condition, sorted groups of iterations, if/else structures with the results among the arguments of the next branch, reuse of structures, Hessian contributions grouped by number of additions | invariant over runs of consecutive iterations for the conditions; each structure selects the branch of the iterations kept for it; results pushed onto a structure extend the selected branch; induction over the sequence of requests |
| C64 | index tables of the loops, rows of positions per kind of variable, requests to createLoopResult, loops as effects per iteration, assignments after the loops | invariant of the analysis over the list of elements (each position written once per iteration); sums of contributions over rows, iterations and loops collapse to one term; chain rule along curves; fold over loops for values |
| C65 | usage patterns of directions, groups by number of elements with index patterns and conditions, emitted statements as data, their execution on result and work arrays | a statement adds to abstract functions of places; patterns give the recorded places (C12); conditions select the group (C14); invariants over groups, iterations and loops; sums exchanged in a commutative monoid |
| C66 | calls for each direction, clearing of the work array, last loops of the three generated functions, methods with sparse arguments with the work array as state | one call adds the expected sum to what the work array has (or assigns it); equality with the drivers without loops of C53; counterexamples by computation |
| C67 | elements by equation with positions in their row, functions of equations outside loops, functions of equation patterns with the iteration found from the number of the equation, their execution, calls of C66 and C65 | invariant of the analysis (C64) with other locations; conditions select the results of an iteration (C63); the sum over positions is the total derivative (C64); sums of C66 and C65 instantiated with it; uniqueness of derivatives; counterexamples by computation |
| C68 | elements by variable with positions in their column, grouping of the tape variables of a variable by the set of iterations, number of iterations and iteration of the local loop as tables of the detected patterns, results of a group, functions outside loops, calls of C66 and C65 | invariant of the analysis (C64) with other locations; the groups are a partition of the terms (sum over groups = sum over tape variables and iterations); total derivative (C64); sums of C66 and C65 instantiated with it; counterexamples by computation |
| C69 | marks, search below the arguments of the end of a loop, assignments put between a temporary of the loop and its value, operations added to the start of the loop | invariant of the search relative to the original graph: unmarked nodes are unchanged, marks say whether the index is reached, visited nodes have no movable argument left, values of old nodes unchanged; new rank for the graph with the new arguments of the start; values by mutual induction and determinism |
| C70 | new graph of equations and variables to eliminate, substitution and its effect on the structure, the refusal of an elimination, passes over variables and equations, tearing, nested loops with fuel, matching of the remaining equations, results saved | invariant of the graph (adjacency without duplicates, deleted exactly the assigned variables, the assignments are a list of successful successive eliminations); number of equations without variable decreases; C26 for the remaining equations; counterexamples by computation with sums and sines |
| C71 | strings as lists of characters, last position of a slash, the path of folders and a file, directory and file name of a path | components of a concatenation after a slash; every folder contributes its components and leaves a path which ends with a slash; the last slash splits a path in one way only |
| C72 | nodes of the handler with independent variables, arrays and calls of atomic functions, the visit of a node with marks and remembered sets, what is noted of a call, the request of a locator | invariant of the visit (remembered sets are the variables which affect the node, remembered nodes are closed under need, what is noted is exact for the remembered calls); arguments come before their nodes; counterexample by computation |

## Properties

The plan and its outcome. The full statements are in properties.jsonl; the theorems of each in MANIFEST.json.

| id | property | outcome | scope, and what is missing |
|---|---|---|---|
| C01 | Overloaded arithmetic and its simplifications are sound | proved (3 theorems) | All programs (any sequence of CG operations over any number of objects and handlers), any base type satisfying the identities of BaseLaws (instance: rationals). The IEEE double variant is refuted separately (infinity * 0 recorded as 0; branches +0/-0 merged). |
| C02 | Values stored while recording agree with the graph | proved (1 theorems) | Stored value = graph value whenever the latter is defined, for all programs. |
| C03 | Recording never disturbs what was recorded before and keeps the graph acyclic | proved (1 theorems) | Scalar operations recorded through CG; no law on Base needed. |
| C04 | Variables owned by different handlers are never combined | partial (5 theorems) | Exact throw conditions of + - * / and CondExp, and absence of mixed graphs, proved; the full statement (every operation) is refuted for pow and for the compound assignments, which only assert. |
| C05 | generateCode: the emitted assignments compute every dependent | proved (10 theorems) | All scalar graphs (any size and sharing), all dependent vectors, all options, any base type (bit by bit, no algebraic law); termination; end to end with C01. Refuted outside the hypotheses: += on non-zero y, substituted independents used as dependents / under sign / replaced by constants, cleared y of constant-only models. Not modelled: loops, arrays, atomic functions, print operations, files. |
| C06 | Re-used temporaries never hold two live values | proved (1 theorems) | Programs with and without re-use have the same data flow and the same results on every memory, and re-use never declares a larger array. Scalar operations, one scope. |
| C07 | Evaluation order respects dependencies and evaluates each shared operation once | proved (3 theorems) | Reads follow assignments; every dependent assigned exactly once; temporaries once (without re-use) and inside the declared array; every operation written at most once. Scalar operations, one scope. |
| C08 | Printed C expressions have the value of the expression graph | proved (4 theorems) | Token text of whole function bodies (assignments, conditionals, duplicates, constants, zero loop) for all scalar graphs; read with the C grammar of CSyntax.v; any number type with field associativity and sign laws (rationals); end to end from CG operations. Numbers abstract: sign and magnitude written exactly. |
| C09 | Printed C expressions keep the recorded association of operations | partial (4 theorems) | Bit-exact for IEEE doubles when no right operand of + is a sum/difference and none of * a product/quotient in the same assignment; the full statement is refuted: a+(b-c), a*(b/c), a*(b*c) are printed without parentheses and give different doubles. |
| C10 | Sub-expressions of the generated C are evaluated in the base type | partial (3 theorems) | C's typing rules formalised (CTyped.v). Refuted in full: 1/(sign(x0)+sign(x1)) is an integer division in the text (0 instead of 0.5); -0.0 is written as the int -0. Proved at text level for base-typed texts (no operator with two int operands). |
| C11 | Pieces of generated text are emitted in order and exactly once | proved (3 theorems) | LangStreamStack (text/node cache, flush, insertion position) and the while loop of pushExpressionNoVarCheck2: output = in-order expansion, once, cache left empty; ends for every finite expression of any depth. Texts and nodes abstract. |
| C12 | Array storage handed out for atomic functions never overlaps live storage | proved (2 theorems) | All histories of reserving and releasing arrays of any size with any arguments: no overlap, inside the work array, no out-of-bounds access, no exception, no wrap-around; an array is never placed over an element which is directly one of its arguments. size_t is modelled by unbounded natural numbers. |
| C13 | Iteration-range set operations are exact | partial (6 theorems) | Union and complement proved for combineOverlapingIterationRanges and invertIterationRanges; refuted for combineNonOverlapingIterationRanges (single-iteration range in a gap is lost) and for the else-branch ranges after an else-if (range.hpp 180-194 never visits the leading if). |
| C14 | Loop index conditions test membership exactly | proved (1 theorems) | Printed tokens read with the C grammar of CSyntax.v (proved unambiguous). |
| C15 | Detected index patterns reproduce the indices | proved (3 theorems) | Every vector and every map; termination included; linear, sectioned and tabulated results. long/size_t as unbounded integers. |
| C16 | Two-dimensional index patterns reproduce the indices | proved (1 theorems) | Whenever a plane is returned it reproduces every (x,y,z); termination included. Returning no plane is allowed (the limit of 2 sections). |
| C17 | Printed index expressions equal the index pattern | proved (4 theorems) | The text is read with the C grammar of CSyntax.v and evaluated with 64-bit unsigned/signed C arithmetic (wrap-around, unsigned division). Signed constants are taken as 64-bit. Random2D patterns are not modelled. |
| C18 | Sparsity-pattern products are boolean matrix products | partial (9 theorems) | All five operations for all patterns and dimensions. The size assertion inside addMatrixSparsity (util.hpp 121) is reversed: two refutations show it stops valid products in builds with assertions and accepts matrices which are then read out of range. |
| C19 | Sparsity index lists enumerate the pattern | proved (6 theorems) | Both list generators for all patterns and all previous contents of the vectors; uniqueness of the order; round trip; the choice of the differentiation mode. |
| C20 | Colouring for the joint Jacobian/Hessian sweep never merges conflicting columns | proved (3 theorems) | colorForwardJacobianHessian and the sweeps of sparseForJacHessian, for all patterns, requests, dimensions and any numeric type with the laws 0+x = x+0 = x, x*1 = x, x*0 = 0: no read outside of a vector, every requested element exact. index_sort of CppAD enters by its contract; the work object starts empty. Without CppAD's debug checks a requested element outside of the pattern gets a wrong value (refutation). |
| C21 | Solving an equation for a variable returns a solution | proved (3 theorems) | For a variable with exactly one occurrence, any field with the inverse laws (instantiated over the reals), all values meeting the domain conditions of the inverted functions; also: the variable does not occur in the result. The degenerate call solveFor(x, x) returns x and is refuted separately. |
| C22 | isSolvable predicts solveFor | proved (2 theorems) | Both versions, every graph of one handler, every limit of bifurcations but 0. |
| C23 | Collecting repeated occurrences of a variable preserves the equation | partial (4 theorems) | The stated property is false for the code: the sign of an occurrence below a subtraction is taken from the wrong path element (two refutations with witnesses). Proved: one step of collecting keeps the value when the positions agree; solveFor is right for any number of occurrences when there is no subtraction above the variable. |
| C24 | Found paths are paths; the path graph contains exactly the nodes on paths | proved (6 theorems) | findPathGraph, findPaths, findSingleBifurcation and findPathUpTo, for every graph without cycles, root, target and limit. Three further expectations are refuted with witnesses: a limit which is reached leaves nodes out; findPaths may return more paths than its maximum; findPaths may miss paths. |
| C25 | Evaluator replays the graph exactly | partial (5 theorems) | For plain numbers and for CG<Base> as target type: any acyclic graph of scalar operations, any values, any order of evaluating operands, any history of earlier calls; every needed node is computed exactly once. Refuted for graphs with acosh, asinh, atanh, erf, erfc, expm1, log1p, which CG<Base> records and the evaluator rejects with an exception. Arrays, atomic functions and print operations are not modelled. |
| C26 | DAE equation/variable matching stays a matching | proved (3 theorems) | Both augmenting path procedures, all graphs and matchings, all recursion depths (fuel shown sufficient); edges of the new matching are edges of the graph between allowed variables. |
| C27 | A failed augmentation proves structural singularity of the coloured set | proved (3 theorems) | Hall-type certificate from the coloured set, hence no system of representatives exists; with C26 the answer decides it. The set of equations differentiated by Pantelides is that coloured set (C44). |
| C28 | Thread pool runs each added job exactly once and wait returns only afterwards | proved (4 theorems) | Transition system of workers, callers and waiters; any number of threads, any interleaving, spurious wake-ups, strategy changes, shutdown. Sequentially consistent memory; the unlocked read of len in thpool_wait is one atomic read. |
| C29 | Job ordering is longest-first | partial (4 theorems) | Proved: order stays a permutation and each job is submitted once; order holds ranks. The slowest-first claim is refuted: the ranks are used as job indices (inverse permutation). |
| C30 | Static and guided grouping partition the jobs | partial (6 theorems) | Proved: static groups partition the jobs for any arithmetic; a pull takes a first part of the queue; guided pulls stay in the queue with exact arithmetic and a share of at most 1 per thread. Refuted: share above 1 per thread, float rounding with the default share, groups reused with fewer threads. |
| C31 | Orderings handed to the standard library are strict weak orders | partial (10 theorems) | All comparison functions given to std::sort and ordered containers are modelled. SetComparator, the keys of the loop maps, equation pairs, independents and DAE variables are proved strict weak (mostly total) orders. Two are not: the order of DAE equations puts an algebraic equation before itself, and OperationPathNode::operator< is not asymmetric; both refuted, with what still holds. |
| C32 | Generated variable names never collide | partial (5 theorems) | Names without loop indexes: injectivity is proved for the default, custom, Hessian and second order reverse generators, together with the answers about arrays. Refuted: with individual names, the question about the first independent past the list reads out of bounds; the Hessian and reverse generators claim individually named independents are in the array x. |
| C33 | Text splitting and joining are inverse; replacing terminates | partial (6 theorems) | replaceString, explode and implode. Replacing is proved for non empty patterns, splitting and joining with the exact loss of a last delimiter; refuted as stated for a text ending in the delimiter, an empty delimiter, and an empty pattern, for which replaceString never ends. |
| C34 | Per-node side tables stay aligned with the handler's nodes | partial (3 theorems) | C34_aligned and C34_positions hold for every history of node creation, deletion and table adjustments in which each reset of the handler is followed by clearing the table; C34_reset_refuted shows that a reset alone leaves the entries of the deleted nodes, which new nodes inherit. |
| C35 | Substituting an independent by an equation preserves solutions | partial (7 theorems) | Proved: after a successful substitution the variable has the value of the solved expression, the equation is satisfied by it and every other node keeps its operation and arguments, for any graph in which the variable occurs once in the equation (C21's condition); undoing restores nodes and independents; removing. Refuted: substituteIndependent(x, x) makes a node an alias of itself, and undoing does not restore the name of the variable. Solving with several occurrences is C23/C46. |
| C36 | Linked equation groups are the connected components of the links | partial (4 theorems) | addLinkedEquationsByNonIndexed and findNonIndexedLinkedRel proved for any sequence of links; Loop::merge drops the links of the other loop (refuted), what it keeps is C36_merge_partial. |
| C37 | Array views access exactly their window | partial (10 theorems) | All reading, writing and window operations on valid views. Refuted: overlapping assignment with the destination after the source, segment when start + n exceeds size_t, the empty segment at the end. |
| C38 | Custom Jacobian/Hessian element filters keep exactly the requested elements | partial (5 theorems) | Exact for all requested positions inside the matrix; refuted for positions outside it, which are written outside the table instead of being rejected. |
| C39 | Repeated generation from one handler is consistent | partial (7 theorems) | Scalar graphs. Proved for all histories without reset: cleared tables, identical code for a repeated request, no interference between generations that share only independent variables. Refuted: a former temporary requested as dependent, dependents in another order, re-use of temporaries switched on between generations, generation after reset(). |
| C40 | Splitting generated code over several functions preserves it | partial (8 theorems) | Proved for every sequence of statements (with loops) and every limit: the wrapper and its local functions perform exactly the assignments of the unsplit program in the same order, each function has complete loops and fewer than the limit of assignments in front of its last statement or loop, all functions but the last are full, other files are kept; linked to generateCode for scalar graphs. Refuted parts: constants and duplicates are not counted; functions with index arguments are called without them; a function named like a local function is overwritten; the Array structures of atomic functions are not set again in the next function. |
| C41 | Constants of the generated code are the recorded constants | partial (11 theorems) | proved for every double and every precision: with 17 or more digits every finite double except -0 is read back; with p digits the written number is right to half a unit of digit p; with at most 15 digits every normal double that is the rounding of a decimal number of p digits is written as that number and read back, and so is every double that has p digits itself; LaTeX and MathML show the number of the C text. Refuted with the default precision: 0.1+0.2 becomes 0.3 (with 16 digits too), the largest double becomes infinite, different constants share one node in dot; with every precision: -0 becomes 0, inf and nan are not constants of C, and a locale with a decimal comma makes texts that are not constants. operator<< is modelled after the C and C++ standards with correct rounding; base type double only; grouping of digits by a locale is not modelled. |
| C42 | The thread pool does not stall | partial (6 theorems) | Proved for one waiting thread at a time and a fixed strategy, apart from the crash of C30. Refuted for two waiting threads (one wake-up is lost) and for a change of strategy with pending static groups. |
| C43 | Shutting the thread pool down is safe and ends | partial (3 theorems) | Proved: shutdown ends, memory is freed only after the workers left their loops. Refuted: a worker may unlock thcount_lock after the free. |
| C44 | Pantelides' reduction delivers an index-one structure | proved (2 theorems) | All model graphs, any number of passes. init_graph (construction from incidence and derivative lists) satisfies model_graph; pendulum as instance. |
| C45 | Pantelides' reduction ends, with a result exactly for regular structures | partial (4 theorems) | Proved: ends within (equations*variables+equations) passes when the structure is regular, and a result implies regularity. Refuted: ends for every accepted model (two equations in one variable loop forever); regular models are always accepted (a declared derivative occurring in no equation makes pantelides.hpp 163-175 throw). |
| C46 | Solving for a variable always ends and isolates it | proved (2 theorems) | For any number of occurrences, any evaluation order of operands and any limit of bifurcations not smaller than the number of paths. The expression must not be the variable itself (see C21_expression_is_the_variable_refuted). |
| C47 | Arrays given to atomic functions hold their arguments | partial (3 theorems) | Proved for straight-line code when elements inside operations belong to arrays still in use; refuted otherwise: operands of an in-place expression can be overwritten while the array is being filled (array_id_compresser.hpp 106-115 only looks at direct elements), and inside loops an assignment is skipped because the value is there before the loop but not in later iterations. |
| C48 | Sparsity answers of atomic functions | partial (5 theorems) | Exact for the three answers of both implementations; refuted for the selection vector t of rev_sparse_hes, which is never cleared. The cache hess_ of the bridge and the patterns computed by CppAD are inputs of the model. |
| C49 | Atomic functions receive their arrays | partial (4 theorems) | Proved for all programs whose calls use arrays created in the same block (blocks executed any number of times). Refuted for arrays created in an outer block (second iteration of a loop, branch not taken) and across split functions (C40_atomic_structures_refuted). |
| C50 | Related dependents stay consistent while loops are searched | proved (3 theorems) | Full model of makeDependentRelation, of the copies and the restoring of the relations and of setLinkedDependents. The search of shared variables which decides the calls is not modelled: any calls are allowed. |
| C51 | Every dependent of a loop is computed in one iteration | partial (6 theorems) | Proved when the relations follow the order of the dependents in every equation and equations linked by non-indexed variables have no relations by indexed ones. In general it is false: dependents can be in no iteration (C51_dependents_in_no_iteration_refuted) and there is undefined behaviour with an unrelated dependent or with crossed relations, for relations which the search of loops does produce. |
| C52 | Sparse Jacobians and Hessians assembled from directional functions hold the requested elements | partial (9 theorems) | proved for every list, of every order, with and without atomics, for one or more threads and every interleaving, except: a list which repeats an element or, in Hessians, has both elements of a symmetric pair of which only one is in the pattern, for these later elements are never written (two refuted theorems) or the direct Hessian throws; and the Hessian with several threads when the elements of a row are not requested one after the other: the wrapper of the function of that row takes the constant 1 for the array of multipliers, so that the multiplier is ignored with one equation and memory is read out of bounds with more (C52_threads_ignore_multiplier_refuted, C52_threads_read_out_of_bounds_refuted). The derivatives themselves are an input (CppAD); models with loops are in C64, C65 and C67. |
| C53 | Directional derivatives are the products of the Jacobian or Hessian by the given directions | partial (13 theorems) | proved for any values (also floating point: the order of the sums is fixed) when no element is requested twice and malloc works, and as products in exact arithmetic; realloc may fail. Refuted: an element requested twice is added twice by models with atomic functions, and then the methods with sparse arguments write out of bounds; a failure of malloc is not detected; the methods with sparse arguments throw for a direction without elements. The directional functions are those of C52; models with loops are in C66 and C67; the release of memory is not modelled. |
| C54 | Atomic functions keep their values and derivatives in recordings and in the generated code | partial (13 theorems) | proved for functions which stand alone (do not read the coefficients of their results): forward sweeps of one order, the recording of results which depend on variables, first order reverse mode, and second order reverse mode when the partial derivatives of order 0 are identically zero. Refuted: results of order 0 of a sweep of two orders; results of constants while recording; functions which are not stand alone (the exponential as CppAD documents it gets derivative zero in the generated code); second order reverse mode followed by nonlinear operations, with operands which are parameters, or with a function without Hessian sparsity. How the generated C code fills the arrays is in C49 and the array properties; only orders 0 and 1. |
| C55 | Model objects follow the life of their libraries and of their external functions | partial (12 theorems) | proved for every history without moves of model objects and with moves of libraries only while no model object of theirs is in use. Refuted: moving a model object (the library keeps a pointer to the object moved from and never tells the new one that it was closed; asAtomic keeps evaluating the object moved from); moving a library in use; a library that is refused stays mapped; the number of threads is reset when the same file is opened again; the sparse Jacobian in vectors does not test the size of its argument. Return codes of compiled functions are in C53; an evaluation inside an external model is another evaluation. dlopen and dlclose are a reference count; LLVM libraries are not modelled. |
| C56 | A library created from models holds the functions that were asked for, and creating it leaves nothing behind | partial (11 theorems) | proved for all names, settings, histories and failures: two functions have the same external name only if one model is named after the other with "_sparse" (an equivalence); no file is left or changed; a creation after a failed one gives the same library; and, if settings and threads are chosen before sources are first generated, no exception is thrown while sources are generated, and no two models or custom sources clash, the library has exactly the wanted sources, loads, and its models report their settings. Refuted otherwise: models "a" and "a_sparse" overwrite each other's functions without an error or report functions of each other; settings changed later are ignored; a model shared with a library with other threads gives a library that does not load; after an exception during the generation of sources the next creation succeeds with incomplete sources. Loops, saving of sources, Clang and the arguments of the compilers are not modelled; the compiler is given by its results. |
| C57 | A model reports the patterns of its derivatives, and its sparse results are stored where the reported positions say | partial (16 theorems) | proved for all recorded functions, requests and sizes: the reported patterns are those of CppAD restricted to the requested elements, also those of each equation, which are found together by colours; the pattern of the Hessian is the union of those of the equations; values, rows and columns of sparse results agree in every form; with sizes that pass the checks no access is outside of the vectors, except for the following. Refuted: the vector form of SparseJacobian does not check the size of x and reads outside of it; the Hessian of one equation uses uninitialised multipliers with vectors that do not fill new elements; with requested elements, ForwardZero with variables does not mark results that depend on variables, and it never clears marks. CppAD's propagation of patterns is trusted to be linear. |
| C58 | Equations found to have the same pattern can be computed by one loop without changing their values | partial (4 theorems) | proved for all recorded models, candidates and values: the patterns found are exactly the classes of candidates with the same expression but for the independents, no exception or invalid access happens, and aliases do not change dependents; a loop with any of the patterns, in one group with shared operations, gives in each iteration the value and the index of the dependent of that iteration, if the patterns are usable: wherever an operation of the reference expression is used again the other expressions use the same independents, and operations in both expressions are at the same positions. Both conditions are needed, refuted: y0 = a + a (a = x0^2 made once), y1 = x1^2 + x2^2 are found to be a pattern, and the loop computes 2*x2^2 for y1; likewise with an operation at another position. Missing: loops of several groups, iterations whose reference dependents are not those of the patterns, and the model of the operations outside of the loops. |
| C59 | The model made by an index reduction is the user's model with time derivatives of its equations | proved (7 theorems) | proved for all models, all allowed sequences of calls and all trajectories over the reals (functions of the model are any with derivatives at the points of the trajectory). Every function of time must be in an equation. Removals end if no variable was differentiated alone (as in the method of Soares and Secchi; with such a variable they may not end, example). Comparisons, names and the assigned variables of equations are not in the model, and Reverse(1) of CppAD is trusted. |
| C60 | Dummy derivatives give a model with as many equations as unknowns, the same solutions and consistent information | partial (17 theorems) | proved: the selection (number, difference, avoided variables, end), the marks, the positions and links after removals, residuals and solutions after substitutions and new orders, semi-explicit models with first derivatives only. Refuted: setAvoidConvertAlg2DifVars never changes the selected set; with assertions a round with as many variables as equations always fails; the removal of a variable uses information past the end of the array; a new order does not update the antiderivatives of equations; derivatives come first and not after the algebraic variables; semi-explicit models with second derivatives lose the first derivative and have an explicit equation without variable. Not in the model: the values of the Jacobian, Eigen's QR (its order of columns is any permutation), the choice of the equations for elimination (matchVars2Eqs4Elimination), and the substitution in graphs (C35), which is an operation on functions here. |
| C61 | Calling a compiler, or any other program, ends and reports what the program did | partial (13 theorems) | proved for every schedule: the outcome is the one that follows from what the program does or has an excuse in the surroundings, what is stored, descriptors and zombies, and, for outputs of at most 10001 bytes and the capacity of a pipe (and not both more input and more output than a pipe can hold), the end of every fair execution. Refuted: with more output no schedule ends the call; from 10001 bytes on the stored output is cut; input and output that are both larger than a pipe block both processes; a program that ends before reading its input (also one that cannot be executed) ends the caller by SIGPIPE in some schedules; what a failing program wrote is in no exception. Not in the model: interrupted system calls, failures of dup2, other processes that inherit the descriptors, programs that never end. |
| C62 | The structural index reduction of Soares and Secchi | partial (9 theorems) | proved for every structure and every order: the end within 2*variables+2 passes, absence of undefined behaviour, the form of the result, what can be removed, and that singular structures are refused; a refusal before any differentiation means that the structure is singular. Refuted: some regular structures are refused for every order of differentiation (equations keep the colour of a successful search), and for others the answer depends on the addresses of the equations. Not in the model: the time derivatives of the equations themselves (C59) and the messages. |
| C63 | Results of a generated loop which exist in some iterations only | proved (2 theorems) | for every sequence of results which the code can ask for in a loop: no null pointer, and in each iteration the text of the structures (branch results before the header of the next branch) has exactly the effects asked for, up to the order of the results; locations through the index patterns of C15 and conditions through the C text of C14. Assumed of the callers (stated in LoopCond_spec.v): branches with disjoint iterations, at least one iteration, not one branch for all iterations. Not in the model: printing of results (printResult), and where the values are computed. |
| C64 | Values and sparse Jacobian of a model with loops | proved (3 theorems) | over the reals, for every model made of loops (LoopJac_spec.v: good): analysis of the requested elements, rows of the Jacobian in each loop, results through createLoopResult (C63) and execution of the loops followed by the elements outside loops. The chain rule is proved, not assumed: tapes_right says only that each tape is differentiable where the model evaluates it and that its sparsity covers its dependencies. A repeated element of a loop throws; repeats outside loops are served. Not in the model: the code of the tapes inside the loop bodies (C52, C53 for plain models), rounding, moving operations out of the loop. |
| C65 | Sparse Jacobian and Hessian of a model with loops built from its directional functions | partial (4 theorems) | proved for every request without repeated elements in which each group of loop results has all its directions requested in consecutive places, or none with more elements than the largest direction requested apart (fits); in particular for all requests sorted by direction. Refuted otherwise: the work array is sized by the directions requested apart only, but a group with one of them uses it for all its directions, and writes behind its end (overflow_refuted); a repeated element gets twice its value in the first place and nothing in the others (repeated_refuted). Values are of any commutative monoid, so rounding is not covered. The functions of one direction are inputs of the model, with the positions they contribute to; C67 proves that those of reverse mode meet this. |
| C66 | Directional derivatives of a model with loops | partial (7 theorems) | ForwardOne, ReverseOne and ReverseTwo are proved for any request without repeated elements (they clear the work array before each direction). The methods with sparse arguments do not clear it: they are proved right when every direction has a function outside loops, and for any other direction the value is proved to be what the work array had plus the derivative (C66_loops_leftovers); two refutations show a second call which gives twice the derivatives and a call with two directions whose values get mixed. In reverse mode every equation of a loop is such a direction. Repeated elements are refused by no one (C53). Values are of any commutative monoid. |
| C67 | First order reverse mode of a model with loops | partial (5 theorems) | proved over the reals, from the requested elements to the numbers: analysis of the elements by row, the functions outside loops and of each equation pattern, their execution, the sums of C66 (ReverseOne, product of the weights and the Jacobian when the request covers it) and the assembly of C65 (sparse Jacobian when the elements of an equation are requested one after the other), for every request without repeated elements. Repeated elements: one of a loop is refused; one of an equation outside loops is refuted: the row is written behind its end (C67_repeated_element_overrun_refuted) or the repetition gets zero (C67_repeated_element_zero_refuted). Not in the model: the code of the tapes, rounding. The model of ReverseOne with sparse arguments is in C66. |
| C68 | First order forward mode of a model with loops | partial (6 theorems) | proved over the reals, from the requested elements to the numbers: analysis of the elements by column, grouping of tape variables and iterations by variable, the loop count and the iteration of each group, execution of the functions, the sums of C66 (ForwardOne, Jacobian times direction when the request covers it) and the assembly of C65 (sparse Jacobian when the elements of a variable are requested one after the other), for every request without repeated elements where a variable without index is used directly by some requested equation of its loop (C68_full_request: a request of the whole sparsity has this). Without that condition the generation fails although reverse mode generates: C68_only_through_temporaries_refuted. Repeated elements: one of a loop is refused; the repetition of one outside loops gets zero (C68_repeated_element_zero_refuted). Not in the model: the code of the tapes, rounding, printing of the index expressions (C17). |
| C69 | Expressions which do not depend on the index are computed before a loop | partial (3 theorems) | proved for every acyclic graph: the search ends with every access inside of its vectors, nothing moved depends on the index, no cycle appears when the moved operations become arguments of the start of the loop, every iteration has the original values with those of the moved operations computed once for any index, and every operation below the end which depends on the index has no movable argument left, except array elements and calls of atomic functions, whose arguments are left in the loop on purpose (C69_all_computed_before_refuted). Not in the model: the order of the operations in the source (C07), and conditionals: evaluations of an expression outside of a conditional which would have guarded it inside of the loop have no effect in the model other than their value |
| C70 | Equations chosen to eliminate derivatives can be solved for them | partial (6 theorems) | proved for any solver and any substitution (functions which are parameters of the model): the choice ends, what is chosen can be eliminated in the order of the choice and is one to one, derivatives of a semi-explicit model all have an equation, and the loops stop only when all candidates were refused. Refuted: equations which are not chosen keep the variable assigned before, so that a variable may be assigned to two equations, of which the last is used (C70_one_equation_each_refuted); an equation which can no longer be solved for a variable stays in the list of that variable and its use is an exception, although the elimination is possible (C70_finds_what_can_be_eliminated_refuted); the eliminations cannot be done in every order (C70_any_order_refuted). Not in the model: that the solver and the substitution are right (C35), and the models generated from the choice |
| C71 | Paths made of folders and files name what they are made of | partial (5 theorems) | proved for all strings except folders which are empty: an empty folder (for instance the temporary folder of a compiler set to the empty string for the working directory) gives a path in the root of the file system (C71_empty_folder_refuted). The meaning of paths (absolute or not, names between slashes without empty ones and single dots) is the small specification Paths_spec.v; symbolic links and double dots are components like others |
| C72 | The information on the use of atomic functions is exact | partial (3 theorems) | proved for the first request and for further requests once something was found; a locator of a model without atomic functions which is asked twice fails a debug assertion (C72_asked_twice_without_atomic_functions_refuted). The nodes made by the evaluation of the tape are arbitrary but come after their arguments, and calls of atomic functions are of order zero with two arrays, as the recording of such calls makes them |

## Counterexamples found

Each is a theorem whose witness runs through the model of the code as it is.

* `C01_ieee_double_refuted` (CGArith_thm) — C01 does not extend to IEEE doubles: the simplifications change results (as comments in arithmetic.hpp admit). With x = +infinity, x * 0 is recorded as the constant 0 instead of NaN.
* `C01_signed_zero_branches_refuted` (CGArith_thm) — A conditional with branches +0 and -0 is recorded as its first branch (isSameExpression, cond_exp_op.hpp 25-32, compares with ==): at x >= y the result is +0 where -0 was asked for.
* `C04_pow_refuted` (CGArith_thm) — C04 is false for pow and for the compound assignments (release build): the operation is silently recorded.
* `C04_compound_assignment_refuted` (CGArith_thm) — Variables owned by different handlers are never combined
* `C05_add_assign_to_nonzero_y_refuted` (Codegen_refuted) — With the assignment operator [+=] (LanguageC::setDependentAssignOperation) and values already in y, a dependent requested twice is added the accumulated value of the first one: y = [10, 20], x0 * x1 = 6 should become [16, 26], the generated code leaves [16, 36].
* `C05_substituted_independent_as_dependent_refuted` (Codegen_refuted) — After z is substituted by s, the dependents [z * x0; z]: y[0] is computed from y[1] before y[1] is assigned.
* `C05_sign_of_substituted_independent_refuted` (Codegen_refuted) — After z is substituted by s, sign(z) makes the generator print a variable without identifier: it fails.
* `C05_independent_substituted_by_constant_refuted` (Codegen_refuted) — After z is substituted by a constant (solveFor returns a parameter), counting the uses of the operations dereferences a null pointer.
* `C05_substitution_without_removal_refuted` (Codegen_refuted) — When the substituted independent is kept in the list of independents (removeFromIndependents = false), the code still reads x[2] instead of the expression.
* `C05_zero_dependents_of_constant_model_refuted` (Codegen_refuted) — setZeroDependents(true) with setIgnoreZeroDepAssign(true): when no dependent is computed by an operation the loop which clears y is not written, so the dependents which are zero keep the previous contents of y.
* `C09_sum_of_difference_reassociated_refuted` (CPrint_thm) — Printed C expressions keep the recorded association of operations
* `C09_product_of_quotient_reassociated_refuted` (CPrint_thm) — Printed C expressions keep the recorded association of operations
* `C09_product_of_product_reassociated_refuted` (CPrint_thm) — 2^1000 * (2^1000 * 2^-1000): the text overflows to infinity
* `C10_quotient_of_signs_is_an_integer_division_refuted` (CTyped_thm) — Sub-expressions of the generated C are evaluated in the base type
* `C10_negative_zero_loses_its_sign_refuted` (CTyped_thm) — the constant -0.0 is written "-0", an integer constant whose value is +0: 1 / (x0 * -0.0 ...) changes sign; here y = -0.0 alone
* `C13_combine_nonoverlapping_is_union_refuted` (Range_thm) — C13 is false for combineNonOverlapingIterationRanges: a single-iteration range inserted in a gap is lost.
* `C13_else_ranges_exact_refuted` (Range_thm) — ... but not exact after an [else if]: the iterations of the leading [if] are wrongly included.
* `C18_assertion_refuted` (Sparsity_thm) — The sum asserts the opposite of the size it needs: a product whose documented requirements hold (at least [m] rows) stops at an assertion, but only when the right factor is the identity...
* `C18_sum_accepts_too_few_rows_refuted` (Sparsity_thm) — ...and it accepts a matrix with too few rows and reads outside it.
* `C20_element_outside_the_pattern_refuted` (Color_thm) — without the debug checks of CppAD, a requested element outside of the pattern may get the value of another element
* `C21_expression_is_the_variable_refuted` (Solve_thm) — ** The expression which is the variable itself solveFor(x, x) returns x, and not 0: the equation x = 0 is not solved (solver.hpp 30-31).
* `C23_collecting_keeps_the_value_refuted` (Solve_collect_thm) — Collecting repeated occurrences of a variable preserves the equation
* `C23_solveFor_several_occurrences_refuted` (Solve_collect_thm) — solveFor uses it: for the same expression it returns -1/2, where the expression is 1 and not 0
* `C24_all_nodes_for_any_limit_refuted` (Path_thm) — A limit which is reached leaves nodes out.
* `C24_maximum_is_respected_refuted` (Path_thm) — findPaths may return more paths than the maximum it was given (operation_path.hpp 177 only stops when the number is exactly the maximum, and 159-164 adds several at once).
* `C24_all_paths_are_found_refuted` (Path_thm) — findPaths may miss paths although the maximum was not reached (findPathsFromNode keeps one path per argument of the node, operation_path.hpp 197-200).
* `C25_all_functions_refuted` (Eval_thm) — The full claim ("returns for every dependent the value of the recorded expression") fails for the functions Acosh, Asinh, Atanh, Erf, Erfc, Expm1 and Log1p, which CG<Base> records but the evaluator rejects: one operation on one independent is enough, for every one of them, every target type and every new value.
* `C29_slowest_first_refuted` (Pool_thm) — ... but add_jobs reads the array as the list of the jobs to start: three jobs of 1, 3 and 2 seconds start in the order 2, 1, 3.
* `C30_stale_groups_refuted` (Pool_thm) — The groups chosen for four threads are used again after the number of threads was reduced to two: out of bounds.
* `C30_large_share_refuted` (Pool_thm) — Outside of these bounds the queue is left through a null pointer. (1) A share above 1 per thread:
* `C30_float_default_refuted` (Pool_thm) — (2) The default share (0.75), one thread, and the arithmetic of float:
* `C31_dae_equations_refuted` (Compare_thm) — The order of the equations of a DAE is not one: an algebraic equation which is not a derivative comes before itself, and equations derived twice are not ordered by a strict weak order.
* `C31_dae_equations_always_refuted` (Compare_thm) — More generally it orders every algebraic equation which is not a derivative before itself, so std::sort is used outside its requirements whenever a DAE has one.
* `C31_path_nodes_refuted` (Compare_thm) — The order of the elements of paths is not asymmetric.
* `C32_custom_boundary_refuted` (Names_thm) — With k individual names, asking about independent k + 1 (the first one without a name in the list) reads past the end of the list of names, whatever the other independent.
* `C32_wrapped_custom_names_refuted` (Names_thm) — The generators for Hessians and second order reverse mode do not ask the generator they wrap: an independent with its own name is said to be in the array x, and the loop would read x[0].
* `C33_join_of_split_refuted` (Text_thm) — A last delimiter is lost, and an empty delimiter loses the text.
* `C33_replace_empty_refuted` (Text_thm) — With an empty pattern replaceString never ends, whatever the text.
* `C34_reset_refuted` (Tables_thm) — reset does not tell the tables: a node created afterwards finds the data of a node of before.
* `C35_substituting_itself_refuted` (Subst_thm) — substituteIndependent(x, x) makes x an alias of itself: the graph gets a cycle
* `C35_undo_loses_the_name_refuted` (Subst_thm) — the name of the variable is lost: makeAlias drops it and undoing does not bring it back (operation_node.hpp 76)
* `C36_merge_loses_links_refuted` (Linked_thm) — The links of the second loop are lost: its equations are no longer in a common group, and one of them is recorded as linked without having any group.
* `C37_overlapping_refuted` (View_thm) — When the destination starts within the source, elements are overwritten before they are copied.
* `C37_segment_wrap_refuted` (View_thm) — The check of segment is passed when start + n exceeds the range of size_t, and the segment then reads memory which is not there.
* `C37_empty_segment_refuted` (View_thm) — An empty segment at the end is rejected although the empty head and tail are not.
* `C38_outside_positions_refuted` (Sparsity_thm) — Positions outside the matrix are not rejected: the constructor writes outside its table.
* `C39_temporary_becomes_dependent_refuted` (Regen_thm) — A temporary of an earlier generation which is requested as a dependent keeps the name of the temporary: y[0] is never assigned.
* `C39_dependents_in_another_order_refuted` (Regen_thm) — The same dependents in another order: the second code writes each value in the place it had the first time.
* `C39_reuse_switched_on_refuted` (Regen_thm) — The same dependents, first without and then with re-use of temporaries: the second code writes past the end of the array of temporaries it declares.
* `C39_generation_after_reset_refuted` (Regen_thm) — After reset() the tables still hold the numbers of the deleted nodes: recording the same nodes again and asking for the same dependent, y[0] is not assigned, or (with re-use of temporaries) an array is indexed out of its bounds.
* `C40_atomic_structures_refuted` (Containers_thm) — "Splitting preserves the generated code" (C40) with atomic functions: the structures are local variables of every function, but the printer remembers what it has put in those of the functions before.
* `C40_constant_dependents_refuted` (Split_thm) — "Every function stays within the limit": the dependents which are constants, or copies of other dependents, are not counted.
* `C40_index_arguments_refuted` (Split_thm) — "A function with index arguments can be split": the wrapper calls its local functions without the indexes they are declared with (localFuncArgDcl_ starts with the indexes, localFuncArgs_ does not).
* `C40_same_file_name_refuted` (Split_thm) — "Functions generated into the same sources do not disturb each other": a function called like a local function of another.
* `C41_default_precision_changes_constants_refuted` (Decimal_thm) — with the default precision, and with 16 digits, 0.1 + 0.2 is written 0.3, which is another double
* `C41_largest_double_becomes_infinite_refuted` (Decimal_thm) — the largest double is written 1.79769313486232e+308, which is rounded up and overflows: the constant becomes infinite
* `C41_negative_zero_refuted` (Decimal_thm) — the negative zero is written -0, a constant of type int: it loses its sign, with every precision
* `C41_not_finite_refuted` (Decimal_thm) — infinities and NaN are written inf., -inf. and nan, which are not constants of C
* `C41_locale_refuted` (Decimal_thm) — in a locale whose decimal point is a comma (std::locale::global of a German program) the text of 0.1 is no constant
* `C41_same_text_refuted` (Decimal_thm) — two different constants have the same text: LanguageDot with combined parameters (language_dot.hpp 636-640) names the nodes of constants by their text and draws one node for both
* `C42_two_waits_refuted` (Pool_thm) — Two threads in thpool_wait: only one of them is woken.
* `C42_strategy_change_refuted` (Pool_thm) — The thread pool does not stall
* `C43_use_after_free_refuted` (Pool_thm) — But a worker may still hold the mutex inside the freed memory, and unlocks it.
* `C45_ends_refuted` (Pantelides_thm) — Without regularity the method need not end, although the model passes the check made when the graph is built: two equations in one variable.
* `C45_regular_accepted_refuted` (Pantelides_thm) — A regular model may be refused: one equation in [x] where the derivative of [x] is declared but occurs in no equation. The error "Invalid equation structure" is thrown at the second pass.
* `C47_operands_overwritten_refuted` (Arrays_thm) — An expression which contains elements of an array can be computed after these elements were overwritten: the operands of an operation are not considered by reserveArraySpace (array_id_compresser.hpp 106-115), although the array is released before the place is chosen. Here the second call gets (10, 24, 72) instead of (10, 24, 33).
* `C47_arrays_in_loops_refuted` (Arrays_thm) — Inside a loop the values which are known to be in the work array are those of the first iteration: nothing is forgotten at the beginning of a loop (language_c.hpp 692-695 is the only place where _tmpArrayValues is cleared). The array 2 of the body is not assigned because its value is already there before the loop, but in the second iteration the place has the value of array 4.
* `C48_output_not_cleared_refuted` (Sparsity_thm) — T is an output whose previous content should not matter, but positions which were set are never cleared.
* `C49_arrays_of_an_outer_scope_refuted` (Containers_thm) — "Arrays may come from an outer block": the printer compares the scope of the array, not of the call. In a loop, the second iteration calls the function with the array which the first one left in the structure.
* `C49_branch_not_taken_refuted` (Containers_thm) — The same when a branch is not taken.
* `C51_dependents_in_no_iteration_refuted` (LoopIter_thm) — Two equations with five related pairs, which do not follow the order of the dependents: the variables 2 and 7 are in no iteration and are never computed.
* `C51_undefined_with_an_unrelated_dependent_refuted` (LoopIter_thm) — y0 = f(t0), y1 = f(t1), y2 = g(u), y3 = g(t0), y4 = g(t1): the relations follow the order, but y2 has none and it is found as the next dependent of the second equation: it is placed twice and the second time an iterator at the end is erased.
* `C51_undefined_with_crossed_relations_refuted` (LoopIter_thm) — y0 = f(t0), y1 = f(t1), y2 = g(t1), y3 = g(t0): the iterator of the next dependent is dereferenced at the end.
* `C51_undefined_with_both_kinds_of_links_refuted` (LoopIter_thm) — The relations follow the order, but an equation with relations by indexed variables is also linked by non-indexed ones: its unrelated dependent was put aside but it is found again as the next one of its equation, and the iterator is dereferenced at the end.
* `C52_repeated_element_not_computed_refuted` (Assemble_thm) — The property does not hold for a list which repeats an element: the second position is never written.
* `C52_threads_ignore_multiplier_refuted` (Assemble_thm) — The functions "_wrap" of the multi-thread sparse Hessian read the multipliers from in[1], which is inLocal[1] of the function which calls them: the value 1 instead of the multipliers. When the elements of a row are not together, the elements of that row are those of the Hessian with the multiplier 1 when there is only one equation...
* `C52_threads_read_out_of_bounds_refuted` (Assemble_thm) — ... and with more equations they read past the end of that variable, for every model.
* `C52_symmetric_pair_not_computed_refuted` (Assemble_thm) — Distinct elements of the Hessian whose request is not answered: when only one element of a symmetric pair is in the pattern and both are requested, the direct generation throws and the version made from the reverse functions does not write the second one.
* `C53_repeated_element_is_added_twice_refuted` (Drivers_thm) — An element which is requested twice is added twice by the models with atomic functions: the product is wrong.
* `C53_no_memory_refuted` (Drivers_thm) — Directional derivatives are the products of the Jacobian or Hessian by the given directions
* `C53_sparse_arguments_throw_refuted` (Drivers_thm) — The same call with dense arguments works.
* `C53_sparse_arguments_overflow_refuted` (Drivers_thm) — Directional derivatives are the products of the Jacobian or Hessian by the given directions
* `C54_two_orders_refuted` (AtomicRec_thm) — A sweep of the orders 0 and 1 together: the results of order 0 are not computed by the generated code.
* `C54_constant_result_refuted` (AtomicRec_thm) — While recording, a result which depends only on constants of the recording (here on 3) is taken as zero when some operand is a variable of the generated code, or an exception is thrown if the values are known.
* `C54_not_standalone_refuted` (AtomicRec_thm) — A function whose derivative uses the result of order 0 (as the exponential does: y' = y x'), which CppAD gives to it and which is allowed when it is not declared as stand alone: the generated code gives zero.
* `C54_second_order_refuted` (AtomicRec_thm) — Second order reverse mode when the partial derivatives of order 0 are not identically zero (a nonlinear operation follows): those of the operands are lost; also those with respect to the coefficients of order 1 (which an operation before the call needs) are lost, or are read from an array without elements.
* `C54_parameter_operand_refuted` (AtomicRec_thm) — Second order reverse mode with an operand which is a parameter of the generated code: its row of the Hessian is lost (when the function uses the information on which operands are variables).
* `C54_no_hessian_pattern_refuted` (AtomicRec_thm) — A function which cannot give its Hessian sparsity (false is returned): the second order derivatives are taken as zero.
* `C55_moved_model_refuted` (Library_thm) — A model object that is moved and the object moved from is destroyed: closing the library, which the documentation allows, accesses the destroyed object.
* `C55_moved_model_not_told_refuted` (Library_thm) — A moved model object is not told that its library was closed: it calls functions of a file that is not mapped any more instead of throwing.
* `C55_moved_atomic_refuted` (Library_thm) — The atomic function of a model object that was moved evaluates the object moved from: it throws although the library is open.
* `C55_moved_library_refuted` (Library_thm) — A library that is moved while one of its model objects is in use: the destruction of the model object accesses the library moved from, and the library still accesses the destroyed model object when it closes.
* `C55_refused_library_stays_mapped_refuted` (Library_thm) — A library of another API version is refused but stays mapped.
* `C55_threads_lost_refuted` (Library_thm) — The number of threads set through a library object is lost when a second library object is opened on the same file.
* `C55_short_vector_refuted` (Library_thm) — The sparse Jacobian in vectors does not test the size of the vector of independent variables and reads past its end.
* `C56_sparse_names_overwrite_refuted` (LibGen_thm) — A model named after another one with "_sparse" replaces its functions, and no error is reported.
* `C56_reports_functions_of_other_models_refuted` (LibGen_thm) — A model without a sparse Jacobian says it has one, which is the Jacobian of another model.
* `C56_later_settings_ignored_refuted` (LibGen_thm) — Settings which are changed after sources were generated have no effect.
* `C56_shared_model_does_not_load_refuted` (LibGen_thm) — A model whose sources were generated for another library with threads makes a library which cannot be loaded, since the functions of the thread pool are missing.
* `C56_incomplete_after_exception_refuted` (LibGen_thm) — An exception in the middle of the generation of sources (for instance of the Jacobian) leaves the sources written so far; the next creation succeeds with them, and gives a library without the model.
* `C57_vector_size_unchecked_refuted` (Report_thm) — The vector version of SparseJacobian does not look at the size of x (functor_generic_model.hpp 678-706): a vector which is too short is read outside of its elements, although the other methods reject it.
* `C57_equation_hessian_refuted` (Report_thm) — With a vector type whose new elements are not initialised (CppAD::vector<double>) the other multipliers are arbitrary: here f0 = x^2, f1 = x^3 at x = 1, and the method returns 2 + 5 * 6 for equation 0.
* `C57_variables_with_request_refuted` (Report_thm) — y0 = x0 + x1, but only the element (0, 0) of the Jacobian was requested: y0 is not marked although x1 is a variable.
* `C57_marks_not_cleared_refuted` (Report_thm) — A mark from before is not removed: y0 = 5 depends on nothing.
* `C58_repeated_operation_refuted` (LoopTape_thm) — Without the condition on the patterns ([usable]) the loops are wrong: [exists] a model of recorded operations, candidates and a loop made of all the patterns found, for which a dependent has another value in the loop. [wrongLoop] says so, with all the other hypotheses of [C58_loop_values_partial].
* `C58_crossing_operation_refuted` (LoopTape_thm) — y_0 = x_0^2 + a, y_1 = a + a, y_2 = x_2^2 + x_3^2 with a = x_1^2 made once: the operation a is at the second position of y_0 and at the first of y_1; the loop gives another value for y_1. Each expression uses the same independents wherever an operation of the reference is used again.
* `C60_preference_refuted` (DummyD_thm) — The documented preference does not hold: a derivative of a variable which was algebraic could be the dummy derivative, but a derivative of a variable which was differential is. One equation, the coefficients of the variables are 10 and 1, hence the order of the columns.
* `C60_equal_sizes_refuted` (DummyD_thm) — With assertions, a round with as many variables as equations always fails.
* `C60_removal_overrun_refuted` (DummyD_thm) — The loop of the code runs past the end of the information of the variables whenever a variable is removed.
* `C60_reordered_refuted` (DummyD_thm) — What is missing above: the equation of which an equation is the derivative. It is not updated: with the order of the code, an equation is reported as the derivative of itself. x, dx; the equation 20 is algebraic, 21 is its derivative.
* `C60_documented_order_refuted` (DummyD_thm) — The documented order of the variables (setReorder) is not the one of the code: derivatives come first.
* `C60_semi_explicit_refuted` (DummyD_thm) — With a derivative of a derivative: the first derivative is a differential variable of the model (its derivative has an explicit equation) but it is not in the model any more, and the explicit equation has no variable.
* `C61_large_output_refuted` (Exec_thm) — With the pipes of Linux (65536 bytes): a program that writes 80000 bytes and ends with 0 cannot be called.
* `C61_cut_output_refuted` (Exec_thm) — Between 10128 bytes and that, the call ends but only the beginning of what the program wrote is stored.
* `C61_both_ways_refuted` (Exec_thm) — Calling a compiler, or any other program, ends and reports what the program did
* `C61_sigpipe_refuted` (Exec_thm) — The input is written whether or not the program reads it: if the program ends first the caller is ended by SIGPIPE, and no exception tells that the program failed. It depends on the order of the steps.
* `C61_exec_failure_refuted` (Exec_thm) — A compiler that cannot be executed, given a source file as its input, can end the caller with SIGPIPE instead.
* `C61_diagnostics_refuted` (Exec_thm) — What a failing program wrote is received but is in no exception: only the messages, of which a program that is executed knows nothing, are.
* `C62_regular_accepted_refuted` (Soares_thm) — A regular structure with as many equations as variables without derivative, and as checked when the graph is built, is refused with "Singular system detected.", for every order of the marked equations.
* `C62_order_refuted` (Soares_thm) — The answer does not depend on the structure only.
* `C65_loops_assembly_overflow_refuted` (LoopAsm_thm) — The array [compressed] has the size of the largest direction which is not requested in consecutive places, but a group with one such direction uses it for all of its directions: here the direction 0 (three elements, requested one after the other) shares its function with the direction 1 (two elements, requested apart). Whatever is in the array, the function writes behind its end.
* `C65_loops_assembly_repeated_refuted` (LoopAsm_thm) — A repeated element: the first place gets the value twice and the others nothing.
* `C66_loops_sparse_arguments_second_call_refuted` (LoopDir_thm) — ReverseOne with sparse arguments, called twice for the equation 0 of the loop with a work array which is zero at first: the first call is right and the second one gives twice the derivatives.
* `C66_loops_sparse_arguments_two_directions_refuted` (LoopDir_thm) — and one call for the equations 0 and 1: the values of the first one are added to those of the second one.
* `C67_repeated_element_overrun_refuted` (LoopRev1_thm) — An element of an equation outside of loops is requested twice, before another one: the vector of the row has one element for each variable, but is written at the position among the requested elements, beyond its end.
* `C67_repeated_element_zero_refuted` (LoopRev1_thm) — It is the last one: the assembled sparse Jacobian has zero for the repetition.
* `C68_only_through_temporaries_refuted` (LoopFor1_thm) — Only the derivative of y_0 by x_3 is requested, where y_0 uses x_3 by means of a temporary only, but another equation of the loop uses it directly: the generation of forward mode fails; the functions of reverse mode are generated for the same request.
* `C68_repeated_element_zero_refuted` (LoopFor1_thm) — An element of an equation outside of loops is requested twice: the assembled sparse Jacobian has zero for the repetition.
* `C69_all_computed_before_refuted` (LoopMove_thm) — ** Not every expression which does not depend on the index is computed before the loop: arguments of array elements and of atomic functions are left in it
* `C70_one_equation_each_refuted` (Elim_thm) — The model [x' + w = 0, sin(x') = 0] (variables 0: x', 1: w), with the assignments of the index reduction (w to the first equation, x' to the second): x' is eliminated with the first equation, but the second keeps x' as well.
* `C70_finds_what_can_be_eliminated_refuted` (Elim_thm) — Dummy derivatives 0, 1 and 2 and another variable 3 in [a0 + sin(a1) = 0, a0 + a1 + a3 = 0, a1 + a2 = 0, a1 + 2 a2 = 0] (each equation was assigned a variable of its own). Once 0 is eliminated with the first equation, the second can no longer be solved for 1. It stays in the list of equations of that variable, and the first attempt to use it is an exception, although 1 and 2 can be eliminated with the other two equations; with the same variables in another order the choice succeeds.
* `C70_any_order_refuted` (Elim_thm) — Dummy derivatives 0, 1 and 2 in [a0 + a2 = 0, a0 + a1 + 2 a2 + sin(a3) = 0, a0 + a1 = 0]: they are assigned the three equations in this order, and can be eliminated in the order of the choice. The third equation does not contain its variable, so that variable cannot be the first. (reduceEquations, dummy_deriv.hpp 489-510, eliminates them in the order in which the dummy derivatives were selected.)
* `C71_empty_folder_refuted` (Paths_thm) — The empty string as a folder is not the working directory: the path is absolute, and the file is in the root of the file system.
* `C72_asked_twice_without_atomic_functions_refuted` (AtomicUse_thm) — A model without atomic functions: asking the same locator twice fails an assertion, since the new independent variables are not the first nodes of the handler any more.

## Print Assumptions

**Closed under the global context** (380 of the 395 theorems of MANIFEST.json): all those not listed below.

Axioms of the standard library `ClassicalDedekindReals.sig_forall_dec`, `classic`, `sig_forall_dec`: `C64_repeated`, `C64_values`.

Axioms of the standard library `ClassicalDedekindReals.sig_forall_dec`, `FunctionalExtensionality.functional_extensionality_dep`, `functional_extensionality_dep`, `sig_forall_dec`: `C59_derived_equations`, `C59_solutions`, `C67_repeated_element_overrun_refuted`, `C67_repeated_element_zero_refuted`, `C68_repeated_element_zero_refuted`.

Axioms of the standard library `ClassicalDedekindReals.sig_forall_dec`, `FunctionalExtensionality.functional_extensionality_dep`, `classic`, `functional_extensionality_dep`, `sig_forall_dec`: `C64_jacobian`, `C67_loops_functions`, `C67_loops_jacobian_from_reverse`, `C67_loops_reverse_one`, `C68_loops_forward_functions`, `C68_loops_forward_one`, `C68_loops_jacobian_from_forward`, `C68_only_through_temporaries_refuted`.

No other axiom is used by these theorems. The axioms of the standard library which vcheck lists come from Flocq and the real numbers: they are used by some examples (the real numbers as an instance of the laws asked of the base type) and by lemmas of those examples.
