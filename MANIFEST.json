{
 "claims": [
  {
   "property": "C01",
   "status": "proved",
   "theorems": [
    "C01_recorded_graph_has_the_value_of_the_operations",
    "C01_ieee_double_refuted",
    "C01_signed_zero_branches_refuted"
   ],
   "note": "All programs (any sequence of CG operations over any number of objects and handlers), any base type satisfying the identities of BaseLaws (instance: rationals). The IEEE double variant is refuted separately (infinity * 0 recorded as 0; branches +0/-0 merged)."
  },
  {
   "property": "C02",
   "status": "proved",
   "theorems": [
    "C02_stored_values_are_graph_values"
   ],
   "note": "Stored value = graph value whenever the latter is defined, for all programs."
  },
  {
   "property": "C03",
   "status": "proved",
   "theorems": [
    "C03_recording_is_append_only_and_acyclic"
   ],
   "note": "Scalar operations recorded through CG; no law on Base needed."
  },
  {
   "property": "C04",
   "status": "partial",
   "theorems": [
    "C04_binary_operators_reject_foreign_operands",
    "C04_conditional_rejects_foreign_operands",
    "C04_graphs_never_mix_handlers",
    "C04_pow_refuted",
    "C04_compound_assignment_refuted"
   ],
   "note": "Exact throw conditions of + - * / and CondExp, and absence of mixed graphs, proved; the full statement (every operation) is refuted for pow and for the compound assignments, which only assert."
  },
  {
   "property": "C05",
   "status": "proved",
   "theorems": [
    "C05_add_assign_to_nonzero_y_refuted",
    "C05_substituted_independent_as_dependent_refuted",
    "C05_sign_of_substituted_independent_refuted",
    "C05_independent_substituted_by_constant_refuted",
    "C05_substitution_without_removal_refuted",
    "C05_zero_dependents_of_constant_model_refuted",
    "C05_generation_always_ends_with_a_program",
    "C05_generated_code_computes_every_dependent",
    "C05_recorded_graphs_generate_their_values",
    "C05_operations_to_generated_code"
   ],
   "note": "All scalar graphs (any size and sharing), all dependent vectors, all options, any base type (bit by bit, no algebraic law); termination; end to end with C01. Refuted outside the hypotheses: += on non-zero y, substituted independents used as dependents / under sign / replaced by constants, cleared y of constant-only models. Not modelled: loops, arrays, atomic functions, print operations, files."
  },
  {
   "property": "C06",
   "status": "proved",
   "theorems": [
    "C06_reuse_of_temporaries_changes_nothing"
   ],
   "note": "Programs with and without re-use have the same data flow and the same results on every memory, and re-use never declares a larger array. Scalar operations, one scope."
  },
  {
   "property": "C07",
   "status": "proved",
   "theorems": [
    "C07_every_read_follows_an_assignment",
    "C07_every_dependent_is_assigned_exactly_once",
    "C07_every_operation_is_written_at_most_once"
   ],
   "note": "Reads follow assignments; every dependent assigned exactly once; temporaries once (without re-use) and inside the declared array; every operation written at most once. Scalar operations, one scope."
  },
  {
   "property": "C08",
   "status": "proved",
   "theorems": [
    "C08_a_text_has_one_reading",
    "C08_function_names_are_right",
    "C08_generated_text_does_what_the_assignments_do",
    "C08_operations_to_text"
   ],
   "note": "Token text of whole function bodies (assignments, conditionals, duplicates, constants, zero loop) for all scalar graphs; read with the C grammar of CSyntax.v; any number type with field associativity and sign laws (rationals); end to end from CG operations. Numbers abstract: sign and magnitude written exactly."
  },
  {
   "property": "C09",
   "status": "partial",
   "theorems": [
    "C09_text_keeps_the_association_partial",
    "C09_sum_of_difference_reassociated_refuted",
    "C09_product_of_quotient_reassociated_refuted",
    "C09_product_of_product_reassociated_refuted"
   ],
   "note": "Bit-exact for IEEE doubles when no right operand of + is a sum/difference and none of * a product/quotient in the same assignment; the full statement is refuted: a+(b-c), a*(b/c), a*(b*c) are printed without parentheses and give different doubles."
  },
  {
   "property": "C10",
   "status": "partial",
   "theorems": [
    "C10_base_typed_texts_have_the_base_type_value_partial",
    "C10_quotient_of_signs_is_an_integer_division_refuted",
    "C10_negative_zero_loses_its_sign_refuted"
   ],
   "note": "C's typing rules formalised (CTyped.v). Refuted in full: 1/(sign(x0)+sign(x1)) is an integer division in the text (0 instead of 0.5); -0.0 is written as the int -0. Proved at text level for base-typed texts (no operator with two int operands)."
  },
  {
   "property": "C11",
   "status": "proved",
   "theorems": [
    "C11_texts_are_written_in_order_and_once",
    "C11_every_expression_is_written",
    "C11_every_finite_expression_has_an_expansion"
   ],
   "note": "LangStreamStack (text/node cache, flush, insertion position) and the while loop of pushExpressionNoVarCheck2: output = in-order expansion, once, cache left empty; ends for every finite expression of any depth. Texts and nodes abstract."
  },
  {
   "property": "C12",
   "status": "proved",
   "theorems": [
    "C12_arrays_never_overlap",
    "C12_arguments_are_not_overwritten"
   ],
   "note": "All histories of reserving and releasing arrays of any size with any arguments: no overlap, inside the work array, no out-of-bounds access, no exception, no wrap-around; an array is never placed over an element which is directly one of its arguments. size_t is modelled by unbounded natural numbers."
  },
  {
   "property": "C13",
   "status": "partial",
   "theorems": [
    "C13_combine_overlapping_is_union",
    "C13_invert_is_complement",
    "C13_combine_nonoverlapping_is_union_refuted",
    "C13_else_after_if_exact",
    "C13_else_ranges_upper_bound",
    "C13_else_ranges_exact_refuted"
   ],
   "note": "Union and complement proved for combineOverlapingIterationRanges and invertIterationRanges; refuted for combineNonOverlapingIterationRanges (single-iteration range in a gap is lost) and for the else-branch ranges after an else-if (range.hpp 180-194 never visits the leading if)."
  },
  {
   "property": "C14",
   "status": "proved",
   "theorems": [
    "C14_index_condition_exact"
   ],
   "note": "Printed tokens read with the C grammar of CSyntax.v (proved unambiguous)."
  },
  {
   "property": "C15",
   "status": "proved",
   "theorems": [
    "C15_pattern_of_a_vector",
    "C15_pattern_of_a_map",
    "C15_any_section_limit"
   ],
   "note": "Every vector and every map; termination included; linear, sectioned and tabulated results. long/size_t as unbounded integers."
  },
  {
   "property": "C16",
   "status": "proved",
   "theorems": [
    "C16_detected_plane_is_exact"
   ],
   "note": "Whenever a plane is returned it reproduces every (x,y,z); termination included. Returning no plane is allowed (the limit of 2 sections)."
  },
  {
   "property": "C17",
   "status": "proved",
   "theorems": [
    "C17_linear_text",
    "C17_text_of_a_map",
    "C17_text_of_a_vector",
    "C17_text_of_a_plane"
   ],
   "note": "The text is read with the C grammar of CSyntax.v and evaluated with 64-bit unsigned/signed C arithmetic (wrap-around, unsigned division). Signed constants are taken as 64-bit. Random2D patterns are not modelled."
  },
  {
   "property": "C18",
   "status": "partial",
   "theorems": [
    "C18_product",
    "C18_product_with_transpose",
    "C18_transpose_of_product",
    "C18_sum",
    "C18_sum_with_transpose",
    "C18_whole_matrices",
    "C18_transpose",
    "C18_assertion_refuted",
    "C18_sum_accepts_too_few_rows_refuted"
   ],
   "note": "All five operations for all patterns and dimensions. The size assertion inside addMatrixSparsity (util.hpp 121) is reversed: two refutations show it stops valid products in builds with assertions and accepts matrices which are then read out of range."
  },
  {
   "property": "C19",
   "status": "proved",
   "theorems": [
    "C19_indexes_of_sets",
    "C19_indexes_of_dense",
    "C19_order_is_unique",
    "C19_round_trip",
    "C19_set_of_lists",
    "C19_mode"
   ],
   "note": "Both list generators for all patterns and all previous contents of the vectors; uniqueness of the order; round trip; the choice of the differentiation mode."
  },
  {
   "property": "C20",
   "status": "proved",
   "theorems": [
    "C20_sparse_jacobian_and_hessians_are_exact",
    "C20_colours_keep_conflicting_columns_apart",
    "C20_element_outside_the_pattern_refuted"
   ],
   "note": "colorForwardJacobianHessian and the sweeps of sparseForJacHessian, for all patterns, requests, dimensions and any numeric type with the laws 0+x = x+0 = x, x*1 = x, x*0 = 0: no read outside of a vector, every requested element exact. index_sort of CppAD enters by its contract; the work object starts empty. Without CppAD's debug checks a requested element outside of the pattern gets a wrong value (refutation)."
  },
  {
   "property": "C21",
   "status": "proved",
   "theorems": [
    "C21_solution_makes_expression_zero",
    "C21_solution_without_the_variable",
    "C21_expression_is_the_variable_refuted"
   ],
   "note": "For a variable with exactly one occurrence, any field with the inverse laws (instantiated over the reals), all values meeting the domain conditions of the inverted functions; also: the variable does not occur in the result. The degenerate call solveFor(x, x) returns x and is refuted separately."
  },
  {
   "property": "C22",
   "status": "proved",
   "theorems": [
    "C22_isSolvable_decides_paths",
    "C22_isSolvable_predicts_solveFor"
   ],
   "note": "Both versions, every graph of one handler, every limit of bifurcations but 0."
  },
  {
   "property": "C23",
   "status": "partial",
   "theorems": [
    "C23_collecting_keeps_the_value_partial",
    "C23_collecting_keeps_the_value_refuted",
    "C23_solveFor_several_occurrences_refuted",
    "C23_several_occurrences_partial"
   ],
   "note": "The stated property is false for the code: the sign of an occurrence below a subtraction is taken from the wrong path element (two refutations with witnesses). Proved: one step of collecting keeps the value when the positions agree; solveFor is right for any number of occurrences when there is no subtraction above the variable."
  },
  {
   "property": "C24",
   "status": "proved",
   "theorems": [
    "C24_path_graph_is_exact",
    "C24_found_paths_are_paths",
    "C24_single_bifurcation",
    "C24_all_nodes_for_any_limit_refuted",
    "C24_maximum_is_respected_refuted",
    "C24_all_paths_are_found_refuted"
   ],
   "note": "findPathGraph, findPaths, findSingleBifurcation and findPathUpTo, for every graph without cycles, root, target and limit. Three further expectations are refuted with witnesses: a limit which is reached leaves nodes out; findPaths may return more paths than its maximum; findPaths may miss paths."
  },
  {
   "property": "C25",
   "status": "partial",
   "theorems": [
    "C25_evaluation_returns_the_values",
    "C25_replay_records_the_same_expressions",
    "C25_recorded_graphs_qualify",
    "C25_earlier_calls_do_not_matter",
    "C25_all_functions_refuted"
   ],
   "note": "For plain numbers and for CG<Base> as target type: any acyclic graph of scalar operations, any values, any order of evaluating operands, any history of earlier calls; every needed node is computed exactly once. Refuted for graphs with acosh, asinh, atanh, erf, erfc, expm1, log1p, which CG<Base> records and the evaluator rejects with an exception. Arrays, atomic functions and print operations are not modelled."
  },
  {
   "property": "C26",
   "status": "proved",
   "theorems": [
    "C26_augmentation_always_answers",
    "C26_success_extends_the_matching",
    "C26_failure_changes_no_assignment"
   ],
   "note": "Both augmenting path procedures, all graphs and matchings, all recursion depths (fuel shown sufficient); edges of the new matching are edges of the graph between allowed variables."
  },
  {
   "property": "C27",
   "status": "proved",
   "theorems": [
    "C27_failure_shows_too_few_variables",
    "C27_failure_means_no_matching",
    "C27_the_answer_decides"
   ],
   "note": "Hall-type certificate from the coloured set, hence no system of representatives exists; with C26 the answer decides it. The set of equations differentiated by Pantelides is that coloured set (C44)."
  },
  {
   "property": "C28",
   "status": "proved",
   "theorems": [
    "C28_no_job_runs_twice",
    "C28_distinct_jobs",
    "C28_no_job_is_lost",
    "C28_wait_returns_after_the_jobs"
   ],
   "note": "Transition system of workers, callers and waiters; any number of threads, any interleaving, spurious wake-ups, strategy changes, shutdown. Sequentially consistent memory; the unlocked read of len in thpool_wait is one atomic read."
  },
  {
   "property": "C29",
   "status": "partial",
   "theorems": [
    "C29_order_is_a_permutation",
    "C29_each_job_submitted_once",
    "C29_order_holds_ranks",
    "C29_slowest_first_refuted"
   ],
   "note": "Proved: order stays a permutation and each job is submitted once; order holds ranks. The slowest-first claim is refuted: the ranks are used as job indices (inverse permutation)."
  },
  {
   "property": "C30",
   "status": "partial",
   "theorems": [
    "C30_static_groups_partition",
    "C30_stale_groups_refuted",
    "C30_pull_partitions",
    "C30_guided_exact_is_safe",
    "C30_large_share_refuted",
    "C30_float_default_refuted"
   ],
   "note": "Proved: static groups partition the jobs for any arithmetic; a pull takes a first part of the queue; guided pulls stay in the queue with exact arithmetic and a share of at most 1 per thread. Refuted: share above 1 per thread, float rounding with the default share, groups reused with fewer threads."
  },
  {
   "property": "C31",
   "status": "partial",
   "theorems": [
    "C31_compare_of_sets",
    "C31_keys_of_loops",
    "C31_equation_pairs",
    "C31_independents",
    "C31_dae_variables",
    "C31_dae_equations_refuted",
    "C31_dae_equations_always_refuted",
    "C31_dae_equations_irreflexive_partial",
    "C31_path_nodes_refuted",
    "C31_path_nodes_single_key_partial"
   ],
   "note": "All comparison functions given to std::sort and ordered containers are modelled. SetComparator, the keys of the loop maps, equation pairs, independents and DAE variables are proved strict weak (mostly total) orders. Two are not: the order of DAE equations puts an algebraic equation before itself, and OperationPathNode::operator< is not asymmetric; both refuted, with what still holds."
  },
  {
   "property": "C32",
   "status": "partial",
   "theorems": [
    "C32_names_identify_variables",
    "C32_consecutive_independents",
    "C32_same_array",
    "C32_custom_boundary_refuted",
    "C32_wrapped_custom_names_refuted"
   ],
   "note": "Names without loop indexes: injectivity is proved for the default, custom, Hessian and second order reverse generators, together with the answers about arrays. Refuted: with individual names, the question about the first independent past the list reads out of bounds; the Hessian and reverse generators claim individually named independents are in the array x."
  },
  {
   "property": "C33",
   "status": "partial",
   "theorems": [
    "C33_replace",
    "C33_explode",
    "C33_join_of_split",
    "C33_join_of_split_refuted",
    "C33_split_of_join",
    "C33_replace_empty_refuted"
   ],
   "note": "replaceString, explode and implode. Replacing is proved for non empty patterns, splitting and joining with the exact loss of a last delimiter; refuted as stated for a text ending in the delimiter, an empty delimiter, and an empty pattern, for which replaceString never ends."
  },
  {
   "property": "C34",
   "status": "partial",
   "theorems": [
    "C34_aligned",
    "C34_positions",
    "C34_reset_refuted"
   ],
   "note": "C34_aligned and C34_positions hold for every history of node creation, deletion and table adjustments in which each reset of the handler is followed by clearing the table; C34_reset_refuted shows that a reset alone leaves the entries of the deleted nodes, which new nodes inherit."
  },
  {
   "property": "C35",
   "status": "partial",
   "theorems": [
    "C35_substitution_replaces_the_variable",
    "C35_substituted_equation_holds",
    "C35_undo_restores",
    "C35_remove_drops_one_variable",
    "C35_remove_later",
    "C35_substituting_itself_refuted",
    "C35_undo_loses_the_name_refuted"
   ],
   "note": "Proved: after a successful substitution the variable has the value of the solved expression, the equation is satisfied by it and every other node keeps its operation and arguments, for any graph in which the variable occurs once in the equation (C21's condition); undoing restores nodes and independents; removing. Refuted: substituteIndependent(x, x) makes a node an alias of itself, and undoing does not restore the name of the variable. Solving with several occurrences is C23/C46."
  },
  {
   "property": "C36",
   "status": "partial",
   "theorems": [
    "C36_groups",
    "C36_lookup",
    "C36_merge_partial",
    "C36_merge_loses_links_refuted"
   ],
   "note": "addLinkedEquationsByNonIndexed and findNonIndexedLinkedRel proved for any sequence of links; Loop::merge drops the links of the other loop (refuted), what it keeps is C36_merge_partial."
  },
  {
   "property": "C37",
   "status": "partial",
   "theorems": [
    "C37_head_tail",
    "C37_segment",
    "C37_reading",
    "C37_ends",
    "C37_writing",
    "C37_assignment",
    "C37_self_assignment",
    "C37_overlapping_refuted",
    "C37_segment_wrap_refuted",
    "C37_empty_segment_refuted"
   ],
   "note": "All reading, writing and window operations on valid views. Refuted: overlapping assignment with the destination after the source, segment when start + n exceeds size_t, the empty segment at the end."
  },
  {
   "property": "C38",
   "status": "partial",
   "theorems": [
    "C38_filter_by_indexes",
    "C38_filter_by_pattern",
    "C38_no_filter",
    "C38_filter_is_kept",
    "C38_outside_positions_refuted"
   ],
   "note": "Exact for all requested positions inside the matrix; refuted for positions outside it, which are written outside the table instead of being rejected."
  },
  {
   "property": "C39",
   "status": "partial",
   "theorems": [
    "C39_tables_are_clean",
    "C39_same_request_same_code",
    "C39_unrelated_generations_do_not_interfere",
    "C39_temporary_becomes_dependent_refuted",
    "C39_dependents_in_another_order_refuted",
    "C39_reuse_switched_on_refuted",
    "C39_generation_after_reset_refuted"
   ],
   "note": "Scalar graphs. Proved for all histories without reset: cleared tables, identical code for a repeated request, no interference between generations that share only independent variables. Refuted: a former temporary requested as dependent, dependents in another order, re-use of temporaries switched on between generations, generation after reset()."
  },
  {
   "property": "C40",
   "status": "partial",
   "theorems": [
    "C40_atomic_structures_refuted",
    "C40_functions_perform_the_same_assignments",
    "C40_functions_stay_within_the_limit",
    "C40_other_functions_are_kept",
    "C40_generated_files_run_the_generated_code",
    "C40_constant_dependents_refuted",
    "C40_index_arguments_refuted",
    "C40_same_file_name_refuted"
   ],
   "note": "Proved for every sequence of statements (with loops) and every limit: the wrapper and its local functions perform exactly the assignments of the unsplit program in the same order, each function has complete loops and fewer than the limit of assignments in front of its last statement or loop, all functions but the last are full, other files are kept; linked to generateCode for scalar graphs. Refuted parts: constants and duplicates are not counted; functions with index arguments are called without them; a function named like a local function is overwritten; the Array structures of atomic functions are not set again in the next function."
  },
  {
   "property": "C41",
   "status": "partial",
   "theorems": [
    "C41_seventeen_digits_partial",
    "C41_written_error_partial",
    "C41_short_decimals_partial",
    "C41_exact_constants_partial",
    "C41_languages_agree_partial",
    "C41_default_precision_changes_constants_refuted",
    "C41_largest_double_becomes_infinite_refuted",
    "C41_negative_zero_refuted",
    "C41_not_finite_refuted",
    "C41_locale_refuted",
    "C41_same_text_refuted"
   ],
   "note": "proved for every double and every precision: with 17 or more digits every finite double except -0 is read back; with p digits the written number is right to half a unit of digit p; with at most 15 digits every normal double that is the rounding of a decimal number of p digits is written as that number and read back, and so is every double that has p digits itself; LaTeX and MathML show the number of the C text. Refuted with the default precision: 0.1+0.2 becomes 0.3 (with 16 digits too), the largest double becomes infinite, different constants share one node in dot; with every precision: -0 becomes 0, inf and nan are not constants of C, and a locale with a decimal comma makes texts that are not constants. operator<< is modelled after the C and C++ standards with correct rounding; base type double only; grouping of digits by a locale is not modelled."
  },
  {
   "property": "C42",
   "status": "partial",
   "theorems": [
    "C42_no_endless_activity",
    "C42_all_jobs_are_run",
    "C42_wait_returns",
    "C42_dynamic_never_crashes",
    "C42_two_waits_refuted",
    "C42_strategy_change_refuted"
   ],
   "note": "Proved for one waiting thread at a time and a fixed strategy, apart from the crash of C30. Refuted for two waiting threads (one wake-up is lost) and for a change of strategy with pending static groups."
  },
  {
   "property": "C43",
   "status": "partial",
   "theorems": [
    "C43_freed_after_the_jobs_partial",
    "C43_use_after_free_refuted",
    "C43_shutdown_ends"
   ],
   "note": "Proved: shutdown ends, memory is freed only after the workers left their loops. Refuted: a worker may unlock thcount_lock after the free."
  },
  {
   "property": "C44",
   "status": "proved",
   "theorems": [
    "C44_result_is_an_index_one_matching",
    "C44_no_null_pointer"
   ],
   "note": "All model graphs, any number of passes. init_graph (construction from incidence and derivative lists) satisfies model_graph; pendulum as instance."
  },
  {
   "property": "C45",
   "status": "partial",
   "theorems": [
    "C45_ends_on_regular_structures",
    "C45_success_means_regular",
    "C45_ends_refuted",
    "C45_regular_accepted_refuted"
   ],
   "note": "Proved: ends within (equations*variables+equations) passes when the structure is regular, and a result implies regularity. Refuted: ends for every accepted model (two equations in one variable loop forever); regular models are always accepted (a declared derivative occurring in no equation makes pantelides.hpp 163-175 throw)."
  },
  {
   "property": "C46",
   "status": "proved",
   "theorems": [
    "C46_solveFor_returns_or_throws",
    "C46_isSolvable_answers"
   ],
   "note": "For any number of occurrences, any evaluation order of operands and any limit of bifurcations not smaller than the number of paths. The expression must not be the variable itself (see C21_expression_is_the_variable_refuted)."
  },
  {
   "property": "C47",
   "status": "partial",
   "theorems": [
    "C47_arrays_hold_their_values",
    "C47_operands_overwritten_refuted",
    "C47_arrays_in_loops_refuted"
   ],
   "note": "Proved for straight-line code when elements inside operations belong to arrays still in use; refuted otherwise: operands of an in-place expression can be overwritten while the array is being filled (array_id_compresser.hpp 106-115 only looks at direct elements), and inside loops an assignment is skipped because the value is there before the loop but not in later iterations."
  },
  {
   "property": "C48",
   "status": "partial",
   "theorems": [
    "C48_forward",
    "C48_reverse",
    "C48_hessian",
    "C48_hessian_bridge",
    "C48_output_not_cleared_refuted"
   ],
   "note": "Exact for the three answers of both implementations; refuted for the selection vector t of rev_sparse_hes, which is never cleared. The cache hess_ of the bridge and the patterns computed by CppAD are inputs of the model."
  },
  {
   "property": "C49",
   "status": "partial",
   "theorems": [
    "C49_atomic_functions_get_their_arrays",
    "C49_one_structure_per_order",
    "C49_arrays_of_an_outer_scope_refuted",
    "C49_branch_not_taken_refuted"
   ],
   "note": "Proved for all programs whose calls use arrays created in the same block (blocks executed any number of times). Refuted for arrays created in an outer block (second iteration of a loop, branch not taken) and across split functions (C40_atomic_structures_refuted)."
  },
  {
   "property": "C50",
   "status": "proved",
   "theorems": [
    "C50_relations_are_consistent",
    "C50_a_call_joins_or_changes_nothing",
    "C50_rejected_attempt_changes_nothing"
   ],
   "note": "Full model of makeDependentRelation, of the copies and the restoring of the relations and of setLinkedDependents. The search of shared variables which decides the calls is not modelled: any calls are allowed."
  },
  {
   "property": "C51",
   "status": "partial",
   "theorems": [
    "C51_every_dependent_in_one_iteration_partial",
    "C51_iterations_after_any_attempts_partial",
    "C51_dependents_in_no_iteration_refuted",
    "C51_undefined_with_an_unrelated_dependent_refuted",
    "C51_undefined_with_crossed_relations_refuted",
    "C51_undefined_with_both_kinds_of_links_refuted"
   ],
   "note": "Proved when the relations follow the order of the dependents in every equation and equations linked by non-indexed variables have no relations by indexed ones. In general it is false: dependents can be in no iteration (C51_dependents_in_no_iteration_refuted) and there is undefined behaviour with an unrelated dependent or with crossed relations, for relations which the search of loops does produce."
  },
  {
   "property": "C52",
   "status": "partial",
   "theorems": [
    "C52_sparse_jacobian_elements_partial",
    "C52_sparse_jacobian_any_schedule_partial",
    "C52_repeated_element_not_computed_refuted",
    "C52_sparse_hessian_elements_partial",
    "C52_sparse_hessian_any_schedule_partial",
    "C52_threads_ignore_multiplier_refuted",
    "C52_threads_read_out_of_bounds_refuted",
    "C52_sparse_hessian_directly",
    "C52_symmetric_pair_not_computed_refuted"
   ],
   "note": "proved for every list, of every order, with and without atomics, for one or more threads and every interleaving, except: a list which repeats an element or, in Hessians, has both elements of a symmetric pair of which only one is in the pattern, for these later elements are never written (two refuted theorems) or the direct Hessian throws; and the Hessian with several threads when the elements of a row are not requested one after the other: the wrapper of the function of that row takes the constant 1 for the array of multipliers, so that the multiplier is ignored with one equation and memory is read out of bounds with more (C52_threads_ignore_multiplier_refuted, C52_threads_read_out_of_bounds_refuted). The derivatives themselves are an input (CppAD); models with loops are in C64, C65 and C67."
  },
  {
   "property": "C53",
   "status": "partial",
   "theorems": [
    "C53_forward_one_partial",
    "C53_reverse_one_partial",
    "C53_reverse_two_partial",
    "C53_sparse_arguments_partial",
    "C53_jacobian_products_partial",
    "C53_hessian_product_partial",
    "C53_repeated_element_is_added_twice_refuted",
    "C53_no_memory_is_not_detected",
    "C53_no_memory_refuted",
    "C53_sparse_arguments_throw",
    "C53_sparse_arguments_throw_refuted",
    "C53_sparse_arguments_overflow",
    "C53_sparse_arguments_overflow_refuted"
   ],
   "note": "proved for any values (also floating point: the order of the sums is fixed) when no element is requested twice and malloc works, and as products in exact arithmetic; realloc may fail. Refuted: an element requested twice is added twice by models with atomic functions, and then the methods with sparse arguments write out of bounds; a failure of malloc is not detected; the methods with sparse arguments throw for a direction without elements. The directional functions are those of C52; models with loops are in C66 and C67; the release of memory is not modelled."
  },
  {
   "property": "C54",
   "status": "partial",
   "theorems": [
    "C54_forward_partial",
    "C54_forward_values_partial",
    "C54_forward_succeeds_partial",
    "C54_recording_partial",
    "C54_reverse_partial",
    "C54_reverse_second_partial",
    "C54_inner_model_throws",
    "C54_two_orders_refuted",
    "C54_constant_result_refuted",
    "C54_not_standalone_refuted",
    "C54_second_order_refuted",
    "C54_parameter_operand_refuted",
    "C54_no_hessian_pattern_refuted"
   ],
   "note": "proved for functions which stand alone (do not read the coefficients of their results): forward sweeps of one order, the recording of results which depend on variables, first order reverse mode, and second order reverse mode when the partial derivatives of order 0 are identically zero. Refuted: results of order 0 of a sweep of two orders; results of constants while recording; functions which are not stand alone (the exponential as CppAD documents it gets derivative zero in the generated code); second order reverse mode followed by nonlinear operations, with operands which are parameters, or with a function without Hessian sparsity. How the generated C code fills the arrays is in C49 and the array properties; only orders 0 and 1."
  },
  {
   "property": "C55",
   "status": "partial",
   "theorems": [
    "C55_history_partial",
    "C55_defined_partial",
    "C55_mapped_partial",
    "C55_closed_library_partial",
    "C55_evaluation_partial",
    "C55_moved_model_refuted",
    "C55_moved_model_not_told_refuted",
    "C55_moved_atomic_refuted",
    "C55_moved_library_refuted",
    "C55_refused_library_stays_mapped_refuted",
    "C55_threads_lost_refuted",
    "C55_short_vector_refuted"
   ],
   "note": "proved for every history without moves of model objects and with moves of libraries only while no model object of theirs is in use. Refuted: moving a model object (the library keeps a pointer to the object moved from and never tells the new one that it was closed; asAtomic keeps evaluating the object moved from); moving a library in use; a library that is refused stays mapped; the number of threads is reset when the same file is opened again; the sparse Jacobian in vectors does not test the size of its argument. Return codes of compiled functions are in C53; an evaluation inside an external model is another evaluation. dlopen and dlclose are a reference count; LLVM libraries are not modelled."
  },
  {
   "property": "C56",
   "status": "partial",
   "theorems": [
    "C56_function_names",
    "C56_no_temporary_files",
    "C56_library_complete_partial",
    "C56_library_created_partial",
    "C56_models_report_settings_partial",
    "C56_create_again",
    "C56_sparse_names_overwrite_refuted",
    "C56_reports_functions_of_other_models_refuted",
    "C56_later_settings_ignored_refuted",
    "C56_shared_model_does_not_load_refuted",
    "C56_incomplete_after_exception_refuted"
   ],
   "note": "proved for all names, settings, histories and failures: two functions have the same external name only if one model is named after the other with \"_sparse\" (an equivalence); no file is left or changed; a creation after a failed one gives the same library; and, if settings and threads are chosen before sources are first generated, no exception is thrown while sources are generated, and no two models or custom sources clash, the library has exactly the wanted sources, loads, and its models report their settings. Refuted otherwise: models \"a\" and \"a_sparse\" overwrite each other's functions without an error or report functions of each other; settings changed later are ignored; a model shared with a library with other threads gives a library that does not load; after an exception during the generation of sources the next creation succeeds with incomplete sources. Loops, saving of sources, Clang and the arguments of the compilers are not modelled; the compiler is given by its results."
  },
  {
   "property": "C57",
   "status": "partial",
   "theorems": [
    "C57_jacobian_pattern",
    "C57_hessian_pattern",
    "C57_equation_patterns",
    "C57_union_of_equations",
    "C57_sparse_jacobian",
    "C57_sparse_hessian",
    "C57_several_arrays",
    "C57_dense_jacobian_complete",
    "C57_no_access_outside_partial",
    "C57_vector_size_unchecked_refuted",
    "C57_equation_hessian_partial",
    "C57_equation_hessian_refuted",
    "C57_variables_partial",
    "C57_variables_with_request_refuted",
    "C57_marks_not_cleared_refuted",
    "C57_patterns_once"
   ],
   "note": "proved for all recorded functions, requests and sizes: the reported patterns are those of CppAD restricted to the requested elements, also those of each equation, which are found together by colours; the pattern of the Hessian is the union of those of the equations; values, rows and columns of sparse results agree in every form; with sizes that pass the checks no access is outside of the vectors, except for the following. Refuted: the vector form of SparseJacobian does not check the size of x and reads outside of it; the Hessian of one equation uses uninitialised multipliers with vectors that do not fill new elements; with requested elements, ForwardZero with variables does not mark results that depend on variables, and it never clears marks. CppAD's propagation of patterns is trusted to be linear."
  },
  {
   "property": "C58",
   "status": "partial",
   "theorems": [
    "C58_patterns_exact",
    "C58_loop_values_partial",
    "C58_repeated_operation_refuted",
    "C58_crossing_operation_refuted"
   ],
   "note": "proved for all recorded models, candidates and values: the patterns found are exactly the classes of candidates with the same expression but for the independents, no exception or invalid access happens, and aliases do not change dependents; a loop with any of the patterns, in one group with shared operations, gives in each iteration the value and the index of the dependent of that iteration, if the patterns are usable: wherever an operation of the reference expression is used again the other expressions use the same independents, and operations in both expressions are at the same positions. Both conditions are needed, refuted: y0 = a + a (a = x0^2 made once), y1 = x1^2 + x2^2 are found to be a pattern, and the loop computes 2*x2^2 for y1; likewise with an operation at another position. Missing: loops of several groups, iterations whose reference dependents are not those of the patterns, and the model of the operations outside of the loops."
  },
  {
   "property": "C59",
   "status": "proved",
   "theorems": [
    "C59_structure",
    "C59_derived_equations",
    "C59_equations",
    "C59_variables",
    "C59_solutions",
    "C59_nothing_to_do",
    "C59_removal_ends"
   ],
   "note": "proved for all models, all allowed sequences of calls and all trajectories over the reals (functions of the model are any with derivatives at the points of the trajectory). Every function of time must be in an equation. Removals end if no variable was differentiated alone (as in the method of Soares and Secchi; with such a variable they may not end, example). Comparisons, names and the assigned variables of equations are not in the model, and Reverse(1) of CppAD is trusted."
  },
  {
   "property": "C60",
   "status": "partial",
   "theorems": [
    "C60_graph",
    "C60_selection",
    "C60_selection_ends",
    "C60_round",
    "C60_preference_no_effect",
    "C60_preference_refuted",
    "C60_equal_sizes_refuted",
    "C60_marked",
    "C60_removed",
    "C60_removal_overrun_refuted",
    "C60_reordered_partial",
    "C60_reordered_refuted",
    "C60_documented_order_refuted",
    "C60_same_residuals",
    "C60_same_solutions",
    "C60_semi_explicit_partial",
    "C60_semi_explicit_refuted"
   ],
   "note": "proved: the selection (number, difference, avoided variables, end), the marks, the positions and links after removals, residuals and solutions after substitutions and new orders, semi-explicit models with first derivatives only. Refuted: setAvoidConvertAlg2DifVars never changes the selected set; with assertions a round with as many variables as equations always fails; the removal of a variable uses information past the end of the array; a new order does not update the antiderivatives of equations; derivatives come first and not after the algebraic variables; semi-explicit models with second derivatives lose the first derivative and have an explicit equation without variable. Not in the model: the values of the Jacobian, Eigen's QR (its order of columns is any permutation), the choice of the equations for elimination (matchVars2Eqs4Elimination), and the substitution in graphs (C35), which is an operation on functions here."
  },
  {
   "property": "C61",
   "status": "partial",
   "theorems": [
    "C61_outcome",
    "C61_returns",
    "C61_nothing_left",
    "C61_never_stuck_partial",
    "C61_ends_partial",
    "C61_large_output",
    "C61_large_output_refuted",
    "C61_cut_output_refuted",
    "C61_both_ways_refuted",
    "C61_sigpipe_refuted",
    "C61_exec_failure_partial",
    "C61_exec_failure_refuted",
    "C61_diagnostics_refuted"
   ],
   "note": "proved for every schedule: the outcome is the one that follows from what the program does or has an excuse in the surroundings, what is stored, descriptors and zombies, and, for outputs of at most 10001 bytes and the capacity of a pipe (and not both more input and more output than a pipe can hold), the end of every fair execution. Refuted: with more output no schedule ends the call; from 10001 bytes on the stored output is cut; input and output that are both larger than a pipe block both processes; a program that ends before reading its input (also one that cannot be executed) ends the caller by SIGPIPE in some schedules; what a failing program wrote is in no exception. Not in the model: interrupted system calls, failures of dup2, other processes that inherit the descriptors, programs that never end."
  },
  {
   "property": "C62",
   "status": "partial",
   "theorems": [
    "C62_models",
    "C62_result",
    "C62_defined",
    "C62_ends",
    "C62_success_means_regular",
    "C62_singular_refused",
    "C62_regular_accepted_partial",
    "C62_regular_accepted_refuted",
    "C62_order_refuted"
   ],
   "note": "proved for every structure and every order: the end within 2*variables+2 passes, absence of undefined behaviour, the form of the result, what can be removed, and that singular structures are refused; a refusal before any differentiation means that the structure is singular. Refuted: some regular structures are refused for every order of differentiation (equations keep the colour of a successful search), and for others the answer depends on the addresses of the equations. Not in the model: the time derivatives of the equations themselves (C59) and the messages."
  },
  {
   "property": "C63",
   "status": "proved",
   "theorems": [
    "C63_every_iteration",
    "C63_condition"
   ],
   "note": "for every sequence of results which the code can ask for in a loop: no null pointer, and in each iteration the text of the structures (branch results before the header of the next branch) has exactly the effects asked for, up to the order of the results; locations through the index patterns of C15 and conditions through the C text of C14. Assumed of the callers (stated in LoopCond_spec.v): branches with disjoint iterations, at least one iteration, not one branch for all iterations. Not in the model: printing of results (printResult), and where the values are computed."
  },
  {
   "property": "C64",
   "status": "proved",
   "theorems": [
    "C64_jacobian",
    "C64_repeated",
    "C64_values"
   ],
   "note": "over the reals, for every model made of loops (LoopJac_spec.v: good): analysis of the requested elements, rows of the Jacobian in each loop, results through createLoopResult (C63) and execution of the loops followed by the elements outside loops. The chain rule is proved, not assumed: tapes_right says only that each tape is differentiable where the model evaluates it and that its sparsity covers its dependencies. A repeated element of a loop throws; repeats outside loops are served. Not in the model: the code of the tapes inside the loop bodies (C52, C53 for plain models), rounding, moving operations out of the loop."
  },
  {
   "property": "C65",
   "status": "partial",
   "theorems": [
    "C65_loops_assembly_partial",
    "C65_loops_assembly_sorted",
    "C65_loops_assembly_overflow_refuted",
    "C65_loops_assembly_repeated_refuted"
   ],
   "note": "proved for every request without repeated elements in which each group of loop results has all its directions requested in consecutive places, or none with more elements than the largest direction requested apart (fits); in particular for all requests sorted by direction. Refuted otherwise: the work array is sized by the directions requested apart only, but a group with one of them uses it for all its directions, and writes behind its end (overflow_refuted); a repeated element gets twice its value in the first place and nothing in the others (repeated_refuted). Values are of any commutative monoid, so rounding is not covered. The functions of one direction are inputs of the model, with the positions they contribute to; C67 proves that those of reverse mode meet this."
  },
  {
   "property": "C66",
   "status": "partial",
   "theorems": [
    "C66_loops_forward_one_partial",
    "C66_loops_reverse_one_partial",
    "C66_loops_reverse_two_partial",
    "C66_loops_sparse_arguments_partial",
    "C66_loops_leftovers",
    "C66_loops_sparse_arguments_second_call_refuted",
    "C66_loops_sparse_arguments_two_directions_refuted"
   ],
   "note": "ForwardOne, ReverseOne and ReverseTwo are proved for any request without repeated elements (they clear the work array before each direction). The methods with sparse arguments do not clear it: they are proved right when every direction has a function outside loops, and for any other direction the value is proved to be what the work array had plus the derivative (C66_loops_leftovers); two refutations show a second call which gives twice the derivatives and a call with two directions whose values get mixed. In reverse mode every equation of a loop is such a direction. Repeated elements are refused by no one (C53). Values are of any commutative monoid."
  },
  {
   "property": "C67",
   "status": "partial",
   "theorems": [
    "C67_loops_functions",
    "C67_loops_reverse_one",
    "C67_loops_jacobian_from_reverse",
    "C67_repeated_element_overrun_refuted",
    "C67_repeated_element_zero_refuted"
   ],
   "note": "proved over the reals, from the requested elements to the numbers: analysis of the elements by row, the functions outside loops and of each equation pattern, their execution, the sums of C66 (ReverseOne, product of the weights and the Jacobian when the request covers it) and the assembly of C65 (sparse Jacobian when the elements of an equation are requested one after the other), for every request without repeated elements. Repeated elements: one of a loop is refused; one of an equation outside loops is refuted: the row is written behind its end (C67_repeated_element_overrun_refuted) or the repetition gets zero (C67_repeated_element_zero_refuted). Not in the model: the code of the tapes, rounding. The model of ReverseOne with sparse arguments is in C66."
  },
  {
   "property": "C68",
   "status": "partial",
   "theorems": [
    "C68_loops_forward_functions",
    "C68_loops_forward_one",
    "C68_loops_jacobian_from_forward",
    "C68_full_request",
    "C68_only_through_temporaries_refuted",
    "C68_repeated_element_zero_refuted"
   ],
   "note": "proved over the reals, from the requested elements to the numbers: analysis of the elements by column, grouping of tape variables and iterations by variable, the loop count and the iteration of each group, execution of the functions, the sums of C66 (ForwardOne, Jacobian times direction when the request covers it) and the assembly of C65 (sparse Jacobian when the elements of a variable are requested one after the other), for every request without repeated elements where a variable without index is used directly by some requested equation of its loop (C68_full_request: a request of the whole sparsity has this). Without that condition the generation fails although reverse mode generates: C68_only_through_temporaries_refuted. Repeated elements: one of a loop is refused; the repetition of one outside loops gets zero (C68_repeated_element_zero_refuted). Not in the model: the code of the tapes, rounding, printing of the index expressions (C17)."
  },
  {
   "property": "C69",
   "status": "partial",
   "theorems": [
    "C69_moved_before_loop",
    "C69_results_unchanged",
    "C69_all_computed_before_refuted"
   ],
   "note": "proved for every acyclic graph: the search ends with every access inside of its vectors, nothing moved depends on the index, no cycle appears when the moved operations become arguments of the start of the loop, every iteration has the original values with those of the moved operations computed once for any index, and every operation below the end which depends on the index has no movable argument left, except array elements and calls of atomic functions, whose arguments are left in the loop on purpose (C69_all_computed_before_refuted). Not in the model: the order of the operations in the source (C07), and conditionals: evaluations of an expression outside of a conditional which would have guarded it inside of the loop have no effect in the model other than their value"
  },
  {
   "property": "C70",
   "status": "partial",
   "theorems": [
    "C70_choice_ends",
    "C70_chosen_can_be_eliminated",
    "C70_stops_when_all_are_refused",
    "C70_one_equation_each_refuted",
    "C70_finds_what_can_be_eliminated_refuted",
    "C70_any_order_refuted"
   ],
   "note": "proved for any solver and any substitution (functions which are parameters of the model): the choice ends, what is chosen can be eliminated in the order of the choice and is one to one, derivatives of a semi-explicit model all have an equation, and the loops stop only when all candidates were refused. Refuted: equations which are not chosen keep the variable assigned before, so that a variable may be assigned to two equations, of which the last is used (C70_one_equation_each_refuted); an equation which can no longer be solved for a variable stays in the list of that variable and its use is an exception, although the elimination is possible (C70_finds_what_can_be_eliminated_refuted); the eliminations cannot be done in every order (C70_any_order_refuted). Not in the model: that the solver and the substitution are right (C35), and the models generated from the choice"
  },
  {
   "property": "C71",
   "status": "partial",
   "theorems": [
    "C71_path_of_folders",
    "C71_directory_and_file",
    "C71_file_of_a_path",
    "C71_absolute",
    "C71_empty_folder_refuted"
   ],
   "note": "proved for all strings except folders which are empty: an empty folder (for instance the temporary folder of a compiler set to the empty string for the working directory) gives a path in the root of the file system (C71_empty_folder_refuted). The meaning of paths (absolute or not, names between slashes without empty ones and single dots) is the small specification Paths_spec.v; symbolic links and double dots are components like others"
  },
  {
   "property": "C72",
   "status": "partial",
   "theorems": [
    "C72_usage_of_atomic_functions",
    "C72_asked_again",
    "C72_asked_twice_without_atomic_functions_refuted"
   ],
   "note": "proved for the first request and for further requests once something was found; a locator of a model without atomic functions which is asked twice fails a debug assertion (C72_asked_twice_without_atomic_functions_refuted). The nodes made by the evaluation of the tape are arbitrary but come after their arguments, and calls of atomic functions are of order zero with two arrays, as the recording of such calls makes them"
  }
 ]
}