{
 "claims": [
  {
   "property": "C01",
   "status": "proved",
   "theorems": [
    "C01_packed_readback"
   ],
   "note": ""
  },
  {
   "property": "C02",
   "status": "proved",
   "theorems": [
    "C02_packed_layout"
   ],
   "note": ""
  },
  {
   "property": "C18",
   "status": "proved",
   "theorems": [
    "C18_extracted_plan_valid"
   ],
   "note": "For every sequence of search-space operations of the modelled protocol (parents have a g-value, redirections strictly lower g)."
  },
  {
   "property": "C19",
   "status": "proved",
   "theorems": [
    "C19_eager_sound",
    "C19_eager_no_undefined_behaviour",
    "C19_bound_with_transformed_costs_refuted"
   ],
   "note": "The bound clause holds for untransformed costs (and non-empty plans); for cost_type=ONE/PLUSONE it is false of the code, shown by C19_bound_with_transformed_costs_refuted."
  },
  {
   "property": "C20",
   "status": "proved",
   "theorems": [
    "C20_eager_complete",
    "C20_eager_terminates"
   ],
   "note": "Termination on finite state spaces, without a lazy (path-dependent) evaluator."
  },
  {
   "property": "C21",
   "status": "proved",
   "theorems": [
    "C21_astar_finds_optimal_plan",
    "C21_astar_optimal_below_bound",
    "C21_astar_on_task_is_optimal",
    "C21_astar_hmax_is_optimal",
    "C21_astar_lmcut_is_optimal",
    "C21_astar_pdb_is_optimal",
    "C21_astar_canonical_pdbs_is_optimal",
    "C21_astar_zero_one_pdbs_is_optimal",
    "C21_astar_hm_is_optimal"
   ],
   "note": "For every admissible evaluator, and end to end for the modelled heuristics on tasks without derived variables."
  },
  {
   "property": "C25",
   "status": "proved",
   "theorems": [
    "C25_best_first_is_stable_queue"
   ],
   "note": ""
  },
  {
   "property": "C26",
   "status": "proved",
   "theorems": [
    "C26_tie_breaking_is_stable_lexicographic_queue"
   ],
   "note": ""
  },
  {
   "property": "C27",
   "status": "proved",
   "theorems": [
    "C27_alternation_selects_minimal_priority",
    "C27_alternation_loses_nothing",
    "C27_alternation_fair",
    "C27_alternation_boost"
   ],
   "note": ""
  },
  {
   "property": "C03",
   "status": "proved",
   "theorems": [
    "C03_segmented_vector_is_vector"
   ],
   "note": ""
  },
  {
   "property": "C04",
   "status": "proved",
   "theorems": [
    "C04_segmented_array_vector_is_vector"
   ],
   "note": ""
  },
  {
   "property": "C07",
   "status": "proved",
   "theorems": [
    "C07_bitset_is_finite_set"
   ],
   "note": ""
  },
  {
   "property": "C11",
   "status": "proved",
   "theorems": [
    "C11_ordered_set"
   ],
   "note": ""
  },
  {
   "property": "C08",
   "status": "proved",
   "theorems": [
    "C08_refine_is_common_refinement",
    "C08_duplicates_refuted"
   ],
   "note": "Refining vectors must be duplicate-free; the _refuted theorem shows the precondition is needed."
  },
  {
   "property": "C05",
   "status": "proved",
   "theorems": [
    "C05_insert_is_find_or_add",
    "C05_insert_is_right_or_aborts",
    "C05_few_keys_are_spread",
    "C05_any_hash_refuted"
   ],
   "note": "Holds for every insertion sequence when some power of two up to 2^30 spreads the hashes; for arbitrary hash functions the set either answers as specified or terminates the process. Find-or-add for all hash functions is false: 33 keys with one hash terminate the process."
  },
  {
   "property": "C06",
   "status": "proved",
   "theorems": [
    "C06_adaptive_queue_is_priority_queue",
    "C06_heap_queue_is_priority_queue"
   ],
   "note": "std::push_heap/pop_heap are modelled as in libstdc++. Histories are limited to fewer than 2^31 real and virtual pushes, beyond which the code's counter overflows."
  },
  {
   "property": "C09",
   "status": "proved",
   "theorems": [
    "C09_sccs_in_topological_order"
   ],
   "note": ""
  },
  {
   "property": "C10",
   "status": "proved",
   "theorems": [
    "C10_all_maximal_cliques_once"
   ],
   "note": "For graphs with sorted adjacency lists, as the code asserts."
  },
  {
   "property": "C13",
   "status": "proved",
   "theorems": [
    "C13_evaluate_is_stratified_model"
   ],
   "note": "A task without rules is not evaluated by the code, so there derived variables must already be at their defaults (they are, in every reachable state)."
  },
  {
   "property": "C12",
   "status": "proved",
   "theorems": [
    "C12_generates_exactly_the_applicable_operators"
   ],
   "note": "The memory estimate that chooses between vector and hash switches is an arbitrary function."
  },
  {
   "property": "C14",
   "status": "proved",
   "theorems": [
    "C14_registry_ids_are_states"
   ],
   "note": "The hash function is arbitrary; the first alternative (process ends because too many states collide) is the finding of C05."
  },
  {
   "property": "C15",
   "status": "proved",
   "theorems": [
    "C15_successors_follow_semantics",
    "C15_unregistered_successors_follow_semantics"
   ],
   "note": ""
  },
  {
   "property": "C16",
   "status": "partial",
   "theorems": [
    "C16_accepted_files_are_well_formed",
    "C16_parsed_tasks_are_well_formed",
    "C16_well_formed_files_are_accepted",
    "C16_no_undefined_behaviour_partial",
    "C16_out_of_range_variable_refuted"
   ],
   "note": "The parser accepts exactly the files of the specified format and returns the task they describe. The safety half is false of the code: an effect or rule on a non-existing variable number indexes outside the variable table (refuted with a concrete file); with a range check at these two places it is proved."
  },
  {
   "property": "C17",
   "status": "proved",
   "theorems": [
    "C17_mutex_queries",
    "C17_mutex_irreflexive"
   ],
   "note": "Queries answer exactly the declared mutexes, symmetrically."
  },
  {
   "property": "C22",
   "status": "proved",
   "theorems": [
    "C22_lazy_sound",
    "C22_lazy_no_undefined_behaviour",
    "C22_lazy_complete",
    "C22_bound_with_transformed_costs_refuted"
   ],
   "note": "The bound clause holds for real operator costs; with transformed costs it is false of the code (refuted)."
  },
  {
   "property": "C23",
   "status": "proved",
   "theorems": [
    "C23_ehc_sound",
    "C23_ehc_no_undefined_behaviour",
    "C23_prune_uses_only_preferred"
   ],
   "note": ""
  },
  {
   "property": "C24",
   "status": "proved",
   "theorems": [
    "C24_best_plan_kept",
    "C24_status",
    "C24_bound_passed",
    "C24_plans_valid",
    "C24_terminates",
    "C24_repeat_last_terminates_refuted",
    "C24_solved_without_plan_refuted"
   ],
   "note": "Two findings: repeating the last phase never ends if the initial state is a goal state; without passing bounds SOLVED can be reported with no stored plan."
  },
  {
   "property": "C61",
   "status": "partial",
   "theorems": [
    "C61_rank_uses_only_preferred",
    "C61_rank_preferred_first_refuted"
   ],
   "note": "The property is false of the code: the tie-breaking list is created with unsafe_pruning=false, pref_only=true, so non-preferred successors are dropped (refuted with a solvable task on which the mode fails); what the mode really does is proved."
  },
  {
   "property": "C32",
   "status": "proved",
   "theorems": [
    "C32_hmax_exact",
    "C32_hmax_admissible",
    "C32_hmax_consistent"
   ],
   "note": "For any priority queue that behaves as C06 says, whatever earlier evaluations left behind."
  },
  {
   "property": "C33",
   "status": "proved",
   "theorems": [
    "C33_hadd_exact"
   ],
   "note": "Exact up to the clamping constant; assumes that no single operator costs more than that constant (finding r)."
  },
  {
   "property": "C34",
   "status": "proved",
   "theorems": [
    "C34_ff_relaxed_plan"
   ],
   "note": "Assumes that no single operator costs more than the clamping constant."
  },
  {
   "property": "C35",
   "status": "proved",
   "theorems": [
    "C35_lmcut",
    "C35_duplicate_precondition_refuted"
   ],
   "note": "For tasks in which no condition lists a fact twice; with a duplicated precondition the model (and the assertion in the code) fails."
  },
  {
   "property": "C36",
   "status": "proved",
   "theorems": [
    "C36_simplify_preserves_costs",
    "C36_unary_ops_nodup"
   ],
   "note": ""
  },
  {
   "property": "C31",
   "status": "proved",
   "theorems": [
    "C31_caching_transparent",
    "C31_large_values_refuted"
   ],
   "note": "For values below 2^30; larger values are truncated by the 31-bit cache field (refuted)."
  },
  {
   "property": "C37",
   "status": "proved",
   "theorems": [
    "C37_blind"
   ],
   "note": ""
  },
  {
   "property": "C38",
   "status": "proved",
   "theorems": [
    "C38_goalcount"
   ],
   "note": ""
  },
  {
   "property": "C48",
   "status": "proved",
   "theorems": [
    "C48_combining_evaluators",
    "C48_reliable_dead_ends",
    "C48_sum_saturates_refuted"
   ],
   "note": "As long as no finite value reaches INT_MAX; a finite sum equal to INT_MAX is reported as infinite (refuted)."
  },
  {
   "property": "C51",
   "status": "proved",
   "theorems": [
    "C51_cost_types"
   ],
   "note": ""
  },
  {
   "property": "C58",
   "status": "proved",
   "theorems": [
    "C58_is_product_within_limit",
    "C58_is_product_within_limits"
   ],
   "note": ""
  },
  {
   "property": "C40",
   "status": "proved",
   "theorems": [
    "C40_pdb_exact",
    "C40_pdb_admissible",
    "C40_pdb_too_large",
    "C40_pdb_unsupported"
   ],
   "note": "Relies on preconditions and effects on the same variables being listed in the same order, as the input format does (op_plain)."
  },
  {
   "property": "C41",
   "status": "proved",
   "theorems": [
    "C41_canonical"
   ],
   "note": ""
  },
  {
   "property": "C42",
   "status": "proved",
   "theorems": [
    "C42_zero_one"
   ],
   "note": ""
  },
  {
   "property": "C43",
   "status": "proved",
   "theorems": [
    "C43_pruning_keeps_value"
   ],
   "note": "For nonempty patterns and any time limit."
  },
  {
   "property": "C44",
   "status": "proved",
   "theorems": [
    "C44_start",
    "C44_merge_is_product",
    "C44_shrink_is_image",
    "C44_label_reduction",
    "C44_prune",
    "C44_admissible",
    "C44_exact"
   ],
   "note": "For every sequence of merges, shrinkings, prunings and exact label reductions from the atomic systems. The label groups reduced satisfy a contract (that label_reduction.cc meets it is C69); shrinking uses arbitrary groupings, and exactness holds if they combine only bisimilar states. Exactness for tasks without conditional effects."
  },
  {
   "property": "C45",
   "status": "proved",
   "theorems": [
    "C45_compute_distances",
    "C45_distances_maintained"
   ],
   "note": "Both the breadth-first and the Dijkstra variant; distances kept by shrinking, pruning and label reduction are also exact."
  },
  {
   "property": "C39",
   "status": "proved",
   "theorems": [
    "C39_hm_exact",
    "C39_hm_admissible",
    "C39_hm_consistent",
    "C39_hm_monotone",
    "C39_unsorted_goal_refuted"
   ],
   "note": "Exact value of the h^m fixpoint, termination, admissibility, consistency. The goal must list its variables in increasing order: otherwise the code aborts (C39_unsorted_goal_refuted). Integer overflow of costs is not modelled."
  },
  {
   "property": "C28",
   "status": "proved",
   "theorems": [
    "C28_pareto_nondominated",
    "C28_pareto_any_choice",
    "C28_pareto_uniform",
    "C28_pareto_contract",
    "C28_state_uniform_refuted"
   ],
   "note": "For all random streams. Uniform selection proved for the default setting; with state_uniform_selection the buckets are weighted by key length, not by their number of entries as documented (C28_state_uniform_refuted)."
  },
  {
   "property": "C29",
   "status": "proved",
   "theorems": [
    "C29_type_based_nothing_lost",
    "C29_type_based_uniform",
    "C29_type_based_any_choice",
    "C29_type_based_contract"
   ],
   "note": "For all random streams."
  },
  {
   "property": "C30",
   "status": "proved",
   "theorems": [
    "C30_epsilon_greedy_nothing_lost",
    "C30_epsilon_greedy_standard",
    "C30_epsilon_greedy_each_step",
    "C30_epsilon_greedy_contract"
   ],
   "note": "For all random streams and all outcomes of the epsilon comparisons. Entry identifiers are unbounded in the model."
  },
  {
   "property": "C53",
   "status": "proved",
   "theorems": [
    "C53_pruning_only_removes",
    "C53_pruning_keeps_plans",
    "C53_astar_with_pruning_is_optimal",
    "C53_duplicate_effects_refuted"
   ],
   "note": "stubborn_sets_simple, stubborn_sets_ec and atom_centric_stubborn_sets (all selection strategies, with and without sibling shortcut). Operators that set a variable twice make pruning unsafe (C53_duplicate_effects_refuted); the parser accepts them. For limited_pruning see C81."
  },
  {
   "property": "C50",
   "status": "proved",
   "theorems": [
    "C50_conditional_arguments",
    "C50_predefinitions",
    "C50_balanced",
    "C50_options"
   ],
   "note": "Model of command_line.cc; the construction of the search algorithm from its text is a parameter."
  },
  {
   "property": "C52",
   "status": "proved",
   "theorems": [
    "C52_numbered_plans",
    "C52_names_distinct",
    "C52_single_plan_run",
    "C52_iterated_run"
   ],
   "note": "Model of plan_manager.cc, the saving part of search_algorithm.cc / iterated_search.cc and main(). Costs and counters unbounded."
  },
  {
   "property": "C56",
   "status": "proved",
   "theorems": [
    "C56_exit_code",
    "C56_success_means_plan",
    "C56_errors",
    "C56_no_search_refuted",
    "C56_astar_from_input_to_plan_file"
   ],
   "note": "Proved for runs with a search algorithm; refuted finding: without --search main() calls search() through a null pointer. End-to-end theorem from the input text to the plan file for A*."
  },
  {
   "property": "C60",
   "status": "proved",
   "theorems": [
    "C60_causal_graph_exact"
   ],
   "note": "Model of causal_graph.cc; the cache get_causal_graph is not modelled."
  },
  {
   "property": "C49",
   "status": "proved",
   "theorems": [
    "C49_tokens_exact",
    "C49_tokens_cover",
    "C49_parser_exact",
    "C49_unambiguous",
    "C49_names",
    "C49_reserved_prefix_refuted"
   ],
   "note": "Regular expressions are modelled with the backtracking order of ECMAScript; the token relation and the grammar are given separately in Spec_Options. Finding: names that start with let, true, false or infinity are split, so C49_names excludes them and C49_reserved_prefix_refuted gives a witness."
  },
  {
   "property": "C57",
   "status": "proved",
   "theorems": [
    "C57_information",
    "C57_array",
    "C57_bitset",
    "C57_unregistered",
    "C57_empty_array_refuted",
    "C57_array_default_refuted"
   ],
   "note": "Model of per_state_information.h, per_state_array.h, per_state_bitset.cc and subscriber.h over the segmented vectors of C03/C04, for one such object and any number of registries. Findings: arrays with no elements are undefined at first access; const access to a missing array entry aborts instead of returning the default."
  },
  {
   "property": "C59",
   "status": "proved",
   "theorems": [
    "C59_original_kept",
    "C59_only_if",
    "C59_if",
    "C59_cyclic_unconditional",
    "C59_hmax_admissible",
    "C59_dead_ends_safe",
    "C59_reached_states_evaluated",
    "C59_only_if_refuted",
    "C59_self_rule_refuted"
   ],
   "note": "For every well-formed task the extension exists, keeps everything and only adds default-value rules; exact for variables without cyclic definitions; with it hmax is admissible and add/ff report no false dead ends. Findings: for cyclic definitions the unconditional rule's body holds although the default value does not (the code's documented over-approximation), and a rule with its own head in its body makes solvable states look like dead ends."
  },
  {
   "property": "C55",
   "status": "proved",
   "theorems": [
    "C55_plans_preserved",
    "C55_exactly_the_groups_merged",
    "C55_unsupported_rejected",
    "C55_hmax_admissible",
    "C55_names",
    "C55_self_move_refuted"
   ],
   "note": "Model of domain_abstracted_task_factory.cc and domain_abstracted_task.cc with all table accesses checked; what a self-move of a string leaves is left open. Finding: fact names may be lost through self-move assignment (fact names only serve debug output)."
  },
  {
   "property": "C46",
   "status": "proved",
   "theorems": [
    "C46_abstraction_exact",
    "C46_splits_succeed",
    "C46_transition_lists_consistent"
   ],
   "note": "Model of abstraction.cc, transition_system.cc, cartesian_set.cc, abstract_state.cc, refinement_hierarchy.cc: for every history of legal splits (and marking all states as goals), the abstract states partition the states, lookup finds the block, transitions and loops are exactly the induced ones, lists are consistent and free of duplicates. The statistics counters of the transition system are modelled but no theorem is about them."
  },
  {
   "property": "C47",
   "status": "proved",
   "theorems": [
    "C47_total",
    "C47_admissible",
    "C47_consistent",
    "C47_unreachable_states_refuted"
   ],
   "note": "Model of cost_saturation.cc, compute_distances and additive_cartesian_heuristic.cc over the C46 abstractions, for any list of subtasks (changed goals, merged values), any resource limits, any refinement history and both kinds of saturated costs. Values are lower bounds on every reachable state; for unreachable states this fails (refuted), which no search visits."
  },
  {
   "property": "C54",
   "status": "proved",
   "theorems": [
    "C54_past_exact",
    "C54_future_sound",
    "C54_estimates_total",
    "C54_admissible",
    "C54_admissible_exact",
    "C54_dead_ends",
    "C54_any_order_refuted"
   ],
   "note": "Model of landmark_status_manager.cc, the uniform cost partitioning, landmark_sum and the natural-ordering cycle test. Floating-point operations are modelled by an arbitrary rounding of the exact result with relative error 2^-53; the bound (landmarks+1)*(plan cost+1) <= 2^43 is needed for the epsilon to absorb rounding. Sound landmarks, orderings and achievers are hypotheses (landmark factories are not modelled); optimal cost partitioning (LP) is not modelled. Finding: statuses are not revised when a parent is reached on another path later, so the past set is only exact for paths reported step by step (refuted for arbitrary order)."
  },
  {
   "property": "C62",
   "status": "proved",
   "theorems": [
    "C62_builds",
    "C62_answers",
    "C62_decides",
    "C62_heuristic_admissible",
    "C62_heuristic_consistent",
    "C62_duplicate_effects_refuted"
   ],
   "note": "Model of cegar.cc (abstract search, flaw finding, possible splits, separation of facts unreachable before a single goal, refinement loop), abstract_search.cc and the relaxed reachability of utils.cc, for any choice of split and any number of refinement rounds. Precondition: no operator has two effects on one variable (otherwise an assertion fails: refuted). The landmark generator itself is not modelled: landmarks of the delete relaxation, and merged values reachable before the landmark, are hypotheses."
  },
  {
   "property": "C63",
   "status": "proved",
   "theorems": [
    "C63_creation",
    "C63_program",
    "C63_value",
    "C63_admissible",
    "C63_lmcut_bound",
    "C63_noop_effects_refuted",
    "C63_derived_variables_refuted",
    "C63_stale_constraints_refuted"
   ],
   "note": "Model of the operator-counting heuristic, all five constraint generators and the rows/bounds of the LP solver interfaces, over rationals. The solver's answer is an input, correct up to 0.009; the subtraction of epsilon is rounded with relative error 2^-53; costs below 2^31-1. Hypotheses: no derived variables or conditional effects, no effect repeating a precondition for state equation and vertex elimination, with SoPlex at most one LM-cut generator and no integer variables; each is shown necessary (refuted theorems)."
  },
  {
   "property": "C64",
   "status": "proved",
   "theorems": [
    "C64_exact",
    "C64_hplus",
    "C64_self_support_refuted"
   ],
   "note": "For Imai-Fukunaga constraints with time and integer variables and Rankooh-Rintanen constraints with integer variables and time labels or vertex elimination: the conditions hold iff the goals are relaxed reachable with the operators used at least once, and the heuristic value is exactly h+. The Rankooh-Rintanen variants need that no effect repeats a precondition (refuted otherwise)."
  },
  {
   "property": "C65",
   "status": "proved",
   "theorems": [
    "C65_creation",
    "C65_admissible",
    "C65_potentials",
    "C65_consistent",
    "C65_best",
    "C65_dead_end",
    "C65_overflow_refuted",
    "C65_unbounded_refuted",
    "C65_tolerance_refuted"
   ],
   "note": "Solver answers are inputs: correct up to a tolerance (max_answer). Admissibility holds with tolerance and rounding errors whose sum is bounded; consistency with exact solutions only (C65_tolerance_refuted gives a violation within a tolerance of 1e-6). C65_overflow_refuted: undefined conversion to int with the default maximum potential; C65_unbounded_refuted: unchecked missing solution for unsolvable tasks with max_potential=infinity."
  },
  {
   "property": "C66",
   "status": "proved",
   "theorems": [
    "C66_admissible",
    "C66_consistent",
    "C66_creation",
    "C66_diverse",
    "C66_walk_refuted"
   ],
   "note": "Samples are inputs (any states). Creation and coverage are proved for solvable tasks in exact arithmetic with numbers in int range; C66_walk_refuted: for unsolvable tasks without operator costs the length of random walks is undefined."
  },
  {
   "property": "C67",
   "status": "proved",
   "theorems": [
    "C67_exploration",
    "C67_atoms",
    "C67_exhaust_exact",
    "C67_every_relaxed_plan",
    "C67_sound",
    "C67_admissible",
    "C67_unsupported",
    "C67_conflicting_effects_refuted"
   ],
   "note": "C67_sound needs that no operator contradicts its own unconditional effects; C67_conflicting_effects_refuted shows that the landmarks are wrong otherwise."
  },
  {
   "property": "C68",
   "status": "proved",
   "theorems": [
    "C68_atoms",
    "C68_exact",
    "C68_same_as_exhaust",
    "C68_unsolvable",
    "C68_sound",
    "C68_admissible",
    "C68_unsupported"
   ],
   "note": "C68_sound needs that no operator contradicts its own unconditional effects (achievers are computed as in C67)."
  },
  {
   "property": "C69",
   "status": "proved",
   "theorems": [
    "C69_combinable_means",
    "C69_label_reduction",
    "C69_one_system"
   ],
   "note": "For every factored system reached from the atomic systems. Iteration order of unordered_map and the random order of systems are inputs. Label numbers are unbounded in the model."
  },
  {
   "property": "C70",
   "status": "proved",
   "theorems": [
    "C70_bisimulation",
    "C70_distances_kept",
    "C70_fh",
    "C70_random",
    "C70_shrink_sizes",
    "C70_limits",
    "C70_bisimulation_at_limit_refuted",
    "C70_bisimulation_limit_refuted"
   ],
   "note": "Random choices are inputs that return two different positions. Two natural stronger readings are refuted: non-greedy classes found with a limit that is reached exactly need not be a bisimulation although one of that size exists, and the bisimulation strategy may exceed the limit (issue250)."
  },
  {
   "property": "C71",
   "status": "proved",
   "theorems": [
    "C71_builds",
    "C71_admissible",
    "C71_size_limit",
    "C71_exact"
   ],
   "note": "The merge strategy is any function that names two different existing factors. Exactness for tasks without conditional effects; if there is no plan, only the value of the initial state is claimed. int overflow of sizes is not modelled."
  },
  {
   "property": "C72",
   "status": "proved",
   "theorems": [
    "C72_variable_order",
    "C72_good_merges",
    "C72_admissible",
    "C72_exact",
    "C72_linear",
    "C72_components",
    "C72_selection"
   ],
   "note": "Random choices and the order in which std::sort leaves components of equal size are arbitrary. MIASM scores are exact fractions instead of double. MergeTree::update and trees over subsets of the factors are not modelled, since nothing calls them. C72_selection is about merge_stateless and assumes that no operator mentions a variable twice in its preconditions."
  },
  {
   "property": "C73",
   "status": "proved",
   "theorems": [
    "C73_interesting_patterns",
    "C73_all_patterns",
    "C73_normalisation"
   ],
   "note": "The order in which an unordered_set is copied to a vector is arbitrary and may differ from call to call. Sizes are natural numbers, without the wrap-around of size_t."
  },
  {
   "property": "C74",
   "status": "proved",
   "theorems": [
    "C74_greedy",
    "C74_random",
    "C74_greedy_heuristic",
    "C74_random_heuristic"
   ],
   "note": "Shuffles are arbitrary permutations, chosen anew for every step; the timer is an arbitrary predicate on the step number. The heuristic theorems are for tasks without axioms and conditional effects, as C40."
  },
  {
   "property": "C75",
   "status": "proved",
   "theorems": [
    "C75_pdb_plan"
   ],
   "note": "Distances are natural numbers (no overflow of int), as in C40. Shuffles are arbitrary permutations and choices arbitrary valid positions."
  },
  {
   "property": "C76",
   "status": "proved",
   "theorems": [
    "C76_collection",
    "C76_complete",
    "C76_single",
    "C76_size_overflow_refuted"
   ],
   "note": "For several goals the size limits are assumed to fit: max_pdb_size plus the larger of max_collection_size and the sum of the goal domains is at most INT_MAX (C76_single, for one goal, allows infinite limits); C76_size_overflow_refuted shows that signed overflow is possible without this (finding 34). The timer is an arbitrary predicate on the iteration."
  },
  {
   "property": "C77",
   "status": "proved",
   "theorems": [
    "C77_any_generator",
    "C77_refinement",
    "C77_random"
   ],
   "note": "C77_any_generator holds for every single-pattern generator that meets a stated contract; the other two show that refinement and random walks meet it. Clock readings are arbitrary natural numbers. In the random walks each call shuffles the original neighbour lists instead of those left by the call before, which gives the same permutations."
  },
  {
   "property": "C78",
   "status": "proved",
   "theorems": [
    "C78_genetic"
   ],
   "note": "The measure (approximate mean heuristic value of the zero-one pattern databases) is an arbitrary function into the nonnegative integers; the index computed by select is an arbitrary index into the collections. Patterns of the result may be empty, as the example shows."
  },
  {
   "property": "C79",
   "status": "proved",
   "theorems": [
    "C79_hill_climbing",
    "C79_best_improvement"
   ],
   "note": "The number of samples a candidate improves, dead ends and the clock are arbitrary; the databases are those of C39."
  },
  {
   "property": "C80",
   "status": "proved",
   "theorems": [
    "C80_improvement"
   ],
   "note": "Values are natural numbers or infinite; overflow of sums is not modelled, as in C41."
  },
  {
   "property": "C81",
   "status": "proved",
   "theorems": [
    "C81_switched_off_once",
    "C81_limited_keeps_plans"
   ],
   "note": "The comparison of floating-point ratios is an arbitrary test of the two counters. The second theorem describes a search in which each state is expanded with or without pruning, not both."
  }
 ]
}