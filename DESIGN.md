# A Rocq model of Fast Downward's search component

Pinned source: `/repo` (aibasel/downward), component `src/search`.  Citations in the model are
`file:lines` relative to `src/search`.

## Conventions

* Coq 8.16.1, standard library only.  Files lie flat in `rocq/theories`:
  `Spec_*.v` specifications that do not depend on the model's helpers, `Model_*.v` transcriptions of
  the code with citations, `Proof_*.v` lemmas, `Prop_*.v` the property theorems, each with
  `Print Assumptions` and a concrete `Example ..._nonvacuous` beside it.
* `Outcome.v`: results of modelled code are `Ok x`, `UB` (undefined behaviour, e.g. an access out of
  bounds, or a failed assertion), `Exit c` (the process ends with a code; -6 is an abort), or
  `NoFuel` (the fuel of a modelled loop ran out).  Theorems that claim a result exclude the last
  three.
* Integers are unbounded (`nat`, `Z`) unless the property is about machine width (bit packing, hash
  set limits, product limits, cost clamping, the cache field, the parser), where it is explicit.
* Random choices, resource limits, hash functions and tie-breaking between equal entries are
  inputs that the theorems quantify over.
* Names: `Cxx_...` is the theorem for property Cxx; `..._refuted` proves with a witness that a
  natural reading of the property is false of the code; `..._partial` proves only part.

## Trusted base

* Coq's kernel (8.16.1), including the virtual machine used by `vm_compute` in examples and
  witnesses, and `coq_makefile`.
* `Print Assumptions` reports "Closed under the global context" for every theorem named in
  MANIFEST.json: no axiom of any library is used, and none is declared.  (A scan of the compiled files
  lists the `ssrunder` constants of the standard library; they come with ssreflect's `Require` inside
  the standard library and no theorem depends on them.)
* The transcription of the C++ code into the `Model_*.v` files, by hand.  `seeded/LOG.jsonl` records
  edits of the model, in the way a bug would change the program, and the theorems that then fail.
* The specifications in `Spec_*.v` and the statements in `Prop_*.v`.

## Properties: what is modelled and how it is proved

| Id | Status | Modelled | Proof | Theorems (file) |
|----|--------|----------|-------|-----------------|
| C01 Packed state variables: read-back and independence | proved | int_packer.cc: masks, shifts, greedy packing on bit vectors | fields are disjoint bit ranges; induction over the list of writes | `C01_packed_readback` (`Prop_IntPacker.v`) |
| C02 Packed layout covers every variable within 32-bit words | proved | same | every field fits its bin, bins are 32 bits | `C02_packed_layout` (`Prop_IntPacker.v`) |
| C03 SegmentedVector behaves like a plain vector | proved | algorithms/segmented_vector.h as list of segments | representation invariant, refinement to `list` | `C03_segmented_vector_is_vector` (`Prop_SegmentedVector.v`) |
| C04 SegmentedArrayVector behaves like a plain vector of arrays | proved | segmented_vector.h, array version | as C03 | `C04_segmented_array_vector_is_vector` (`Prop_SegmentedVector.v`) |
| C05 Hash set of integers: insert is find-or-add | proved | algorithms/int_hash_set.h with hopscotch probing and enlarging | hopscotch invariant, refinement to find-or-add on a key list | `C05_insert_is_find_or_add`, `C05_insert_is_right_or_aborts`, `C05_few_keys_are_spread`, `C05_any_hash_refuted` (`Prop_IntHashSet.v`) |
| C06 Bucket, heap and adaptive priority queues pop in key order | proved | algorithms/priority_queues.h: bucket queue, heap (libstdc++ push_heap/pop_heap), adaptive switch | permutation and minimality invariants over all histories | `C06_adaptive_queue_is_priority_queue`, `C06_heap_queue_is_priority_queue` (`Prop_PriorityQueue.v`) |
| C07 DynamicBitset is a finite set | proved | algorithms/dynamic_bitset.h | testbit extensionality | `C07_bitset_is_finite_set` (`Prop_DynamicBitset.v`) |
| C08 Equivalence relation refinement | proved | algorithms/equivalence_relation.cc | partition invariant, refinement to the intersection of equivalences | `C08_refine_is_common_refinement`, `C08_duplicates_refuted` (`Prop_Equivalence.v`) |
| C09 Strongly connected components | proved | algorithms/sccs.cc (Tarjan) | stack and lowlink invariants | `C09_sccs_in_topological_order` (`Prop_Sccs.v`) |
| C10 Maximal cliques | proved | algorithms/max_cliques.cc | strong induction on candidates | `C10_all_maximal_cliques_once` (`Prop_MaxCliques.v`) |
| C11 OrderedSet keeps distinct elements in insertion order | proved | algorithms/ordered_set.h | refinement to duplicate-free lists | `C11_ordered_set` (`Prop_OrderedSet.v`) |
| C12 Successor generator returns exactly the applicable operators | proved | task_utils/successor_generator*.cc | induction over the tree; all accesses checked | `C12_generates_exactly_the_applicable_operators` (`Prop_SuccGen.v`) |
| C13 Derived variables are evaluated by stratified semantics | proved | axioms.cc | least fixpoint per layer, counters as an invariant | `C13_evaluate_is_stratified_model` (`Prop_Axioms.v`) |
| C14 State registry: one ID per distinct state, IDs never move | proved | state_registry.cc over C01-C05 | ids and states in bijection for all histories | `C14_registry_ids_are_states` (`Prop_Registry.v`) |
| C15 Successor states follow the operator semantics | proved | successor states in state_registry.cc, task_proxy.cc | refinement to the declarative successor relation | `C15_successors_follow_semantics`, `C15_unregistered_successors_follow_semantics` (`Prop_Registry.v`) |
| C16 Task parser accepts only well-formed tasks and never misbehaves | partial | tasks/root_task.cc, task_parser on characters | parser equals a declarative file format | `C16_accepted_files_are_well_formed`, `C16_parsed_tasks_are_well_formed`, `C16_well_formed_files_are_accepted`, `C16_no_undefined_behaviour_partial`, `C16_out_of_range_variable_refuted` (`Prop_Parser.v`) |
| C17 Mutex queries are symmetric and exactly the declared ones | proved | mutex tables of root_task.cc | as C16 | `C17_mutex_queries`, `C17_mutex_irreflexive` (`Prop_Parser.v`) |
| C18 Extracted plans are valid and have the stated cost | proved | search_space.cc | invariant: parent links are acyclic and priced | `C18_extracted_plan_valid` (`Prop_Eager.v`) |
| C19 Eager search is sound | proved | search_algorithms/eager_search.cc | invariants over steps | `C19_eager_sound`, `C19_eager_no_undefined_behaviour`, `C19_bound_with_transformed_costs_refuted` (`Prop_Eager.v`) |
| C20 Eager search is complete | proved | same | frontier invariant; decreasing measure | `C20_eager_complete`, `C20_eager_terminates` (`Prop_Eager.v`) |
| C21 A* returns optimal plans | proved | same, A* configuration | open node on an optimal path; composed with every admissible heuristic modelled | `C21_astar_finds_optimal_plan`, `C21_astar_optimal_below_bound`, `C21_astar_on_task_is_optimal`, `C21_astar_hmax_is_optimal`, `C21_astar_lmcut_is_optimal`, `C21_astar_pdb_is_optimal`, `C21_astar_canonical_pdbs_is_optimal`, `C21_astar_zero_one_pdbs_is_optimal`, `C21_astar_hm_is_optimal` (`Prop_AStarTask.v`, `Prop_Eager.v`, `Prop_Stubborn.v`) |
| C22 Lazy search is sound | proved | search_algorithms/lazy_search.cc | invariants over steps | `C22_lazy_sound`, `C22_lazy_no_undefined_behaviour`, `C22_lazy_complete`, `C22_bound_with_transformed_costs_refuted` (`Prop_Lazy.v`) |
| C23 Enforced hill-climbing is sound and pruning mode prunes | proved | search_algorithms/enforced_hill_climbing_search.cc | invariants over steps | `C23_ehc_sound`, `C23_ehc_no_undefined_behaviour`, `C23_prune_uses_only_preferred` (`Prop_EHC.v`) |
| C24 Iterated search returns the best plan found | proved | search_algorithms/iterated_search.cc | induction over phases | `C24_best_plan_kept`, `C24_status`, `C24_bound_passed`, `C24_plans_valid`, `C24_terminates`, `C24_repeat_last_terminates_refuted`, `C24_solved_without_plan_refuted` (`Prop_Iterated.v`) |
| C25 Best-first open list is a stable priority queue | proved | open_lists/best_first_open_list.cc | refinement to a stable queue | `C25_best_first_is_stable_queue` (`Prop_OpenList.v`) |
| C26 Tie-breaking open list is lexicographic and stable | proved | open_lists/tiebreaking_open_list.cc | refinement | `C26_tie_breaking_is_stable_lexicographic_queue` (`Prop_OpenList.v`) |
| C27 Alternation open list loses nothing and serves every sublist | proved | open_lists/alternation_open_list.cc | refinement, counting argument | `C27_alternation_selects_minimal_priority`, `C27_alternation_loses_nothing`, `C27_alternation_fair`, `C27_alternation_boost` (`Prop_OpenList.v`) |
| C28 Pareto open list returns only non-dominated entries | proved | open_lists/pareto_open_list.cc; random numbers are an input stream | non-dominance invariant; preimages counted for uniformity | `C28_pareto_nondominated`, `C28_pareto_any_choice`, `C28_pareto_uniform`, `C28_pareto_contract`, `C28_state_uniform_refuted` (`Prop_OpenList2.v`) |
| C29 Type-based open list keeps its index consistent | proved | open_lists/type_based_open_list.cc | as C28 | `C29_type_based_nothing_lost`, `C29_type_based_uniform`, `C29_type_based_any_choice`, `C29_type_based_contract` (`Prop_OpenList2.v`) |
| C30 Epsilon-greedy open list is a heap with random promotion | proved | open_lists/epsilon_greedy_open_list.cc | as C28 | `C30_epsilon_greedy_nothing_lost`, `C30_epsilon_greedy_standard`, `C30_epsilon_greedy_each_step`, `C30_epsilon_greedy_contract` (`Prop_OpenList2.v`) |
| C31 Estimate caching is transparent | proved | heuristic.cc caching, HEntry bit field | history invariant | `C31_caching_transparent`, `C31_large_values_refuted` (`Prop_Evaluators.v`) |
| C32 h^max is exact and admissible | proved | relaxation_heuristic.cc, max_heuristic.cc | Dijkstra invariants; least fixpoint | `C32_hmax_exact`, `C32_hmax_admissible`, `C32_hmax_consistent` (`Prop_Relaxation.v`) |
| C33 h^add is exact and safe | proved | additive_heuristic.cc | as C32 | `C33_hadd_exact` (`Prop_Relaxation.v`) |
| C34 FF heuristic value is the cost of a relaxed plan | proved | ff_heuristic.cc | the marked operators form a relaxed plan | `C34_ff_relaxed_plan` (`Prop_Relaxation.v`) |
| C35 LM-cut is admissible | proved | lm_cut_landmarks.cc, lm_cut_heuristic.cc | each cut is a landmark; cost partition sum | `C35_lmcut`, `C35_duplicate_precondition_refuted` (`Prop_LMCut.v`) |
| C36 Relaxed-operator simplification preserves relaxed reachability and costs | proved | relaxation_heuristic.cc simplify | cost-preserving removal | `C36_simplify_preserves_costs`, `C36_unary_ops_nodup` (`Prop_Relaxation.v`) |
| C37 Blind heuristic is admissible and consistent | proved | blind_search_heuristic.cc | direct | `C37_blind` (`Prop_Evaluators.v`) |
| C38 Goal-count heuristic counts unsatisfied goals | proved | goal_count_heuristic.cc | direct | `C38_goalcount` (`Prop_Evaluators.v`) |
| C39 h^m is exact and admissible | proved | hm_heuristic.cc | fixpoint of the tuple table | `C39_hm_exact`, `C39_hm_admissible`, `C39_hm_consistent`, `C39_hm_monotone`, `C39_unsorted_goal_refuted` (`Prop_HM.v`) |
| C40 Pattern database stores exact abstract goal distances | proved | pdbs/pattern_database*.cc, match_tree.cc, abstract_operator.cc, perfect hash | regression = inverse abstract transitions; Dijkstra | `C40_pdb_exact`, `C40_pdb_admissible`, `C40_pdb_too_large`, `C40_pdb_unsupported` (`Prop_PDB.v`) |
| C41 Canonical PDB heuristic is admissible | proved | pdbs/canonical_pdbs.cc, pattern_cliques.cc | additivity of disjointly affected patterns | `C41_canonical` (`Prop_PDB.v`) |
| C42 Zero-one PDB heuristic is admissible | proved | pdbs/zero_one_pdbs.cc | cost partition | `C42_zero_one` (`Prop_PDB.v`) |
| C43 Dominance pruning does not change the canonical heuristic | proved | pdbs/dominance_pruning.cc | value unchanged for every state and every time limit | `C43_pruning_keeps_value` (`Prop_PDB.v`) |
| C44 Merge-and-shrink factor operations are sound abstractions | proved | merge_and_shrink: transition systems, label reduction map, merge, shrink, prune, main loop | homomorphism lemmas, path preservation | `C44_start`, `C44_merge_is_product`, `C44_shrink_is_image`, `C44_label_reduction`, `C44_prune`, `C44_admissible`, `C44_exact` (`Prop_MAS.v`) |
| C45 Merge-and-shrink distances are exact | proved | merge_and_shrink/distances.cc | graph distances | `C45_compute_distances`, `C45_distances_maintained` (`Prop_MAS.v`) |
| C46 Cartesian abstraction refinement keeps a partition with induced transitions | proved | cartesian_abstractions: sets, hierarchy, transition rewiring | partition and induced-transition invariant over all split histories | `C46_abstraction_exact`, `C46_splits_succeed`, `C46_transition_lists_consistent` (`Prop_Cartesian.v`) |
| C47 Saturated cost partitioning is admissible | proved | cost_saturation.cc, abstract_search.cc compute_distances, additive_cartesian_heuristic.cc | cost partition argument along paths from the initial state | `C47_total`, `C47_admissible`, `C47_consistent`, `C47_unreachable_states_refuted` (`Prop_CostSaturation.v`) |
| C48 Combining evaluators treat infinity correctly | proved | evaluators/*.cc | direct | `C48_combining_evaluators`, `C48_reliable_dead_ends`, `C48_sum_saturates_refuted` (`Prop_Evaluators.v`) |
| C49 Option strings: tokenizing and parsing | proved | parser/lexical_analyzer.cc, token_parser, abstract syntax | backtracking matcher; grammar exactness | `C49_tokens_exact`, `C49_tokens_cover`, `C49_parser_exact`, `C49_unambiguous`, `C49_names`, `C49_reserved_prefix_refuted` (`Prop_Options.v`) |
| C50 Conditional command line options | proved | command_line.cc | induction on argument lists | `C50_conditional_arguments`, `C50_predefinitions`, `C50_balanced`, `C50_options` (`Prop_CommandLine.v`) |
| C51 Cost transformations | proved | operator_cost.cc | case analysis | `C51_cost_types` (`Prop_Evaluators.v`) |
| C52 Plan files are numbered without gaps and costs annotated correctly | proved | plan_manager.cc, search_algorithm.cc, main | induction on saves | `C52_numbered_plans`, `C52_names_distinct`, `C52_single_plan_run`, `C52_iterated_run` (`Prop_PlannerMain.v`) |
| C53 Stubborn-set pruning is safe | proved | pruning/stubborn_sets*.cc | swap argument on plans; with A* | `C53_pruning_only_removes`, `C53_pruning_keeps_plans`, `C53_astar_with_pruning_is_optimal`, `C53_duplicate_effects_refuted` (`Prop_Stubborn.v`) |
| C54 Landmark progress and cost-sharing heuristic are admissible | proved | landmarks: landmark.cc, landmark_status_manager.cc, landmark_heuristic.cc (cycle test, dispatch), uniform part of landmark_cost_partitioning_algorithms.cc, landmark_cost_partitioning_heuristic.cc, landmark_sum_heuristic.cc | invariant over all notification histories (exact past bits, sound future bits), depth-first search invariant, cost partition sum with explicit rounding | `C54_past_exact`, `C54_future_sound`, `C54_estimates_total`, `C54_admissible`, `C54_admissible_exact`, `C54_dead_ends`, `C54_any_order_refuted` (`Prop_Landmarks.v`) |
| C55 Domain abstraction of tasks preserves plans | proved | tasks/domain_abstracted_task*.cc | value maps; plan induction | `C55_plans_preserved`, `C55_exactly_the_groups_merged`, `C55_unsupported_rejected`, `C55_hmax_admissible`, `C55_names`, `C55_self_move_refuted` (`Prop_DomainAbstraction.v`) |
| C56 Exit code reflects the search result | proved | planner.cc main and exit codes | case analysis | `C56_exit_code`, `C56_success_means_plan`, `C56_errors`, `C56_no_search_refuted`, `C56_astar_from_input_to_plan_file` (`Prop_PlannerMain.v`) |
| C57 Per-state information keeps the last written value per state | proved | per_state_information.h, per_state_array.h, per_state_bitset.cc | refinement over histories | `C57_information`, `C57_array`, `C57_bitset`, `C57_unregistered`, `C57_empty_array_refuted`, `C57_array_default_refuted` (`Prop_PerState.v`) |
| C58 Bounded products never overflow | proved | utils/math.cc with machine integers | arithmetic | `C58_is_product_within_limit`, `C58_is_product_within_limits` (`Prop_Evaluators.v`) |
| C59 Added rules for default values keep the meaning of derived variables | proved | tasks/default_value_axioms_task.cc | fixpoint comparison | `C59_original_kept`, `C59_only_if`, `C59_if`, `C59_cyclic_unconditional`, `C59_hmax_admissible`, `C59_dead_ends_safe`, `C59_reached_states_evaluated`, `C59_only_if_refuted`, `C59_self_rule_refuted` (`Prop_DefaultRules.v`) |
| C60 Causal graph exactness | proved | task_utils/causal_graph.cc | exact characterisation | `C60_causal_graph_exact` (`Prop_CausalGraph.v`) |
| C61 EHC mode 'rank preferred first' only ranks | partial | EHC preferred_usage=rank_preferred_first | finding; refuted | `C61_rank_uses_only_preferred`, `C61_rank_preferred_first_refuted` (`Prop_EHC.v`) |
| C62 Counterexample-guided refinement builds usable abstractions and answers correctly | proved | cartesian_abstractions: cegar.cc, abstract_search.cc, utils.cc (possible-before facts), composed with C46, C47 and C55 | A* invariant with admissible h-values kept across rounds, flaw invariant (state reached lies in the abstract state), separation invariant, loop induction; simulation into merged subtasks | `C62_builds`, `C62_answers`, `C62_decides`, `C62_heuristic_admissible`, `C62_heuristic_consistent`, `C62_duplicate_effects_refuted` (`Prop_CEGAR.v`) |
| C63 Operator-counting heuristics solve exactly the program of their constraints and are admissible | proved | operator_counting/*.cc (heuristic, five generators) and the row operations of lp/*_solver_interface.cc; solver answers are inputs restricted by min_answer (Spec_LP) | each generator: invariant of its rows and variables over all updates, soundness and completeness of rows w.r.t. the condition in Spec_OperatorCounting; composition over generators; plans give operator counts | `C63_creation`, `C63_program`, `C63_value`, `C63_admissible`, `C63_lmcut_bound`, `C63_noop_effects_refuted`, `C63_derived_variables_refuted`, `C63_stale_constraints_refuted` (`Prop_OperatorCounting.v`) |
| C64 Integer delete-relaxation constraints compute h+ | proved | operator_counting/delete_relaxation_*.cc | reached facts with times from relaxed reachability give a solution; conversely induction over time labels / elimination order gives relaxed reachability | `C64_exact`, `C64_hplus`, `C64_self_support_refuted` (`Prop_OperatorCounting.v`) |
| C65 Potential heuristics are admissible, consistent and optimal for their objective | proved | potentials/potential_optimizer.cc, potential_function.cc, potential_heuristic.cc, potential_max_heuristic.cc; the solver is a function restricted by max_answer (Spec_Potentials) | rows of the program characterised (psol), telescoping over steps with tolerance, forward error analysis of the sum; every consistent goal-aware function is dominated by a feasible one (maximum over values) | `C65_creation`, `C65_admissible`, `C65_potentials`, `C65_consistent`, `C65_best`, `C65_dead_end`, `C65_overflow_refuted`, `C65_unbounded_refuted`, `C65_tolerance_refuted` (`Prop_Potentials.v`) |
| C66 Single, sample-based and diverse potential heuristics | proved | potentials/single_*, sample_based_*, diverse_potential_heuristics.cc, util.cc; walk length of task_utils/sampling.cc; samples and hash order are inputs | invariant of the optimizer over all optimizations; map invariant (each entry holds the best function of its sample), strictly shrinking map | `C66_admissible`, `C66_consistent`, `C66_creation`, `C66_diverse`, `C66_walk_refuted` (`Prop_Potentials.v`) |
| C67 Relaxed exploration and exhaustive landmark generation | proved | landmarks/exploration.cc, landmark_factory_rpg_exhaust.cc, landmark_factory_relaxation.cc, util.cc achiever tests | counter invariant of the exploration queue; relaxed runs and reachability without a fact imply each other; induction over executions | `C67_exploration`, `C67_atoms`, `C67_exhaust_exact`, `C67_every_relaxed_plan`, `C67_sound`, `C67_admissible`, `C67_unsupported`, `C67_conflicting_effects_refuted` (`Prop_LandmarkGeneration.v`) |
| C68 Landmarks by label propagation | proved | landmarks/landmark_factory_zhu_givan.cc, add_ordering_if_stronger; iteration orders of hash sets are inputs | fixed-point invariant: labels contain all landmarks, untriggered operators are consistent; decreasing sum of label sizes; induction over reachability for exactness | `C68_atoms`, `C68_exact`, `C68_same_as_exhaust`, `C68_unsolvable`, `C68_sound`, `C68_admissible`, `C68_unsupported` (`Prop_ZhuGivan.v`) |
| C69 Label reduction is exact and complete | proved | merge_and_shrink/label_reduction.cc, utils of algorithms/equivalence_relation.cc (C08) | combinable relation by C08; groups disjoint, of one cost and complete; rotation invariant of the cyclic order, decreasing number of labels | `C69_combinable_means`, `C69_label_reduction`, `C69_one_system` (`Prop_LabelReduction.v`) |
| C70 Shrink strategies keep what they promise | proved | merge_and_shrink/shrink_bisimulation.cc, shrink_bucket_based.cc, shrink_fh.cc, shrink_random.cc, utils.cc compute_shrink_sizes, merge_and_shrink_algorithm.cc handle_shrink_limit_defaults | invariant of the groups over the rounds of splitting; sorted signatures; buckets ordered by f and h with maps or vectors | `C70_bisimulation`, `C70_distances_kept`, `C70_fh`, `C70_random`, `C70_shrink_sizes`, `C70_limits`, `C70_bisimulation_at_limit_refuted`, `C70_bisimulation_limit_refuted` (`Prop_Shrink.v`) |
| C71 The merge-and-shrink algorithm ends with an admissible heuristic | proved | merge_and_shrink/merge_and_shrink_algorithm.cc, utils.cc | loop invariant: a reachable factored system (C44) of solvable factors; the number of factors decreases; product of factor sizes bounded by the number of states | `C71_builds`, `C71_admissible`, `C71_size_limit`, `C71_exact` (`Prop_MASAlgorithm.v`) |
| C72 Merge strategies always name two factors and follow the order they promise | proved | merge_and_shrink/merge_strategy_*.cc, merge_selector*.cc, merge_scoring_function_*.cc, merge_tree*.cc, task_utils/variable_order_finder.cc | invariants over runs of a strategy: the tree, or the remaining components, match the factors that are left; scoring functions are total on reachable factored systems (C44, C70); causal graph (C60) and components (C09) exact | `C72_variable_order`, `C72_good_merges`, `C72_admissible`, `C72_exact`, `C72_linear`, `C72_components`, `C72_selection` (`Prop_MergeStrategy.v`) |
| C73 The systematic pattern generator lists exactly the patterns it promises | proved | pdbs/pattern_collection_generator_systematic.cc, pdbs/validation.cc | specification independent of the algorithm (goal-directed and weakly connected patterns, Spec_Patterns.v); queue invariants (processed patterns are closed under the growth step, sizes in order); completeness: every interesting pattern is built up from a largest single-goal pattern by attaching largest single-goal patterns at connection points; at most 2^n patterns, hence termination | `C73_interesting_patterns`, `C73_all_patterns`, `C73_normalisation` (`Prop_Patterns.v`) |
| C74 Greedy and random pattern generation | proved | pdbs/pattern_generator_greedy.cc, pdbs/pattern_generator_random.cc, pdbs/random_pattern.cc, pdbs/utils.cc (compute_cg_neighbors) | loop invariants against inductive specifications of the variable order and of a walk (Spec_PatternGenerators.v); the variable order finder is the one of C72; the size check is C58; admissibility from C40 | `C74_greedy`, `C74_random`, `C74_greedy_heuristic`, `C74_random_heuristic` (`Prop_PatternGenerators.v`) |
| C75 Plans computed with a pattern database are optimal abstract plans | proved | pdbs/pattern_database_factory.cc with compute_plan | the Dijkstra invariant of C40 extended with: the generating operator of a reached state leads to a state expanded earlier (a rank), with matching distances; plan extraction by induction on the rank; the operators of a step from the match tree specification | `C75_pdb_plan` (`Prop_PDBPlan.v`) |
| C76 Pattern collections built by counterexample-guided refinement | proved | pdbs/cegar.cc (class CEGAR and its two entry points) | abstract plans of C75 executed in the task, step by step; an invariant of the collection (disjointness through the variable index, size bookkeeping, limits) preserved by merging, adding and blacklisting; a measure (patterns + unused variables + variables not blacklisted) for termination; optimality from admissibility (C40) | `C76_collection`, `C76_complete`, `C76_single`, `C76_size_overflow_refuted` (`Prop_PDBCegar.v`) |
| C77 Collections from repeated pattern generation | proved | pdbs/pattern_collection_generator_multiple.cc, its two instances, and get_non_goal_variables of pdbs/utils.cc | invariant of the loop (remaining size = limit - total size, distinct patterns, goals covered, blacklisting state), for any generator with a contract; the contract follows from C76 and C74 | `C77_any_generator`, `C77_refinement`, `C77_random` (`Prop_PatternMultiple.v`) |
| C78 Genetic pattern collections | proved | pdbs/pattern_collection_generator_genetic.cc; floating-point fitness values and the roulette-wheel selection are abstracted to an order and an arbitrary index | worklist invariant for the pruning of irrelevant variables; bin packing as a partition invariant, which shows that the initial collections are valid; the best collection so far is valid and its fitness never decreases | `C78_genetic` (`Prop_Genetic.v`) |
| C79 Pattern collections found by hill climbing | proved | pdbs/pattern_collection_generator_hillclimbing.cc and the size of incremental_canonical_pdbs.cc; random walks, sample counts and the clock are arbitrary functions, pattern cliques are those of C41 | loop invariant over generated patterns, candidates and the collection; growing a pattern along the relevant neighbours keeps it interesting; at most 2^n patterns are ever generated; completeness of the candidates (every admissible extension is among them or was dropped because the collection would get too large) gives the best-improvement claim | `C79_hill_climbing`, `C79_best_improvement` (`Prop_HillClimbing.v`) |
| C80 Improved samples in hill climbing | proved | is_heuristic_improved in pdbs/pattern_collection_generator_hillclimbing.cc and compute_pattern_cliques_with_pattern in pdbs/pattern_cliques.cc, with the databases and cliques of C41 | every additive set of the larger collection is one of the known collection, or the candidate with an additive set that lies in the filtered part of a maximal clique; both maxima are compared | `C80_improvement` (`Prop_Improvement.v`) |
| C81 Limited pruning | proved | pruning/limited_pruning.cc and the counters of pruning_method.cc; the ratio test is an arbitrary function of the counters | invariant over the calls, before and after the test; the safety argument of C53 applies state by state, since keeping all operators keeps those of a strong stubborn set | `C81_switched_off_once`, `C81_limited_keeps_plans` (`Prop_LimitedPruning.v`) |

## Notes and restrictions

* **C05**: Holds for every insertion sequence when some power of two up to 2^30 spreads the hashes; for arbitrary hash functions the set either answers as specified or terminates the process. Find-or-add for all hash functions is false: 33 keys with one hash terminate the process.
* **C06**: std::push_heap/pop_heap are modelled as in libstdc++. Histories are limited to fewer than 2^31 real and virtual pushes, beyond which the code's counter overflows.
* **C08**: Refining vectors must be duplicate-free; the _refuted theorem shows the precondition is needed.
* **C10**: For graphs with sorted adjacency lists, as the code asserts.
* **C12**: The memory estimate that chooses between vector and hash switches is an arbitrary function.
* **C13**: A task without rules is not evaluated by the code, so there derived variables must already be at their defaults (they are, in every reachable state).
* **C14**: The hash function is arbitrary; the first alternative (process ends because too many states collide) is the finding of C05.
* **C16**: The parser accepts exactly the files of the specified format and returns the task they describe. The safety half is false of the code: an effect or rule on a non-existing variable number indexes outside the variable table (refuted with a concrete file); with a range check at these two places it is proved.
* **C17**: Queries answer exactly the declared mutexes, symmetrically.
* **C18**: For every sequence of search-space operations of the modelled protocol (parents have a g-value, redirections strictly lower g).
* **C19**: The bound clause holds for untransformed costs (and non-empty plans); for cost_type=ONE/PLUSONE it is false of the code, shown by C19_bound_with_transformed_costs_refuted.
* **C20**: Termination on finite state spaces, without a lazy (path-dependent) evaluator.
* **C21**: For every admissible evaluator, and end to end for the modelled heuristics on tasks without derived variables.
* **C22**: The bound clause holds for real operator costs; with transformed costs it is false of the code (refuted).
* **C24**: Two findings: repeating the last phase never ends if the initial state is a goal state; without passing bounds SOLVED can be reported with no stored plan.
* **C28**: For all random streams. Uniform selection proved for the default setting; with state_uniform_selection the buckets are weighted by key length, not by their number of entries as documented (C28_state_uniform_refuted).
* **C29**: For all random streams.
* **C30**: For all random streams and all outcomes of the epsilon comparisons. Entry identifiers are unbounded in the model.
* **C31**: For values below 2^30; larger values are truncated by the 31-bit cache field (refuted).
* **C32**: For any priority queue that behaves as C06 says, whatever earlier evaluations left behind.
* **C33**: Exact up to the clamping constant; assumes that no single operator costs more than that constant (finding r).
* **C34**: Assumes that no single operator costs more than the clamping constant.
* **C35**: For tasks in which no condition lists a fact twice; with a duplicated precondition the model (and the assertion in the code) fails.
* **C39**: Exact value of the h^m fixpoint, termination, admissibility, consistency. The goal must list its variables in increasing order: otherwise the code aborts (C39_unsorted_goal_refuted). Integer overflow of costs is not modelled.
* **C40**: Relies on preconditions and effects on the same variables being listed in the same order, as the input format does (op_plain).
* **C43**: For nonempty patterns and any time limit.
* **C44**: For every sequence of merges, shrinkings, prunings and exact label reductions from the atomic systems. The label groups reduced satisfy a contract (that label_reduction.cc meets it is C69); shrinking uses arbitrary groupings, and exactness holds if they combine only bisimilar states. Exactness for tasks without conditional effects.
* **C45**: Both the breadth-first and the Dijkstra variant; distances kept by shrinking, pruning and label reduction are also exact.
* **C46**: Model of abstraction.cc, transition_system.cc, cartesian_set.cc, abstract_state.cc, refinement_hierarchy.cc: for every history of legal splits (and marking all states as goals), the abstract states partition the states, lookup finds the block, transitions and loops are exactly the induced ones, lists are consistent and free of duplicates. The statistics counters of the transition system are modelled but no theorem is about them.
* **C47**: Model of cost_saturation.cc, compute_distances and additive_cartesian_heuristic.cc over the C46 abstractions, for any list of subtasks (changed goals, merged values), any resource limits, any refinement history and both kinds of saturated costs. Values are lower bounds on every reachable state; for unreachable states this fails (refuted), which no search visits.
* **C48**: As long as no finite value reaches INT_MAX; a finite sum equal to INT_MAX is reported as infinite (refuted).
* **C49**: Regular expressions are modelled with the backtracking order of ECMAScript; the token relation and the grammar are given separately in Spec_Options. Finding: names that start with let, true, false or infinity are split, so C49_names excludes them and C49_reserved_prefix_refuted gives a witness.
* **C50**: Model of command_line.cc; the construction of the search algorithm from its text is a parameter.
* **C52**: Model of plan_manager.cc, the saving part of search_algorithm.cc / iterated_search.cc and main(). Costs and counters unbounded.
* **C53**: stubborn_sets_simple, stubborn_sets_ec and atom_centric_stubborn_sets (all selection strategies, with and without sibling shortcut). Operators that set a variable twice make pruning unsafe (C53_duplicate_effects_refuted); the parser accepts them. For limited_pruning see C81.
* **C54**: Model of landmark_status_manager.cc, the uniform cost partitioning, landmark_sum and the natural-ordering cycle test. Floating-point operations are modelled by an arbitrary rounding of the exact result with relative error 2^-53; the bound (landmarks+1)*(plan cost+1) <= 2^43 is needed for the epsilon to absorb rounding. Sound landmarks, orderings and achievers are hypotheses (landmark factories are not modelled); optimal cost partitioning (LP) is not modelled. Finding: statuses are not revised when a parent is reached on another path later, so the past set is only exact for paths reported step by step (refuted for arbitrary order).
* **C55**: Model of domain_abstracted_task_factory.cc and domain_abstracted_task.cc with all table accesses checked; what a self-move of a string leaves is left open. Finding: fact names may be lost through self-move assignment (fact names only serve debug output).
* **C56**: Proved for runs with a search algorithm; refuted finding: without --search main() calls search() through a null pointer. End-to-end theorem from the input text to the plan file for A*.
* **C57**: Model of per_state_information.h, per_state_array.h, per_state_bitset.cc and subscriber.h over the segmented vectors of C03/C04, for one such object and any number of registries. Findings: arrays with no elements are undefined at first access; const access to a missing array entry aborts instead of returning the default.
* **C59**: For every well-formed task the extension exists, keeps everything and only adds default-value rules; exact for variables without cyclic definitions; with it hmax is admissible and add/ff report no false dead ends. Findings: for cyclic definitions the unconditional rule's body holds although the default value does not (the code's documented over-approximation), and a rule with its own head in its body makes solvable states look like dead ends.
* **C60**: Model of causal_graph.cc; the cache get_causal_graph is not modelled.
* **C61**: The property is false of the code: the tie-breaking list is created with unsafe_pruning=false, pref_only=true, so non-preferred successors are dropped (refuted with a solvable task on which the mode fails); what the mode really does is proved.
* **C62**: Model of cegar.cc (abstract search, flaw finding, possible splits, separation of facts unreachable before a single goal, refinement loop), abstract_search.cc and the relaxed reachability of utils.cc, for any choice of split and any number of refinement rounds. Precondition: no operator has two effects on one variable (otherwise an assertion fails: refuted). The landmark generator itself is not modelled: landmarks of the delete relaxation, and merged values reachable before the landmark, are hypotheses.
* **C63**: Model of the operator-counting heuristic, all five constraint generators and the rows/bounds of the LP solver interfaces, over rationals. The solver's answer is an input, correct up to 0.009; the subtraction of epsilon is rounded with relative error 2^-53; costs below 2^31-1. Hypotheses: no derived variables or conditional effects, no effect repeating a precondition for state equation and vertex elimination, with SoPlex at most one LM-cut generator and no integer variables; each is shown necessary (refuted theorems).
* **C64**: For Imai-Fukunaga constraints with time and integer variables and Rankooh-Rintanen constraints with integer variables and time labels or vertex elimination: the conditions hold iff the goals are relaxed reachable with the operators used at least once, and the heuristic value is exactly h+. The Rankooh-Rintanen variants need that no effect repeats a precondition (refuted otherwise).
* **C65**: Solver answers are inputs: correct up to a tolerance (max_answer). Admissibility holds with tolerance and rounding errors whose sum is bounded; consistency with exact solutions only (C65_tolerance_refuted gives a violation within a tolerance of 1e-6). C65_overflow_refuted: undefined conversion to int with the default maximum potential; C65_unbounded_refuted: unchecked missing solution for unsolvable tasks with max_potential=infinity.
* **C66**: Samples are inputs (any states). Creation and coverage are proved for solvable tasks in exact arithmetic with numbers in int range; C66_walk_refuted: for unsolvable tasks without operator costs the length of random walks is undefined.
* **C67**: C67_sound needs that no operator contradicts its own unconditional effects; C67_conflicting_effects_refuted shows that the landmarks are wrong otherwise.
* **C68**: C68_sound needs that no operator contradicts its own unconditional effects (achievers are computed as in C67).
* **C69**: For every factored system reached from the atomic systems. Iteration order of unordered_map and the random order of systems are inputs. Label numbers are unbounded in the model.
* **C70**: Random choices are inputs that return two different positions. Two natural stronger readings are refuted: non-greedy classes found with a limit that is reached exactly need not be a bisimulation although one of that size exists, and the bisimulation strategy may exceed the limit (issue250).
* **C71**: The merge strategy is any function that names two different existing factors. Exactness for tasks without conditional effects; if there is no plan, only the value of the initial state is claimed. int overflow of sizes is not modelled.
* **C72**: Random choices and the order in which std::sort leaves components of equal size are arbitrary. MIASM scores are exact fractions instead of double. MergeTree::update and trees over subsets of the factors are not modelled, since nothing calls them. C72_selection is about merge_stateless and assumes that no operator mentions a variable twice in its preconditions.
* **C73**: The order in which an unordered_set is copied to a vector is arbitrary and may differ from call to call. Sizes are natural numbers, without the wrap-around of size_t.
* **C74**: Shuffles are arbitrary permutations, chosen anew for every step; the timer is an arbitrary predicate on the step number. The heuristic theorems are for tasks without axioms and conditional effects, as C40.
* **C75**: Distances are natural numbers (no overflow of int), as in C40. Shuffles are arbitrary permutations and choices arbitrary valid positions.
* **C76**: For several goals the size limits are assumed to fit: max_pdb_size plus the larger of max_collection_size and the sum of the goal domains is at most INT_MAX (C76_single, for one goal, allows infinite limits); C76_size_overflow_refuted shows that signed overflow is possible without this (finding 34). The timer is an arbitrary predicate on the iteration.
* **C77**: C77_any_generator holds for every single-pattern generator that meets a stated contract; the other two show that refinement and random walks meet it. Clock readings are arbitrary natural numbers. In the random walks each call shuffles the original neighbour lists instead of those left by the call before, which gives the same permutations.
* **C78**: The measure (approximate mean heuristic value of the zero-one pattern databases) is an arbitrary function into the nonnegative integers; the index computed by select is an arbitrary index into the collections. Patterns of the result may be empty, as the example shows.
* **C79**: The number of samples a candidate improves, dead ends and the clock are arbitrary; the databases are those of C39.
* **C80**: Values are natural numbers or infinite; overflow of sums is not modelled, as in C41.
* **C81**: The comparison of floating-point ratios is an arbitrary test of the two counters. The second theorem describes a search in which each state is expanded with or without pruning, not both.

## Findings about the code

Proved with a witness (`_refuted`):

1. Task parser: an effect or rule on a variable number that does not exist indexes the variable table
   before the range check (`C16_out_of_range_variable_refuted`).
2. EHC with `rank_preferred_first` creates its open list with swapped arguments and drops
   non-preferred successors (`C61_rank_preferred_first_refuted`).
3. Search bound with transformed costs: the bound is compared with sums that can miss plans or accept
   plans above the bound (`C19_/C22_bound_with_transformed_costs_refuted`).
4. Pareto open list with `state_uniform_selection` weights buckets by key length (`C28_state_uniform_refuted`).
5. LM-cut with a duplicated precondition drives a cost negative (`C35_duplicate_precondition_refuted`).
6. Estimates of 2^30 or more are truncated by the cache field (`C31_large_values_refuted`).
7. A finite sum of INT_MAX is reported as a dead end (`C48_sum_saturates_refuted`).
8. h^m aborts on goals whose variables are not sorted (`C39_unsorted_goal_refuted`).
9. Stubborn sets miss conflicts when an operator sets a variable twice (`C53_duplicate_effects_refuted`).
10. `main` without `--search` calls through a null pointer (`C56_no_search_refuted`).
11. Option lexer: names starting with a reserved word are split (`C49_reserved_prefix_refuted`).
12. PerStateArray/PerStateBitset without elements divide by zero; const access to a missing entry aborts
    (`C57_empty_array_refuted`, `C57_array_default_refuted`).
13. Default-value rules: a rule with its own head in its body produces false dead ends
    (`C59_self_rule_refuted`); over-approximated rules hold too often (`C59_only_if_refuted`).
14. Domain abstraction self-move-assigns strings (`C55_self_move_refuted`).
15. IntHashSet aborts on 33 keys of one hash value (`C05_any_hash_refuted`).
16. Equivalence refinement with duplicated elements over-refines (`C08_duplicates_refuted`).
17. Iterated search with `repeat_last` loops forever on a task whose initial state is a goal; it can report
    SOLVED without a stored plan (`C24_repeat_last_terminates_refuted`, `C24_solved_without_plan_refuted`).
18. Cost-partitioned Cartesian abstractions: unreachable states with a plan may be dead ends
    (`C47_unreachable_states_refuted`).
19. Landmark statuses are updated per reported transition only: if a parent is later reached on a path
    that misses a landmark, its already generated successors keep counting it as reached
    (`C54_any_order_refuted`).  The estimate stays admissible; only information is lost.
20. Refinement of a task with a single goal fact assumes that no operator has two effects on one
    variable (cegar.cc:119-141, utils.cc): such an operator counts as achieving its first effect, its
    real result is separated as unreachable before the goal and marked as goal, and the assertion in
    cegar.cc:72 fails (`C62_duplicate_effects_refuted`).
21. State equation constraints (state_equation_constraints.cc:44-46) assert that an effect differs from
    its precondition, and the vertex elimination of the delete-relaxation constraints looks up an edge
    that does not exist for such an effect (delete_relaxation_rr_constraints.cc:417-428 does not skip
    pre == eff while :130 does): creating the heuristic fails (`C63_noop_effects_refuted`).
22. With time labels, an operator with the same fact as precondition and effect can support this fact
    by itself (delete_relaxation_rr_constraints.cc skips pre == eff): the value is below h+
    (`C64_self_support_refuted`); still admissible.
23. The delete-relaxation generators do not check for derived variables and conditional effects.  With a
    derived goal the program is infeasible, and solvable states are reported as dead ends
    (`C63_derived_variables_refuted`).
24. The SoPlex interface overwrites its counter when temporary constraints are added twice
    (soplex_solver_interface.cc:78-82): with two LM-cut generators constraints of earlier states stay
    in the program and the heuristic is inadmissible (`C63_stale_constraints_refuted`).
25. Potential heuristics are documented as consistent (potentials/util.cc:51), but the solver may violate
    constraints within its tolerance: rounding up after subtracting epsilon can turn a violation of
    1e-6 into an inconsistency of one (`C65_tolerance_refuted`).  Admissibility is not affected.
26. potential_function.cc converts the rounded sum to int without a range check.  With the default
    max_potential=1e8, 22 variables suffice for an undefined conversion in an unsolvable task
    (`C65_overflow_refuted`).
27. With max_potential=infinity and an unsolvable initial state there is no optimal solution, but
    single_potential_heuristics.cc and util.cc use it without a check: an assertion fails, or the
    potentials are all zero without assertions (`C65_unbounded_refuted`).
28. sampling.cc divides by the average operator cost.  For an unsolvable task without operators or with
    cost zero throughout, sampling with bounded potentials converts infinity or NaN to int
    (`C66_walk_refuted`).
29. Excluding an atom in the relaxed exploration drops every operator with an unconditional effect that
    adds it (exploration.cc:170-190).  If a later effect of the operator sets the same variable, the
    operator never makes the atom true, but lm_exhaust reports the atom as a landmark
    (`C67_conflicting_effects_refuted`).  The translator does not produce such operators; the input
    parser accepts them.
30. shrink_bisimulation.cc:326-333 leaves the loop as soon as the number of groups reaches the target
    size, after moving only the first state of the last new group.  The other states of that group stay
    with states that behave differently, so the result is not a bisimulation even if one of exactly the
    target size exists (`C70_bisimulation_at_limit_refuted`).  Not a matter of soundness, but a
    needless loss.  The number of initial groups can exceed the limit (`C70_bisimulation_limit_refuted`;
    the code mentions issue250).

31. The documentation of merge_sccs promises topological order as a tie-breaker for components of the
    same size, but merge_strategy_factory_sccs.cc:55-70 calls std::sort, which is not stable.  The model
    lets it leave equal components in any order.
32. The linear orders cg_goal_level, cg_goal_random and goal_cg_level end with an input error if a
    variable does not influence the goal (variable_order_finder.cc:100-102, `C72_variable_order`); their
    descriptions promise a third priority by level.  A selector whose scoring functions leave several candidates ends with
    a critical error in the middle of the construction (merge_selector_score_based_filtering.cc:53-59).
33. The greedy pattern generator asks the variable order finder for the next variable before it knows
    whether one is left that influences the goal (pattern_generator_greedy.cc:32-36).  If all of these
    fit, a task with a variable that does not influence the goal ends with an input error
    (`C74_greedy`, `C74_nonvacuous`).  The translator removes such variables by default, so this shows
    with --keep-unimportant-variables or hand-written tasks.
34. `can_merge_patterns` and `can_add_variable_to_pattern` (cegar.cc:440-494) add the size of a new
    pattern, which is only known to be at most max_pdb_size, to the collection size in int.  With
    infinite limits, which the options allow, this overflows (undefined behaviour) for goal
    variables with domains 46340, 46340 and 100000 (`C76_size_overflow_refuted`).  The check against
    max_collection_size comes after the addition.
35. find_best_improving_pdb (pattern_collection_generator_hillclimbing.cc:197-258) also adds the size of a
    candidate to the size of the collection in int before it compares the sum with collection_max_size;
    C79 needs the hypothesis that this sum stays in range.
36. limited_pruning still prunes in the call that switches pruning off (limited_pruning.cc:44-56): the flag
    takes effect with the next call (`C81_switched_off_once`).  This is harmless.
Seen while modelling, not proved: IntHashSet lets 2^30 buckets through its guard; SearchNodeInfo.g is a
30-bit field; a timeout right after the solving step reports TIMEOUT although a plan is kept;
AxiomEvaluator without rules leaves derived variables alone; PDBs rely on preconditions and effects
being listed in the same order; dominance pruning indexes the first variable of empty patterns;
merge-and-shrink indexes -1 when distances are recomputed after the initial state was pruned; if the
memory padding is lost inside CEGAR's find_flaw, a goal flaw is reported for a non-goal abstract state.

## Not modelled

Memory allocation and its limits, timing, logging, signal handling, LP and SAT solvers
(LP solutions are inputs with the solver's guarantee stated), optimal landmark cost partitioning, the
Mersenne Twister itself (its outputs are inputs), documentation printing, the plugin registry and option
type checking beyond parsing, landmark factories other than lm_exhaust and lm_zg, manually given patterns (validation.cc), the samples of hill climbing (which counts they give is an input), causal graph and context-enhanced additive heuristics, the Python translator
and driver.
