{"id": "C01", "title": "Packed state variables: read-back and independence", "statement": "For every list of finite variable ranges, after any sequence of set(buffer, var, value) calls with in-range values on a buffer of get_num_bins() words, get(buffer, var) returns the value last set for that variable (and the initial content for a variable never set): a write to one variable never changes what is read for another.", "quantifier": "all range lists (each range >= 1), all initial buffers, all finite sequences of in-range writes, all variables", "why_tests_cant": "The bin layout is computed by a greedy packing over all range lists; the number of layouts and write histories is unbounded, and an overlap of two bit fields shows only for particular range combinations.", "anchors": ["src/search/algorithms/int_packer.cc: IntPacker::get/set/pack_bins/pack_one_bin/get_bit_mask/get_bit_size_for_range"]}
{"id": "C02", "title": "Packed layout covers every variable within 32-bit words", "statement": "Packing terminates for every list of ranges up to 2^31, gives every variable a field of enough bits for its range inside one 32-bit word with index below get_num_bins(), and the fields of two different variables do not overlap.", "quantifier": "all range lists", "why_tests_cant": "Greedy packing loop over unbounded lists; termination and coverage concern every list.", "anchors": ["src/search/algorithms/int_packer.cc: pack_bins, pack_one_bin"]}
{"id": "C03", "title": "SegmentedVector behaves like a plain vector", "statement": "Any sequence of push_back, pop_back, resize, and element writes on a SegmentedVector gives the same observable size and elements as the same sequence on a plain vector; push_back and resize never change existing elements; no access leaves the allocated segments.", "quantifier": "all operation sequences, all element sizes", "why_tests_cant": "Segment boundaries interact with push/pop/resize histories of unbounded length.", "anchors": ["src/search/algorithms/segmented_vector.h: SegmentedVector"]}
{"id": "C04", "title": "SegmentedArrayVector behaves like a plain vector of arrays", "statement": "Any sequence of push_back, pop_back, resize and in-place writes on a SegmentedArrayVector gives the same sequence of fixed-length arrays as on a plain vector of arrays; arrays never straddle a segment and are not disturbed by later insertions.", "quantifier": "all operation sequences, all array lengths >= 1", "why_tests_cant": "Same, for arrays.", "anchors": ["src/search/algorithms/segmented_vector.h: SegmentedArrayVector"]}
{"id": "C05", "title": "Hash set of integers: insert is find-or-add", "statement": "IntHashSet::insert(key) returns (k,false) with k the stored key equal to key if one was inserted before, and otherwise (key,true) and stores key; hash values only influence speed. size() is the number of stored keys. No stored key is ever lost by hopscotch moves or by enlarging.", "quantifier": "all insertion sequences, all hash functions, all equivalence relations compatible with the hash", "why_tests_cant": "Correctness depends on hopscotch displacement and rehash histories that random tests hardly reach (full neighbourhoods, repeated enlarging).", "anchors": ["src/search/algorithms/int_hash_set.h: IntHashSet::insert/rehash/enlarge/find_equal_key"]}
{"id": "C06", "title": "Bucket, heap and adaptive priority queues pop in key order", "statement": "For every sequence of push(key,value) (keys >= 0), pop, clear and add_virtual_pushes, pop returns an entry with minimal key among those present, exactly the pushed and not yet popped entries are present, and switching from buckets to a heap inside AdaptiveQueue loses or duplicates nothing.", "quantifier": "all operation sequences", "why_tests_cant": "Switch-over point depends on the whole history (number of pushes vs. largest key).", "anchors": ["src/search/algorithms/priority_queues.h: HeapQueue, BucketQueue, AdaptiveQueue"]}
{"id": "C07", "title": "DynamicBitset is a finite set", "statement": "set, reset, set-all, reset-all, test, count, intersects and is_subset_of on DynamicBitset agree with the corresponding finite-set operations for every size, including sizes that are not a multiple of the block size.", "quantifier": "all sizes, all operation sequences", "why_tests_cant": "Trailing-bit handling must be right for every size and history.", "anchors": ["src/search/algorithms/dynamic_bitset.h: DynamicBitset"]}
{"id": "C08", "title": "Equivalence relation refinement", "statement": "EquivalenceRelation::refine(X) yields exactly the common refinement of the old partition with X and its complement; the result is always a partition of {0..n-1}.", "quantifier": "all n, all sequences of refinements", "why_tests_cant": "Linked-list splicing over all histories.", "anchors": ["src/search/algorithms/equivalence_relation.cc: EquivalenceRelation::refine"]}
{"id": "C09", "title": "Strongly connected components", "statement": "compute_maximal_sccs(graph) returns a partition of the vertices into exactly the strongly connected components, in topological order of the condensation.", "quantifier": "all finite directed graphs", "why_tests_cant": "Tarjan's invariant concerns every graph.", "anchors": ["src/search/algorithms/sccs.cc: compute_maximal_sccs, dfs"]}
{"id": "C10", "title": "Maximal cliques", "statement": "compute_max_cliques(graph) returns exactly the maximal cliques of the undirected graph, each once.", "quantifier": "all finite undirected graphs given as symmetric adjacency lists", "why_tests_cant": "Bron-Kerbosch with pivoting: completeness over all graphs.", "anchors": ["src/search/algorithms/max_cliques.cc: compute_max_cliques, MaxCliqueComputer::expand"]}
{"id": "C11", "title": "OrderedSet keeps distinct elements in insertion order", "statement": "OrderedSet: insert ignores an element already present, otherwise appends it; iteration gives the distinct inserted elements in first-insertion order; pop_as_vector/clear empty it.", "quantifier": "all operation sequences", "why_tests_cant": "History-dependent.", "anchors": ["src/search/algorithms/ordered_set.h: OrderedSet"]}
{"id": "C12", "title": "Successor generator returns exactly the applicable operators", "statement": "For every task and every state, SuccessorGenerator::generate_applicable_ops yields each operator whose precondition holds in the state exactly once and no other operator.", "quantifier": "all tasks (operators with at most one precondition per variable), all states, both the packed and the unpacked lookup", "why_tests_cant": "The decision tree is built from all operators; exactness concerns all operator sets and states.", "anchors": ["src/search/task_utils/successor_generator_factory.cc", "src/search/task_utils/successor_generator_internals.cc", "src/search/task_utils/successor_generator.cc"]}
{"id": "C13", "title": "Derived variables are evaluated by stratified semantics", "statement": "AxiomEvaluator::evaluate(state) leaves non-derived variables unchanged and gives each derived variable the value it has in the unique stratified fixpoint: layer by layer, the non-default value iff some derived rule with satisfied body supports it (least fixpoint), otherwise the default value.", "quantifier": "all stratified rule sets, all states", "why_tests_cant": "Counter-based Horn propagation over all rule sets; unique stratified model is a fixpoint notion.", "anchors": ["src/search/axioms.cc: AxiomEvaluator::AxiomEvaluator, evaluate"]}
{"id": "C14", "title": "State registry: one ID per distinct state, IDs never move", "statement": "For every sequence of get_initial_state / get_successor_state calls: two returned states have the same ID iff they assign the same values; IDs are dense 0..size()-1; lookup_state(id) returns the same values forever after registration.", "quantifier": "all tasks, all call sequences", "why_tests_cant": "Depends on hash set + packed pool histories.", "anchors": ["src/search/state_registry.cc: insert_id_or_pop_state, get_initial_state, get_successor_state", "src/search/state_registry.h"]}
{"id": "C15", "title": "Successor states follow the operator semantics", "statement": "get_successor_state(s, op) for an operator applicable in s returns the state where each effect whose condition holds in s sets its variable and every other non-derived variable keeps its value, derived variables being re-evaluated; conditions are evaluated in s, not in the partially updated state.", "quantifier": "all tasks, operators, states", "why_tests_cant": "Simultaneous-effect semantics must hold for all operators/states, in packed and unpacked code paths.", "anchors": ["src/search/state_registry.cc: get_successor_state", "src/search/task_proxy.h: does_fire", "src/search/task_proxy.cc: State::get_unregistered_successor"]}
{"id": "C16", "title": "Task parser accepts only well-formed tasks and never misbehaves", "statement": "For every input text, reading a task either exits with the input-error code or yields a task in which every variable, value, layer and cost reference is in range; it never indexes outside its tables.", "quantifier": "all input texts", "why_tests_cant": "Adversarial inputs are unbounded.", "anchors": ["src/search/tasks/root_task.cc: TaskParser"]}
{"id": "C17", "title": "Mutex queries are symmetric and exactly the declared ones", "statement": "are_facts_mutex(f1,f2) holds iff f1 and f2 are different values of one variable or occur together, with different variables, in some declared mutex group; the relation is symmetric and irreflexive.", "quantifier": "all tasks, all facts", "why_tests_cant": "All groups and facts.", "anchors": ["src/search/tasks/root_task.cc: TaskParser::read_mutexes, RootTask::are_facts_mutex"]}
{"id": "C18", "title": "Extracted plans are valid and have the stated cost", "statement": "When the search reports a solution, executing the plan's operators in order from the initial state is possible (each applicable), ends in a goal state, and the cost reported by calculate_plan_cost is the sum of the operators' costs.", "quantifier": "all tasks, all runs of the search space operations", "why_tests_cant": "The parent chain is updated by open/reopen/update_parent histories.", "anchors": ["src/search/search_space.cc: SearchSpace::trace_path, SearchNode::*", "src/search/plan_manager.cc: calculate_plan_cost"]}
{"id": "C19", "title": "Eager search is sound", "statement": "Whenever eager search (any open list, any evaluators, with or without reopening, preferred operators, pruning, lazy re-evaluation) returns SOLVED, its plan is a valid plan for the task; with untransformed operator costs its cost is strictly below the bound unless it is empty (with transformed costs the bound can be missed, which is shown by a counterexample).", "quantifier": "all tasks, all evaluator behaviours, all open list orders, all step counts", "why_tests_cant": "Every configuration and schedule of expansions.", "anchors": ["src/search/search_algorithms/eager_search.cc: initialize, step, get_next_node_to_expand, generate_successors"]}
{"id": "C20", "title": "Eager search is complete", "statement": "If eager search (no bound, no pruning, safe evaluators) returns FAILED, the task has no plan; and the search always terminates.", "quantifier": "all tasks, all safe evaluators", "why_tests_cant": "Statement about absence of plans over an infinite set of plans.", "anchors": ["src/search/search_algorithms/eager_search.cc"]}
{"id": "C21", "title": "A* returns optimal plans", "statement": "A* with an admissible (not necessarily consistent) evaluator returns a cheapest plan whenever a plan exists.", "quantifier": "all tasks with non-negative costs, all admissible evaluators", "why_tests_cant": "Optimality quantifies over all plans.", "anchors": ["src/search/search_algorithms/plugin_astar.cc", "src/search/search_algorithms/search_common.cc: create_astar_open_list_factory_and_f_eval", "src/search/search_algorithms/eager_search.cc", "src/search/open_lists/tiebreaking_open_list.cc"]}
{"id": "C22", "title": "Lazy search is sound", "statement": "Whenever lazy search returns SOLVED its plan is a valid plan with cost below the bound.", "quantifier": "all tasks, evaluators, open lists, random successor orders", "why_tests_cant": "All schedules.", "anchors": ["src/search/search_algorithms/lazy_search.cc"]}
{"id": "C23", "title": "Enforced hill-climbing is sound and pruning mode prunes", "statement": "EHC's plan is a valid plan below the bound whenever it returns SOLVED; an initial dead end ends the process with the documented exit code; in mode 'prune by preferred' every step of the plan is a preferred operator.", "quantifier": "all tasks, evaluators, modes, cost types and step limits", "why_tests_cant": "All runs.", "anchors": ["src/search/search_algorithms/enforced_hill_climbing_search.cc"]}
{"id": "C24", "title": "Iterated search returns the best plan found", "statement": "Iterated search ends with the cheapest plan among those its phases found (below its bound), and costs of successively saved plans strictly decrease.", "quantifier": "all phase outcomes", "why_tests_cant": "All sequences of phase results.", "anchors": ["src/search/search_algorithms/iterated_search.cc"]}
{"id": "C25", "title": "Best-first open list is a stable priority queue", "statement": "BestFirst open list: remove_min returns, among entries with the smallest evaluator value, the one inserted first; every non-dead-end entry inserted is removed at most once and none is lost.", "quantifier": "all operation sequences", "why_tests_cant": "Histories.", "anchors": ["src/search/open_lists/best_first_open_list.cc"]}
{"id": "C26", "title": "Tie-breaking open list is lexicographic and stable", "statement": "TieBreaking open list: remove_min returns, among entries with lexicographically smallest key vector, the one inserted first; nothing is lost.", "quantifier": "all operation sequences", "why_tests_cant": "Histories.", "anchors": ["src/search/open_lists/tiebreaking_open_list.cc"]}
{"id": "C27", "title": "Alternation open list loses nothing and serves every sublist", "statement": "Alternation: remove_min takes from a non-empty sublist with minimal priority; with boosting bounded, every sublist that stays non-empty is served again after finitely many removals; empty() iff all sublists are empty.", "quantifier": "all operation sequences", "why_tests_cant": "Fairness over unbounded histories.", "anchors": ["src/search/open_lists/alternation_open_list.cc"]}
{"id": "C28", "title": "Pareto open list returns only non-dominated entries", "statement": "Pareto: remove_min returns an entry whose key is not dominated by any key present, whatever the random choices; nothing is lost; empty() iff nothing is stored.", "quantifier": "all operation sequences, all random choices", "why_tests_cant": "The nondominated set is maintained incrementally over all histories.", "anchors": ["src/search/open_lists/pareto_open_list.cc"]}
{"id": "C29", "title": "Type-based open list keeps its index consistent", "statement": "TypeBased: every stored entry can be returned, remove_min returns a stored entry and removes exactly one copy, buckets stay grouped by key, whatever the random choices.", "quantifier": "all operation sequences, all random choices", "why_tests_cant": "Swap-and-pop index maintenance over histories.", "anchors": ["src/search/open_lists/type_based_open_list.cc"]}
{"id": "C30", "title": "Epsilon-greedy open list is a heap with random promotion", "statement": "EpsilonGreedy: when no random promotion happens remove_min returns the entry with the smallest (value, insertion number); a promoted entry is returned at once; nothing is lost.", "quantifier": "all operation sequences, all random choices", "why_tests_cant": "Heap invariant over histories.", "anchors": ["src/search/open_lists/epsilon_greedy_open_list.cc"]}
{"id": "C31", "title": "Estimate caching is transparent", "statement": "With cache_estimates the value a heuristic reports for a state is the same as without caching, for any sequence of evaluations and invalidations, provided compute_heuristic is a function of the state between invalidations.", "quantifier": "all evaluation sequences", "why_tests_cant": "Histories.", "anchors": ["src/search/heuristic.cc: Heuristic::compute_result", "src/search/evaluation_context.cc"]}
{"id": "C32", "title": "h^max is exact and admissible", "statement": "hmax(s) is infinite iff the goal is relaxed-unreachable, otherwise equals the h^max fixpoint value; without derived variables it never exceeds the cost of any plan from s and is consistent.", "quantifier": "all tasks, all states", "why_tests_cant": "Fixpoint over all tasks; admissibility over all plans.", "anchors": ["src/search/heuristics/max_heuristic.cc", "src/search/heuristics/relaxation_heuristic.cc"]}
{"id": "C33", "title": "h^add is exact and safe", "statement": "add(s) is infinite iff the goal is relaxed-unreachable, otherwise equals the h^add fixpoint value (clamped at its documented maximum).", "quantifier": "all tasks, all states", "why_tests_cant": "Fixpoint.", "anchors": ["src/search/heuristics/additive_heuristic.cc", "src/search/heuristics/additive_heuristic.h"]}
{"id": "C34", "title": "FF heuristic value is the cost of a relaxed plan", "statement": "ff(s) is the total cost of a set of operators that, executed with delete relaxation in some order, reaches the goal; preferred operators are applicable in s.", "quantifier": "all tasks, all states", "why_tests_cant": "Existence of an ordering over all tasks.", "anchors": ["src/search/heuristics/ff_heuristic.cc"]}
{"id": "C35", "title": "LM-cut is admissible", "statement": "Every landmark reported by LM-cut is hit by every plan from the state, the sum of reported costs never exceeds the cost of any plan, dead ends are reported iff the goal is relaxed-unreachable, and the computation terminates.", "quantifier": "all tasks without derived variables and conditional effects, all states", "why_tests_cant": "Quantifies over all plans.", "anchors": ["src/search/heuristics/lm_cut_landmarks.cc", "src/search/heuristics/lm_cut_heuristic.cc"]}
{"id": "C36", "title": "Relaxed-operator simplification preserves relaxed reachability and costs", "statement": "Removing dominated unary operators changes neither h^max nor h^add of any fact in any state.", "quantifier": "all tasks, all states", "why_tests_cant": "All operator sets.", "anchors": ["src/search/heuristics/relaxation_heuristic.cc: simplify"]}
{"id": "C37", "title": "Blind heuristic is admissible and consistent", "statement": "blind(s) is 0 for goal states and the cheapest operator cost otherwise; it never overestimates.", "quantifier": "all tasks, states", "why_tests_cant": "All plans.", "anchors": ["src/search/heuristics/blind_search_heuristic.cc"]}
{"id": "C38", "title": "Goal-count heuristic counts unsatisfied goals", "statement": "goalcount(s) is the number of goal facts false in s; zero iff s is a goal state.", "quantifier": "all tasks, states", "why_tests_cant": "All states.", "anchors": ["src/search/heuristics/goal_count_heuristic.cc"]}
{"id": "C39", "title": "h^m is exact and admissible", "statement": "hm(s) equals the h^m fixpoint over fact sets of size <= m and never exceeds the cost of any plan from s.", "quantifier": "all tasks without derived variables/conditional effects, all m >= 1", "why_tests_cant": "Fixpoint and plans.", "anchors": ["src/search/heuristics/hm_heuristic.cc"]}
{"id": "C40", "title": "Pattern database stores exact abstract goal distances", "statement": "The PDB lookup for a state equals the cost of a cheapest plan in the projection of the task to the pattern (infinite iff none), hence never exceeds the real cost.", "quantifier": "all tasks, patterns, states, cost assignments", "why_tests_cant": "Perfect hashing, match tree and regression-Dijkstra over all projections.", "anchors": ["src/search/pdbs/pattern_database_factory.cc", "src/search/pdbs/match_tree.cc", "src/search/pdbs/pattern_database.cc", "src/search/pdbs/abstract_operator.cc"]}
{"id": "C41", "title": "Canonical PDB heuristic is admissible", "statement": "The maximum over cliques of the sum of PDB values in a pairwise additive clique never exceeds the real cost.", "quantifier": "all pattern collections, states", "why_tests_cant": "All plans.", "anchors": ["src/search/pdbs/canonical_pdbs.cc", "src/search/pdbs/pattern_cliques.cc"]}
{"id": "C42", "title": "Zero-one PDB heuristic is admissible", "statement": "Summing PDBs where each operator's cost counts only in the first pattern it affects never exceeds the real cost.", "quantifier": "all pattern collections, states", "why_tests_cant": "All plans.", "anchors": ["src/search/pdbs/zero_one_pdbs.cc"]}
{"id": "C43", "title": "Dominance pruning does not change the canonical heuristic", "statement": "Pruned pattern cliques give the same maximum for every state.", "quantifier": "all pattern collections, states", "why_tests_cant": "All states.", "anchors": ["src/search/pdbs/dominance_pruning.cc"]}
{"id": "C44", "title": "Merge-and-shrink factor operations are sound abstractions", "statement": "Merging gives the synchronized product, shrinking a homomorphic image, (exact) label reduction preserves costs of all paths up to renaming; hence goal distances of the final factor never exceed real costs, and equal them if shrinking combines only bisimilar states.", "quantifier": "all factored transition systems, all op sequences", "why_tests_cant": "All histories of merge/shrink/reduce.", "anchors": ["src/search/merge_and_shrink/transition_system.cc", "src/search/merge_and_shrink/factored_transition_system.cc", "src/search/merge_and_shrink/label_reduction.cc", "src/search/merge_and_shrink/merge_and_shrink_representation.cc"]}
{"id": "C45", "title": "Merge-and-shrink distances are exact", "statement": "Distances::compute_distances computes for each abstract state the cost of a cheapest path from the initial state / to the goal.", "quantifier": "all transition systems", "why_tests_cant": "All graphs.", "anchors": ["src/search/merge_and_shrink/distances.cc"]}
{"id": "C46", "title": "Cartesian abstraction refinement keeps a partition with induced transitions", "statement": "After any sequence of splits, abstract states form a partition of all states, lookup finds the block of a state, and the stored transitions are exactly those induced by operators.", "quantifier": "all tasks, all split sequences", "why_tests_cant": "Incremental rewiring over histories.", "anchors": ["src/search/cartesian_abstractions/transition_system.cc", "src/search/cartesian_abstractions/abstraction.cc", "src/search/cartesian_abstractions/refinement_hierarchy.cc"]}
{"id": "C47", "title": "Saturated cost partitioning is admissible", "statement": "Summing abstract goal distances computed under successively reduced operator costs never exceeds the real cost.", "quantifier": "all tasks, all abstraction sequences", "why_tests_cant": "All plans.", "anchors": ["src/search/cartesian_abstractions/cost_saturation.cc", "src/search/cartesian_abstractions/additive_cartesian_heuristic.cc"]}
{"id": "C48", "title": "Combining evaluators treat infinity correctly", "statement": "sum/max evaluators report infinity iff one of the components does and otherwise exactly the sum/max; weighted multiplies finite values only; reliable dead ends are only claimed when a component claims them.", "quantifier": "all component values", "why_tests_cant": "All inputs incl. overflow.", "anchors": ["src/search/evaluators/combining_evaluator.cc", "src/search/evaluators/sum_evaluator.cc", "src/search/evaluators/max_evaluator.cc", "src/search/evaluators/weighted_evaluator.cc"]}
{"id": "C49", "title": "Option strings: tokenizing and parsing", "statement": "For every argument string the lexer either splits it into tokens whose concatenation (minus whitespace) is the input or reports an error, and the parser accepts exactly the documented grammar, building the corresponding tree.", "quantifier": "all strings", "why_tests_cant": "All strings.", "anchors": ["src/search/parser/lexical_analyzer.cc", "src/search/parser/syntax_analyzer.cc", "src/search/parser/token_stream.cc"]}
{"id": "C50", "title": "Conditional command line options", "statement": "--if-unit-cost/--if-non-unit-cost/--always select exactly the arguments for the task type; old-style predefinitions become nested let-expressions with balanced parentheses.", "quantifier": "all argument lists", "why_tests_cant": "All argument lists.", "anchors": ["src/search/command_line.cc"]}
{"id": "C51", "title": "Cost transformations", "statement": "NORMAL keeps costs, ONE makes every operator cost 1, PLUSONE adds 1 unless the task is unit-cost; derived rules always cost 0.", "quantifier": "all tasks", "why_tests_cant": "All costs.", "anchors": ["src/search/operator_cost.cc", "src/search/tasks/cost_adapted_task.cc"]}
{"id": "C52", "title": "Plan files are numbered without gaps and costs annotated correctly", "statement": "Saved plans use the plain name for a single plan and name.k with consecutive k for anytime searches; the reported cost is that of the saved plan.", "quantifier": "all sequences of saves", "why_tests_cant": "Histories.", "anchors": ["src/search/plan_manager.cc"]}
{"id": "C53", "title": "Stubborn-set pruning is safe", "statement": "Pruning with stubborn sets never makes a solvable task unsolvable and preserves optimal cost.", "quantifier": "all tasks, states", "why_tests_cant": "All plans.", "anchors": ["src/search/pruning/stubborn_sets.cc", "src/search/pruning/stubborn_sets_simple.cc"]}
{"id": "C54", "title": "Landmark progress and cost-sharing heuristic are admissible", "statement": "A landmark counts as reached in a state exactly if it was reached on every path to that state that the search has reported step by step; with sound landmarks and orderings a landmark is marked as still needed only if every plan from the state makes it true again; the uniform cost-sharing estimate, computed in floating point, never exceeds the cost of a plan, and dead ends are reported only for states without a plan.", "quantifier": "all tasks, sound landmark graphs, histories of reported transitions, states, plans", "why_tests_cant": "All search orders, paths and plans.", "anchors": ["src/search/landmarks/landmark_status_manager.cc", "src/search/landmarks/landmark_cost_partitioning_algorithms.cc", "src/search/landmarks/landmark_heuristic.cc", "src/search/landmarks/landmark_cost_partitioning_heuristic.cc", "src/search/landmarks/landmark_sum_heuristic.cc"]}
{"id": "C55", "title": "Domain abstraction of tasks preserves plans", "statement": "Every plan of the original task is a plan of the domain-abstracted task.", "quantifier": "all tasks, all value groupings", "why_tests_cant": "All plans.", "anchors": ["src/search/tasks/domain_abstracted_task.cc", "src/search/tasks/domain_abstracted_task_factory.cc"]}
{"id": "C56", "title": "Exit code reflects the search result", "statement": "The planner exits with the success code iff a plan was found; unsolved runs end with the unsolved-incomplete code and bad input with the input-error code.", "quantifier": "all runs", "why_tests_cant": "All runs.", "anchors": ["src/search/planner.cc", "src/search/search_algorithm.cc"]}
{"id": "C57", "title": "Per-state information keeps the last written value per state", "statement": "PerStateInformation / PerStateArray / PerStateBitset return for each (registry, state) the value last written, or the default, independent of other states and registries and of the order in which registries die.", "quantifier": "all access sequences", "why_tests_cant": "Histories incl. registry destruction and one-element cache.", "anchors": ["src/search/per_state_information.h", "src/search/per_state_array.h", "src/search/per_state_bitset.cc"]}
{"id": "C58", "title": "Bounded products never overflow", "statement": "is_product_within_limit(a,b,limit) is true iff a*b <= limit, for all non-negative ints, without overflow.", "quantifier": "all ints", "why_tests_cant": "Full int range.", "anchors": ["src/search/utils/math.cc"]}
{"id": "C59", "title": "Added rules for default values keep the meaning of derived variables", "statement": "DefaultValueAxiomsTask adds rules for default values and keeps the original rules. In every state left by evaluation a default value that the task mentions has a new rule whose body holds whenever the default value holds; for variables that are not defined cyclically (unless approximation is requested) a new rule's body holds only if the default value holds. With the new rules relaxation heuristics stay safe, and hmax admissible, for tasks with derived variables.", "quantifier": "all tasks", "why_tests_cant": "All rule sets/states.", "anchors": ["src/search/tasks/default_value_axioms_task.cc"]}
{"id": "C60", "title": "Causal graph exactness", "statement": "The causal graph has exactly the edges induced by preconditions/effect conditions and effects of operators and derived rules.", "quantifier": "all tasks", "why_tests_cant": "All tasks.", "anchors": ["src/search/task_utils/causal_graph.cc"]}
{"id": "C61", "title": "EHC mode 'rank preferred first' only ranks", "statement": "In mode 'rank preferred first' successors reached by non-preferred operators are still explored, only later than preferred ones; the search therefore fails only if it would also fail without preferred operators.", "quantifier": "all tasks, evaluators, preferred operators", "why_tests_cant": "All runs; the construction of the open list hides it.", "anchors": ["src/search/search_algorithms/enforced_hill_climbing_search.cc", "src/search/open_lists/tiebreaking_open_list.cc"]}
{"id": "C62", "title": "Counterexample-guided refinement builds usable abstractions and answers correctly", "statement": "Building a Cartesian abstraction by refinement never fails whatever split is chosen and wherever a limit stops it; if it ends with a solution this is a cheapest plan under the given (possibly infinite) operator costs, if it ends without abstract solution there is no plan of finite cost, and without limits it always ends; the additive heuristic built from such abstractions of goal and landmark subtasks (with merged values) is admissible and consistent.", "quantifier": "all tasks, operator costs, split choices, limits, subtasks", "why_tests_cant": "All refinement histories and plans.", "anchors": ["src/search/cartesian_abstractions/cegar.cc", "src/search/cartesian_abstractions/abstract_search.cc", "src/search/cartesian_abstractions/split_selector.cc", "src/search/cartesian_abstractions/utils.cc", "src/search/cartesian_abstractions/subtask_generators.cc"]}
{"id": "C63", "title": "Operator-counting heuristics solve exactly the program of their constraints and are admissible", "statement": "For every combination of constraint generators (state equation, LM-cut landmarks, post-hoc optimization, two delete relaxations) and every history of evaluated states, the program solved for a state consists exactly of the conditions of the generators for that state (nothing of earlier states remains); the value is its optimum rounded up, a dead end is reported only if there is no plan, and the value never exceeds the cost of a plan.", "quantifier": "all tasks, generator combinations, evaluation histories, states, plans, solver answers within a tolerance", "why_tests_cant": "Bounds and rows are changed incrementally over histories; optimality is over all operator counts.", "anchors": ["src/search/operator_counting/operator_counting_heuristic.cc", "src/search/operator_counting/state_equation_constraints.cc", "src/search/operator_counting/lm_cut_constraints.cc", "src/search/operator_counting/pho_constraints.cc", "src/search/operator_counting/delete_relaxation_if_constraints.cc", "src/search/operator_counting/delete_relaxation_rr_constraints.cc", "src/search/lp/lp_solver.h"]}
{"id": "C64", "title": "Integer delete-relaxation constraints compute h+", "statement": "With integer variables and time variables, time labels or vertex elimination, the operator-counting heuristic with delete-relaxation constraints returns exactly the cost of a cheapest relaxed plan, and a dead end iff there is none.", "quantifier": "all tasks, states", "why_tests_cant": "All cyclic supports must be excluded.", "anchors": ["src/search/operator_counting/delete_relaxation_if_constraints.cc", "src/search/operator_counting/delete_relaxation_rr_constraints.cc"]}
{"id": "C65", "title": "Potential heuristics are admissible, consistent and optimal for their objective", "statement": "Potential functions obtained from the linear program give admissible heuristic values even if the solver respects constraints only up to a tolerance and sums are rounded, as long as the accumulated error stays below the slack that is subtracted. With exact solutions values are consistent and zero in goal states, and with unbounded potentials no consistent goal-aware potential function has a greater sum over the optimized states. A state without optimal solution has no plan.", "quantifier": "all tasks, states, plans, solver answers, sequences of optimizations", "why_tests_cant": "Depends on all answers a solver may give and on rounding over all variables.", "anchors": ["src/search/potentials/potential_optimizer.cc", "src/search/potentials/potential_function.cc", "src/search/potentials/potential_heuristic.cc", "src/search/potentials/potential_max_heuristic.cc"]}
{"id": "C66", "title": "Single, sample-based and diverse potential heuristics", "statement": "All three ways of making potential heuristics succeed for solvable tasks whatever states are sampled, use only optimal solutions, give admissible and consistent heuristics; the diverse heuristic terminates with at most the given number of functions, and if it makes fewer, every sample with a plan gets the best value that any potential heuristic gives it.", "quantifier": "all tasks, samples, numbers of functions, hash orders, solver answers", "why_tests_cant": "Sets of samples and hash orders are unbounded.", "anchors": ["src/search/potentials/single_potential_heuristics.cc", "src/search/potentials/sample_based_potential_heuristics.cc", "src/search/potentials/diverse_potential_heuristics.cc", "src/search/potentials/util.cc"]}
{"id": "C67", "title": "Relaxed exploration and exhaustive landmark generation", "statement": "Relaxed exploration finds exactly the facts reachable in the delete relaxation without the excluded ones, and leaves no exclusions behind. The exhaustive landmark factory returns exactly the landmarks of the delete relaxation (or of its unary version) with exactly the operators that can achieve them (first); every plan makes them true, so cost partitioning over them is admissible; unsupported tasks are rejected.", "quantifier": "all tasks, excluded facts, option values, histories of explorations", "why_tests_cant": "Requires all relaxed plans of all tasks.", "anchors": ["src/search/landmarks/exploration.cc Exploration::compute_relaxed_reachability", "src/search/landmarks/landmark_factory_rpg_exhaust.cc", "src/search/landmarks/landmark_factory_relaxation.cc calc_achievers", "src/search/landmarks/util.cc possibly_reaches_landmark", "src/search/landmarks/landmark_cost_partitioning_heuristic.cc check_unsupported_features"]}
{"id": "C68", "title": "Landmarks by label propagation", "statement": "Propagating landmark labels through the relaxed plan graph terminates whatever the iteration order of its hash sets, and extracts exactly the landmarks of the unary delete relaxation, each once, with exactly the natural orderings between a goal and the other atoms it cannot be reached without; it agrees with the exhaustive factory; if the relaxation is unsolvable it returns one goal that nothing achieves. Landmarks and orderings hold in every plan, so cost partitioning over them is admissible.", "quantifier": "all tasks (with conditional effects and axioms), hash orders", "why_tests_cant": "Label sets and orders are unbounded.", "anchors": ["src/search/landmarks/landmark_factory_zhu_givan.cc", "src/search/landmarks/landmark_factory.cc add_ordering_if_stronger", "src/search/landmarks/landmark_factory_relaxation.cc"]}
{"id": "C69", "title": "Label reduction is exact and complete", "statement": "Label reduction with any of its methods and system orders always ends without error, changes only labels and transitions, and leaves the transitions of the product of all systems and their costs as they are; labels combined for a system have the same cost and the same transitions in all other systems. After an attempt for a system no two labels of equal cost are combinable for it, and with the fixpoint method for no system.", "quantifier": "all tasks, all factored systems reachable by merging, shrinking, pruning and label reduction, all methods, orders and hash orders", "why_tests_cant": "All histories; the fixpoint iteration has no bound.", "anchors": ["src/search/merge_and_shrink/label_reduction.cc", "src/search/merge_and_shrink/label_reduction.h", "src/search/algorithms/equivalence_relation.cc", "src/search/merge_and_shrink/factored_transition_system.cc apply_label_mapping"]}
{"id": "C70", "title": "Shrink strategies keep what they promise", "statement": "For every system obtained by merge-and-shrink operations: bisimulation shrinking puts each state in one class, combines only states with the same goal status and goal distance (so goal distances survive), keeps the size limit unless the goal distances alone need more classes, and, when the limit is no obstacle, returns a bisimulation (with greedy=true, one for the transitions on cheapest paths) at least as coarse as any other; f-preserving shrinking combines states with different f or h values only if there are more such values than states allowed, in the order asked for, and keeps the limit; random shrinking keeps the limit; sizes before merging respect all limits; limit options are defaulted, lowered or rejected as documented.", "quantifier": "all tasks, reachable factored systems, options, size limits and random choices", "why_tests_cant": "All systems and histories, all random choices; tests fix a task and a seed.", "anchors": ["src/search/merge_and_shrink/shrink_bisimulation.cc", "src/search/merge_and_shrink/shrink_bucket_based.cc", "src/search/merge_and_shrink/shrink_fh.cc", "src/search/merge_and_shrink/shrink_random.cc", "src/search/merge_and_shrink/utils.cc compute_shrink_sizes", "src/search/merge_and_shrink/merge_and_shrink_algorithm.cc handle_shrink_limit_defaults"]}
{"id": "C71", "title": "The merge-and-shrink algorithm ends with an admissible heuristic", "statement": "With any shrink strategy, label reduction, pruning options, size limits, random choices, time limit and any merge strategy that names two existing factors, the algorithm ends without error after at most one merge per variable; unless the time is up, everything is merged or a factor proves that there is no plan. The resulting heuristic is defined on all reachable states and admissible. With f-preserving or random shrinking no merged factor exceeds max_states. With non-greedy bisimulation and large enough limits the value of the initial state is perfect, and so are all reachable states if there is a plan.", "quantifier": "all tasks without derived variables, all options, merge strategies, random choices and moments at which the time limit strikes", "why_tests_cant": "All tasks and combinations of options, all moments of a timeout.", "anchors": ["src/search/merge_and_shrink/merge_and_shrink_algorithm.cc", "src/search/merge_and_shrink/utils.cc shrink_before_merge_step, prune_step", "src/search/merge_and_shrink/merge_and_shrink_heuristic.cc"]}
{"id": "C72", "title": "Merge strategies always name two factors and follow the order they promise", "statement": "merge_precomputed with a linear tree, merge_stateless and merge_sccs with score-based filtering always name two different existing factors, so merge-and-shrink is admissible with each of them and perfect if nothing is lost. The variable order finder lists every variable once, each time one of highest priority; the orders by causal graph and goal end with an input error exactly if a variable does not influence the goal. A linear tree merges the first two variables of the order and then each time the product with the next one. merge_sccs stays inside one strongly connected component of the causal graph until every component is one factor, and treats components in the order of its option. Score-based filtering applies its scoring functions one after the other to all pairs of factors; each keeps the pairs that score best in its own sense (a non-goal state, the DFP weight, the share of alive states in the product, the place in the total order, one at random) until one pair is left, and several pairs left at the end are a critical error.", "quantifier": "all tasks without derived variables, all strategies and orders, all lists of scoring functions, random choices and factored systems the algorithm can reach", "why_tests_cant": "All tasks, all options, all sequences of merges.", "anchors": ["src/search/merge_and_shrink/merge_strategy_precomputed.cc", "src/search/merge_and_shrink/merge_strategy_stateless.cc", "src/search/merge_and_shrink/merge_strategy_sccs.cc", "src/search/merge_and_shrink/merge_selector_score_based_filtering.cc", "src/search/merge_and_shrink/merge_scoring_function_*.cc", "src/search/merge_and_shrink/merge_tree_factory_linear.cc", "src/search/task_utils/variable_order_finder.cc"]}
{"id": "C73", "title": "The systematic pattern generator lists exactly the patterns it promises", "statement": "With only_interesting_patterns, the generator ends and lists every interesting pattern with at most pattern_max_size variables exactly once and no other pattern. A pattern is interesting if each of its variables leads to a goal variable of the pattern along precondition-effect arcs inside the pattern and the causal graph restricted to the pattern is weakly connected. Without the option it lists all patterns up to that size once each, smaller ones first. Patterns given by the user are sorted and freed of repetitions, and a number that is no variable ends the planner with a critical error.", "quantifier": "all well-formed tasks, size bounds, enumeration orders of the hash sets and user-given patterns", "why_tests_cant": "All tasks; the number of patterns grows exponentially, and the generator reaches them only through single-goal patterns and connection points, with early exits that rely on the order of the queue.", "anchors": ["src/search/pdbs/pattern_collection_generator_systematic.cc", "src/search/pdbs/validation.cc", "src/search/pdbs/pattern_collection_information.cc PatternCollectionInformation"]}
{"id": "C74", "title": "Greedy and random pattern generation", "statement": "The greedy generator takes variables in the documented order (goal variables, then variables with an arc to a chosen one) as long as the product of the domain sizes stays within max_states, and its pattern is the longest such prefix. It fails with an input error only if every variable that influences the goal fits and there is a variable that does not. The random generator walks through the causal graph from a goal variable without visiting a variable twice, keeps the number of abstract states within max_pdb_size unless the goal variable alone exceeds it, and stops only if the time is up or no unvisited neighbour fits. The pattern databases built from either pattern are admissible.", "quantifier": "all well-formed tasks whose domains fit in int, size limits, shuffles, time-outs and both edge modes", "why_tests_cant": "All tasks, limits and random choices; overflow in the size check only shows close to 2^31.", "anchors": ["src/search/pdbs/pattern_generator_greedy.cc", "src/search/pdbs/pattern_generator_random.cc", "src/search/pdbs/random_pattern.cc", "src/search/pdbs/utils.cc compute_cg_neighbors"]}
{"id": "C75", "title": "Plans computed with a pattern database are optimal abstract plans", "statement": "Asking for a plan does not change the pattern database. If the projection is solvable from the initial state, any choice of one operator from each step of the plan is a plan of the projection, through the same abstract states, with the cost stored in the database. A wildcard plan lists in each step all operators of the same cost with the same abstract transition; a regular plan lists one operator in each step. If the projection is unsolvable, the plan is empty.", "quantifier": "all tasks without axioms and conditional effects, patterns, operator costs (including 0), priority queues and random choices", "why_tests_cant": "All tasks and patterns; zero-cost operators can make generating operators run in circles.", "anchors": ["src/search/pdbs/pattern_database_factory.cc compute_plan compute_pdb_and_plan"]}
{"id": "C76", "title": "Pattern collections built by counterexample-guided refinement", "statement": "Whatever flaws are chosen and whenever the time runs out: if the generator reports that the task is unsolvable, the task has no plan. Otherwise its patterns are disjoint, each contains one of the given goal variables and no forbidden variable that is not a goal variable, and each stays within the size limit unless it is a single goal variable; the pattern databases are exact. If it reports a solution, the only pattern database holds the cost of an optimal plan of the task for the initial state. If not, all given goal variables are covered, and the total size respects its limit unless nothing was refined. Refinement always ends; with enough room, no forbidden variables and no time limit it ends with an optimal plan. For a single goal there is exactly one pattern.", "quantifier": "all tasks without axioms and conditional effects, goal lists without repeated variables, forbidden variables, size limits whose sums fit in int, time-outs, random choices, priority queues and both kinds of plans", "why_tests_cant": "All tasks, flaw choices and interruption points; the size bookkeeping has to be right after every merge.", "anchors": ["src/search/pdbs/cegar.cc CEGAR generate_pattern_collection_with_cegar generate_pattern_with_cegar"]}
{"id": "C77", "title": "Collections from repeated pattern generation", "statement": "The generators that repeat a single-pattern generator (refinement or random walks) return at least one pattern database, all exact and with different patterns. Whenever a pattern was added, the collection was below its size limit, and the pattern fits into the remaining size and the limit for one pattern unless it is a single goal variable. Iterations go through the goals in turn, and for every iteration the collection has a pattern with its goal variable. The repetition ends with the first iteration at whose end the time is up, and earlier only when the collection is full or the stagnation time has passed. Only variables without a goal are ever blacklisted, and none before blacklisting may start. With refinement a task is reported unsolvable only if it is; with random walks every pattern is a walk in the causal graph from a goal variable.", "quantifier": "all tasks without axioms and conditional effects with at least one goal, orders of the goals, positive size limits, clocks, time-outs, stagnation and blacklisting options, random choices and priority queues", "why_tests_cant": "All tasks, clock readings and random choices; the remaining size and the goal index have to be right after every iteration.", "anchors": ["src/search/pdbs/pattern_collection_generator_multiple.cc PatternCollectionGeneratorMultiple", "src/search/pdbs/pattern_collection_generator_multiple_cegar.cc compute_pattern", "src/search/pdbs/pattern_collection_generator_multiple_random.cc compute_pattern"]}
{"id": "C78", "title": "Genetic pattern collections", "statement": "Whatever the random number generator does, the genetic algorithm ends with a pattern collection, for at least one collection per generation and a positive size limit. Every pattern has at most the allowed number of abstract states, and each of its variables is a goal variable or has an influence, within the pattern, on one. If disjoint patterns are asked for, no variable belongs to two patterns. By the measure that is optimised, the result is at least as good as an initial collection, in which all variables that fit were packed into patterns within the limit.", "quantifier": "all tasks, size limits, numbers of collections and episodes, mutations, selections, orders of the variables and measures with values that are not negative", "why_tests_cant": "All tasks and random choices over any number of episodes; invalid collections may be selected in between.", "anchors": ["src/search/pdbs/pattern_collection_generator_genetic.cc PatternCollectionGeneratorGenetic"]}
{"id": "C79", "title": "Pattern collections found by hill climbing", "statement": "Whatever the samples say about the candidates and whenever the time is up, hill climbing in the space of pattern collections ends, after at most as many iterations as there are sets of variables. The collection starts with a pattern for each goal variable. Every further pattern has at most the allowed number of abstract states, and when it was added the collection stayed within its limit. No pattern appears twice, all patterns are interesting (connected in the causal graph, and every variable can influence a goal variable of the pattern), and the databases are exact for their patterns. Each pattern added improves the required number of samples, and no other admissible extension of the collection improves more; the search ends early only if no admissible extension improves enough.", "quantifier": "all tasks without axioms and conditional effects, limits, sample outcomes and timeouts, as long as the collection with one more pattern stays within the range of an int", "why_tests_cant": "The sequence of candidates depends on random samples and on the clock; the claim is about all of them and all tasks.", "anchors": ["src/search/pdbs/pattern_collection_generator_hillclimbing.cc PatternCollectionGeneratorHillclimbing", "src/search/pdbs/incremental_canonical_pdbs.cc IncrementalCanonicalPDBs"]}
{"id": "C80", "title": "Improved samples in hill climbing", "statement": "When hill climbing asks whether a candidate pattern improves the canonical heuristic for a sample state, the answer is yes exactly if the canonical heuristic of the collection with the candidate has a larger value there, provided the present value is finite. It is computed from the known cliques of additive patterns, without building the larger collection. If the present value is infinite, the answer is yes exactly if the candidate alone has an infinite value.", "quantifier": "all tasks without axioms and conditional effects, pattern collections, candidate patterns and states", "why_tests_cant": "The cliques of the larger collection are never computed; that the shortcut agrees must hold for every additivity structure and state.", "anchors": ["src/search/pdbs/pattern_collection_generator_hillclimbing.cc is_heuristic_improved", "src/search/pdbs/pattern_cliques.cc compute_pattern_cliques_with_pattern", "src/search/pdbs/incremental_canonical_pdbs.cc get_pattern_cliques"]}
{"id": "C81", "title": "Limited pruning", "statement": "Limited pruning compares the pruning ratio of the first n expansions with the required minimum exactly once. If the ratio is too low, all expansions after the one that makes the test keep all operators; all other expansions use the underlying pruning method. With stubborn sets underneath, no matter which states are expanded with and without pruning, every plan has a counterpart that survives pruning, uses a subset of its operators and costs at most as much.", "quantifier": "all tasks in the fragment of the stubborn set methods, sequences of expansions, thresholds and ways in which the switch divides the states", "why_tests_cant": "The switch happens in the middle of a search and depends on its history; plans cross states expanded before and after it.", "anchors": ["src/search/pruning/limited_pruning.cc LimitedPruning", "src/search/pruning_method.cc PruningMethod::prune_operators"]}
