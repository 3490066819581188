(** Merge strategies of merge-and-shrink: precomputed linear merge trees, score-based selection, and
    merging the strongly connected components of the causal graph first.

    Random choices (shuffling, random numbers, the choices of shrinking inside MIASM) and the order in
    which std::sort leaves components of equal size are parameters.  Scores are exact fractions
    instead of double.  Not modelled: merge_tree.cc:174-296 and merge_tree_factory_linear.cc:44-115,
    which nothing calls, and logging. *)
From Verif Require Import Outcome Spec_Task Model_PQ Model_Graph Model_MAS Model_CausalGraph Model_Sccs Model_MASAlgorithm.

(** * Variable orders (task_utils/variable_order_finder.cc) *)
Inductive var_order := CgGoalLevel | CgGoalRandom | GoalCgLevel | RandomOrder | Level | ReverseLevel.   (* variable_order_finder.h:19-26 *)
Record finder := { v_remaining : list nat; v_pred : list bool; v_goal : list bool }.
(* variable_order_finder.cc:20-36 *)
Definition first_order (o : var_order) (shuffle : list nat -> list nat) (n : nat) : list nat :=
  match o with
  | ReverseLevel => seq 0 n
  | CgGoalRandom | RandomOrder => shuffle (rev (seq 0 n))
  | _ => rev (seq 0 n)
  end.
(* variable_order_finder.cc:16-42 *)
Definition new_finder (o : var_order) (shuffle : list nat -> list nat) (t : task) : outcome finder :=
  let n := length (t_vars t) in
  let* g := fold_outcome (fun (g : list bool) (f : fact) => vset g (fst f) true) (t_goal t) (repeat false n) in
  Ok {| v_remaining := first_order o shuffle n; v_pred := repeat false n; v_goal := g |}.
(* variable_order_finder.cc:44-52; v: the variable at the position, r: the others *)
Definition select_next (cg : causal_graph) (V : finder) (v : nat) (r : list nat) : outcome (nat * finder) :=
  let* new := vget (g_eff_to_pre cg) v in
  let* pred := fold_outcome (fun (p : list bool) u => vset p u true) new (v_pred V) in
  Ok (v, {| v_remaining := r; v_pred := pred; v_goal := v_goal V |}).
(* variable_order_finder.cc:63-69 and the other loops: the first remaining variable with the flag *)
Fixpoint find_flag (flags : list bool) (vars : list nat) : outcome (option (nat * list nat)) :=
  match vars with
  | [] => Ok None
  | v :: r =>
      let* b := vget flags v in
      if b : bool then Ok (Some (v, r))
      else let* x := find_flag flags r in Ok (match x with Some (w, r') => Some (w, v :: r') | None => None end)
  end.
(* variable_order_finder.cc:58-106 *)
Definition finder_next (o : var_order) (cg : causal_graph) (V : finder) : outcome (nat * finder) :=
  let two_runs (first second : list bool) :=
    let* a := find_flag first (v_remaining V) in
    match a with
    | Some (v, r) => select_next cg V v r
    | None =>
        let* b := find_flag second (v_remaining V) in
        match b with Some (v, r) => select_next cg V v r | None => Exit 33 end
    end in
  match o with
  | CgGoalLevel | CgGoalRandom => two_runs (v_pred V) (v_goal V)
  | GoalCgLevel => two_runs (v_goal V) (v_pred V)
  | _ => match v_remaining V with [] => UB | v :: r => select_next cg V v r end
  end.
(* the calls of next() until done() *)
Fixpoint finder_rest (fuel : nat) (o : var_order) (cg : causal_graph) (V : finder) : outcome (list nat) :=
  match v_remaining V with
  | [] => Ok []
  | _ =>
      match fuel with
      | 0 => NoFuel
      | S fuel => let* (v, V) := finder_next o cg V in let* r := finder_rest fuel o cg V in Ok (v :: r)
      end
  end.
(* the first call is made without asking done() *)
Definition variable_order (o : var_order) (shuffle : list nat -> list nat) (t : task) : outcome (list nat) :=
  let* cg := build_causal_graph t in
  let* V := new_finder o shuffle t in
  let* (v, V) := finder_next o cg V in
  let* r := finder_rest (length (v_remaining V)) o cg V in
  Ok (v :: r).

(** * Merge trees (merge_tree.cc) *)
Inductive merge_tree := MLeaf (i : nat) | MNode (l r : merge_tree).
(* merge_tree.cc:53-65 get_left_most_sibling, :67-82 erase_children_and_set_index, :141-144 get_next_merge *)
Fixpoint get_next_merge (T : merge_tree) (new_index : nat) : outcome (nat * nat * merge_tree) :=
  match T with
  | MLeaf _ => UB
  | MNode l r =>
      match l, r with
      | MLeaf i, MLeaf j => Ok (i, j, MLeaf new_index)
      | MNode _ _, _ => let* (i, j, l) := get_next_merge l new_index in Ok (i, j, MNode l r)
      | MLeaf _, MNode _ _ => let* (i, j, r) := get_next_merge r new_index in Ok (i, j, MNode l r)
      end
  end.
(* merge_tree_factory_linear.cc:32-42 *)
Definition linear_tree (l : list nat) : outcome merge_tree :=
  match l with [] => UB | v :: r => Ok (fold_left (fun T v => MNode T (MLeaf v)) r (MLeaf v)) end.
(* merge_strategy_precomputed.cc:15-22, merge_strategy_factory_precomputed.cc:18-24 *)
Definition precomputed_linear (o : var_order) (shuffle : list nat -> list nat) (t : task) : merge_strategy :=
  {| ms_state := merge_tree;
     ms_start := fun _ => let* l := variable_order o shuffle t in linear_tree l;
     ms_get_next := fun _ T F => get_next_merge T (length (F_factors F)) |}.

(** * Scoring functions *)
Definition score := option (nat * nat).                                 (* a fraction; [None] is INF *)
Definition score_lt (a b : score) : bool :=
  match a, b with Some (x, y), Some (x', y') => x * y' <? x' * y | Some _, None => true | None, _ => false end.
Definition score_eq (a b : score) : bool :=
  match a, b with Some (x, y), Some (x', y') => x * y' =? x' * y | None, None => true | _, _ => false end.
Definition pairs := list (nat * nat).

(* utils.cc:189-197 is_goal_relevant *)
Definition is_goal_relevant (T : tsys) : bool := existsb negb (ts_goals T).
(* merge_scoring_function_goal_relevance.cc:17-42 *)
Definition goal_relevant_flags (F : fts) : list bool :=
  map (fun f => match f with Some f => is_goal_relevant (f_ts f) | None => false end) (F_factors F).
Definition goal_relevance_score (F : fts) (c : nat * nat) : outcome score :=
  let* a := vget (goal_relevant_flags F) (fst c) in
  if a : bool then Ok (Some (0, 1))
  else let* b := vget (goal_relevant_flags F) (snd c) in Ok (if b : bool then Some (0, 1) else None).

(* merge_scoring_function_dfp.cc:14-62; a rank of -1 is [None], INF is [Some None] *)
Definition group_relevant (T : tsys) (i : info) : bool :=
  negb (length (i_trans i) =? ts_n T) || existsb (fun t => negb (snd t =? fst t)) (i_trans i).
Definition group_rank (T : tsys) (dg : dists) (i : info) : outcome (option (option nat)) :=
  if group_relevant T i then
    let* r := fold_outcome (fun r t => let* d := vget dg (snd t) in Ok (omin r d)) (i_trans i) None in Ok (Some r)
  else Ok None.
Definition compute_label_ranks (F : fts) (i : nat) : outcome (list (option (option nat))) :=
  let* f := get_factor F i in
  match d_goal (f_dist f) with
  | None => UB
  | Some dg =>
      fold_outcome (fun (ranks : list (option (option nat))) g =>
          let* r := group_rank (f_ts f) dg g in
          fold_outcome (fun ranks l => vset ranks l r) (i_labels g) ranks)
        (active_infos (f_ts f)) (repeat None (length (F_labels F)))
  end.
(* merge_scoring_function_dfp.cc:69-107; the ranks of a system are computed for every pair anew *)
Definition pair_weight (r1 r2 : list (option (option nat))) : option nat :=
  fold_left (fun w (r : option (option nat) * option (option nat)) =>
    match r with (Some a, Some b) => omin w (omax a b) | _ => w end) (combine r1 r2) None.
Definition dfp_score (F : fts) (c : nat * nat) : outcome score :=
  let* r1 := compute_label_ranks F (fst c) in
  let* r2 := compute_label_ranks F (snd c) in
  Ok (option_map (fun d => (d, 1)) (pair_weight r1 r2)).

(* merge_scoring_function_total_order.h:14-26 *)
Inductive atomic_order := AtomicReverseLevel | AtomicLevel | AtomicRandom.
Inductive product_order := OldToNew | NewToOld | ProductRandom.
(* merge_scoring_function_total_order.cc:63-113; sh1, sh2: the two calls of shuffle *)
Fixpoint all_pairs (l : list nat) : pairs :=
  match l with [] => [] | x :: r => map (fun y => (x, y)) r ++ all_pairs r end.
Definition ts_order (a : atomic_order) (p : product_order) (before : bool) (sh1 sh2 : list nat -> list nat) (n : nat) : list nat :=
  let atomic := seq 0 n in
  let atomic := match a with AtomicReverseLevel => atomic | AtomicLevel => rev atomic | AtomicRandom => sh1 atomic end in
  let product := seq n (n * 2 - 1 - n) in
  let product := match p with OldToNew => product | NewToOld => rev product | ProductRandom => sh2 product end in
  if before then atomic ++ product else product ++ atomic.
(* merge_scoring_function_total_order.cc:31-61 *)
Definition same_pair (c o : nat * nat) : bool :=
  ((fst o =? fst c) && (snd o =? snd c)) || ((snd o =? fst c) && (fst o =? snd c)).
Fixpoint find_pair (c : nat * nat) (l : pairs) (k : nat) : outcome score :=
  match l with [] => UB | o :: r => if same_pair c o then Ok (Some (k, 1)) else find_pair c r (S k) end.

Inductive scoring :=
| GoalRelevance
| DFP
| TotalOrder (a : atomic_order) (p : product_order) (before : bool)
| SingleRandom
| MIASM (s : shrink_strategy) (max_states before_merge threshold : nat) (use_caching : bool).
(* what a scoring function stores: merge_candidate_order, cached_scores_by_merge_candidate_indices *)
Inductive sf_data := NoData | Order (l : pairs) | Cache (c : list (list (option score))).

(* the flags in the header files *)
Definition sf_init_distances (s : scoring) : bool := match s with MIASM _ _ _ _ _ => true | _ => false end.
Definition sf_goal_distances (s : scoring) : bool := match s with DFP | MIASM _ _ _ _ _ => true | _ => false end.

Section SELECTION.
Variable P : pqueue.
Variable q0 : PQ P.
Variable ord : list (nat * list nat) -> list (nat * list nat).
(* random choices: k is the position of the scoring function, n the number of the iteration *)
Variable shuffle : nat -> bool -> list nat -> list nat.
Variable random : nat -> nat -> nat -> nat.
Variable pick : nat -> nat -> nat * nat -> bool -> list (list nat) -> nat * nat.

(* merge_scoring_function_miasm_utils.cc:22-54 and the condition in :74-77 *)
Definition shrink_copy (choose : list (list nat) -> nat * nat) (s : shrink_strategy) (threshold : nat) (f : factor) (size : nat) : outcome tsys :=
  if Nat.min size threshold <? ts_n (f_ts f) then
    let* cls := shrink_classes choose s (f_ts f) (f_dist f) size in
    if length cls <? ts_n (f_ts f) then
      let* m := abstraction_mapping (ts_n (f_ts f)) cls in
      abstract_ts (f_ts f) cls m
    else Ok (f_ts f)
  else Ok (f_ts f).
(* merge_scoring_function_miasm_utils.cc:56-100 *)
Definition shrink_before_merge_externally (choose : bool -> list (list nat) -> nat * nat) (s : shrink_strategy) (max_states before_merge threshold : nat) (F : fts) (c : nat * nat) : outcome tsys :=
  let* f := get_factor F (fst c) in
  let* g := get_factor F (snd c) in
  let '(s1, s2) := compute_shrink_sizes (ts_n (f_ts f)) (ts_n (f_ts g)) before_merge max_states in
  let* T1 := shrink_copy (choose false) s threshold f s1 in
  let* T2 := shrink_copy (choose true) s threshold g s2 in
  merge_ts ord (F_labels F) (F_max F) T1 T2.
(* merge_scoring_function_miasm.cc:49-76 *)
Definition count_alive (di dg : dists) : nat :=
  length (filter (fun d : option nat * option nat => match d with (Some _, Some _) => true | _ => false end) (combine di dg)).
Definition miasm_ratio (T : tsys) : outcome score :=
  let* D := compute_distances P q0 T true true no_distances in
  match d_init D, d_goal D with
  | Some di, Some dg => if ts_n T =? 0 then UB else Ok (Some (count_alive di dg, ts_n T))
  | _, _ => UB
  end.
(* merge_scoring_function_miasm.cc:36-84: one candidate *)
Definition miasm_score (n k : nat) (s : shrink_strategy) (max_states before_merge threshold : nat) (use_caching : bool) (F : fts)
    (st : list score * list (list (option score))) (c : nat * nat) : outcome (list score * list (list (option score))) :=
  let '(scores, cache) := st in
  let* old := if use_caching then let* row := vget cache (fst c) in vget row (snd c) else Ok None in
  match old with
  | Some x => Ok (scores ++ [x], cache)
  | None =>
      let* T := shrink_before_merge_externally (pick n k c) s max_states before_merge threshold F c in
      let* x := miasm_ratio T in
      let* cache := if use_caching then let* row := vget cache (fst c) in let* row := vset row (snd c) (Some x) in vset cache (fst c) row else Ok cache in
      Ok (scores ++ [x], cache)
  end.

(* merge_scoring_function_total_order.cc:63-113, merge_scoring_function_miasm.cc:86-92; n variables *)
Definition sf_initialize (n k : nat) (s : scoring) : sf_data :=
  match s with
  | TotalOrder a p b => Order (all_pairs (ts_order a p b (shuffle k false) (shuffle k true) n))
  | MIASM _ _ _ _ _ => Cache (repeat (repeat None (2 * n - 1)) (2 * n - 1))
  | _ => NoData
  end.
(* compute_scores of each scoring function; merge_scoring_function_single_random.cc:22-38 *)
Definition compute_scores (n k : nat) (s : scoring) (d : sf_data) (F : fts) (cands : pairs) : outcome (list score * sf_data) :=
  match s, d with
  | GoalRelevance, _ => let* l := omap (goal_relevance_score F) cands in Ok (l, d)
  | DFP, _ => let* l := omap (dfp_score F) cands in Ok (l, d)
  | TotalOrder _ _ _, Order o => let* l := omap (fun c => find_pair c o 0) cands in Ok (l, d)
  | SingleRandom, _ =>
      let chosen := random n k (length cands) in
      Ok (map (fun i => if i =? chosen then Some (0, 1) else None) (seq 0 (length cands)), d)
  | MIASM s m b th caching, Cache c =>
      let* (l, c) := fold_outcome (miasm_score n k s m b th caching F) cands ([], c) in Ok (l, Cache c)
  | _, _ => UB
  end.

(** * Selectors (merge_selector.cc, merge_selector_score_based_filtering.cc) *)
(* merge_selector_score_based_filtering.cc:19-38 *)
Definition best_score (scores : list score) : score := fold_left (fun b s => if score_lt s b then s else b) scores None.
Definition get_remaining_candidates (cands : pairs) (scores : list score) : outcome pairs :=
  if length cands =? length scores then Ok (map fst (filter (fun cs => score_eq (snd cs) (best_score scores)) (combine cands scores))) else UB.
(* merge_selector_score_based_filtering.cc:43-51 *)
Fixpoint filter_candidates (n k : nat) (sfs : list (scoring * sf_data)) (F : fts) (cands : pairs) : outcome (pairs * list (scoring * sf_data)) :=
  match sfs with
  | [] => Ok (cands, [])
  | (s, d) :: r =>
      let* (scores, d) := compute_scores n k s d F cands in
      let* cands := get_remaining_candidates cands scores in
      if length cands =? 1 then Ok (cands, (s, d) :: r)
      else let* (cands, r) := filter_candidates n (S k) r F cands in Ok (cands, (s, d) :: r)
  end.
(* merge_selector_score_based_filtering.cc:40-62 *)
Definition select_merge_from_candidates (n : nat) (sfs : list (scoring * sf_data)) (F : fts) (cands : pairs) : outcome (nat * nat * list (scoring * sf_data)) :=
  let* (cands, sfs) := filter_candidates n 0 sfs F cands in
  match cands with
  | [] => UB
  | [c] => Ok (c, sfs)
  | _ => Exit 32
  end.
(* the indices of the factors, in ascending order *)
Definition active_indices (F : fts) : list nat :=
  filter (fun i => match nth_error (F_factors F) i with Some (Some _) => true | _ => false end) (seq 0 (length (F_factors F))).
(* merge_selector.cc:12-31 *)
Definition compute_merge_candidates (F : fts) : pairs := all_pairs (active_indices F).
(* merge_selector_score_based_filtering.cc:64-69 *)
Fixpoint selector_initialize (n k : nat) (l : list scoring) : list (scoring * sf_data) :=
  match l with [] => [] | s :: r => (s, sf_initialize n k s) :: selector_initialize n (S k) r end.
(* merge_selector_score_based_filtering.cc:84-103 *)
Definition sel_init_distances (l : list scoring) : bool := existsb sf_init_distances l.
Definition sel_goal_distances (l : list scoring) : bool := existsb sf_goal_distances l.

(* merge_strategy_stateless.cc:14-16, merge_strategy_factory_stateless.cc:18-22, merge_selector.cc:38-41 *)
Definition stateless (l : list scoring) (t : task) : merge_strategy :=
  {| ms_state := list (scoring * sf_data);
     ms_start := fun _ => Ok (selector_initialize (length (t_vars t)) 0 l);
     ms_get_next := fun n sfs F => select_merge_from_candidates n sfs F (compute_merge_candidates F) |}.

(** * Components of the causal graph first (merge_strategy_factory_sccs.cc, merge_strategy_sccs.cc) *)
Inductive scc_order := Topological | ReverseTopological | Decreasing | Increasing.
(* std::sort: the comparison and the list *)
Variable sort_sccs : (list nat -> list nat -> bool) -> list (list nat) -> list (list nat).
(* merge_strategy_factory_sccs.cc:20-28, :55-70 *)
Definition order_sccs (o : scc_order) (sccs : list (list nat)) : list (list nat) :=
  match o with
  | Topological => sccs
  | ReverseTopological => rev sccs
  | Decreasing => sort_sccs (fun a b => length b <? length a) sccs
  | Increasing => sort_sccs (fun a b => length a <? length b) sccs
  end.
(* merge_strategy_factory_sccs.cc:39-94 *)
Definition non_singleton_sccs (o : scc_order) (t : task) : outcome (list (list nat)) :=
  let* cg := build_causal_graph t in
  let* sccs := compute_maximal_sccs (g_successors cg) in
  Ok (filter (fun c => negb (length c =? 1)) (order_sccs o sccs)).
Record scc_state := { s_sel : list (scoring * sf_data); s_current : list nat; s_sccs : list (list nat) }.
(* merge_strategy_sccs.cc:26-52 *)
Definition current_indices (st : scc_state) (F : fts) : list nat * list (list nat) :=
  match s_current st with
  | [] => match s_sccs st with [] => (active_indices F, []) | c :: r => (c, r) end
  | cur => (cur ++ [length (F_factors F) - 1], s_sccs st)
  end.
(* merge_strategy_sccs.cc:25-85 *)
Definition sccs_get_next (n : nat) (st : scc_state) (F : fts) : outcome (nat * nat * scc_state) :=
  let '(cur, sccs) := current_indices st F in
  let* (i, j, sel) := select_merge_from_candidates n (s_sel st) F (all_pairs cur) in
  Ok (i, j, {| s_sel := sel; s_current := filter (fun k => negb ((k =? i) || (k =? j))) cur; s_sccs := sccs |}).
Definition sccs_first (o : scc_order) (l : list scoring) (t : task) : merge_strategy :=
  {| ms_state := scc_state;
     ms_start := fun _ =>
       let* c := non_singleton_sccs o t in
       Ok {| s_sel := selector_initialize (length (t_vars t)) 0 l; s_current := []; s_sccs := c |};
     ms_get_next := sccs_get_next |}.
End SELECTION.

(** * All strategies *)
Inductive strategy_option :=
| MergePrecomputedLinear (o : var_order)
| MergeStateless (l : list scoring)
| MergeSccs (o : scc_order) (l : list scoring).
(* merge_tree_factory_linear.h:31-37: linear trees need no distances *)
Definition strategy_init_distances (s : strategy_option) : bool :=
  match s with MergePrecomputedLinear _ => false | MergeStateless l => sel_init_distances l | MergeSccs _ l => sel_init_distances l end.
Definition strategy_goal_distances (s : strategy_option) : bool :=
  match s with MergePrecomputedLinear _ => false | MergeStateless l => sel_goal_distances l | MergeSccs _ l => sel_goal_distances l end.
(* plugin features merge_precomputed, merge_stateless, merge_sccs: merge_strategy_factory_precomputed.cc:18-24,
   merge_strategy_factory_stateless.cc:18-22, merge_strategy_factory_sccs.cc:39-94; linear is the only merge tree *)
Definition make_strategy (P : pqueue) (q0 : PQ P) (ord : list (nat * list nat) -> list (nat * list nat)) (shuffle_vars : list nat -> list nat)
    (shuffle : nat -> bool -> list nat -> list nat) (random : nat -> nat -> nat -> nat) (pick : nat -> nat -> nat * nat -> bool -> list (list nat) -> nat * nat)
    (sort_sccs : (list nat -> list nat -> bool) -> list (list nat) -> list (list nat)) (s : strategy_option) (t : task) : merge_strategy :=
  match s with
  | MergePrecomputedLinear o => precomputed_linear o shuffle_vars t
  | MergeStateless l => stateless P q0 ord shuffle random pick l t
  | MergeSccs o l => sccs_first P q0 ord shuffle random pick sort_sccs o l t
  end.
