(** Model of landmark generation by relaxed exploration and by label propagation.

    src/search/landmarks/exploration.{h,cc}, landmark_factory.cc, landmark_factory_relaxation.cc,
    landmark_factory_rpg_exhaust.cc, landmark_factory_zhu_givan.{h,cc}, landmark_graph.cc, util.cc.

    Simplifications: tables indexed by variable and value are functions on facts whose accesses
    check the ranges (out of range is undefined behaviour); a pointer to a proposition is its fact,
    a pointer to a unary operator its position; an unordered set is a list without repetitions,
    and the order in which it is iterated is a parameter.  Integers are unbounded. *)
From Verif Require Import Outcome Spec_Task Spec_Landmarks Model_DefaultRules.
Local Open Scope nat_scope.

(* [var][value] is inside a table built by build_propositions (exploration.cc:34-42) *)
Definition has_fact (t : task) (f : fact) : bool :=
  match nth_error (t_vars t) (fst f) with Some x => snd f <? vdom x | None => false end.
Definition fget {A} (t : task) (m : fact -> A) (f : fact) : outcome A :=
  if has_fact t f then Ok (m f) else UB.
Definition fput_at {A} (m : fact -> A) (f : fact) (a : A) : fact -> A := fun g => if fact_eqb g f then a else m g.
Definition fput {A} (t : task) (m : fact -> A) (f : fact) (a : A) : outcome (fact -> A) :=
  if has_fact t f then Ok (fput_at m f a) else UB.
Definition all_facts (t : task) : list fact :=
  flat_map (fun p : nat * variable => map (fun d => (fst p, d)) (seq 0 (vdom (snd p))))
    (combine (seq 0 (length (t_vars t))) (t_vars t)).
Definition mem_fact (f : fact) (l : list fact) : bool := existsb (fact_eqb f) l.
Definition mem_id (i : Z) (l : list Z) : bool := existsb (Z.eqb i) l.
(* unordered_set::insert *)
Definition add_fact (l : list fact) (f : fact) : list fact := if mem_fact f l then l else l ++ [f].
Definition add_id (l : list Z) (i : Z) : list Z := if mem_id i l then l else l ++ [i].

(* OperatorProxy: an operator or an axiom, with its number from util.cc:69-75 *)
Record op_or_axiom := { a_id : Z; a_pre : list fact; a_effs : list effect }.
Definition as_operator (p : nat * operator) : op_or_axiom :=
  {| a_id := Z.of_nat (fst p); a_pre := op_pre (snd p); a_effs := op_effs (snd p) |}.
(* an axiom's precondition is the other value of its variable (root_task.cc:352-400), its only
   effect has the body as condition *)
Definition as_axiom (p : nat * rule) : op_or_axiom :=
  {| a_id := (- Z.of_nat (fst p) - 1)%Z; a_pre := [(fst (r_head (snd p)), 1 - snd (r_head (snd p)))];
     a_effs := [{| eff_cond := r_body (snd p); eff_fact := r_head (snd p) |}] |}.
Definition operators (t : task) : list op_or_axiom := map as_operator (combine (seq 0 (length (t_ops t))) (t_ops t)).
Definition axioms (t : task) : list op_or_axiom := map as_axiom (combine (seq 0 (length (t_rules t))) (t_rules t)).
(* util.cc:60-67 *)
Definition get_operator_or_axiom (t : task) (i : Z) : outcome op_or_axiom :=
  if (i <? 0)%Z then vget (axioms t) (Z.to_nat (- i - 1)) else vget (operators t) (Z.to_nat i).

(** ** Exploration *)
(* exploration.h:34-51; the number of preconditions is the length of the list *)
Record unary := { uo_id : Z; uo_pre : list fact; uo_eff : fact }.
(* exploration.cc:75-137: the sorting and merging of the conditions does not matter, duplicates
   are kept *)
Definition unary_of (x : op_or_axiom) : list unary :=
  map (fun e => {| uo_id := a_id x; uo_pre := a_pre x ++ eff_cond e; uo_eff := eff_fact e |}) (a_effs x).
(* exploration.cc:56-73 *)
Definition unary_operators (t : task) : list unary := flat_map unary_of (operators t ++ axioms t).
(* exploration.cc:131-134: the operators registered with a proposition, once for each occurrence *)
Definition precondition_of (us : list unary) (f : fact) : list nat :=
  flat_map (fun p : nat * unary => map (fun _ => fst p) (filter (fact_eqb f) (uo_pre (snd p))))
    (combine (seq 0 (length us)) us).

(* exploration.h:20-32, 53-58: the flags of the propositions survive a call.  The counters and
   flags of the unary operators and the queue do not: each call sets them before reading them. *)
Record exploration := { ex_reached : fact -> bool; ex_excluded : fact -> bool }.
(* exploration.cc:25-42, 56-73: the constructor; the pointers taken at lines 110, 126 must exist *)
Definition new_exploration (t : task) : outcome exploration :=
  let* _ := guard (forallb (fun u => forallb (has_fact t) (uo_pre u) && has_fact t (uo_eff u)) (unary_operators t)) in
  Ok {| ex_reached := fun _ => false; ex_excluded := fun _ => false |}.

Definition queue := ((fact -> bool) * list fact)%type.     (* reached flags, prop_queue *)
(* exploration.cc:265-270 *)
Definition enqueue_if_necessary (rq : queue) (f : fact) : queue :=
  let (re, q) := rq in if re f then rq else (fput_at re f true, q ++ [f]).
(* exploration.cc:147-155 *)
Definition set_state_atoms_reached (t : task) (s : state) (excluded : fact -> bool) (rq : queue) : outcome queue :=
  fold_outcome (fun rq f => let* x := fget t excluded f in Ok (if x then rq else enqueue_if_necessary rq f))
    (combine (seq 0 (length s)) s) rq.
(* exploration.cc:170-190; only the operators are considered, not the axioms *)
Definition get_excluded_operators (t : task) (excluded : fact -> bool) (use_unary : bool) : outcome (list Z) :=
  if use_unary then Ok [] else
  fold_outcome (fun acc x =>
    let* b := fold_outcome (fun (b : bool) e =>
        if b then Ok true (* break *) else
        if (match eff_cond e with [] => true | _ => false end) then fget t excluded (eff_fact e) else Ok false)
      (a_effs x) false in
    Ok (if b then acc ++ [a_id x] else acc)) (operators t) [].
(* exploration.cc:203-207 *)
Definition is_excluded (excluded : fact -> bool) (ids : list Z) (u : unary) : bool :=
  excluded (uo_eff u) || mem_id (uo_id u) ids.
(* exploration.cc:192-217: (counters, excluded operators, reached flags and queue) *)
Definition initialize_operator_data (t : task) (us : list unary) (excluded : fact -> bool) (use_unary : bool) (rq : queue)
  : outcome (list nat * list bool * queue) :=
  let* ids := get_excluded_operators t excluded use_unary in
  let rq := fold_left (fun rq u =>
      if is_excluded excluded ids u then rq
      else if length (uo_pre u) =? 0 then enqueue_if_necessary rq (uo_eff u) else rq) us rq in
  Ok (map (fun u => length (uo_pre u)) us, map (is_excluded excluded ids) us, rq).
(* exploration.cc:225-243; the second result are the flags *excluded* after resetting them *)
Definition setup_exploration_queue (t : task) (us : list unary) (ex : exploration) (s : state) (excluded_props : list fact)
    (use_unary : bool) : outcome (list nat * list bool * queue * (fact -> bool)) :=
  let* excl := fold_outcome (fun m f => fput t m f true) excluded_props (ex_excluded ex) in
  let* rq := set_state_atoms_reached t s excl (fun _ => false, []) in
  let* d := initialize_operator_data t us excl use_unary rq in
  let* excl' := fold_outcome (fun m f => fput t m f false) excluded_props excl in
  Ok (d, excl').
(* exploration.cc:252-261: the operators triggered by one proposition; the assertion in line 257
   is the check for 0 *)
Definition trigger (us : list unary) (opex : list bool) (st : list nat * queue) (i : nat) : outcome (list nat * queue) :=
  let (unsat, rq) := st in
  let* x := vget opex i in
  if x then Ok st else
  let* n := vget unsat i in
  match n with
  | O => UB
  | S n' =>
    let* unsat' := vset unsat i n' in
    let* u := vget us i in
    Ok (unsat', if n' =? 0 then enqueue_if_necessary rq (uo_eff u) else rq)
  end.
(* exploration.cc:245-263 *)
Fixpoint relaxed_exploration (us : list unary) (opex : list bool) (fuel : nat) (unsat : list nat) (rq : queue) : outcome (fact -> bool) :=
  match rq with
  | (re, []) => Ok re
  | (re, f :: q) =>
    match fuel with
    | O => NoFuel
    | S fuel =>
      let* st := fold_outcome (trigger us opex) (precondition_of us f) (unsat, (re, q)) in
      relaxed_exploration us opex fuel (fst st) (snd st)
    end
  end.
(* exploration.cc:286-292 *)
Definition compute_relaxed_reachability (t : task) (ex : exploration) (excluded_props : list fact) (use_unary : bool)
  : outcome ((fact -> bool) * exploration) :=
  let us := unary_operators t in
  let* st := setup_exploration_queue t us ex (t_init t) excluded_props use_unary in
  let '(unsat, opex, rq, excl) := st in
  let* re := relaxed_exploration us opex (S (length (all_facts t))) unsat rq in
  Ok (re, {| ex_reached := re; ex_excluded := excl |}).

(** ** The landmark graph *)
(* landmark.h, LandmarkNode in landmark_graph.h:31-60; all landmarks here are atomic.  [n_parents]
   and [n_children] refer to nodes by their position. *)
Record node := {
  n_atom : fact; n_goal : bool; n_derived : bool; n_first : list Z; n_possible : list Z;
  n_parents : list (nat * ordering_type); n_children : list (nat * ordering_type)
}.
(* landmark.h:29-40, landmark_graph.cc:74-79 *)
Definition new_node (a : fact) (goal : bool) : node :=
  {| n_atom := a; n_goal := goal; n_derived := false; n_first := []; n_possible := []; n_parents := []; n_children := [] |}.
(* landmark_graph.cc:24-28: the first node with the atom, as emplace does not replace entries *)
Fixpoint position (a : fact) (g : list node) : option nat :=
  match g with
  | [] => None
  | n :: g => if fact_eqb (n_atom n) a then Some 0 else option_map S (position a g)
  end.
(* landmark_graph.cc:39-41 *)
Definition contains_atomic_landmark (g : list node) (a : fact) : bool :=
  match position a g with Some _ => true | None => false end.

(* landmark_factory.cc:35-57 *)
Definition operators_including_effect (t : task) (f : fact) : list Z :=
  flat_map (fun x => flat_map (fun e => if fact_eqb (eff_fact e) f then [a_id x] else []) (a_effs x)) (operators t ++ axioms t).

(* util.cc:13-22 *)
Fixpoint condition_is_reachable (t : task) (reached : fact -> bool) (fs : list fact) : outcome bool :=
  match fs with
  | [] => Ok true
  | f :: fs => let* b := fget t reached f in if b then condition_is_reachable t reached fs else Ok false
  end.
(* util.cc:26-41 *)
Fixpoint some_effect_reaches (t : task) (reached : fact -> bool) (a : fact) (es : list effect) : outcome bool :=
  match es with
  | [] => Ok false
  | e :: es =>
    let* b := if fact_eqb a (eff_fact e) then condition_is_reachable t reached (eff_cond e) else Ok false in
    if b then Ok true else some_effect_reaches t reached a es
  end.
Definition possibly_reaches_landmark (t : task) (x : op_or_axiom) (reached : fact -> bool) (a : fact) : outcome bool :=
  let* b := condition_is_reachable t reached (a_pre x) in
  if b then some_effect_reaches t reached a (a_effs x) else Ok false.

(* landmark_factory_relaxation.cc:30-66 for one landmark *)
Definition calc_achievers_of (t : task) (st : list node * exploration) (n : node) : outcome (list node * exploration) :=
  let (done, ex) := st in
  let possible := fold_left add_id (operators_including_effect t (n_atom n)) [] in
  let* x := vget (t_vars t) (fst (n_atom n)) in
  let* re := compute_relaxed_reachability t ex [n_atom n] false in
  let* first := fold_outcome (fun acc i =>
      let* o := get_operator_or_axiom t i in
      let* b := possibly_reaches_landmark t o (fst re) (n_atom n) in
      Ok (if b then add_id acc i else acc)) possible [] in
  Ok (done ++ [{| n_atom := n_atom n; n_goal := n_goal n;
                  n_derived := match vlayer x with Some _ => true | None => n_derived n end;
                  n_first := first; n_possible := possible; n_parents := n_parents n; n_children := n_children n |}], snd re).
Definition calc_achievers (t : task) (g : list node) (ex : exploration) : outcome (list node * exploration) :=
  fold_outcome (calc_achievers_of t) g ([], ex).

(** ** lm_exhaust *)
(* landmark_factory_rpg_exhaust.cc:31-43 *)
Definition relaxed_task_solvable (t : task) (ex : exploration) (a : fact) (use_unary : bool) : outcome (bool * exploration) :=
  let* re := compute_relaxed_reachability t ex [a] use_unary in
  let* b := condition_is_reachable t (fst re) (t_goal t) in
  Ok (b, snd re).
(* landmark_factory_rpg_exhaust.cc:45-51 *)
Definition generate_goal_landmarks (t : task) : list node := map (fun a => new_node a true) (t_goal t).
(* landmark_factory_rpg_exhaust.cc:53-68 *)
Definition generate_all_atomic_landmarks (t : task) (use_unary : bool) (g : list node) (ex : exploration) : outcome (list node * exploration) :=
  fold_outcome (fun (st : list node * exploration) a =>
    let (g, ex) := st in
    if contains_atomic_landmark g a then Ok st else
    let* r := relaxed_task_solvable t ex a use_unary in
    Ok (if fst r then g else g ++ [new_node a false], snd r)) (all_facts t) (g, ex).

(** ** lm_zg *)
Definition layer := fact -> list fact.                     (* PropositionLayer: the label sets *)
Definition is_reached (l : list fact) : bool := match l with [] => false | _ => true end.
(* landmark_factory_zhu_givan.cc:293-310 *)
Definition triggers_of (x : op_or_axiom) : list fact := a_pre x ++ flat_map eff_cond (a_effs x).
(* landmark_factory_zhu_givan.cc:275-291: the list triggers[var][value] *)
Definition triggers (t : task) (f : fact) : list Z :=
  flat_map (fun x => map (fun _ => a_id x) (filter (fact_eqb f) (triggers_of x))) (operators t ++ axioms t).
Definition operators_without_preconditions (t : task) : list Z :=
  map a_id (filter (fun x => match a_pre x with [] => true | _ => false end) (operators t ++ axioms t)).
(* compute_triggers writes to triggers[var][value] *)
Definition triggers_in_range (t : task) : bool :=
  forallb (fun x => forallb (has_fact t) (triggers_of x)) (operators t ++ axioms t).
(* landmark_factory_zhu_givan.cc:113-132 *)
Definition initialize_relaxed_plan_graph (t : task) : outcome (layer * list Z) :=
  fold_outcome (fun (st : layer * list Z) f =>
    let* l := fget t (fst st) f in
    let* m := fput t (fst st) f (add_fact l f) in
    Ok (m, fold_left add_id (triggers t f) (snd st)))
    (combine (seq 0 (length (t_init t))) (t_init t)) ((fun _ => []) : layer, [] : list Z).
(* landmark_factory_zhu_givan.cc:185-206: operator_is_applicable, conditional_effect_fires *)
Fixpoint conditions_reached (t : task) (m : layer) (fs : list fact) : outcome bool :=
  match fs with
  | [] => Ok true
  | f :: fs => let* l := fget t m f in if is_reached l then conditions_reached t m fs else Ok false
  end.
(* landmark_factory_zhu_givan.cc:208-216, util.cc:55-58 *)
Definition union_of_condition_labels (t : task) (m : layer) (fs : list fact) : outcome (list fact) :=
  fold_outcome (fun acc f => let* l := fget t m f in Ok (fold_left add_fact l acc)) fs [].
(* landmark_factory_zhu_givan.cc:219-245, util.cc:43-53 *)
Definition propagate_labels (labels new_labels : list fact) (a : fact) : list fact * bool :=
  let labels' := add_fact (if is_reached labels then filter (fun f => mem_fact f new_labels) labels else new_labels) a in
  (labels', negb (length labels =? length labels')).
(* landmark_factory_zhu_givan.cc:247-273; also returns the changed layer *)
Definition apply_operator_and_propagate_labels (t : task) (x : op_or_axiom) (current next : layer) : outcome (layer * list fact) :=
  let* pre := union_of_condition_labels t current (a_pre x) in
  fold_outcome (fun (st : layer * list fact) e =>
    let a := eff_fact e in
    let* l := fget t (fst st) a in
    if length l =? 1 then Ok st else
    let* b := conditions_reached t current (eff_cond e) in
    if b then
      let* c := union_of_condition_labels t current (eff_cond e) in
      let (l', changed) := propagate_labels l (fold_left add_fact pre c) a in
      let* m := fput t (fst st) a l' in
      Ok (m, if changed then add_fact (snd st) a else snd st)
    else Ok st) (a_effs x) (next, []).

Section Orders.
(* iteration order of the sets of operators and of labels *)
Variables (iter_ops : list Z -> list Z) (iter_labels : list fact -> list fact).

(* landmark_factory_zhu_givan.cc:139-156: one round *)
Definition propagate_round (t : task) (triggered : list Z) (current : layer) : outcome (layer * list Z * bool) :=
  fold_outcome (fun (st : layer * list Z * bool) i =>
    let '(next, next_triggers, changes) := st in
    let* x := get_operator_or_axiom t i in
    let* b := conditions_reached t current (a_pre x) in
    if b then
      let* r := apply_operator_and_propagate_labels t x current next in
      match snd r with
      | [] => Ok (fst r, next_triggers, changes)
      | _ :: _ => Ok (fst r, fold_left (fun acc f => fold_left add_id (triggers t f) acc) (iter_labels (snd r)) next_triggers, true)
      end
    else Ok st) (iter_ops triggered) (current, [] : list Z, false).
(* landmark_factory_zhu_givan.cc:134-160 *)
Fixpoint propagate_labels_until_fixed_point_reached (t : task) (fuel : nat) (triggered : list Z) (current : layer) : outcome layer :=
  match fuel with
  | O => NoFuel
  | S fuel =>
    let* r := propagate_round t triggered current in
    let '(next, next_triggers, changes) := r in
    if changes then propagate_labels_until_fixed_point_reached t fuel next_triggers next else Ok next
  end.
(* landmark_factory_zhu_givan.cc:162-183, 30-32 *)
Definition build_relaxed_plan_graph_with_labels (t : task) : outcome layer :=
  let* _ := guard (triggers_in_range t) in
  let* st := initialize_relaxed_plan_graph t in
  propagate_labels_until_fixed_point_reached t
    (S (length (all_facts t) * S (length (all_facts t))))
    (fold_left add_id (operators_without_preconditions t) (snd st)) (fst st).

(* landmark_factory_zhu_givan.cc:42-56: the first goal that is not reached *)
Fixpoint unreached_goal (t : task) (m : layer) (gs : list fact) : outcome (option fact) :=
  match gs with
  | [] => Ok None
  | f :: gs => let* l := fget t m f in if is_reached l then unreached_goal t m gs else Ok (Some f)
  end.
(* landmark_factory_zhu_givan.cc:58-69: also returns the position of the node *)
Definition mark_goal (n : node) : node :=
  {| n_atom := n_atom n; n_goal := true; n_derived := n_derived n; n_first := n_first n; n_possible := n_possible n;
     n_parents := n_parents n; n_children := n_children n |}.
Definition create_goal_landmark (g : list node) (a : fact) : outcome (list node * nat) :=
  match position a g with
  | Some i => let* n := vget g i in let* g' := vset g i (mark_goal n) in Ok (g', i)
  | None => Ok (g ++ [new_node a true], length g)
  end.
Definition find_ordering (i : nat) (l : list (nat * ordering_type)) : option ordering_type :=
  match find (fun p => fst p =? i) l with Some p => Some (snd p) | None => None end.
Definition add_parent (n : node) (p : nat * ordering_type) : node :=
  {| n_atom := n_atom n; n_goal := n_goal n; n_derived := n_derived n; n_first := n_first n; n_possible := n_possible n;
     n_parents := n_parents n ++ [p]; n_children := n_children n |}.
Definition add_child (n : node) (p : nat * ordering_type) : node :=
  {| n_atom := n_atom n; n_goal := n_goal n; n_derived := n_derived n; n_first := n_first n; n_possible := n_possible n;
     n_parents := n_parents n; n_children := n_children n ++ [p] |}.
(* landmark_factory.cc:59-105 for type NATURAL: a weaker ordering would be a reasonable one, which
   lm_zg never adds, so an ordering that exists already is kept *)
Definition add_ordering_if_stronger (g : list node) (from to : nat) : outcome (list node) :=
  let* nf := vget g from in
  match find_ordering to (n_children nf) with
  | Some _ => Ok g
  | None =>
    let* g := vset g from (add_child nf (to, Natural)) in
    let* nt := vget g to in
    vset g to (add_parent nt (from, Natural))
  end.
(* landmark_factory_zhu_givan.cc:71-97 *)
Definition extract_from_goal_labels (t : task) (use_orders : bool) (m : layer) (goal : fact) (gi : nat) (g : list node) : outcome (list node) :=
  let* l := fget t m goal in
  fold_outcome (fun g a =>
    if fact_eqb a goal then Ok g else
    let (g, i) := match position a g with Some i => (g, i) | None => (g ++ [new_node a false], length g) end in
    if use_orders then
      let* n := vget g i in
      let* _ := guard (match find_ordering gi (n_parents n) with None => true | Some _ => false end) in
      let* gn := vget g gi in
      let* _ := guard (match find_ordering i (n_children gn) with None => true | Some _ => false end) in
      add_ordering_if_stronger g i gi
    else Ok g) (iter_labels l) g.
(* landmark_factory_zhu_givan.cc:99-111 *)
Definition extract_landmarks (t : task) (use_orders : bool) (m : layer) : outcome (list node) :=
  let* u := unreached_goal t m (t_goal t) in
  match u with
  | Some f => Ok [new_node f true]
  | None =>
    fold_outcome (fun g goal =>
      let* r := create_goal_landmark g goal in
      extract_from_goal_labels t use_orders m goal (snd r) (fst r)) (t_goal t) []
  end.

(** ** Factories *)
Inductive factory := Exhaust (use_unary : bool) | ZhuGivan (use_orders : bool).
(* generate_relaxed_landmarks: landmark_factory_rpg_exhaust.cc:70-79, landmark_factory_zhu_givan.cc:24-35 *)
Definition generate_relaxed_landmarks (t : task) (fa : factory) (ex : exploration) : outcome (list node * exploration) :=
  match fa with
  | Exhaust use_unary => generate_all_atomic_landmarks t use_unary (generate_goal_landmarks t) ex
  | ZhuGivan use_orders =>
    let* m := build_relaxed_plan_graph_with_labels t in
    let* g := extract_landmarks t use_orders m in Ok (g, ex)
  end.
(* landmark_factory_relaxation.cc:16-28, landmark_factory.cc:158-181 (for a new factory) *)
Definition compute_landmark_graph (t : task) (fa : factory) : outcome (list node) :=
  let* ex := new_exploration t in
  let* r := generate_relaxed_landmarks t fa ex in
  let* r := calc_achievers t (fst r) (snd r) in
  Ok (fst r).

(* landmark_factory_rpg_exhaust.cc:81-83, landmark_factory_zhu_givan.cc:312-314 *)
Definition supports_conditional_effects (fa : factory) : bool :=
  match fa with Exhaust _ => false | ZhuGivan _ => true end.
Definition has_conditional_effects (t : task) : bool :=
  existsb (fun op => existsb (fun e => match eff_cond e with [] => false | _ => true end) (op_effs op)) (t_ops t).
(* The graph as the cost-partitioning heuristic uses it: check_unsupported_features
   (landmark_cost_partitioning_heuristic.cc:33-48) exits with SEARCH_UNSUPPORTED; without axioms
   all achievers are operators. *)
Definition landmark_of (n : node) : landmark :=
  {| lm_disjunctive := false; lm_atoms := [n_atom n]; lm_goal := n_goal n;
     lm_first := map Z.to_nat (n_first n); lm_possible := map Z.to_nat (n_possible n);
     lm_parents := n_parents n; lm_children := n_children n |}.
Definition cost_partitioning_graph (t : task) (fa : factory) : outcome graph :=
  if match t_rules t with [] => false | _ => true end then Exit 34 else
  if negb (supports_conditional_effects fa) && has_conditional_effects t then Exit 34 else
  let* g := compute_landmark_graph t fa in
  Ok (map landmark_of g).
End Orders.
