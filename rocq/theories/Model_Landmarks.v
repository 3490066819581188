(** Model of landmark progression and of the landmark heuristics.

    src/search/landmarks/landmark.cc, landmark_status_manager.cc, landmark_heuristic.cc,
    landmark_cost_partitioning_algorithms.cc, landmark_cost_partitioning_heuristic.cc,
    landmark_sum_heuristic.cc.

    Simplifications: states are value vectors, so "same state" is list equality (the registry
    gives equal states equal ids: C14), and the per-state bitsets are functions from states to
    bit lists (C57).  Landmark nodes are numbered by their position in the graph, as set_landmark_ids
    does (landmark_graph.cc:170-176).  unordered sets and maps are lists in some order.  The task has no derived landmarks
    for the two heuristics (achievers are operators, not axioms). *)
From Coq Require Import QArith Qround.
From Verif Require Import Outcome Spec_Task Spec_Landmarks.
Local Open Scope nat_scope.

Definition state_eqb (s s' : state) : bool := if list_eq_dec Nat.eq_dec s s' then true else false.

(* landmark.cc:10-12 (is_atom_true_in_state) *)
Definition atom_true (s : state) (f : fact) : outcome bool :=
  let* x := vget s (fst f) in Ok (x =? snd f).
(* ranges::any_of / ranges::all_of with their short-circuit *)
Fixpoint any_of {A} (p : A -> outcome bool) (l : list A) : outcome bool :=
  match l with
  | [] => Ok false
  | x :: l => let* b := p x in if b then Ok true else any_of p l
  end.
Fixpoint all_of {A} (p : A -> outcome bool) (l : list A) : outcome bool :=
  match l with
  | [] => Ok true
  | x :: l => let* b := p x in if b then all_of p l else Ok false
  end.
(* landmark.cc:8-19 (Landmark::is_true_in_state) *)
Definition is_true (l : landmark) (s : state) : outcome bool :=
  if lm_disjunctive l then any_of (atom_true s) (lm_atoms l) else all_of (atom_true s) (lm_atoms l).

(* landmark_status_manager.cc:75-99: [past] starts with all bits set, [future] with none *)
Record status := { past : state -> list bool; future : state -> list bool }.
Definition no_information (g : graph) : status :=
  {| past := fun _ => repeat true (length g); future := fun _ => repeat false (length g) |}.
Definition set_at (f : state -> list bool) (s : state) (b : list bool) : state -> list bool :=
  fun s' => if state_eqb s' s then b else f s'.

Definition nodes (g : graph) : list (nat * landmark) := combine (seq 0 (length g)) g.

(* landmark_status_manager.cc:118-123 *)
Definition some_parent_false (g : graph) (s : state) (l : landmark) : outcome bool :=
  any_of (fun pr : nat * ordering_type => let* a := vget g (fst pr) in let* b := is_true a s in Ok (negb b))
    (lm_parents l).

(* landmark_status_manager.cc:105-131 *)
Definition initial_step (g : graph) (s : state) (pf : list bool * list bool) (nd : nat * landmark)
    : outcome (list bool * list bool) :=
  let id := fst nd in
  let* b := is_true (snd nd) s in
  if b then
    let* p := vget (fst pf) id in
    let* _ := guard p in
    let* c := some_parent_false g s (snd nd) in
    if c then let* f := vset (snd pf) id true in Ok (fst pf, f) else Ok pf
  else
    let* p := vset (fst pf) id false in
    let* f := vset (snd pf) id true in
    Ok (p, f).
(* landmark_status_manager.cc:101-133 (progress_initial_state) *)
Definition progress_initial_state (g : graph) (s : state) (st : status) : outcome status :=
  let* pf := fold_outcome (initial_step g s) (nodes g) (past st s, future st s) in
  Ok {| past := set_at (past st) s (fst pf); future := set_at (future st) s (snd pf) |}.

(* landmark_status_manager.cc:162-191 (progress_landmarks), one node *)
Definition landmark_step (pp pfu : list bool) (p s : state) (pf : list bool * list bool) (nd : nat * landmark)
    : outcome (list bool * list bool) :=
  let id := fst nd in
  let* f := vget pfu id in
  if f then
    let* b := is_true (snd nd) s in
    if negb b then
      let* fu := vset (snd pf) id true in
      let* q := vget pp id in
      if q then Ok (fst pf, fu) else let* pa := vset (fst pf) id false in Ok (pa, fu)
    else
      let* c := is_true (snd nd) p in
      if c then
        let* q := vget pp id in
        let* _ := guard q in
        let* fu := vset (snd pf) id true in Ok (fst pf, fu)
      else Ok pf
  else Ok pf.

(* landmark_status_manager.cc:11-21, 193-200 (get_goal_landmarks, progress_goals) *)
Definition goal_step (s : state) (fu : list bool) (nd : nat * landmark) : outcome (list bool) :=
  if lm_goal (snd nd) then
    let* b := is_true (snd nd) s in
    if negb b then vset fu (fst nd) true else Ok fu
  else Ok fu.

Definition is_gn (ty : ordering_type) : bool := match ty with GreedyNecessary => true | _ => false end.
Definition is_reasonable (ty : ordering_type) : bool := match ty with Reasonable => true | _ => false end.
(* child.second >= OrderingType::NATURAL *)
Definition at_least_natural (ty : ordering_type) : bool := match ty with Reasonable => false | _ => true end.

(* landmark_status_manager.cc:22-37, 202-215: tails with greedy-necessary children; nodes without
   such a child are not in the map, and for them the loop below does nothing *)
Definition gn_step (s : state) (pa : list bool) (fu : list bool) (nd : nat * landmark) : outcome (list bool) :=
  let* b := any_of (fun c : nat * ordering_type =>
                 let* q := vget pa (fst c) in
                 if negb q then let* x := is_true (snd nd) s in Ok (negb x) else Ok false)
              (filter (fun c : nat * ordering_type => is_gn (snd c)) (lm_children (snd nd))) in
  if b then vset fu (fst nd) true else Ok fu.
(* landmark_status_manager.cc:39-54, 217-228: heads with reasonable parents *)
Definition reasonable_step (pa : list bool) (fu : list bool) (nd : nat * landmark) : outcome (list bool) :=
  let* b := any_of (fun c : nat * ordering_type => let* q := vget pa (fst c) in Ok (negb q))
              (filter (fun c : nat * ordering_type => is_reasonable (snd c)) (lm_parents (snd nd))) in
  if b then vset fu (fst nd) true else Ok fu.

(* landmark_status_manager.cc:56-82: options progress_goals, progress_greedy_necessary_orderings,
   progress_reasonable_orderings; a disabled rule ranges over an empty collection *)
Record options := { prog_goal : bool; prog_gn : bool; prog_r : bool }.

(* landmark_status_manager.cc:135-160 (progress) *)
Definition progress_status (g : graph) (opt : options) (p s : state) (st : status) : outcome status :=
  if state_eqb s p then Ok st
  else
    let* pf := fold_outcome (landmark_step (past st p) (future st p) p s) (nodes g) (past st s, future st s) in
    let pa := fst pf in
    let* f1 := fold_outcome (goal_step s) (if prog_goal opt then nodes g else []) (snd pf) in
    let* f2 := fold_outcome (gn_step s pa) (if prog_gn opt then nodes g else []) f1 in
    let* f3 := fold_outcome (reasonable_step pa) (if prog_r opt then nodes g else []) f2 in
    Ok {| past := set_at (past st) s pa; future := set_at (future st) s f3 |}.

(* landmark_heuristic.cc:219-232 (notify_initial_state, notify_state_transition); the estimate cache
   is the subject of C31 *)
Definition notify (t : task) (g : graph) (opt : options) (st : status) (e : event) : outcome status :=
  match e with
  | Initial => progress_initial_state g (t_init t) st
  | Transition p _ s => progress_status g opt p s st
  end.
Definition notify_all (t : task) (g : graph) (opt : options) (es : list event) : outcome status :=
  fold_outcome (notify t g opt) es (no_information g).

(** Cycle detection.  landmark_heuristic.cc:27-48; the pair is (closed, visited). *)
Definition marks := (list bool * list bool)%type.
Fixpoint dfs (g : graph) (fuel : nat) (id : nat) (cv : marks) : outcome (bool * marks) :=
  match fuel with
  | 0 => NoFuel
  | S fuel =>
      let* c := vget (fst cv) id in
      if c then Ok (false, cv)
      else
        let* v := vget (snd cv) id in
        if v then Ok (true, cv)
        else
          let* vi := vset (snd cv) id true in
          let* l := vget g id in
          let* r :=
            (fix kids (cs : list (nat * ordering_type)) (cv : marks) : outcome (bool * marks) :=
               match cs with
               | [] => Ok (false, cv)
               | c :: cs =>
                   if at_least_natural (snd c) then
                     let* r := dfs g fuel (fst c) cv in
                     if fst r then Ok (true, snd r) else kids cs (snd r)
                   else kids cs cv
               end) (lm_children l) (fst cv, vi) in
          if fst r then Ok (true, snd r)
          else let* cl := vset (fst (snd r)) id true in Ok (false, (cl, snd (snd r)))
  end.
(* landmark_heuristic.cc:49-61 *)
Fixpoint dfs_from (g : graph) (ids : list nat) (cv : marks) : outcome bool :=
  match ids with
  | [] => Ok false
  | id :: ids =>
      let* r := dfs g (S (length g)) id cv in
      if fst r then Ok true else dfs_from g ids (snd r)
  end.
Definition has_natural_cycle (g : graph) : outcome bool :=
  dfs_from g (seq 0 (length g)) (repeat false (length g), repeat false (length g)).

(** Uniform cost partitioning. *)
(* landmark_cost_partitioning_algorithms.cc:22-26 *)
Definition achievers (l : landmark) (is_past : bool) : list nat := if is_past then lm_possible l else lm_first l.

(* The loops of first_pass, second_pass and landmark_sum all visit the future landmarks in graph
   order and look only at their achievers; the bitsets do not change meanwhile, so the model
   computes this list once. *)
Definition future_achievers (g : graph) (pa fu : list bool) : outcome (list (list nat)) :=
  fold_outcome (fun acc nd =>
      let* f := vget fu (fst nd) in
      if f then let* q := vget pa (fst nd) in Ok (acc ++ [achievers (snd nd) q]) else Ok acc)
    (nodes g) [].

Section rounded.
(* [rnd] rounds the exact result of a floating-point operation. *)
Variable rnd : Q -> Q.

Definition int_q (n : nat) : Q := inject_Z (Z.of_nat n).

(* landmark_cost_partitioning_algorithms.cc:59-63 *)
Definition bump (d : Z) (counts : list Z) (o : nat) : outcome (list Z) :=
  let* n := vget counts o in vset counts o (n + d)%Z.

Record pass1 := { counts : list Z; action : list bool; action_cost : Q }.
(* landmark_cost_partitioning_algorithms.cc:37-67 (first_pass); None is numeric_limits::max() *)
Fixpoint first_pass (alm : bool) (costs : list nat) (fl : list (list nat)) (p : pass1) : outcome (option pass1) :=
  match fl with
  | [] => Ok (Some p)
  | [] :: _ => Ok None
  | (o :: os) :: fl =>
      if alm && (length os =? 0) then
        let* m := vget (action p) o in
        if m then first_pass alm costs fl p
        else
          let* a := vset (action p) o true in
          let* c := vget costs o in
          first_pass alm costs fl
            {| counts := counts p; action := a; action_cost := rnd (action_cost p + int_q c) |}
      else
        let* cs := fold_outcome (bump 1) (o :: os) (counts p) in
        first_pass alm costs fl {| counts := cs; action := action p; action_cost := action_cost p |}
  end.

(* landmark_cost_partitioning_algorithms.cc:74-104 (second_pass) *)
Fixpoint second_pass (act : list bool) (fl : list (list nat)) (cs : list Z) (unc : list (list nat))
    : outcome (list Z * list (list nat)) :=
  match fl with
  | [] => Ok (cs, unc)
  | os :: fl =>
      let* cov := any_of (fun o => vget act o) os in
      if cov then let* cs := fold_outcome (bump (-1)) os cs in second_pass act fl cs unc
      else second_pass act fl cs (unc ++ [os])
  end.

(* landmark_cost_partitioning_algorithms.cc:120-129: the minimum over the achievers; None is
   numeric_limits::max() *)
Definition min_step (costs : list nat) (cs : list Z) (m : option Q) (o : nat) : outcome (option Q) :=
  let* n := vget cs o in
  let* _ := guard (1 <=? n)%Z in
  let* c := vget costs o in
  let x := rnd (int_q c / inject_Z n) in
  Ok (Some (match m with None => x | Some m => if Qle_bool m x then m else x end)).
(* landmark_cost_partitioning_algorithms.cc:107-132 (third_pass).  A landmark without achievers
   would add numeric_limits::max(); the model treats that as an error and the proofs exclude it. *)
Fixpoint third_pass (costs : list nat) (cs : list Z) (unc : list (list nat)) (cost : Q) : outcome Q :=
  match unc with
  | [] => Ok cost
  | os :: unc =>
      let* m := fold_outcome (min_step costs cs) os None in
      match m with
      | None => UB
      | Some m => third_pass costs cs unc (rnd (cost + m))
      end
  end.

(* landmark_cost_partitioning_algorithms.cc:134-163 (get_cost_partitioned_heuristic_value) *)
Definition uniform (alm : bool) (costs : list nat) (fl : list (list nat)) : outcome (option Q) :=
  let* p := first_pass alm costs fl
    {| counts := repeat 0%Z (length costs); action := repeat false (length costs); action_cost := 0 |} in
  match p with
  | None => Ok None
  | Some p =>
      let* r := second_pass (action p) fl (counts p) [] in
      let* q := third_pass costs (fst r) (snd r) 0 in
      Ok (Some (rnd (action_cost p + q)))
  end.

(* landmark_cost_partitioning_heuristic.cc:66-79; 0.01 as a double *)
Definition epsilon : Q := 5764607523034235 # 576460752303423488.
Definition cost_partitioning_value (alm : bool) (costs : list nat) (fl : list (list nat)) : outcome (option Z) :=
  let* h := uniform alm costs fl in
  Ok (match h with None => None | Some h => Some (Qceiling (rnd (h - epsilon))) end).

(* landmark_heuristic.cc:184-217 (compute_heuristic) with the uniform cost partitioning; None is
   DEAD_END.  Preferred operators are not modelled.  The cycle test is run once by initialize
   (landmark_heuristic.cc:89-90); it does not depend on the state. *)
Definition heuristic (t : task) (g : graph) (alm : bool) (st : status) (s : state) : outcome (option Z) :=
  let* c := has_natural_cycle g in
  if c then Ok None
  else
    let* fl := future_achievers g (past st s) (future st s) in
    cost_partitioning_value alm (map op_cost (t_ops t)) fl.
End rounded.

(** Sum of minimal achiever costs. *)
(* landmark_sum_heuristic.cc:50-58 (get_min_cost_of_achievers); None is INT_MAX *)
Definition min_cost (costs : list nat) (os : list nat) : outcome (option nat) :=
  fold_outcome (fun m o => let* c := vget costs o in
    Ok (Some (match m with None => c | Some m => Nat.min m c end))) os None.
(* landmark_sum_heuristic.cc:85-106 (get_heuristic_value); None is DEAD_END.  The sum is an int;
   the model has no overflow. *)
Fixpoint sum_value (costs : list nat) (fl : list (list nat)) (h : nat) : outcome (option nat) :=
  match fl with
  | [] => Ok (Some h)
  | os :: fl =>
      let* m := min_cost costs os in
      match m with None => Ok None | Some m => sum_value costs fl (h + m) end
  end.
Definition sum_heuristic (t : task) (g : graph) (st : status) (s : state) : outcome (option nat) :=
  let* c := has_natural_cycle g in
  if c then Ok None
  else
    let* fl := future_achievers g (past st s) (future st s) in
    sum_value (map op_cost (t_ops t)) fl 0.
