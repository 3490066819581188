(** Model of counterexample-guided refinement of Cartesian abstractions
    (src/search/cartesian_abstractions/cegar.cc, abstract_search.cc, utils.cc and the selection of
    splits of split_selector.cc).

    Simplifications: [None] is INF; sums are assumed not to overflow.  may_keep_refining answers yes
    [budget] times and no afterwards: the limits on states, transitions, time and memory, once
    reached, stay reached.  The memory padding is assumed not to be lost inside find_flaw.  The
    rating of splits is left open: [choose k] selects any of the possible splits in round k.
    Failed assertions are [UB].  Logging is left out. *)
From Verif Require Import Outcome Spec_Task Model_Task Model_PQ Model_Graph Model_Cartesian.

(* ---- abstract_search.h:20-62 ---- *)
Record sinfo := { si_g : option nat; si_h : option nat; si_in : option (nat * nat) }.
Definition new_sinfo : sinfo := {| si_g := None; si_h := Some 0; si_in := None |}.
(* abstract_search.cc:16-22, abstract_search.h:29-32 *)
Definition reset_search (num_states : nat) (si : list sinfo) : list sinfo :=
  map (fun i => {| si_g := None; si_h := si_h i; si_in := None |}) (firstn num_states si ++ repeat new_sinfo (num_states - length si)).

Section SEARCH.
Variable P : pqueue.
Variable q0 : PQ P.                        (* the cleared queue *)
Variable costs : list (option nat).

(* abstract_search.cc:112-132 the body of the loop over transitions; that the new g value is smaller
   (abstract_search.h:35) is the test itself *)
Definition a_relax (g state_id : nat) (x : list sinfo * PQ P) (tr : nat * nat) : outcome (list sinfo * PQ P) :=
  let '(si, q) := x in
  let '(op, succ) := tr in
  let* c := vget costs op in
  let* i := vget si succ in
  match c with
  | None => Ok (si, q)
  | Some c =>
      let succ_g := g + c in
      if olt succ_g (si_g i) then
        match si_h i with
        | None => let* si := vset si succ {| si_g := Some succ_g; si_h := None; si_in := si_in i |} in Ok (si, q)
        | Some h => let* si := vset si succ {| si_g := Some succ_g; si_h := Some h; si_in := Some (op, state_id) |} in
                    Ok (si, pq_push P q (succ_g + h) succ)
        end
      else Ok (si, q)
  end.
(* abstract_search.cc:94-136 *)
Fixpoint astar_search (fuel : nat) (transitions : list (list (nat * nat))) (goals : list nat) (si : list sinfo) (q : PQ P) : outcome (option nat * list sinfo) :=
  match fuel with
  | O => NoFuel
  | S fuel =>
      match pq_pop P q with
      | None => Ok (None, si)
      | Some ((old_f, state_id), q) =>
          let* i := vget si state_id in
          match si_g i, si_h i with
          | Some g, Some h =>
              let* _ := guard (g + h <=? old_f) in
              if g + h <? old_f then astar_search fuel transitions goals si q
              else if mem state_id goals then Ok (Some state_id, si)
              else let* tr := vget transitions state_id in
                   let* (si, q) := fold_outcome (a_relax g state_id) tr (si, q) in
                   astar_search fuel transitions goals si q
          | _, _ => UB
          end
      end
  end.
(* abstract_search.cc:24-36, abstract_search.h:56-61 *)
Fixpoint extract_solution (fuel : nat) (si : list sinfo) (init_id current_id : nat) (solution : list (nat * nat)) : outcome (list (nat * nat)) :=
  match fuel with
  | O => NoFuel
  | S fuel =>
      if current_id =? init_id then Ok solution
      else let* i := vget si current_id in
           match si_in i with
           | None => UB
           | Some (op, prev) =>
               let* _ := guard (negb (prev =? current_id)) in
               extract_solution fuel si init_id prev ((op, current_id) :: solution)
           end
  end.
(* abstract_search.cc:62-65 *)
Fixpoint solution_cost (solution : list (nat * nat)) : outcome nat :=
  match solution with
  | [] => Ok 0
  | (op, _) :: r => let* c := vget costs op in
                    match c with None => UB | Some c => let* s := solution_cost r in Ok (c + s) end
  end.
(* abstract_search.cc:66-72; the maximum is never below the old value (abstract_search.h:44) *)
Definition update_goal_distances (solution : list (nat * nat)) (si : list sinfo) : outcome (list sinfo) :=
  let* sc := solution_cost solution in
  Ok (map (fun i => match si_g i with
                    | None => i
                    | Some g => {| si_g := si_g i; si_h := option_map (fun h => Nat.max h (sc - g)) (si_h i); si_in := si_in i |}
                    end) si).
(* an upper bound on the number of queue operations *)
Definition max_cost : nat := list_max (map (fun c => match c with None => 0 | Some c => c end) costs).
Definition astar_fuel (n : nat) : nat := S (S (n * S (n * max_cost))).
(* abstract_search.cc:75-92 *)
Definition find_solution (si : list sinfo) (transitions : list (list (nat * nat))) (init_id : nat) (goals : list nat) : outcome (option (list (nat * nat)) * list sinfo) :=
  let n := length transitions in
  let si := reset_search n si in
  let* i := vget si init_id in
  let* si := vset si init_id {| si_g := Some 0; si_h := si_h i; si_in := si_in i |} in
  match si_h i with
  | None => UB
  | Some h =>
      let* (goal, si) := astar_search (astar_fuel n) transitions goals si (pq_push P q0 h init_id) in
      match goal with
      | Some goal => let* solution := extract_solution (S n) si init_id goal [] in
                     let* si := update_goal_distances solution si in
                     Ok (Some solution, si)
      | None => let* i := vget si init_id in
                let* si := vset si init_id {| si_g := si_g i; si_h := None; si_in := si_in i |} in
                Ok (None, si)
      end
  end.
End SEARCH.
(* abstract_search.h:43-46 increase_h_value_to *)
Definition increase_h (i : sinfo) (h : option nat) : outcome sinfo :=
  let* _ := guard (match h, si_h i with None, _ => true | Some _, None => false | Some h, Some h' => h' <=? h end) in
  Ok {| si_g := si_g i; si_h := h; si_in := si_in i |}.
(* abstract_search.cc:138-153 get_h_value, set_h_value, copy_h_value_to_children *)
Definition copy_h_value_to_children (si : list sinfo) (v v1 v2 : nat) : outcome (list sinfo) :=
  let* i := vget si v in
  let h := si_h i in
  let si := si ++ [new_sinfo] in
  let* i1 := vget si v1 in
  let* i1 := increase_h i1 h in
  let* si := vset si v1 i1 in
  let* i2 := vget si v2 in
  let* i2 := increase_h i2 h in
  vset si v2 i2.

(* ---- utils.cc ---- *)
Definition fact_in (f : fact) (l : list fact) : bool := existsb (fact_eqb f) l.
Definition fact_insert (l : list fact) (f : fact) : list fact := if fact_in f l then l else l ++ [f].
(* utils.cc:13-20 *)
Definition operator_applicable (op : operator) (facts : list fact) : bool := forallb (fun f => fact_in f facts) (op_pre op).
(* utils.cc:22-29 *)
Definition operator_achieves_fact (op : operator) (f : fact) : bool := existsb (fun e => fact_eqb (eff_fact e) f) (op_effs op).
(* utils.cc:51-61 one pass over the operators *)
Definition pb_pass (t : task) (last_fact : fact) (facts : list fact) : list fact :=
  fold_left (fun facts op =>
    if operator_achieves_fact op last_fact then facts
    else if operator_applicable op facts then fold_left (fun facts e => fact_insert facts (eff_fact e)) (op_effs op) facts
    else facts) (t_ops t) facts.
(* utils.cc:31-64; the facts of the initial state, then passes until nothing is added *)
Fixpoint pb_loop (fuel : nat) (t : task) (last_fact : fact) (last_num_reached : nat) (facts : list fact) : outcome (list fact) :=
  if last_num_reached =? length facts then Ok facts
  else match fuel with
       | O => NoFuel
       | S fuel => pb_loop fuel t last_fact (length facts) (pb_pass t last_fact facts)
       end.
Definition compute_possibly_before_facts (t : task) (last_fact : fact) : outcome (list fact) :=
  let facts := fold_left fact_insert (combine (seq 0 (length (t_init t))) (t_init t)) [] in
  pb_loop (S (list_sum (map vdom (t_vars t)))) t last_fact 0 facts.
(* utils.cc:66-72 *)
Definition get_relaxed_possible_before (t : task) (f : fact) : outcome (list fact) :=
  let* facts := compute_possibly_before_facts t f in Ok (fact_insert facts f).

(* ---- cegar.cc ---- *)
(* cegar.cc:25-33 *)
Definition get_cartesian_set (doms : list nat) (fs : list fact) : outcome cset :=
  fold_outcome (fun c f => cs_set_single c (fst f) (snd f)) fs (full_cset doms).
(* cegar.cc:35-49: concrete state, id of the abstract state, desired set *)
Record flaw := { fl_state : state; fl_abs : nat; fl_desired : cset }.
Definition make_flaw (A : abstraction) (s : state) (a : nat) (d : cset) : outcome (option flaw) :=
  let* cur := vget (ab_states A) a in
  let* b := includes_state (a_set cur) s in
  let* _ := guard b in
  Ok (Some {| fl_state := s; fl_abs := a; fl_desired := d |}).

(* cegar.cc:65-71 *)
Fixpoint wanted_values (cur desired : cset) (var : nat) (values : list nat) : outcome (list nat) :=
  match values with
  | [] => Ok []
  | d :: r =>
      let* a := cs_test cur var d in
      let* b := if a then cs_test desired var d else Ok false in
      let* l := wanted_values cur desired var r in
      Ok (if b then d :: l else l)
  end.
(* cegar.cc:60-75 *)
Fixpoint splits_from (doms : list nat) (cur desired : cset) (fs : list fact) : outcome (list (nat * list nat)) :=
  match fs with
  | [] => Ok []
  | f :: r =>
      let* b := cs_test desired (fst f) (snd f) in
      let* rest := if b then Ok [] else
                     let* d := vget doms (fst f) in
                     let* w := wanted_values cur desired (fst f) (seq 0 d) in
                     let* _ := guard (negb (length w =? 0)) in
                     Ok [(fst f, w)] in
      let* l := splits_from doms cur desired r in
      Ok (rest ++ l)
  end.
(* cegar.cc:51-78 *)
Definition get_possible_splits (doms : list nat) (cur desired : cset) (s : state) : outcome (list (nat * list nat)) :=
  let* l := splits_from doms cur desired (combine (seq 0 (length s)) s) in
  let* _ := guard (negb (length l =? 0)) in
  Ok l.

(* cegar.cc:250-290; [None]: a concrete solution was found *)
Fixpoint find_flaw_from (t : task) (doms : list nat) (A : abstraction) (s : state) (a : nat) (solution : list (nat * nat)) : outcome (option flaw) :=
  match solution with
  | [] =>
      let* _ := guard (mem a (ab_goals A)) in
      if is_goalb t s then Ok None
      else let* d := get_cartesian_set doms (t_goal t) in
           make_flaw A s a d
  | (o, target) :: r =>
      let* op := vget (t_ops t) o in
      let* next := vget (ab_states A) target in
      if all_holdb s (op_pre op) then
        let s' := apply_effects s (op_effs op) in
        let* b := includes_state (a_set next) s' in
        if b then find_flaw_from t doms A s' target r
        else let* d := regress (a_set next) op in
             make_flaw A s a d
      else let* d := get_cartesian_set doms (op_pre op) in
           make_flaw A s a d
  end.
(* cegar.cc:239-248 *)
Definition find_flaw (t : task) (doms : list nat) (A : abstraction) (solution : list (nat * nat)) : outcome (option flaw) :=
  let* a := vget (ab_states A) (ab_init A) in
  let* b := includes_state (a_set a) (t_init t) in
  let* _ := guard b in
  find_flaw_from t doms A (t_init t) (ab_init A) solution.

(* cegar.cc:126-139; returns the budget left *)
Fixpoint separate_vars (reachable : list fact) (vars : list (nat * nat)) (budget : nat) (A : abstraction) : outcome (abstraction * nat) :=
  match vars with
  | [] => Ok (A, budget)
  | (var, dom) :: r =>
      match budget with
      | O => Ok (A, 0)
      | S budget =>
          let unreachable := filter (fun d => negb (fact_in (var, d) reachable)) (seq 0 dom) in
          match unreachable with
          | [] => separate_vars reachable r budget A
          | _ => let* A := refine A (ab_init A) var unreachable in separate_vars reachable r budget A
          end
      end
  end.
(* cegar.cc:119-141 *)
Definition separate_facts_unreachable_before_goal (t : task) (doms : list nat) (goal : fact) (budget : nat) (A : abstraction) : outcome (abstraction * nat) :=
  let* _ := guard (length (ab_goals A) =? 1) in
  let* _ := guard (length (ab_states A) =? 1) in
  let* reachable := get_relaxed_possible_before t goal in
  let* (A, budget) := separate_vars reachable (combine (seq 0 (length doms)) doms) budget A in
  Ok (mark_all_states_as_goals A, budget).

Inductive stop := Limit | Unsolvable | Solved (plan : list (nat * nat)).
Section CEGAR.
Variable P : pqueue.
Variable q0 : PQ P.
Variable choose : nat -> nat.

(* cegar.cc:186-231 the loop; [k] counts the rounds *)
Fixpoint refinement_rounds (t : task) (costs : list (option nat)) (doms : list nat) (budget k : nat) (A : abstraction) (si : list sinfo) : outcome (abstraction * stop) :=
  match budget with
  | O => Ok (A, Limit)
  | S budget =>
      let* (solution, si) := find_solution P q0 costs si (c_out (ab_ts A)) (ab_init A) (ab_goals A) in
      match solution with
      | None => Ok (A, Unsolvable)
      | Some solution =>
          let* fl := find_flaw t doms A solution in
          match fl with
          | None => Ok (A, Solved solution)
          | Some fl =>
              let v := fl_abs fl in
              let* cur := vget (ab_states A) v in
              let* splits := get_possible_splits doms (a_set cur) (fl_desired fl) (fl_state fl) in
              let* split := vget splits (choose k mod length splits) in
              let n := length (ab_states A) in
              let* A := refine A v (fst split) (snd split) in
              let* si := copy_h_value_to_children si v v n in
              refinement_rounds t costs doms budget (S k) A si
          end
      end
  end.
(* cegar.cc:81-109, :178-180 *)
Definition cegar (budget : nat) (t : task) (costs : list (option nat)) : outcome (abstraction * stop) :=
  let doms := map vdom (t_vars t) in
  let* A := initial_abstraction t in
  let* (A, budget) := match t_goal t with
                      | [g] => separate_facts_unreachable_before_goal t doms g budget A
                      | _ => Ok (A, budget)
                      end in
  refinement_rounds t costs doms budget 0 A [new_sinfo].
End CEGAR.
