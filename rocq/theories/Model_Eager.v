(** Model of search_algorithms/eager_search.cc (and the parts of search_algorithm.cc it
    uses), over an arbitrary transition system and an arbitrary "controller": the open list
    together with evaluators, caches, statistics, preferred operators and pruning method. *)
From Verif Require Import Outcome Spec_Plan Model_SearchSpace.

(* operator_cost.h / operator_cost.cc:12-27 *)
Inductive OperatorCost := NORMAL | ONE | PLUSONE.
Definition adjusted_cost (ct : OperatorCost) (is_unit_cost : bool) (cost : nat) : nat :=
  match ct with
  | NORMAL => cost
  | ONE => 1
  | PLUSONE => if is_unit_cost then 1 else cost + 1
  end.

(** Everything eager search delegates.  [C] is the combined mutable state of open list,
    evaluators and pruning method.  Each function returns the new state. *)
Record controller (T : TS) := {
  C : Type;
  (* Evaluator::notify_initial_state for all path-dependent evaluators *)
  c_notify_initial : C -> ts_state T -> C;
  (* Evaluator::notify_state_transition for all path-dependent evaluators *)
  c_notify : C -> ts_state T -> nat -> ts_state T -> C;
  (* open_list->is_dead_end(EvaluationContext(state, g, preferred)) *)
  c_dead : C -> ts_state T -> nat -> bool -> bool * C;
  (* open_list->insert(EvaluationContext(state, g, preferred), id) *)
  c_insert : C -> ts_state T -> nat -> bool -> nat -> C;
  (* if open_list->empty() then None else Some (open_list->remove_min()) *)
  c_pop : C -> option (nat * C);
  (* search_progress.check_progress(..), followed by reward_progress() if there was
     progress and the flag is set (it is not for the initial state: eager_search.cc:97-98
     versus 268-271) *)
  c_progress : C -> ts_state T -> nat -> bool -> C;
  (* collect_preferred_operators_for_node *)
  c_preferred : C -> ts_state T -> nat -> list nat * C;
  (* pruning_method->prune_operators *)
  c_prune : C -> ts_state T -> list nat -> list nat * C;
  (* is there a lazy_evaluator? *)
  c_has_lazy : bool;
  (* lazy_evaluator->is_estimate_cached / get_cached_estimate / new value:
     None if the estimate is not cached, else Some (old_h = new_h) *)
  c_lazy_unchanged : C -> ts_state T -> nat -> option bool * C
}.
Arguments C {T}.
Arguments c_notify_initial {T}.
Arguments c_notify {T}.
Arguments c_dead {T}.
Arguments c_insert {T}.
Arguments c_pop {T}.
Arguments c_progress {T}.
Arguments c_preferred {T}.
Arguments c_prune {T}.
Arguments c_has_lazy {T}.
Arguments c_lazy_unchanged {T}.

(** Options of the algorithm: eager_search.cc:22-31.  [bound = None] is "infinity". *)
Record eager_config := {
  ec_reopen : bool;
  ec_cost_type : OperatorCost;
  ec_unit_cost : bool;
  ec_bound : option nat
}.

Definition adj (T : TS) (cfg : eager_config) (op : nat) : nat :=
  adjusted_cost (ec_cost_type cfg) (ec_unit_cost cfg) (ts_cost T op).

(* [x >= bound], e.g. eager_search.cc:228 *)
Definition reaches_bound (b : option nat) (x : nat) : bool :=
  match b with None => false | Some b => b <=? x end.

Record eager_state (T : TS) (ct : controller T) := {
  es_space : space T;
  es_c : C ct
}.
Arguments es_space {T ct}.
Arguments es_c {T ct}.

Inductive search_result (X : Type) :=
| IN_PROGRESS (x : X)
| FAILED (x : X)
| SOLVED (plan : list nat) (x : X).
Arguments IN_PROGRESS {X}.
Arguments FAILED {X}.
Arguments SOLVED {X}.

Section Eager.
Variable T : TS.
Variable ct : controller T.
Variable cfg : eager_config.

(* eager_search.cc:44-109.  (f-value statistics and logging are left out.) *)
Definition eager_initialize (c0 : C ct) : outcome (eager_state T ct) :=
  let (sp, id) := register ([] : space T) (ts_init T) in
  let c1 := c_notify_initial ct c0 (ts_init T) in
  let (dead, c2) := c_dead ct c1 (ts_init T) 0 true in
  if dead then Ok {| es_space := sp; es_c := c2 |}
  else
    let c3 := c_progress ct c2 (ts_init T) 0 false in
    let* (_, n) := get_node sp id in
    let* n' := open_initial n in
    let* sp' := put_info sp id n' in
    Ok {| es_space := sp'; es_c := c_insert ct c3 (ts_init T) 0 true id |}.

(* eager_search.cc:128-184.  One iteration of the loop either pops a node that is skipped
   ([inl]) or selects a node ([inr]); [None] when the open list is empty. *)
Definition pop_one (st : eager_state T ct)
  : outcome (option (eager_state T ct + nat * eager_state T ct)) :=
  match c_pop ct (es_c st) with
  | None => Ok None
  | Some (id, c1) =>
      let* (s, n) := get_node (es_space st) id in
      let skip c := Ok (Some (inl {| es_space := es_space st; es_c := c |})) in
      let select c :=
        let* n' := close_node n in
        let* sp' := put_info (es_space st) id n' in
        Ok (Some (inr (id, {| es_space := sp'; es_c := c |}))) in
      if is_closed n then skip c1
      else
        let* g := get_g n in
        if c_has_lazy ct then
          if is_dead_end_node n then skip c1
          else
            let (r, c2) := c_lazy_unchanged ct c1 s g in
            match r with
            | None => select c2
            | Some unchanged =>
                let (dead, c3) := c_dead ct c2 s g false in
                if dead then
                  let* sp' := put_info (es_space st) id (mark_as_dead_end n) in
                  Ok (Some (inl {| es_space := sp'; es_c := c3 |}))
                else if negb unchanged then skip (c_insert ct c3 s g false id)
                else select c3
            end
        else select c1
  end.

(* eager_search.cc:226-309: the loop body for one operator, expanding node [id]. *)
Definition gen_one (id : nat) (prefs : list nat) (st : eager_state T ct) (op : nat)
  : outcome (eager_state T ct) :=
  let* (s, n) := get_node (es_space st) id in
  if reaches_bound (ec_bound cfg) (ni_real_g n + ts_cost T op) then Ok st
  else
    let* _ := guard (existsb (Nat.eqb op) (ts_app T s)) in
    let s' := ts_succ T s op in
    let (sp1, sid) := register (es_space st) s' in
    let* (_, sn) := get_node sp1 sid in
    let c1 := c_notify ct (es_c st) s op s' in
    let keep c := Ok {| es_space := sp1; es_c := c |} in
    if is_dead_end_node sn then keep c1
    else
      let pref := existsb (Nat.eqb op) prefs in
      let* g := get_g n in
      let ac := adj T cfg op in
      if is_new sn then
        let (dead, c2) := c_dead ct c1 s' (g + ac) pref in
        if dead then
          let* sp2 := put_info sp1 sid (mark_as_dead_end sn) in
          Ok {| es_space := sp2; es_c := c2 |}
        else
          let* sn' := open_new_node sn g (ni_real_g n) id op ac (ts_cost T op) in
          let* sp2 := put_info sp1 sid sn' in
          let c3 := c_insert ct c2 s' (g + ac) pref sid in
          Ok {| es_space := sp2; es_c := c_progress ct c3 s' (g + ac) true |}
      else
        let* sg := get_g sn in
        if g + ac <? sg then
          if is_open sn then
            let* sn' := update_open_node_parent sn g (ni_real_g n) id op ac (ts_cost T op) in
            let* sp2 := put_info sp1 sid sn' in
            Ok {| es_space := sp2; es_c := c_insert ct c1 s' (g + ac) pref sid |}
          else if is_closed sn && ec_reopen cfg then
            let* sn' := reopen_closed_node sn g (ni_real_g n) id op ac (ts_cost T op) in
            let* sp2 := put_info sp1 sid sn' in
            Ok {| es_space := sp2; es_c := c_insert ct c1 s' (g + ac) pref sid |}
          else
            let* sn' := update_closed_node_parent sn g (ni_real_g n) id op ac (ts_cost T op) in
            let* sp2 := put_info sp1 sid sn' in
            Ok {| es_space := sp2; es_c := c1 |}
        else keep c1.

(* eager_search.cc:210-226 *)
Definition generate_successors (id : nat) (st : eager_state T ct) : outcome (eager_state T ct) :=
  let* (s, n) := get_node (es_space st) id in
  let (ops, c1) := c_prune ct (es_c st) s (ts_app T s) in
  let* g := get_g n in
  let (prefs, c2) := c_preferred ct c1 s g in
  fold_outcome (gen_one id prefs) ops {| es_space := es_space st; es_c := c2 |}.

(* eager_search.cc:199-208 with search_algorithm.cc:95-104 *)
Definition expand (id : nat) (st : eager_state T ct) : outcome (search_result (eager_state T ct)) :=
  let* (s, _) := get_node (es_space st) id in
  if ts_goal T s then
    let* plan := trace_path (es_space st) id in
    Ok (SOLVED plan st)
  else
    let* st' := generate_successors id st in
    Ok (IN_PROGRESS st').

(* eager_search.cc:117-126, 128-184: one pop of the open list followed, if a node was
   selected, by its expansion.  A [step] of the code is a maximal run of skipped pops
   followed by one selected pop; splitting it does not change the sequence of effects. *)
Definition eager_pop_step (st : eager_state T ct) : outcome (search_result (eager_state T ct)) :=
  let* r := pop_one st in
  match r with
  | None => Ok (FAILED st)
  | Some (inl st') => Ok (IN_PROGRESS st')
  | Some (inr (id, st')) => expand id st'
  end.

(* search_algorithm.cc:80-93 without the timer (a timeout is a prefix of a run). *)
Fixpoint eager_loop (fuel : nat) (st : eager_state T ct) : outcome (search_result (eager_state T ct)) :=
  match fuel with
  | O => Ok (IN_PROGRESS st)
  | S f =>
      let* r := eager_pop_step st in
      match r with
      | IN_PROGRESS st' => eager_loop f st'
      | other => Ok other
      end
  end.

(** A run of at most [fuel] pops.  [IN_PROGRESS] means interrupted (time limit). *)
Definition eager_search (fuel : nat) (c0 : C ct) : outcome (search_result (eager_state T ct)) :=
  let* st := eager_initialize c0 in eager_loop fuel st.
End Eager.
