(** Model of search_algorithms/enforced_hill_climbing_search.cc. *)
From Verif Require Import Outcome Spec_Plan Model_SearchSpace Model_OpenList Model_Eager.

(* enforced_hill_climbing_search.h:21-24 *)
Inductive PreferredUsage := PRUNE_BY_PREFERRED | RANK_PREFERRED_FIRST.

(** The evaluator and the preferred-operator evaluators, with their mutable state. *)
Record ehc_controller (T : TS) := {
  EC : Type;
  e_notify_initial : EC -> ts_state T -> EC;
  e_notify : EC -> ts_state T -> nat -> ts_state T -> EC;
  (* the value of [evaluator] in a fresh evaluation context; None is infinity *)
  e_eval : EC -> ts_state T -> option nat * EC;
  (* evaluator->dead_ends_are_reliable() *)
  e_reliable : bool;
  (* collect_preferred_operators over all preferred-operator evaluators *)
  e_preferred : EC -> ts_state T -> list nat * EC
}.
Arguments EC {T}.
Arguments e_notify_initial {T}.
Arguments e_notify {T}.
Arguments e_eval {T}.
Arguments e_reliable {T}.
Arguments e_preferred {T}.

(** [eh_use_preferred] is computed by the constructor (lines 75-78): the heuristic itself is
    among the preferred-operator evaluators.  [ec_reopen] of [eh_base] is not used. *)
Record ehc_config := {
  eh_base : eager_config;
  eh_use_preferred : bool;
  eh_usage : PreferredUsage
}.

(** The evaluation context of an edge: evaluator 0 is the g-evaluator
    (evaluators/g_evaluator.cc:17-21), evaluator 1 the preference evaluator
    (evaluators/pref_evaluator.cc:17-25); neither is ever infinite. *)
Definition ehc_ctx (g : nat) (pref : bool) : ectx :=
  {| x_val := fun ev => match ev with 0 => Some g | _ => Some (if pref then 0 else 1) end;
     x_pref := pref |}.

(** Lines 20-50.  The tie-breaking factory takes (task, evals, unsafe_pruning, pref_only)
    (open_lists/tiebreaking_open_list.h:11-14) and is called with (task, evals, false, true). *)
Definition ehc_open (use_preferred : bool) (usage : PreferredUsage) : open_list (nat * nat) :=
  if negb use_preferred || match usage with PRUNE_BY_PREFERRED => true | _ => false end
  then best_first (nat * nat) (fun _ => false) 0 false
  else tie_breaking (nat * nat) (fun _ => false) [0; 1] false true.

Section EHC.
Variable T : TS.
Variable ct : ehc_controller T.
Variable cfg : ehc_config.

Let L : open_list (nat * nat) := ehc_open (eh_use_preferred cfg) (eh_usage cfg).

(** [eh_fresh]: the next action is the start of a [step] (lines 171-181); otherwise the next
    action is an iteration of the loop in [ehc] (lines 184-236). *)
Record ehc_state := {
  eh_space : space T;
  eh_c : EC ct;
  eh_open : OL L;
  eh_id : nat;        (* state of current_eval_context *)
  eh_h : nat;         (* its evaluator value, cached in the context *)
  eh_fresh : bool
}.

(* lines 87-117: constructor and initialize.  Exit codes: utils/system.h:40-41 *)
Definition ehc_initialize (c0 : EC ct) : outcome ehc_state :=
  let (sp, id) := register ([] : space T) (ts_init T) in
  let c1 := e_notify_initial ct c0 (ts_init T) in
  let (v, c2) := e_eval ct c1 (ts_init T) in
  match v with
  | None => Exit (if e_reliable ct then 11 else 12)%Z
  | Some h =>
      let* (_, n) := get_node sp id in
      let* n' := open_initial n in
      let* sp' := put_info sp id n' in
      Ok {| eh_space := sp'; eh_c := c2; eh_open := ol_init L; eh_id := id; eh_h := h; eh_fresh := true |}
  end.

(* lines 119-131 *)
Definition insert_successor (id g : nat) (q : OL L) (x : nat * bool) : outcome (OL L) :=
  let (op, preferred) := x in
  ol_insert L q (ehc_ctx (g + adj T (eh_base cfg) op) preferred) (id, op).

(* lines 133-169 *)
Definition ehc_expand (sp : space T) (c : EC ct) (q : OL L) (id : nat)
  : outcome (space T * EC ct * OL L) :=
  let* (s, n) := get_node sp id in
  let* g := get_g n in
  let (prefs, c1) := if eh_use_preferred cfg then e_preferred ct c s else ([], c) in
  let edges :=
    if eh_use_preferred cfg && match eh_usage cfg with PRUNE_BY_PREFERRED => true | _ => false end
    then map (fun op => (op, true)) prefs
    else map (fun op => (op, eh_use_preferred cfg && existsb (Nat.eqb op) prefs)) (ts_app T s) in
  let* q' := fold_outcome (insert_successor id g) edges q in
  let* n' := close_node n in
  let* sp' := put_info sp id n' in
  Ok (sp', c1, q').

(** One action.  (Counters and statistics are left out.) *)
Definition ehc_action (st : ehc_state) : outcome (search_result ehc_state) :=
  if eh_fresh st then
    (* lines 171-179 with search_algorithm.cc:95-104 *)
    let* (s, _) := get_node (eh_space st) (eh_id st) in
    if ts_goal T s then
      let* plan := trace_path (eh_space st) (eh_id st) in
      Ok (SOLVED plan st)
    else
      let* (sp, c, q) := ehc_expand (eh_space st) (eh_c st) (eh_open st) (eh_id st) in
      Ok (IN_PROGRESS {| eh_space := sp; eh_c := c; eh_open := q; eh_id := eh_id st; eh_h := eh_h st;
                         eh_fresh := false |})
  else if ol_empty L (eh_open st) then Ok (FAILED st)
  else
    (* lines 185-235 *)
    let* (e, q) := ol_remove_min L (eh_open st) in
    let (pid, op) := e in
    let* (ps, pn) := get_node (eh_space st) pid in
    let continue sp c q :=
      Ok (IN_PROGRESS {| eh_space := sp; eh_c := c; eh_open := q; eh_id := eh_id st; eh_h := eh_h st;
                         eh_fresh := false |}) in
    let* pg := get_g pn in
    if reaches_bound (ec_bound (eh_base cfg)) (ni_real_g pn + ts_cost T op)
    then continue (eh_space st) (eh_c st) q
    else
      let* _ := guard (existsb (Nat.eqb op) (ts_app T ps)) in
      let s := ts_succ T ps op in
      let (sp1, id) := register (eh_space st) s in
      let* (_, n) := get_node sp1 id in
      if is_new n then
        let c1 := e_notify ct (eh_c st) ps op s in
        let (v, c2) := e_eval ct c1 s in
        match v with
        | None =>
            let* sp2 := put_info sp1 id (mark_as_dead_end n) in
            continue sp2 c2 q
        | Some h =>
            let* n' := open_new_node n pg (ni_real_g pn) pid op (adj T (eh_base cfg) op) (ts_cost T op) in
            let* sp2 := put_info sp1 id n' in
            if h <? eh_h st then
              Ok (IN_PROGRESS {| eh_space := sp2; eh_c := c2; eh_open := ol_clear L q; eh_id := id; eh_h := h;
                                 eh_fresh := true |})
            else
              let* (sp3, c3, q') := ehc_expand sp2 c2 q id in
              continue sp3 c3 q'
        end
      else continue sp1 (eh_c st) q.

Fixpoint ehc_loop (fuel : nat) (st : ehc_state) : outcome (search_result ehc_state) :=
  match fuel with
  | O => Ok (IN_PROGRESS st)
  | S f =>
      let* r := ehc_action st in
      match r with
      | IN_PROGRESS st' => ehc_loop f st'
      | other => Ok other
      end
  end.

(** A run of at most [fuel] actions. *)
Definition ehc_search (fuel : nat) (c0 : EC ct) : outcome (search_result ehc_state) :=
  let* st := ehc_initialize c0 in ehc_loop fuel st.
End EHC.
Arguments eh_space {T ct cfg}.
Arguments eh_c {T ct cfg}.
Arguments eh_open {T ct cfg}.
Arguments eh_id {T ct cfg}.
Arguments eh_h {T ct cfg}.
Arguments eh_fresh {T ct cfg}.

(** Evaluators that are functions of the state. *)
Definition fun_controller (T : TS) (h : ts_state T -> option nat) (reliable : bool)
  (preferred : ts_state T -> list nat) : ehc_controller T :=
  {| EC := unit; e_notify_initial := fun c _ => c; e_notify := fun c _ _ _ => c;
     e_eval := fun c s => (h s, c); e_reliable := reliable;
     e_preferred := fun c s => (preferred s, c) |}.
