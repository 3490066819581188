(** Model of search_node_info.h and search_space.{h,cc}, over the abstract state registry.

    The registry and the per-state node information are kept in one list of
    (state, node info) pairs; the position in the list is the state ID.  That the concrete
    registry (packed pool + hash set) behaves like this list is the subject of the state
    registry properties (C14); that PerStateInformation behaves like a per-ID table with
    default entries is C57. *)
From Verif Require Import Outcome Spec_Plan.

(* search_node_info.h:11-16 *)
Inductive node_status := NEW | OPEN | CLOSED | DEAD_END.

(* search_node_info.h:18-30.  [ni_g = None] is g = -1; [ni_parent = None] is no_state /
   no_operator (the code sets both together).  g is unbounded here: the 30-bit field of
   the code is out of scope. *)
Record node_info := {
  ni_status : node_status;
  ni_g : option nat;
  ni_real_g : nat;
  ni_parent : option (nat * nat)        (* parent state id, creating operator *)
}.

(* search_node_info.h:24-30 *)
Definition new_info : node_info :=
  {| ni_status := NEW; ni_g := None; ni_real_g := 0; ni_parent := None |}.

Definition status_eqb (a b : node_status) : bool :=
  match a, b with
  | NEW, NEW | OPEN, OPEN | CLOSED, CLOSED | DEAD_END, DEAD_END => true
  | _, _ => false
  end.

(* search_space.cc:22-36 *)
Definition is_new (n : node_info) := status_eqb (ni_status n) NEW.
Definition is_open (n : node_info) := status_eqb (ni_status n) OPEN.
Definition is_closed (n : node_info) := status_eqb (ni_status n) CLOSED.
Definition is_dead_end_node (n : node_info) := status_eqb (ni_status n) DEAD_END.

(* search_space.cc:38-41 *)
Definition get_g (n : node_info) : outcome nat :=
  match ni_g n with Some g => Ok g | None => UB end.

(* search_space.cc:47-54 *)
Definition open_initial (n : node_info) : outcome node_info :=
  let* _ := guard (is_new n) in
  Ok {| ni_status := OPEN; ni_g := Some 0; ni_real_g := 0; ni_parent := None |}.

(* search_space.cc:56-63: the new fields, with status [st] *)
Definition update_parent (st : node_status) (pg preal pid op adj cost : nat) : node_info :=
  {| ni_status := st; ni_g := Some (pg + adj); ni_real_g := preal + cost;
     ni_parent := Some (pid, op) |}.

(* search_space.cc:65-93: the four public updates differ in the asserted old status and in
   the new status. *)
Definition open_new_node (n : node_info) (pg preal pid op adj cost : nat) : outcome node_info :=
  let* _ := guard (is_new n) in Ok (update_parent OPEN pg preal pid op adj cost).
Definition reopen_closed_node (n : node_info) (pg preal pid op adj cost : nat) : outcome node_info :=
  let* _ := guard (is_closed n) in Ok (update_parent OPEN pg preal pid op adj cost).
Definition update_open_node_parent (n : node_info) (pg preal pid op adj cost : nat) : outcome node_info :=
  let* _ := guard (is_open n) in Ok (update_parent OPEN pg preal pid op adj cost).
Definition update_closed_node_parent (n : node_info) (pg preal pid op adj cost : nat) : outcome node_info :=
  let* _ := guard (is_closed n) in Ok (update_parent CLOSED pg preal pid op adj cost).

Definition set_status (n : node_info) (st : node_status) : node_info :=
  {| ni_status := st; ni_g := ni_g n; ni_real_g := ni_real_g n; ni_parent := ni_parent n |}.

(* search_space.cc:95-98 *)
Definition close_node (n : node_info) : outcome node_info :=
  let* _ := guard (is_open n) in Ok (set_status n CLOSED).

(* search_space.cc:100-102 *)
Definition mark_as_dead_end (n : node_info) : node_info := set_status n DEAD_END.

(** Registry + node infos. *)
Definition space (T : TS) : Type := list (ts_state T * node_info).

Fixpoint find_state {T : TS} (sp : space T) (s : ts_state T) : option nat :=
  match sp with
  | [] => None
  | (s', _) :: rest => if ts_eqb T s s' then Some 0 else option_map S (find_state rest s)
  end.

(* state_registry.cc:22-38 seen from outside: find the state or append it. *)
Definition register {T : TS} (sp : space T) (s : ts_state T) : space T * nat :=
  match find_state sp s with
  | Some id => (sp, id)
  | None => (sp ++ [(s, new_info)], length sp)
  end.

(* state_registry.cc:40-43 + search_space.cc:123-125 *)
Definition get_node {T : TS} (sp : space T) (id : nat) : outcome (ts_state T * node_info) :=
  vget sp id.

Definition put_info {T : TS} (sp : space T) (id : nat) (n : node_info) : outcome (space T) :=
  let* (s, _) := vget sp id in vset sp id (s, n).

(* search_space.cc:127-142: the loop, collecting operators from the goal backwards; the
   accumulator is the reversed [path] vector, so no final reverse is needed. *)
Fixpoint trace_path_loop {T : TS} (fuel : nat) (sp : space T) (id : nat) (acc : list nat)
  : outcome (list nat) :=
  match fuel with
  | O => NoFuel
  | S f =>
      let* (_, n) := get_node sp id in
      match ni_parent n with
      | None => Ok acc
      | Some (pid, op) => trace_path_loop f sp pid (op :: acc)
      end
  end.
Definition trace_path {T : TS} (sp : space T) (id : nat) : outcome (list nat) :=
  trace_path_loop (S (length sp)) sp id [].

(* plan_manager.cc:14-21 *)
Definition calculate_plan_cost {T : TS} (plan : list nat) : nat :=
  fold_left (fun plan_cost op => plan_cost + ts_cost T op) plan 0.

(** The calls search algorithms make on the search space (eager_search.cc:100-101,
    226-309, lazy_search.cc:96-106, 166-185, enforced_hill_climbing_search.cc:199-221):
    open the initial state; generate the successor of a reached node and open it, or
    redirect its parent if that strictly lowers its g-value; close an open node; mark a
    node as a dead end.  A node without g-value is never a parent. *)
Inductive ss_op :=
| SSOpenInitial
| SSGenerate (parent op : nat) (reopen : bool)
| SSClose (id : nat)
| SSDeadEnd (id : nat).

Definition ss_step {T : TS} (ac : nat -> nat) (sp : space T) (x : ss_op) : outcome (space T) :=
  match x with
  | SSOpenInitial =>
      let (sp1, id) := register sp (ts_init T) in
      let* (_, n) := get_node sp1 id in
      if is_new n then let* n' := open_initial n in put_info sp1 id n' else Ok sp1
  | SSGenerate pid op reopen =>
      let* (ps, pn) := get_node sp pid in
      let* pg := get_g pn in
      let* _ := guard (existsb (Nat.eqb op) (ts_app T ps)) in
      let (sp1, id) := register sp (ts_succ T ps op) in
      let* (_, n) := get_node sp1 id in
      let put r := let* n' := r in put_info sp1 id n' in
      if is_dead_end_node n then Ok sp1
      else if is_new n then
        put (open_new_node n pg (ni_real_g pn) pid op (ac op) (ts_cost T op))
      else
        let* g := get_g n in
        if pg + ac op <? g then
          if is_open n then put (update_open_node_parent n pg (ni_real_g pn) pid op (ac op) (ts_cost T op))
          else if reopen then put (reopen_closed_node n pg (ni_real_g pn) pid op (ac op) (ts_cost T op))
          else put (update_closed_node_parent n pg (ni_real_g pn) pid op (ac op) (ts_cost T op))
        else Ok sp1
  | SSClose id =>
      let* (_, n) := get_node sp id in
      let* n' := close_node n in put_info sp id n'
  | SSDeadEnd id =>
      let* (_, n) := get_node sp id in put_info sp id (mark_as_dead_end n)
  end.

Definition ss_run {T : TS} (ac : nat -> nat) (ops : list ss_op) : outcome (space T) :=
  fold_outcome (ss_step ac) ops ([] : space T).
