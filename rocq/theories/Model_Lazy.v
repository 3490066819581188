(** Model of search_algorithms/lazy_search.cc, over an arbitrary transition system and an
    arbitrary controller (edge open list, evaluators, preferred operators, random numbers). *)
From Verif Require Import Outcome Spec_Plan Model_SearchSpace Model_Eager.

(** Everything lazy search delegates.  An open-list entry is an edge: the ID of the parent
    state and the operator. *)
Record lazy_controller (T : TS) := {
  LC : Type;
  (* Evaluator::notify_initial_state / notify_state_transition *)
  lc_notify_initial : LC -> ts_state T -> LC;
  lc_notify : LC -> ts_state T -> nat -> ts_state T -> LC;
  (* open_list->is_dead_end(current_eval_context): state, g-value, preferred = true *)
  lc_dead : LC -> ts_state T -> nat -> bool * LC;
  (* search_progress.check_progress, followed by boost_preferred if there was progress and
     the flag is set *)
  lc_progress : LC -> ts_state T -> nat -> bool -> LC;
  (* collect_preferred_operators for all preferred-operator evaluators *)
  lc_preferred : LC -> ts_state T -> nat -> list nat * LC;
  (* rng->shuffle *)
  lc_shuffle : LC -> list nat -> list nat * LC;
  (* open_list->insert(EvaluationContext(state, g, preferred), edge): the state is the
     parent of the edge *)
  lc_insert : LC -> ts_state T -> nat -> bool -> nat * nat -> LC;
  (* if open_list->empty() then None else Some (open_list->remove_min()) *)
  lc_pop : LC -> option ((nat * nat) * LC)
}.
Arguments LC {T}.
Arguments lc_notify_initial {T}.
Arguments lc_notify {T}.
Arguments lc_dead {T}.
Arguments lc_progress {T}.
Arguments lc_preferred {T}.
Arguments lc_shuffle {T}.
Arguments lc_insert {T}.
Arguments lc_pop {T}.

(** The options of lazy_search.cc:20-32 that are not part of the controller; reopening,
    cost type and bound are in [lz_base]. *)
Record lazy_config := {
  lz_base : eager_config;
  lz_randomize : bool;
  lz_pref_first : bool
}.

Record lazy_state (T : TS) (ct : lazy_controller T) := {
  ls_space : space T;
  ls_c : LC ct;
  ls_id : nat;                      (* current_state *)
  ls_edge : option (nat * nat);     (* current_predecessor_id, current_operator_id *)
  ls_g : nat;                       (* current_g *)
  ls_real_g : nat                   (* current_real_g *)
}.
Arguments ls_space {T ct}.
Arguments ls_c {T ct}.
Arguments ls_id {T ct}.
Arguments ls_edge {T ct}.
Arguments ls_g {T ct}.
Arguments ls_real_g {T ct}.

(* ordered_set.h:47-53: insertion into an OrderedSet (cf. C11) *)
Definition oset_insert (l : list nat) (x : nat) : list nat :=
  if existsb (Nat.eqb x) l then l else l ++ [x].

Section Lazy.
Variable T : TS.
Variable ct : lazy_controller T.
Variable cfg : lazy_config.

(* lazy_search.cc:34-44 (constructor), 47-68 (initialize) *)
Definition lazy_initialize (c0 : LC ct) : lazy_state T ct :=
  let (sp, id) := register ([] : space T) (ts_init T) in
  {| ls_space := sp; ls_c := lc_notify_initial ct c0 (ts_init T); ls_id := id;
     ls_edge := None; ls_g := 0; ls_real_g := 0 |}.

(* lazy_search.cc:70-92 *)
Definition successor_operators (c : LC ct) (s : ts_state T) (prefs : list nat) : list nat * LC ct :=
  let (app, c1) := if lz_randomize cfg then lc_shuffle ct c (ts_app T s) else (ts_app T s, c) in
  if lz_pref_first cfg then
    (fold_left oset_insert app (fold_left oset_insert prefs []), c1)
  else (app, c1).

(* lazy_search.cc:111-124: the loop body for one operator *)
Definition insert_edge (id : nat) (s : ts_state T) (g real_g : nat) (prefs : list nat)
  (c : LC ct) (op : nat) : LC ct :=
  let new_g := g + adj T (lz_base cfg) op in
  let new_real_g := real_g + ts_cost T op in
  if reaches_bound (ec_bound (lz_base cfg)) new_real_g then c
  else lc_insert ct c s new_g (existsb (Nat.eqb op) prefs) (id, op).

(* lazy_search.cc:94-125 *)
Definition lazy_generate (c : LC ct) (id : nat) (s : ts_state T) (g real_g : nat) : LC ct :=
  let (prefs0, c1) := lc_preferred ct c s g in
  let (prefs, c2) := if lz_randomize cfg then lc_shuffle ct c1 prefs0 else (prefs0, c1) in
  let (ops, c3) := successor_operators c2 s prefs in
  fold_left (insert_edge id s g real_g prefs) ops c3.

(* lazy_search.cc:127-164 *)
Definition fetch_next_state (sp : space T) (c : LC ct) (st : lazy_state T ct)
  : outcome (search_result (lazy_state T ct)) :=
  match lc_pop ct c with
  | None => Ok (FAILED {| ls_space := sp; ls_c := c; ls_id := ls_id st; ls_edge := ls_edge st;
                          ls_g := ls_g st; ls_real_g := ls_real_g st |})
  | Some ((pid, op), c1) =>
      let* (ps, pn) := get_node sp pid in
      let* _ := guard (existsb (Nat.eqb op) (ts_app T ps)) in
      let (sp1, sid) := register sp (ts_succ T ps op) in
      let* pg := get_g pn in
      Ok (IN_PROGRESS {| ls_space := sp1; ls_c := c1; ls_id := sid; ls_edge := Some (pid, op);
                         ls_g := pg + adj T (lz_base cfg) op;
                         ls_real_g := ni_real_g pn + ts_cost T op |})
  end.

(* lazy_search.cc:166-239, with search_algorithm.cc:95-104 for the goal test *)
Definition lazy_step (st : lazy_state T ct) : outcome (search_result (lazy_state T ct)) :=
  let sp := ls_space st in
  let id := ls_id st in
  let* (s, n) := get_node sp id in
  let* reopen :=
    if ec_reopen (lz_base cfg) && negb (is_new n) && negb (is_dead_end_node n) then
      let* g := get_g n in Ok (ls_g st <? g)
    else Ok false in
  if is_new n || reopen then
    let* c1 := match ls_edge st with
               | None => Ok (ls_c st)
               | Some (pid, op) =>
                   let* (ps, _) := get_node sp pid in Ok (lc_notify ct (ls_c st) ps op s)
               end in
    let (dead, c2) := lc_dead ct c1 s (ls_g st) in
    if dead then
      let* sp' := put_info sp id (mark_as_dead_end n) in
      fetch_next_state sp' c2 st
    else
      let* (n1, c3) :=
        match ls_edge st with
        | None => let* n1 := open_initial n in Ok (n1, lc_progress ct c2 s (ls_g st) false)
        | Some (pid, op) =>
            let* (_, pn) := get_node sp pid in
            let* pg := get_g pn in
            let* n1 :=
              if reopen then
                reopen_closed_node n pg (ni_real_g pn) pid op (adj T (lz_base cfg) op) (ts_cost T op)
              else
                open_new_node n pg (ni_real_g pn) pid op (adj T (lz_base cfg) op) (ts_cost T op) in
            Ok (n1, c2)
        end in
      let* n2 := close_node n1 in
      let* sp' := put_info sp id n2 in
      if ts_goal T s then
        let* plan := trace_path sp' id in
        Ok (SOLVED plan {| ls_space := sp'; ls_c := c3; ls_id := id; ls_edge := ls_edge st;
                           ls_g := ls_g st; ls_real_g := ls_real_g st |})
      else
        let c4 := lc_progress ct c3 s (ls_g st) true in
        let c5 := lazy_generate c4 id s (ls_g st) (ls_real_g st) in
        fetch_next_state sp' c5 st
  else fetch_next_state sp (ls_c st) st.

(* search_algorithm.cc:80-93 without the timer *)
Fixpoint lazy_loop (fuel : nat) (st : lazy_state T ct) : outcome (search_result (lazy_state T ct)) :=
  match fuel with
  | O => Ok (IN_PROGRESS st)
  | S f =>
      let* r := lazy_step st in
      match r with
      | IN_PROGRESS st' => lazy_loop f st'
      | other => Ok other
      end
  end.

(** A run of at most [fuel] steps. *)
Definition lazy_search (fuel : nat) (c0 : LC ct) : outcome (search_result (lazy_state T ct)) :=
  lazy_loop fuel (lazy_initialize c0).
End Lazy.
