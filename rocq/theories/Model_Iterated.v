(** Model of search_algorithms/iterated_search.cc.

    A phase is an arbitrary search: [ph_run n i b] is what the [n]-th started search (a
    component of kind [i], bound [b]) finds; [None] means no solution.  [ph_bound i] is the
    bound configured for component [i] ([None]: infinity).  Evaluator retention
    (update_retention_set, lines 34-83) and statistics are left out. *)
From Verif Require Import Outcome Spec_Plan Model_SearchSpace Model_Eager.

Record phases := {
  ph_num : nat;                                             (* algorithm_configs.size() *)
  ph_bound : nat -> option nat;
  ph_run : nat -> nat -> option nat -> option (list nat)
}.

(* iterated_search.cc:15-31 *)
Record it_config := {
  ic_pass_bound : bool;
  ic_repeat_last : bool;
  ic_continue_on_fail : bool;
  ic_continue_on_solve : bool;
  ic_bound : option nat
}.

Record it_state := {
  it_phase : nat;
  it_last : bool;                    (* last_phase_found_solution *)
  it_best : option nat;              (* best_bound *)
  it_found : bool;                   (* iterated_found_solution *)
  it_plan : option (list nat);       (* the plan set by set_plan; found_solution() *)
  it_alive : list bool;              (* task_independent_searches[i] is not null *)
  it_saved : list (list nat);        (* plan_manager.save_plan calls, oldest first *)
  it_trace : list (nat * option nat * option (list nat))
     (* ghost: component, bound and result of the phases run so far, oldest first *)
}.

Definition lt_bound (a b : option nat) : bool :=
  match a, b with
  | Some x, Some y => x <? y
  | Some _, None => true
  | None, _ => false
  end.

Definition it_init (ph : phases) (cfg : it_config) : it_state :=
  {| it_phase := 0; it_last := false; it_best := ic_bound cfg; it_found := false; it_plan := None;
     it_alive := repeat true (ph_num ph); it_saved := []; it_trace := [] |}.

Section Iterated.
Variable T : TS.
Variable ph : phases.
Variable cfg : it_config.

(* lines 85-93: dereferences the component *)
Definition bind_search (st : it_state) (i : nat) : outcome (option nat) :=
  let* alive := vget (it_alive st) i in
  let* _ := guard alive in Ok (Some i).

(* lines 95-113 *)
Definition bind_current_search (st : it_state) : outcome (option nat) :=
  if ph_num ph <=? it_phase st then
    if ic_repeat_last cfg && it_last st then bind_search st (ph_num ph - 1) else Ok None
  else bind_search st (it_phase st).

(* lines 115-190 *)
Definition it_step (st : it_state) : outcome (search_result it_state) :=
  let* cur := bind_current_search st in
  match cur with
  | None =>
      match it_plan st with
      | Some plan => Ok (SOLVED plan st)
      | None => Ok (FAILED st)
      end
  | Some i =>
      let b := if ic_pass_bound cfg && lt_bound (it_best st) (ph_bound ph i) then it_best st else ph_bound ph i in
      let phase := S (it_phase st) in
      let res := ph_run ph (it_phase st) i b in
      let last := match res with Some _ => true | None => false end in
      let found := it_found st || last in
      let '(best, plan, saved) :=
        match res with
        | Some p =>
            let c := @calculate_plan_cost T p in
            if lt_bound (Some c) (it_best st) then (Some c, Some p, it_saved st ++ [p])
            else (it_best st, it_plan st, it_saved st)
        | None => (it_best st, it_plan st, it_saved st)
        end in
      let* alive :=
        if (phase <? ph_num ph) || negb (ic_repeat_last cfg) || negb last
        then vset (it_alive st) (Nat.min (phase - 1) (ph_num ph - 1)) false
        else Ok (it_alive st) in
      let st' := {| it_phase := phase; it_last := last; it_best := best; it_found := found;
                    it_plan := plan; it_alive := alive; it_saved := saved;
                    it_trace := it_trace st ++ [(i, b, res)] |} in
      (* step_return_value, lines 169-190 *)
      let solved := Ok (SOLVED match plan with Some p => p | None => [] end st') in
      if last then
        if ic_continue_on_solve cfg then Ok (IN_PROGRESS st') else solved
      else if ic_continue_on_fail cfg then Ok (IN_PROGRESS st')
      else if found then solved else Ok (FAILED st')
  end.

(* search_algorithm.cc:80-93 without the timer *)
Fixpoint it_loop (fuel : nat) (st : it_state) : outcome (search_result it_state) :=
  match fuel with
  | O => Ok (IN_PROGRESS st)
  | S f =>
      let* r := it_step st in
      match r with
      | IN_PROGRESS st' => it_loop f st'
      | other => Ok other
      end
  end.

Definition it_search (fuel : nat) : outcome (search_result it_state) := it_loop fuel (it_init ph cfg).
End Iterated.

Definition result_state {A} (r : search_result A) : A :=
  match r with IN_PROGRESS st | FAILED st | SOLVED _ st => st end.
