(** The state space of a planning task as the search engines see it: well-formed states, the
    applicable operators from the successor generator (C12), the successor from the state
    registry (C15), optionally filtered by a pruning method (eager_search.cc:203-220).

    Tasks without derived variables.  The registry's states are represented by their value
    vectors; a vector that is not a state of the task cannot occur. *)
From Coq Require Import Eqdep_dec.
From Verif Require Import Outcome Spec_Task Spec_Plan Model_Task.

Fixpoint state_okb (vars : list variable) (s : state) : bool :=
  match vars, s with
  | [], [] => true
  | x :: vars, d :: s => (d <? vdom x) && state_okb vars s
  | _, _ => false
  end.
Fixpoint state_eqb (a b : state) : bool :=
  match a, b with
  | [], [] => true
  | x :: a, y :: b => (x =? y) && state_eqb a b
  | _, _ => false
  end.
Definition wstate (t : task) : Type := { s : state | state_okb (t_vars t) s = true }.
Definition wmake (t : task) (default : wstate t) (s : state) : wstate t :=
  match Bool.bool_dec (state_okb (t_vars t) s) true with left H => exist _ s H | right _ => default end.
(* state_registry.cc:97-118 without derived variables *)
Definition wsucc (t : task) (s : wstate t) (o : nat) : wstate t :=
  match nth_error (t_ops t) o with
  | Some op => wmake t s (apply_effects (proj1_sig s) (op_effs op))
  | None => s
  end.
Definition op_costs (t : task) (o : nat) : nat := match nth_error (t_ops t) o with Some op => op_cost op | None => 0 end.

Definition task_space (t : task) (init : wstate t) : TS := {|
  ts_state := wstate t; ts_eqb := fun a b => state_eqb (proj1_sig a) (proj1_sig b); ts_init := init;
  ts_goal := fun s => is_goalb t (proj1_sig s);
  ts_app := fun s => app_ops t (proj1_sig s);
  ts_succ := wsucc t; ts_cost := op_costs t |}.

(* eager_search.cc:203-220: goal states are not expanded, the operators of other states are pruned *)
Definition pruned_space (t : task) (prune : state -> list nat -> outcome (list nat)) (init : wstate t) : TS := {|
  ts_state := wstate t; ts_eqb := fun a b => state_eqb (proj1_sig a) (proj1_sig b); ts_init := init;
  ts_goal := fun s => is_goalb t (proj1_sig s);
  ts_app := fun s => if is_goalb t (proj1_sig s) then app_ops t (proj1_sig s)
                     else match prune (proj1_sig s) (app_ops t (proj1_sig s)) with Ok ops => ops | _ => [] end;
  ts_succ := wsucc t; ts_cost := op_costs t |}.
