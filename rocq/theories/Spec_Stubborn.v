(** Specification: safe pruning of applicable operators. *)
From Coq Require Import List Arith.
Import ListNotations.
From Verif Require Import Outcome Spec_Task Spec_Relaxation Spec_HM Model_Task.

(** The supported tasks: no derived variables, no conditional effects, each operator mentions a
    variable at most once in its precondition and at most once in its effects. *)
Definition stub_task (t : task) : Prop :=
  task_ok t /\ no_derived t /\
  forall op, In op (t_ops t) ->
    (forall e, In e (op_effs op) -> eff_cond e = []) /\
    NoDup (map fst (op_pre op)) /\ NoDup (map fst (op_facts op)).

(** A plan that uses, in each state before the first goal state, only operators that remain after
    the list of all applicable operators has been pruned. *)
Inductive pruned_plan (t : task) (prune : state -> list nat -> outcome (list nat)) : state -> list nat -> Prop :=
| pp_goal : forall s, goal_state t s -> pruned_plan t prune s []
| pp_step : forall s o s' os ops, ~ goal_state t s -> prune s (app_ops t s) = Ok ops -> In o ops ->
    applicable t s o -> progress t s o s' -> pruned_plan t prune s' os -> pruned_plan t prune s (o :: os).
