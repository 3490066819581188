(** Specification: the projection of a task to a pattern (a list of variables), as a task. *)
From Coq Require Import List Arith Sorted.
From Verif Require Import Spec_Task Spec_Relaxation.
Import ListNotations.

(** The position of variable [v] in the pattern. *)
Fixpoint pos_in (pat : list nat) (v : nat) : option nat :=
  match pat with
  | [] => None
  | x :: r => if x =? v then Some 0 else option_map S (pos_in r v)
  end.

(** The facts about pattern variables, renamed. *)
Fixpoint proj_facts (pat : list nat) (fs : list fact) : list fact :=
  match fs with
  | [] => []
  | (v, d) :: r => match pos_in pat v with Some i => (i, d) :: proj_facts pat r | None => proj_facts pat r end
  end.

Definition proj_op (pat : list nat) (op : operator) (cost : nat) : operator := {|
  op_pre := proj_facts pat (op_pre op);
  op_effs := map (fun f => {| eff_cond := []; eff_fact := f |}) (proj_facts pat (map eff_fact (op_effs op)));
  op_cost := cost |}.

Definition proj_state (pat : list nat) (s : state) : state := map (fun v => nth v s 0) pat.

(** Only for tasks without rules and conditional effects; [costs] gives the operator costs. *)
Definition project (t : task) (pat : list nat) (costs : list nat) : task := {|
  t_vars := map (fun v => nth v (t_vars t) {| vdom := 0; vlayer := None; vdefault := 0 |}) pat;
  t_ops := map (fun oc => proj_op pat (fst oc) (snd oc)) (combine (t_ops t) costs);
  t_rules := [];
  t_init := proj_state pat (t_init t);
  t_goal := proj_facts pat (t_goal t) |}.

Definition task_costs (t : task) : list nat := map op_cost (t_ops t).

(** The cost of a cheapest plan from [s] ([None]: there is no plan). *)
Definition plan_costs_from (t : task) (s : state) (c : nat) : Prop :=
  exists os, task_plan_from t s os /\ plan_cost t os = c.
Definition perfect_value (t : task) (s : state) (v : option nat) : Prop :=
  match v with
  | Some c => least (plan_costs_from t s) c
  | None => forall os, ~ task_plan_from t s os
  end.

(** The tasks pattern databases support: no derived variables, no conditional effects; each
    operator mentions a variable at most once in its precondition and at most once in its effects,
    and lists the variables it both tests and changes in the same order (the input format lists
    such a precondition together with its effect). *)
Definition op_plain (op : operator) : Prop :=
  (forall e, In e (op_effs op) -> eff_cond e = []) /\
  NoDup (map fst (op_pre op)) /\ NoDup (map (fun e => fst (eff_fact e)) (op_effs op)) /\
  filter (fun v => existsb (fun e => fst (eff_fact e) =? v) (op_effs op)) (map fst (op_pre op)) =
  filter (fun v => existsb (fun f => fst f =? v) (op_pre op)) (map (fun e => fst (eff_fact e)) (op_effs op)).
Definition plain_task (t : task) : Prop :=
  task_ok t /\ t_rules t = [] /\ (forall x, In x (t_vars t) -> vlayer x = None) /\
  forall op, In op (t_ops t) -> op_plain op.

(** A pattern: increasing variable numbers. *)
Definition pattern_ok (t : task) (pat : list nat) : Prop :=
  StronglySorted lt pat /\ forall v, In v pat -> v < length (t_vars t).
