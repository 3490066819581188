(** Specification of saturated cost partitioning over Cartesian abstractions: which subtasks and
    abstractions may be used. *)
From Coq Require Import String.
From Verif Require Import Outcome Spec_Task Spec_Relaxation Spec_Cartesian Spec_DomainAbstraction Model_DomainAbstraction Model_Cartesian Model_CostSaturation Prop_Cartesian.

(** The subtasks: the task with some facts as its goal, possibly with values merged. *)
Inductive subtask_of (t : task) : list fact -> subtask -> Prop :=
| sub_goal : forall gs, Forall (fact_ok t) gs -> NoDup (map fst gs) ->
    subtask_of t gs {| st_task := with_goal t gs; st_conv := Ok |}
| sub_merged : forall gs groups sm name t' vms names, Forall (fact_ok t) gs -> NoDup (map fst gs) -> grouping_ok t groups ->
    build_domain_abstracted_task sm (with_goal t gs) name groups = Ok (t', vms, names) ->
    subtask_of t gs {| st_task := t'; st_conv := convert_state vms |}.

(** An abstraction built for a subtask by any sequence of splits (and by marking states as goals).
    If the goal of the subtask is part of the goal of the task, nothing more is required; if not (a
    landmark), the abstract states of the goal states of the task must be abstract goals. *)
Definition usable (t : task) (gs : list fact) (st : subtask) (A : abstraction) : Prop :=
  (exists marked, refined (st_task st) marked A) /\
  (incl gs (t_goal t) \/
   forall s s' i, state_ok t s -> goal_state t s -> st_conv st s = Ok s' -> w_lookup (view_of A) s' = Some i -> w_goal (view_of A) i).
