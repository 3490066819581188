(** Specification: wildcard plans.  Each step is a set of interchangeable operators. *)
From Coq Require Import List Arith.
From Verif Require Import Spec_Task.
Import ListNotations.

(** [wildcard_plan T a steps c]: whatever operators are picked from the steps, they form a plan of [T]
    from [a] with cost [c], through the same states. *)
Inductive wildcard_plan (T : task) : state -> list (list nat) -> nat -> Prop :=
| wildcard_goal : forall a, goal_state T a -> wildcard_plan T a [] 0
| wildcard_step : forall a b step steps w c, step <> [] ->
    (forall o, In o step -> applicable T a o /\ progress T a o b /\ exists op, nth_error (t_ops T) o = Some op /\ op_cost op = w) ->
    wildcard_plan T b steps c -> wildcard_plan T a (step :: steps) (w + c).

(** The steps moreover list all operators of the same cost for their transition. *)
Inductive complete_steps (T : task) : state -> list (list nat) -> Prop :=
| complete_nil : forall a, complete_steps T a []
| complete_cons : forall a b step steps w,
    (forall o, In o step <-> applicable T a o /\ progress T a o b /\ exists op, nth_error (t_ops T) o = Some op /\ op_cost op = w) ->
    complete_steps T b steps -> complete_steps T a (step :: steps).
