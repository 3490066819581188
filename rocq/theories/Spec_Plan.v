(** Specification: transition systems, plans, plan costs, optimality.

    Independent of the search code.  A transition system gives the states, the initial
    state, the goal test, the operators applicable in a state, the successor function and
    the operator costs (operators are named by their index). *)
From Coq Require Import List Arith.
Import ListNotations.

Record TS := {
  ts_state : Type;
  ts_eqb : ts_state -> ts_state -> bool;
  ts_init : ts_state;
  ts_goal : ts_state -> bool;
  ts_app : ts_state -> list nat;
  ts_succ : ts_state -> nat -> ts_state;
  ts_cost : nat -> nat
}.

(** State equality is decided by [ts_eqb]. *)
Definition ts_wf (T : TS) : Prop := forall a b, ts_eqb T a b = true <-> a = b.

(** Executing a list of operators, each applicable when its turn comes. *)
Inductive path (T : TS) : ts_state T -> list nat -> ts_state T -> Prop :=
| path_nil : forall s, path T s [] s
| path_cons : forall s o os s',
    In o (ts_app T s) -> path T (ts_succ T s o) os s' -> path T s (o :: os) s'.

Definition sum_cost (c : nat -> nat) (os : list nat) : nat :=
  fold_right (fun o acc => c o + acc) 0 os.

Definition is_plan_from (T : TS) (s : ts_state T) (os : list nat) : Prop :=
  exists s', path T s os s' /\ ts_goal T s' = true.

Definition is_plan (T : TS) (os : list nat) : Prop := is_plan_from T (ts_init T) os.

Definition solvable_from (T : TS) (s : ts_state T) : Prop := exists os, is_plan_from T s os.

(** [h] never exceeds the [c]-cost of a plan from [s]; [None] (infinity) only if there is
    no plan. *)
Definition admissible_at (T : TS) (c : nat -> nat) (s : ts_state T) (h : option nat) : Prop :=
  forall os, is_plan_from T s os ->
    exists x, h = Some x /\ x <= sum_cost c os.

Definition optimal_plan (T : TS) (c : nat -> nat) (os : list nat) : Prop :=
  is_plan T os /\ forall os', is_plan T os' -> sum_cost c os <= sum_cost c os'.

(** Finitely many states are reachable. *)
Definition finite_space (T : TS) : Prop :=
  exists univ : list (ts_state T), In (ts_init T) univ /\
    forall s o, In s univ -> In o (ts_app T s) -> In (ts_succ T s o) univ.
