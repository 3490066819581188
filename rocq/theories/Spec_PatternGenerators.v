(** Specification: the patterns of the greedy and the random pattern generator. *)
From Coq Require Import List ZArith.
From Verif Require Import Spec_Task Spec_CausalGraph Model_MergeStrategy Spec_MergeStrategy.
Import ListNotations.

(** The number of abstract states: the product of the domain sizes. *)
Definition dom_size (t : task) (v : nat) : Z := match nth_error (t_vars t) v with Some x => Z.of_nat (vdom x) | None => 1%Z end.
Definition num_states (t : task) (vs : list nat) : Z := fold_right (fun v z => (dom_size t v * z)%Z) 1%Z vs.

(** [v] is the variable that comes next after [chosen] in the order "goal variables first, then
    variables with a precondition-effect arc to a chosen one, larger numbers first". *)
Definition next_variable (t : task) (chosen : list nat) (v : nat) : Prop :=
  v < length (t_vars t) /\ ~ In v chosen /\ (goal_var t v \/ feeds t chosen v) /\
  forall w, w < length (t_vars t) -> ~ In w chosen -> w <> v -> comes_first t GoalCgLevel (rev (seq 0 (length (t_vars t)))) chosen v w.
(** Chosen one after the other in this order. *)
Inductive chosen_in_order (t : task) : list nat -> Prop :=
| chosen_none : chosen_in_order t []
| chosen_more : forall vs v, chosen_in_order t vs -> next_variable t vs v -> chosen_in_order t (vs ++ [v]).

(** Neighbours in the causal graph: [u] is a predecessor of [v], or, if arcs are followed in both
    directions, also a successor. *)
Definition neighbour (t : task) (both : bool) (v u : nat) : Prop := causal_arc t u v \/ (both = true /\ causal_arc t v u).
(** A walk in the causal graph that starts at [g] and visits no variable twice; the list is in reverse
    order of the visits. *)
Inductive walk (t : task) (both : bool) (g : nat) : list nat -> Prop :=
| walk_start : walk t both g [g]
| walk_step : forall v vs u, walk t both g (v :: vs) -> neighbour t both v u -> ~ In u (v :: vs) -> walk t both g (u :: v :: vs).
