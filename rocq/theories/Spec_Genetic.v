(** Specification: what the genetic pattern collection generator looks for. *)
From Coq Require Import List Arith ZArith Sorting.Sorted.
From Verif Require Import Spec_Task Spec_CausalGraph Spec_MergeStrategy Spec_PatternGenerators.
Import ListNotations.

(** The variables of the pattern that influence the goal within the pattern. *)
Inductive relevant_in (t : task) (q : list nat) : nat -> Prop :=
| rel_goal : forall v, In v q -> goal_var t v -> relevant_in t q v
| rel_arc : forall v u, In v q -> relevant_in t q u -> pre_eff t v u -> relevant_in t q v.
(** [p] is [q] without the variables that do not. *)
Definition pruned (t : task) (q p : list nat) : Prop := StronglySorted lt p /\ forall v, In v p <-> relevant_in t q v.
(** A packing of the variables into patterns: no variable occurs twice, each pattern is within the
    limit, and each variable that fits, and has at least two values, occurs. *)
Definition packing (t : task) (limit : Z) (parts : list (list nat)) : Prop :=
  NoDup (concat parts) /\
  (forall q, In q parts -> StronglySorted lt q /\ (num_states t q <= limit)%Z /\ forall v, In v q -> v < length (t_vars t)) /\
  (forall v, v < length (t_vars t) -> (2 <= dom_size t v <= limit)%Z -> In v (concat parts)).
