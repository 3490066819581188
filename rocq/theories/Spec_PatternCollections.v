(** Specification for heuristics that combine several projections. *)
From Coq Require Import List Arith ZArith.
From Verif Require Import Spec_Task Spec_Relaxation Spec_Projection.
Import ListNotations.

(** A value that never exceeds the cost of a plan; infinite only if there is no plan. *)
Definition admissible_value (t : task) (s : state) (v : option nat) : Prop :=
  match v with Some c => forall os, task_plan_from t s os -> c <= plan_cost t os | None => forall os, ~ task_plan_from t s os end.

(** The number of abstract states of a projection. *)
Definition pattern_size (t : task) (pat : list nat) : Z :=
  fold_right (fun v n => (Z.of_nat (vdom (nth v (t_vars t) {| vdom := 0; vlayer := None; vdefault := 0 |})) * n)%Z) 1%Z pat.
Definition MAX_STATES : Z := 2147483647.

(** Operator [op] changes a variable of the pattern. *)
Definition affects (op : operator) (pat : list nat) : Prop := exists e, In e (op_effs op) /\ In (fst (eff_fact e)) pat.

(** The operator costs that count for a pattern: those of operators affecting no earlier pattern. *)
Definition first_costs (t : task) (earlier : list (list nat)) (cs : list nat) : Prop :=
  length cs = length (t_ops t) /\
  forall o op, nth_error (t_ops t) o = Some op ->
    ((exists p, In p earlier /\ affects op p) -> nth_error cs o = Some 0) /\
    (~ (exists p, In p earlier /\ affects op p) -> nth_error cs o = Some (op_cost op)).

(** No operator affects both patterns. *)
Definition additive_patterns (t : task) (p q : list nat) : Prop :=
  forall op, In op (t_ops t) -> affects op p -> affects op q -> False.
(** A set of patterns, given by their positions in the collection, that are pairwise additive. *)
Definition additive_collection (t : task) (pats : list (list nat)) (K : list nat) : Prop :=
  NoDup K /\ (forall i, In i K -> i < length pats) /\
  forall i j p q, In i K -> In j K -> i <> j -> nth_error pats i = Some p -> nth_error pats j = Some q -> additive_patterns t p q.

(** [v] is the sum of the values, infinite if one of them is. *)
Definition sum_of (hs : list (option nat)) (v : option nat) : Prop :=
  match v with Some n => exists ns, hs = map Some ns /\ n = list_sum ns | None => In None hs end.
