(** Specification of building a Cartesian abstraction: plans under a vector of operator costs. *)
From Coq Require Import List Arith.
From Verif Require Import Spec_Task Spec_Relaxation.
Import ListNotations.

(** The cost of a sequence of operators; [None] in [costs] is an infinite cost. *)
Inductive cost_of (costs : list (option nat)) : list nat -> nat -> Prop :=
| cost_nil : cost_of costs [] 0
| cost_cons : forall o c os w, nth_error costs o = Some (Some c) -> cost_of costs os w -> cost_of costs (o :: os) (c + w).

Definition plan_of_cost (t : task) (costs : list (option nat)) (os : list nat) (c : nat) : Prop :=
  task_plan_from t (t_init t) os /\ cost_of costs os c.
(** A plan of least cost. *)
Definition optimal_plan (t : task) (costs : list (option nat)) (os : list nat) : Prop :=
  exists c, plan_of_cost t costs os c /\ forall os' c', plan_of_cost t costs os' c' -> c <= c'.
(** There is no plan of finite cost. *)
Definition no_plan (t : task) (costs : list (option nat)) : Prop := forall os c, ~ plan_of_cost t costs os c.

(** No operator has two effects on one variable. *)
Definition single_effects (t : task) : Prop :=
  forall op, In op (t_ops t) -> NoDup (map (fun e => fst (eff_fact e)) (op_effs op)).

(** The number of states of the task. *)
Definition num_states (t : task) : nat := fold_right Nat.mul 1 (map vdom (t_vars t)).

(** [l] is a landmark of the delete relaxation: without the operators that achieve it, the goal is
    not even reachable when nothing is ever deleted. *)
Definition relaxed_landmark (t : task) (l : fact) : Prop :=
  exists g, In g (t_goal t) /\
    ~ rreach t (fun o => ~ exists op e, nth_error (t_ops t) o = Some op /\ In e (op_effs op) /\ eff_fact e = l) (t_init t) g.

(** The merged values are all reachable in the delete relaxation without achieving [l]; landmarks
    that are ordered before [l] are. *)
Definition groups_before (t : task) (l : fact) (groups : list (nat * list (list nat))) : Prop :=
  forall v gr g d, In (v, gr) groups -> In g gr -> In d g ->
    rreach t (fun o => ~ exists op e, nth_error (t_ops t) o = Some op /\ In e (op_effs op) /\ eff_fact e = l) (t_init t) (v, d).
