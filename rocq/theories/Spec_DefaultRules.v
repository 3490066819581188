(** Specification notions for rules that derive default values. *)
From Coq Require Import List Arith.
From Verif Require Import Spec_Task.
Import ListNotations.

(** [v = d] is the default value of a derived variable. *)
Definition is_default (t : task) (f : fact) : Prop :=
  exists x k, is_var t (fst f) x /\ vlayer x = Some k /\ snd f = vdefault x.

(** [v] depends directly on the non-default value of the derived variable [w]. *)
Definition depends (t : task) (v w : nat) : Prop :=
  exists r f x k, In r (t_rules t) /\ fst (r_head r) = v /\ In f (r_body r) /\ fst f = w /\
    is_var t w x /\ vlayer x = Some k /\ snd f <> vdefault x.
Inductive depends_on (t : task) : nat -> nat -> Prop :=
| do_one : forall v w, depends t v w -> depends_on t v w
| do_step : forall u v w, depends t u v -> depends_on t v w -> depends_on t u w.
(** [v] depends on another variable which depends on [v]. *)
Definition cyclic (t : task) (v : nat) : Prop := exists w, w <> v /\ depends_on t v w /\ depends_on t w v.

(** Facts mentioned by the goal or by an operator's precondition or effect condition. *)
Definition used (t : task) (f : fact) : Prop :=
  In f (t_goal t) \/ exists op, In op (t_ops t) /\ (In f (op_pre op) \/ exists e, In e (op_effs op) /\ In f (eff_cond e)).

(** A state as evaluation leaves it. *)
Definition evaluated (t : task) (s : state) : Prop := state_ok t s /\ stratified_model t s s.
