(** Specification: the delete relaxation of a task, h^max and h^add.

    A relaxed operator is one effect of an operator (precondition: that of the operator
    together with the effect condition) or a rule (of cost 0). *)
From Coq Require Import List Arith.
Import ListNotations.
From Verif Require Import Spec_Task.

Inductive relaxed_op (t : task) : list fact -> fact -> nat -> Prop :=
| ro_effect : forall op e, In op (t_ops t) -> In e (op_effs op) ->
    relaxed_op t (op_pre op ++ eff_cond e) (eff_fact e) (op_cost op)
| ro_rule : forall r, In r (t_rules t) -> relaxed_op t (r_body r) (r_head r) 0.

(** [rcost comb t s f c]: there is a relaxed derivation of [f] from [s] of cost [c], where the
    costs of the preconditions (each counted once) are combined by [comb]. *)
Inductive rcost (comb : list nat -> nat) (t : task) (s : state) : fact -> nat -> Prop :=
| rc_state : forall f, holds s f -> rcost comb t s f 0
| rc_op : forall pre f c fs (k : fact -> nat), relaxed_op t pre f c ->
    NoDup fs -> (forall g, In g fs <-> In g pre) ->
    (forall g, In g fs -> rcost comb t s g (k g)) ->
    rcost comb t s f (c + comb (map k fs)).

Definition least (P : nat -> Prop) (c : nat) : Prop := P c /\ forall c', P c' -> c <= c'.

(** The value of a condition: all facts have a least derivation cost, combined by [comb];
    [None] (infinity) if one of them has no derivation. *)
Definition rvalue (comb : list nat -> nat) (t : task) (s : state) (fs : list fact) (v : option nat) : Prop :=
  match v with
  | Some x => exists cs, Forall2 (fun f c => least (rcost comb t s f) c) fs cs /\ x = comb cs
  | None => exists f, In f fs /\ forall c, ~ rcost comb t s f c
  end.

Definition hmax_value := rvalue list_max.
Definition hadd_value := rvalue list_sum.

(** Relaxed reachability with the operators of [O] only (and all rules). *)
Inductive rreach (t : task) (O : nat -> Prop) (s : state) : fact -> Prop :=
| rr_state : forall f, holds s f -> rreach t O s f
| rr_op : forall o op e, O o -> nth_error (t_ops t) o = Some op -> In e (op_effs op) ->
    (forall g, In g (op_pre op ++ eff_cond e) -> rreach t O s g) -> rreach t O s (eff_fact e)
| rr_rule : forall r, In r (t_rules t) -> (forall g, In g (r_body r) -> rreach t O s g) ->
    rreach t O s (r_head r).

(** What the relaxation heuristics need of a task; [task_ok] implies it, and so does it hold
    for tasks extended by rules that derive default values. *)
Definition relax_ok (t : task) : Prop :=
  (forall op, In op (t_ops t) -> Forall (fact_ok t) (op_pre op) /\
     forall e, In e (op_effs op) -> Forall (fact_ok t) (eff_cond e) /\ fact_ok t (eff_fact e)) /\
  (forall r, In r (t_rules t) -> Forall (fact_ok t) (r_body r) /\ fact_ok t (r_head r) /\
     exists x, is_var t (fst (r_head r)) x /\ vdom x = 2) /\
  Forall (fact_ok t) (t_goal t).

(** No derived variables. *)
Definition no_derived (t : task) : Prop := t_rules t = [] /\ forall v, layer_of t v = None.

(** Executing operators in the task itself. *)
Inductive task_path (t : task) : state -> list nat -> state -> Prop :=
| task_path_nil : forall s, task_path t s [] s
| task_path_cons : forall s o s' os s'', applicable t s o -> progress t s o s' ->
    task_path t s' os s'' -> task_path t s (o :: os) s''.
Definition task_plan_from (t : task) (s : state) (os : list nat) : Prop :=
  exists s', task_path t s os s' /\ goal_state t s'.
Definition plan_cost (t : task) (os : list nat) : nat :=
  list_sum (map (fun o => match nth_error (t_ops t) o with Some op => op_cost op | None => 0 end) os).

(** The same costs over unary operators (preconditions, effect, cost) on numbered facts. *)
Inductive ucost (comb : list nat -> nat) (ops : list (list nat * nat * nat)) (I : list nat) : nat -> nat -> Prop :=
| uc_init : forall p, In p I -> ucost comb ops I p 0
| uc_op : forall pre p c k, In (pre, p, c) ops -> (forall q, In q pre -> ucost comb ops I q (k q)) ->
    ucost comb ops I p (c + comb (map k pre)).
