(** Specification: the h^m heuristic (Haslum and Geffner), for tasks without derived variables
    and conditional effects.  Lists of facts stand for sets. *)
From Coq Require Import List Arith Sorted.
Import ListNotations.
From Verif Require Import Spec_Task Spec_Relaxation Spec_Projection.

(** At most [m] different facts. *)
Definition at_most (m : nat) (S : list fact) : Prop := exists S', incl S S' /\ length S' <= m.
(** At most one value per variable. *)
Definition consistent (S : list fact) : Prop := forall f g, In f S -> In g S -> fst f = fst g -> f = g.
Definition op_facts (op : operator) : list fact := map eff_fact (op_effs op).

(** [R] is the regression of [S] over [op]: [op] achieves some fact of [S] and destroys none;
    before [op] its precondition and the remaining facts of [S] must hold. *)
Definition regress (op : operator) (S R : list fact) : Prop :=
  (exists f, In f S /\ In f (op_facts op)) /\
  (forall f g, In f S -> In g (op_facts op) -> fst f = fst g -> f = g) /\
  (forall f, In f R <-> In f (op_pre op) \/ (In f S /\ ~ In f (op_facts op))) /\
  consistent R.

(** [hm_le m t s S c]: the value of the set [S] for state [s] is at most [c].  The value is 0 if
    [S] holds in [s]; a set of at most [m] facts is reached at the cost of the last operator plus
    the value of the regressed set; the value of any set is the largest value of its subsets of
    at most [m] facts. *)
Inductive hm_le (m : nat) (t : task) (s : state) : list fact -> nat -> Prop :=
| hm_state : forall S c, all_hold s S -> hm_le m t s S c
| hm_op : forall S R op c c', at_most m S -> In op (t_ops t) -> regress op S R ->
    hm_le m t s R c' -> op_cost op + c' <= c -> hm_le m t s S c
| hm_split : forall S c, (forall S', incl S' S -> at_most m S' -> hm_le m t s S' c) -> hm_le m t s S c.

(** The value itself; [None] is infinity. *)
Definition hm_value (m : nat) (t : task) (s : state) (S : list fact) (v : option nat) : Prop :=
  match v with
  | Some c => least (hm_le m t s S) c
  | None => forall c, ~ hm_le m t s S c
  end.

(** The supported tasks: no derived variables, no conditional effects, each operator mentions a
    variable at most once in its precondition and at most once in its effects, and the goal lists
    its variables in increasing order. *)
Definition hm_task (t : task) : Prop :=
  task_ok t /\ no_derived t /\
  (forall op, In op (t_ops t) ->
     (forall e, In e (op_effs op) -> eff_cond e = []) /\
     NoDup (map fst (op_pre op)) /\ NoDup (map fst (op_facts op))) /\
  StronglySorted lt (map fst (t_goal t)).
