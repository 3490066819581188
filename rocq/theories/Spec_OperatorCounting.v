(** Specification: operator-counting constraints.

    Each constraint generator describes a set of conditions on the numbers [x o] of uses of each
    operator [o].  The conditions of all generators together with [0 <= x o] are the linear
    program that the heuristic minimizes the total operator cost for.  The conditions are stated
    here on (rational) operator counts, without reference to how the program is built. *)
From Coq Require Import List Arith Bool QArith.
Import ListNotations.
From Verif Require Import Spec_Task Spec_Relaxation Spec_Projection Spec_LP.

(** The operator counts of an operator sequence. *)
Definition counts (os : list nat) (o : nat) : Q := inject_Z (Z.of_nat (count_occ Nat.eq_dec os o)).

Definition feqb (f g : fact) : bool := Nat.eqb (fst f) (fst g) && Nat.eqb (snd f) (snd g).
Definition ind (b : bool) : Q := if b then 1%Q else 0%Q.
Definition adds (op : operator) (f : fact) : bool := existsb (fun e => feqb (eff_fact e) f) (op_effs op).
Definition needs (op : operator) (f : fact) : bool := existsb (feqb f) (op_pre op).
(** [f] is a precondition and the operator changes its variable. *)
Definition consumes (op : operator) (f : fact) : bool :=
  needs op f && existsb (fun e => Nat.eqb (fst (eff_fact e)) (fst f)) (op_effs op).
Definition in_state (s : state) (f : fact) : bool := match nth_error s (fst f) with Some d => Nat.eqb d (snd f) | None => false end.
Definition goal_facts (t : task) (f : fact) : bool := existsb (feqb f) (t_goal t).
Definition affects (pat : list nat) (op : operator) : bool :=
  existsb (fun e => existsb (Nat.eqb (fst (eff_fact e))) pat) (op_effs op).

(** Sums over the operators of the task. *)
Definition opsum (t : task) (f : nat -> operator -> Q) : Q :=
  qsum (fun io => f (fst io) (snd io)) (combine (seq 0 (length (t_ops t))) (t_ops t)).
Definition is_op (t : task) (o : nat) (op : operator) : Prop := nth_error (t_ops t) o = Some op.
Definition is_fact (t : task) (f : fact) : Prop := fact_ok t f.

(** No operator has one of its preconditions as an effect. *)
Definition no_noop_effects (t : task) : Prop := forall op e, In op (t_ops t) -> In e (op_effs op) -> ~ In (eff_fact e) (op_pre op).

Local Open Scope Q_scope.

(** State equation: for every fact that operators add or consume, uses adding it minus uses
    consuming it are at least the required net change. *)
Definition state_equation (t : task) (s : state) (x : nat -> Q) : Prop :=
  forall f, is_fact t f ->
    (exists o op, is_op t o op /\ (adds op f = true \/ consumes op f = true)) ->
    ind (goal_facts t f) - ind (in_state s f) <=
    opsum t (fun o op => (ind (adds op f) - ind (consumes op f)) * x o).

(** Post-hoc optimization: the uses of operators that affect the pattern cost at least the
    optimal cost in the projection. *)
Definition posthoc (t : task) (pat : list nat) (s : state) (x : nat -> Q) : Prop :=
  forall v, perfect_value (project t pat (task_costs t)) (proj_state pat s) (Some v) ->
    inject_Z (Z.of_nat v) <= opsum t (fun o op => ind (affects pat op) * (inject_Z (Z.of_nat (op_cost op)) * x o)).

(** Landmarks. *)
Definition landmark_uses (L : list nat) (x : nat -> Q) : Prop := 1 <= qsum x L.

(** Values of an auxiliary variable. *)
Definition ranges (int : bool) (lo up q : Q) : Prop := lo <= q /\ q <= up /\ (int = true -> integral q).
Definition num_ops (t : task) : Q := inject_Z (Z.of_nat (length (t_ops t))).
Definition num_facts (t : task) : Q := inject_Z (Z.of_nat (list_sum (map vdom (t_vars t)))).

(** Delete relaxation after Imai and Fukunaga: there are operators [U] that are used, facts [R]
    that are reached and first achievers [F] such that
    goals are reached; a reached fact has a first achiever or is true in the state; first achievers
    are used; preconditions of used operators are reached; used operators occur.  With time
    variables, preconditions are reached before operators are used, and effects of first achievers
    after. *)
Definition relaxation_if (t : task) (time int : bool) (s : state) (x : nat -> Q) : Prop :=
  exists (U : nat -> Q) (R : fact -> Q) (F : nat -> fact -> Q) (TO : nat -> Q) (TF : fact -> Q),
    (forall o op, is_op t o op -> ranges int 0 1 (U o)) /\
    (forall f, is_fact t f -> ranges int 0 1 (R f)) /\
    (forall o op f, is_op t o op -> is_fact t f -> ranges int 0 1 (F o f)) /\
    (forall f, In f (t_goal t) -> 1 <= R f) /\
    (forall f, is_fact t f -> R f <= opsum t (fun o op => ind (adds op f) * F o f) + ind (in_state s f)) /\
    (forall o op f, is_op t o op -> adds op f = true -> F o f <= U o) /\
    (forall o op f, is_op t o op -> In f (op_pre op) -> U o <= R f) /\
    (forall o op, is_op t o op -> U o <= x o) /\
    (time = true ->
      (forall o op, is_op t o op -> ranges int 0 (num_ops t) (TO o)) /\
      (forall f, is_fact t f -> ranges int 0 (num_ops t) (TF f)) /\
      (forall o op f, is_op t o op -> In f (op_pre op) -> TF f <= TO o) /\
      (forall o op f, is_op t o op -> adds op f = true -> TO o + 1 <= TF f + (num_ops t + 1) * (1 - F o f))).

(** Delete relaxation after Rankooh and Rintanen, with one of three ways to exclude cyclic support. *)
Inductive acyclicity := VertexElimination | TimeLabels | NoAcyclicity.
Definition relaxation_rr (t : task) (int : bool) (s : state) (x : nat -> Q) (f : fact -> Q) (fa : fact -> nat -> Q) : Prop :=
  (forall p, is_fact t p -> ranges int 0 1 (f p)) /\
  (forall o op p, is_op t o op -> adds op p = true -> ranges int 0 1 (fa p o)) /\
  (forall p, is_fact t p -> f p == ind (in_state s p) + opsum t (fun o op => ind (adds op p) * fa p o)) /\
  (forall p q, is_fact t p -> is_fact t q -> p <> q ->
     opsum t (fun o op => ind (needs op q && adds op p) * fa p o) <= f q) /\
  (forall p, In p (t_goal t) -> 1 <= f p) /\
  (forall o op p, is_op t o op -> adds op p = true -> fa p o <= x o).
(** Supported facts get later time labels than the preconditions of their achievers. *)
Definition time_labels (t : task) (int : bool) (fa : fact -> nat -> Q) : Prop :=
  exists T : fact -> Q,
    (forall p, is_fact t p -> ranges int 1 (num_facts t) (T p)) /\
    (forall o op p q, is_op t o op -> In q (op_pre op) -> adds op p = true -> q <> p ->
       T q - T p + 1 <= num_facts t * (1 - fa p o)).
(** An order [E] on the edges of the vertex elimination graph. *)
Definition edge_order (t : task) (int : bool) (edges : list (fact * fact)) (delta : list (fact * fact * fact)) (fa : fact -> nat -> Q) : Prop :=
  exists E : fact -> fact -> Q,
    (forall q p, In (q, p) edges -> ranges int 0 1 (E q p)) /\
    (forall o op p q, is_op t o op -> In q (op_pre op) -> adds op p = true -> fa p o <= E q p) /\
    (forall q p, In (q, p) edges -> In (p, q) edges -> E q p + E p q <= 1) /\
    (forall i j k, In (i, j, k) delta -> E i j + E j k - 1 <= E i k).
(** A vertex elimination graph: facts are eliminated one after the other; the graph has an edge from
    each precondition of an operator to each of its effects, and eliminating a fact connects its
    remaining predecessors with its remaining successors; [delta] lists these connections. *)
Definition vertex_elimination (t : task) (edges : list (fact * fact)) (delta : list (fact * fact * fact)) : Prop :=
  exists order : list fact, NoDup order /\ (forall f, In f order <-> is_fact t f) /\
    NoDup edges /\ (forall q p, In (q, p) edges -> is_fact t q /\ is_fact t p /\ q <> p) /\
    (forall o op p q, is_op t o op -> In q (op_pre op) -> adds op p = true -> q <> p -> In (q, p) edges) /\
    (forall i j k, In (i, j, k) delta -> In (i, j) edges /\ In (j, k) edges /\ In (i, k) edges) /\
    forall before j after, order = before ++ j :: after -> forall i k, ~ In i before -> ~ In k before ->
      In (i, j) edges -> In (j, k) edges -> i <> k -> In (i, j, k) delta.
