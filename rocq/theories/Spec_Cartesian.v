(** Specification of Cartesian abstractions: what the abstract states, transitions and goals of an
    abstraction of a task must be, in terms of the states of the task. *)
From Coq Require Import List Arith.
From Verif Require Import Spec_Task.
Import ListNotations.

(** The tasks the abstractions support: no derived variables, no conditional effects, and no
    variable mentioned twice in a precondition or in the goal. *)
Definition cartesian_task (t : task) : Prop :=
  task_ok t /\ t_rules t = [] /\ (forall x, In x (t_vars t) -> vlayer x = None) /\
  (forall op, In op (t_ops t) -> NoDup (map fst (op_pre op)) /\ forall e, In e (op_effs op) -> eff_cond e = []) /\
  NoDup (map fst (t_goal t)).

(** What can be seen of an abstraction. *)
Record view := {
  w_num : nat;                                  (* number of abstract states *)
  w_contains : nat -> fact -> Prop;             (* abstract state, variable and value *)
  w_trans : nat -> nat -> nat -> Prop;          (* source, operator, target *)
  w_loop : nat -> nat -> Prop;                  (* abstract state, operator *)
  w_init : nat;
  w_goal : nat -> Prop;
  w_lookup : state -> option nat                (* the abstract state found for a state *)
}.

(** The states of the task that abstract state [i] stands for. *)
Definition members (t : task) (w : view) (i : nat) (s : state) : Prop :=
  state_ok t s /\ forall f, holds s f -> w_contains w i f.

(** Operator [o] leads from some member of [u] to some member of [v]. *)
Definition induced (t : task) (w : view) (u o v : nat) : Prop :=
  exists s s', members t w u s /\ applicable t s o /\ progress t s o s' /\ members t w v s'.

(** Every state belongs to exactly one abstract state, which is found by lookup; no abstract state
    is empty. *)
Definition is_partition (t : task) (w : view) : Prop :=
  (forall s, state_ok t s -> exists i, i < w_num w /\ w_lookup w s = Some i /\ members t w i s /\
     forall j, j < w_num w -> members t w j s -> j = i) /\
  forall i, i < w_num w -> exists s, members t w i s.

(** Transitions and self-loops are exactly the ones induced by the task. *)
Definition transitions_induced (t : task) (w : view) : Prop :=
  (forall u o v, w_trans w u o v <-> u < w_num w /\ v < w_num w /\ u <> v /\ induced t w u o v) /\
  (forall u o, w_loop w u o <-> u < w_num w /\ induced t w u o u).

(** The abstract initial state is the one of the initial state. *)
Definition init_right (t : task) (w : view) : Prop := w_init w < w_num w /\ members t w (w_init w) (t_init t).

(** Every abstract state with a goal state is an abstract goal ... *)
Definition goals_covered (t : task) (w : view) : Prop :=
  forall i s, i < w_num w -> members t w i s -> goal_state t s -> w_goal w i.
(** ... and no other is. *)
Definition goals_exact (t : task) (w : view) : Prop :=
  forall i, w_goal w i -> i < w_num w /\ exists s, members t w i s /\ goal_state t s.

(** A split of abstract state [i] on variable [x]: the values [wanted] are split off; some but not
    all values of [x] in [i]. *)
Definition legal_split (t : task) (w : view) (i x : nat) (wanted : list nat) : Prop :=
  i < w_num w /\ wanted <> [] /\ NoDup wanted /\ (forall d, In d wanted -> w_contains w i (x, d)) /\
  exists d, w_contains w i (x, d) /\ ~ In d wanted.
(** What the split does to the sets of members: [i] keeps the members without a wanted value, and
    the new abstract state has the others. *)
Definition split_right (t : task) (w w' : view) (i x : nat) (wanted : list nat) : Prop :=
  w_num w' = S (w_num w) /\
  forall s, (members t w' i s <-> members t w i s /\ ~ exists d, holds s (x, d) /\ In d wanted) /\
    (members t w' (w_num w) s <-> members t w i s /\ exists d, holds s (x, d) /\ In d wanted) /\
    (forall j, j < w_num w -> j <> i -> (members t w' j s <-> members t w j s)).
