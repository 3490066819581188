(** Specification: landmarks, orderings between them, and what it means for them to be sound.

    A landmark is a condition on states.  A landmark graph is sound if every plan makes each of
    its landmarks true, in an order the orderings describe, through the listed achievers. *)
From Coq Require Import List Arith ZArith QArith.
From Verif Require Import Spec_Task Spec_Relaxation.
Import ListNotations.
Local Open Scope nat_scope.

Inductive ordering_type := Reasonable | Natural | GreedyNecessary | Necessary.

(** A landmark with its orderings.  [lm_parents] and [lm_children] name other landmarks of the
    graph by their position in it. *)
Record landmark := {
  lm_disjunctive : bool;                      (* one atom suffices; otherwise all are needed *)
  lm_atoms : list fact;
  lm_goal : bool;                             (* true in every goal state *)
  lm_first : list nat;                        (* operators that can make it true the first time *)
  lm_possible : list nat;                     (* operators that can make it true *)
  lm_parents : list (nat * ordering_type);
  lm_children : list (nat * ordering_type)
}.
Definition graph := list landmark.

Definition lm_true (l : landmark) (s : state) : Prop :=
  if lm_disjunctive l then exists f, In f (lm_atoms l) /\ holds s f
  else all_hold s (lm_atoms l).

(** [run t s os ss]: executing [os] from [s] visits exactly the states [ss], [s] first. *)
Inductive run (t : task) : state -> list nat -> list state -> Prop :=
| run_nil : forall s, run t s [] [s]
| run_cons : forall s o s' os ss, applicable t s o -> progress t s o s' ->
    run t s' os ss -> run t s (o :: os) (s :: ss).

(** An execution from [s] that ends in a goal state. *)
Definition plan_run (t : task) (s : state) (os : list nat) (ss : list state) : Prop :=
  run t s os ss /\ goal_state t (last ss s).

Definition true_at (l : landmark) (ss : list state) (i : nat) : Prop :=
  exists x, nth_error ss i = Some x /\ lm_true l x.
(** [l] is true at position [i] and at no earlier one. *)
Definition first_true (l : landmark) (ss : list state) (i : nat) : Prop :=
  true_at l ss i /\ forall j, j < i -> ~ true_at l ss j.
(** The [i]-th step (from position [i] to [i + 1]) makes [l] true. *)
Definition added_by (l : landmark) (ss : list state) (i : nat) : Prop :=
  ~ true_at l ss i /\ true_at l ss (S i).

(** Orderings: [a] is ordered before [b]. *)
Definition ordered (g : graph) (a b : landmark) (ty : ordering_type) : Prop :=
  exists i, nth_error g i = Some b /\ exists j, nth_error g j = Some a /\ In (j, ty) (lm_parents b).

(** What an ordering promises about an execution. *)
Definition respects (a b : landmark) (ty : ordering_type) (ss : list state) : Prop :=
  match ty with
  | Reasonable => forall i, first_true a ss (S i) -> exists j, i <= j /\ added_by b ss j
  | Natural => forall i, first_true b ss i -> exists j, j < i /\ true_at a ss j
  | GreedyNecessary | Necessary => forall i, first_true b ss i -> exists j, i = S j /\ true_at a ss j
  end.

(** Sound landmark graphs. *)
Record sound (t : task) (g : graph) : Prop := {
  sound_landmark : forall l os ss, In l g -> plan_run t (t_init t) os ss -> exists i, true_at l ss i;
  sound_ordering : forall a b ty os ss, ordered g a b ty -> plan_run t (t_init t) os ss -> respects a b ty ss;
  sound_goal : forall l s, In l g -> lm_goal l = true -> goal_state t s -> lm_true l s;
  sound_first : forall l os ss i o, In l g -> run t (t_init t) os ss -> first_true l ss (S i) ->
    nth_error os i = Some o -> In o (lm_first l);
  sound_possible : forall l os ss i o, In l g -> run t (t_init t) os ss -> added_by l ss i ->
    nth_error os i = Some o -> In o (lm_possible l)
}.

(** Well-formed graphs: atoms, operators and landmark numbers in range, no duplicates, and both
    ends of an ordering know about it. *)
Record graph_ok (t : task) (g : graph) : Prop := {
  graph_atoms : forall l, In l g -> Forall (fact_ok t) (lm_atoms l);
  graph_first : forall l, In l g -> NoDup (lm_first l) /\ forall o, In o (lm_first l) -> o < length (t_ops t);
  graph_possible : forall l, In l g -> NoDup (lm_possible l) /\ forall o, In o (lm_possible l) -> o < length (t_ops t);
  graph_ends : forall i a, nth_error g i = Some a -> forall j ty,
    (In (j, ty) (lm_children a) -> exists b, nth_error g j = Some b /\ In (i, ty) (lm_parents b)) /\
    (In (j, ty) (lm_parents a) -> exists b, nth_error g j = Some b /\ In (i, ty) (lm_children b))
}.

(** What the search tells the heuristic: the initial state, and transitions it has generated. *)
Inductive event := Initial | Transition (p : state) (o : nat) (s : state).
Definition history (t : task) (es : list event) : Prop :=
  forall p o s, In (Transition p o s) es -> state_ok t p /\ applicable t p o /\ progress t p o s.

(** [known t es s os ss]: after the notifications [es], [os] is a path from the initial state to
    [s], visiting [ss], whose steps were notified one after the other. *)
Inductive known (t : task) : list event -> state -> list nat -> list state -> Prop :=
| known_initial : forall es es', known t (es ++ Initial :: es') (t_init t) [] [t_init t]
| known_transition : forall es es' p o s os ss, known t es p os ss ->
    known t (es ++ Transition p o s :: es') s (os ++ [o]) (ss ++ [s]).

(** [l] was true somewhere along the path. *)
Definition reached (l : landmark) (ss : list state) : Prop := exists x, In x ss /\ lm_true l x.

(** Rounding to floating-point numbers with 53 significant bits: the relative error is at most
    2^-53; the extra [2^-53] leaves room for the absolute error near 0. *)
Definition rounding (u : Q) (rnd : Q -> Q) : Prop :=
  forall x, ((0 <= x -> 0 <= rnd x /\ rnd x <= x + u * (x + 1)) /\ (x <= 0 -> rnd x <= 0))%Q.
Definition unit_roundoff : Q := 1 # 9007199254740992.
