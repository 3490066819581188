(** Specification: patterns (sets of variables) and which of them are interesting
    (Pommerening, Roeger and Helmert, IJCAI 2013). *)
From Coq Require Import List Sorting Relations.
From Verif Require Import Spec_Task Spec_CausalGraph.
Import ListNotations.

(** A pattern is a non-empty set of variables, written in increasing order. *)
Definition pattern_of (t : task) (p : list nat) : Prop :=
  p <> [] /\ StronglySorted lt p /\ forall v, In v p -> v < length (t_vars t).

Definition is_goal_var (t : task) (g : nat) : Prop := exists d, In (g, d) (t_goal t).

(** The relation [R] between members of [p]. *)
Definition inside (p : list nat) (R : nat -> nat -> Prop) (u v : nat) : Prop := In u p /\ In v p /\ R u v.

(** Every variable of the pattern leads to a goal variable of the pattern, along
    precondition-effect arcs that stay in the pattern. *)
Definition goal_directed (t : task) (p : list nat) : Prop :=
  forall v, In v p -> exists g, In g p /\ is_goal_var t g /\ clos_refl_trans nat (inside p (pre_eff t)) v g.

(** The causal graph restricted to the pattern is weakly connected. *)
Definition weakly_connected (t : task) (p : list nat) : Prop :=
  forall u v, In u p -> In v p -> clos_refl_sym_trans nat (inside p (causal_arc t)) u v.

Definition interesting (t : task) (p : list nat) : Prop := goal_directed t p /\ weakly_connected t p.
