(** Specification for shrink strategies. *)
From Coq Require Import List Arith.
From Verif Require Import Model_Graph Spec_FTS.
Import ListNotations.

(** f and h values of a state, given the distances from the initial state and to the goal; [None] is
    infinity. *)
Definition f_of (di dg : list (option nat)) (s : nat) : option nat :=
  match nth s di None, nth s dg None with Some g, Some h => Some (g + h) | _, _ => None end.
Definition h_of (dg : list (option nat)) (s : nat) : option nat := nth s dg None.
Definition less (a b : option nat) : Prop := match a, b with Some x, Some y => x < y | Some _, None => True | None, _ => False end.
Definition comes_first (high : bool) (a b : option nat) : Prop := if high then less b a else less a b.

(** Buckets hold the states [0 .. n-1], states in one bucket have the same f and h values, and buckets
    are ordered by f value and then by h value, high or low values first. *)
Definition ordered_by_fh (f_high h_high : bool) (n : nat) (di dg : list (option nat)) (buckets : list (list nat)) : Prop :=
  NoDup (concat buckets) /\ (forall s, In s (concat buckets) <-> s < n) /\ (forall b, In b buckets -> b <> []) /\
  (forall b s t, In b buckets -> In s b -> In t b -> f_of di dg s = f_of di dg t /\ h_of dg s = h_of dg t) /\
  (forall p q b b' s t, p < q -> nth_error buckets p = Some b -> nth_error buckets q = Some b' -> In s b -> In t b' ->
     comes_first f_high (f_of di dg s) (f_of di dg t) \/ f_of di dg s = f_of di dg t /\ comes_first h_high (h_of dg s) (h_of dg t)).

(** The classes group all the states [0 .. n-1]. *)
Definition all_grouped (n : nat) (cls : list (list nat)) : Prop :=
  NoDup (concat cls) /\ (forall c, In c cls -> c <> []) /\ forall s, In s (concat cls) <-> s < n.

(** Two states are in one class. *)
Definition together (cls : list (list nat)) (s t : nat) : Prop := exists c, In c cls /\ In s c /\ In t c.

(** States in the same class have the same goal status and goal distance, and a transition of one of
    them that lies on a cheapest path to the goal is matched by the others. *)
Definition greedy_bisimulation (lc : nat -> nat -> Prop) (T : lts) (d : list (option nat)) (cls : list (list nat)) : Prop :=
  (forall k s t, in_class cls k s -> in_class cls k t -> (l_goal T s <-> l_goal T t) /\ h_of d s = h_of d t) /\
  (forall k k' s t s' a c h, lc a c -> in_class cls k s -> in_class cls k t -> in_class cls k' s' -> l_step T a s s' ->
     h_of d s' = Some h -> h_of d s = Some (c + h) -> exists t', l_step T a t t' /\ in_class cls k' t').
