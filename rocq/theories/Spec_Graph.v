(** Directed graphs given by successor lists; strongly connected components; cliques. *)
From Coq Require Import List Permutation.
Import ListNotations.

Definition edge (g : list (list nat)) (x y : nat) : Prop := exists l, nth_error g x = Some l /\ In y l.

Inductive reach (g : list (list nat)) : nat -> nat -> Prop :=
| reach_refl : forall x, reach g x x
| reach_step : forall x y z, edge g x y -> reach g y z -> reach g x z.

(** All successors are vertices. *)
Definition well_formed (g : list (list nat)) : Prop := forall x y, edge g x y -> y < length g.

(** [cs] lists the maximal strongly connected components, each vertex once, so that edges
    only lead to the same or to a later component. *)
Definition sccs_in_topological_order (g : list (list nat)) (cs : list (list nat)) : Prop :=
  Permutation (concat cs) (seq 0 (length g)) /\
  (forall C, In C cs -> C <> []) /\
  (forall C x y, In C cs -> In x C -> (In y C <-> reach g x y /\ reach g y x)) /\
  (forall i j C D x y, nth_error cs i = Some C -> nth_error cs j = Some D -> In x C -> In y D -> edge g x y -> i <= j).

(** Undirected graphs are given as symmetric directed ones without loops. *)
Definition undirected (g : list (list nat)) : Prop :=
  well_formed g /\ (forall x y, edge g x y -> edge g y x) /\ (forall x, ~ edge g x x).

Definition clique (g : list (list nat)) (K : list nat) : Prop :=
  NoDup K /\ (forall x, In x K -> x < length g) /\ (forall x y, In x K -> In y K -> x <> y -> edge g x y).

Definition maximal_clique (g : list (list nat)) (K : list nat) : Prop :=
  clique g K /\ forall v, v < length g -> (forall x, In x K -> edge g v x) -> False.

Definition same_set (A B : list nat) : Prop := forall x, In x A <-> In x B.
