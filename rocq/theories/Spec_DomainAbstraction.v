(** Specification of domain abstraction: values of a variable are merged in groups. *)
From Coq Require Import String.
From Coq Require Import List Arith Bool.
From Verif Require Import Spec_Task.
Import ListNotations.
Local Open Scope nat_scope.

(** For each variable, disjoint non-empty groups of values. *)
Definition groups_ok (dom : nat) (groups : list (list nat)) : Prop :=
  NoDup (concat groups) /\ (forall x, In x (concat groups) -> x < dom) /\ (forall g, In g groups -> g <> []).
Definition grouping_ok (t : task) (gs : list (nat * list (list nat))) : Prop :=
  NoDup (map fst gs) /\ forall v groups, In (v, groups) gs -> exists x, is_var t v x /\ groups_ok (vdom x) groups.

(** The groups of variable [v]. *)
Definition groups_of (gs : list (nat * list (list nat))) (v : nat) : list (list nat) :=
  match find (fun p => fst p =? v) gs with Some p => snd p | None => [] end.
(** Values [x] and [y] of a variable are to be merged. *)
Definition merged (groups : list (list nat)) (x y : nat) : Prop := x = y \/ exists g, In g groups /\ In x g /\ In y g.

(** The name of the value that stands for the values [vs]. *)
Definition joined (name : nat -> string) (vs : list nat) : string := String.concat " OR " (map name vs).
