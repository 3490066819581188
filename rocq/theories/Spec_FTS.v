(** Specification: transition systems whose transitions carry labels with costs, their products and
    images, and cheapest paths in them. *)
From Coq Require Import List Arith.
From Verif Require Import Spec_Relaxation.
Import ListNotations.

(** States are [0 .. l_n - 1]; [l_step a s s']: a transition from [s] to [s'] with label [a]; the
    initial state may have been removed. *)
Record lts := {
  l_n : nat;
  l_step : nat -> nat -> nat -> Prop;
  l_goal : nat -> Prop;
  l_init : option nat
}.

(** Costs of the paths from one state to another; [lc a c]: label [a] is in use and costs [c]. *)
Inductive lpath (lc : nat -> nat -> Prop) (step : nat -> nat -> nat -> Prop) : nat -> nat -> nat -> Prop :=
| lp_nil : forall s, lpath lc step s 0 s
| lp_cons : forall s a c s' k s'', lc a c -> step a s s' -> lpath lc step s' k s'' -> lpath lc step s (c + k) s''.

(** The table lists the least elements of the sets of costs ([None]: the set is empty). *)
Definition least_costs (n : nat) (costs : nat -> nat -> Prop) (d : list (option nat)) : Prop :=
  length d = n /\ forall s, s < n ->
    match nth s d None with Some c => least (costs s) c | None => forall c, ~ costs s c end.
(** Distances from the initial state and to the nearest goal state. *)
Definition init_distances (lc : nat -> nat -> Prop) (T : lts) (d : list (option nat)) : Prop :=
  least_costs (l_n T) (fun s c => exists i, l_init T = Some i /\ lpath lc (l_step T) i c s) d.
Definition goal_distances (lc : nat -> nat -> Prop) (T : lts) (d : list (option nat)) : Prop :=
  least_costs (l_n T) (fun s c => exists g, l_goal T g /\ lpath lc (l_step T) s c g) d.

(** Synchronized product: the pair of [s1] and [s2] has number [s1 * l_n T2 + s2]; both systems move
    with the same label. *)
Definition is_product (lc : nat -> nat -> Prop) (T1 T2 T : lts) : Prop :=
  l_n T = l_n T1 * l_n T2 /\
  (forall s1 s2, s1 < l_n T1 -> s2 < l_n T2 -> (l_goal T (s1 * l_n T2 + s2) <-> l_goal T1 s1 /\ l_goal T2 s2)) /\
  l_init T = match l_init T1, l_init T2 with Some i1, Some i2 => Some (i1 * l_n T2 + i2) | _, _ => None end /\
  (forall a c x y, lc a c ->
     (l_step T a x y <->
      exists s1 s2 t1 t2, x = s1 * l_n T2 + s2 /\ y = t1 * l_n T2 + t2 /\ s2 < l_n T2 /\ t2 < l_n T2 /\
                          l_step T1 a s1 t1 /\ l_step T2 a s2 t2)).

(** [cls] groups states of a system with [n] states: nobody is in two classes, no class is empty. *)
Definition grouping (n : nat) (cls : list (list nat)) : Prop :=
  NoDup (concat cls) /\ (forall c, In c cls -> c <> []) /\ (forall s, In s (concat cls) -> s < n).
Definition in_class (cls : list (list nat)) (k s : nat) : Prop := exists c, nth_error cls k = Some c /\ In s c.
(** The image of a system under the grouping; ungrouped states disappear. *)
Definition is_image (lc : nat -> nat -> Prop) (T : lts) (cls : list (list nat)) (T' : lts) : Prop :=
  l_n T' = length cls /\
  (forall k, l_goal T' k <-> exists s, in_class cls k s /\ l_goal T s) /\
  (forall i k, l_init T = Some i -> (l_init T' = Some k <-> in_class cls k i)) /\
  (forall a c x y, lc a c -> (l_step T' a x y <-> exists s t, in_class cls x s /\ in_class cls y t /\ l_step T a s t)).

(** Replacing groups of labels by new labels: the costs ... *)
Definition old_labels (mp : list (nat * list nat)) (a : nat) : Prop := exists e, In e mp /\ In a (snd e).
Definition reduced_costs (mp : list (nat * list nat)) (lc lc' : nat -> nat -> Prop) : Prop :=
  forall a c, lc' a c <-> (lc a c /\ ~ old_labels mp a) \/ (exists olds, In (a, olds) mp /\ least (fun c => exists b, In b olds /\ lc b c) c).
(** ... and the transitions: a new label has the transitions of the labels it stands for. *)
Definition is_relabelling (mp : list (nat * list nat)) (lc : nat -> nat -> Prop) (T T' : lts) : Prop :=
  l_n T' = l_n T /\ (forall s, l_goal T' s <-> l_goal T s) /\ l_init T' = l_init T /\
  (forall a c x y, lc a c -> ~ old_labels mp a -> (l_step T' a x y <-> l_step T a x y)) /\
  (forall a olds x y, In (a, olds) mp -> (l_step T' a x y <-> exists b, In b olds /\ l_step T b x y)).

(** A mapping the program may be given: the new labels are the next free numbers, and the labels they
    replace are in use, nonempty and disjoint. *)
Definition valid_mapping (lc : nat -> nat -> Prop) (total maxl : nat) (mp : list (nat * list nat)) : Prop :=
  (forall j e, nth_error mp j = Some e -> fst e = total + j) /\
  NoDup (concat (map snd mp)) /\ (forall e, In e mp -> snd e <> []) /\
  (forall a, old_labels mp a -> exists c, lc a c) /\ total + length mp <= maxl.

(** The ungrouped states are not needed: no cheapest path of a grouped state uses one of them. *)
Definition reaches_goal (lc : nat -> nat -> Prop) (T : lts) (s : nat) : Prop := exists g c, l_goal T g /\ lpath lc (l_step T) s c g.
Definition from_init (lc : nat -> nat -> Prop) (T : lts) (s : nat) : Prop := exists i c, l_init T = Some i /\ lpath lc (l_step T) i c s.
Definition grouped (cls : list (list nat)) (s : nat) : Prop := exists k, in_class cls k s.
Definition only_useless_ungrouped (lc : nat -> nat -> Prop) (T : lts) (cls : list (list nat)) : Prop :=
  (forall s, s < l_n T -> ~ grouped cls s -> ~ from_init lc T s \/ ~ reaches_goal lc T s) /\
  (forall a c s t, lc a c -> l_step T a s t -> grouped cls s -> reaches_goal lc T t -> grouped cls t) /\
  (forall a c s t, lc a c -> l_step T a s t -> grouped cls t -> from_init lc T s -> grouped cls s).

(** States in the same class behave alike: all or none of them are goal states, and a transition of
    one of them to a class is matched by a transition of the others to that class with the same label. *)
Definition bisimulation (lc : nat -> nat -> Prop) (T : lts) (cls : list (list nat)) : Prop :=
  (forall k s t, in_class cls k s -> in_class cls k t -> l_goal T s -> l_goal T t) /\
  (forall k k' s t s' a c, lc a c -> in_class cls k s -> in_class cls k t -> in_class cls k' s' -> l_step T a s s' ->
     exists t', l_step T a t t' /\ in_class cls k' t').
