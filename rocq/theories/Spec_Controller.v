(** What eager search may assume of its open list, evaluators and pruning method.

    [entries c] is the multiset of state IDs currently in the open list (an ID may occur
    several times), [I c] an invariant of the controller's own data structures.  The
    open-list properties (C25-C30) establish these contracts for the concrete open lists. *)
From Coq Require Import List Permutation.
Import ListNotations.
From Verif Require Import Spec_Plan Model_Eager.

(** [c'] has the same open-list content as [c]. *)
Definition quiet {T} {ct : controller T} (I : C ct -> Prop) (entries : C ct -> list nat)
  (c c' : C ct) : Prop := I c -> I c' /\ entries c' = entries c.

(** Basic contract: only [insert] and [remove_min] change the open list, [remove_min]
    takes out exactly one entry, [insert] adds nothing but copies of the given ID, and
    pruning never invents operators. *)
Record controller_ok {T} (ct : controller T) (I : C ct -> Prop) (entries : C ct -> list nat)
  : Prop := {
  k_notify_initial : forall c s, quiet I entries c (c_notify_initial ct c s);
  k_notify : forall c s o s', quiet I entries c (c_notify ct c s o s');
  k_dead : forall c s g p, quiet I entries c (snd (c_dead ct c s g p));
  k_progress : forall c s g r, quiet I entries c (c_progress ct c s g r);
  k_preferred : forall c s g, quiet I entries c (snd (c_preferred ct c s g));
  k_prune : forall c s ops, quiet I entries c (snd (c_prune ct c s ops));
  k_lazy : forall c s g, quiet I entries c (snd (c_lazy_unchanged ct c s g));
  k_prune_incl : forall c s ops, incl (fst (c_prune ct c s ops)) ops;
  k_insert : forall c s g p id, I c ->
    I (c_insert ct c s g p id) /\
    exists k, Permutation (entries (c_insert ct c s g p id)) (repeat id k ++ entries c);
  k_pop_none : forall c, I c -> c_pop ct c = None -> entries c = [];
  k_pop_some : forall c id c', I c -> c_pop ct c = Some (id, c') ->
    I c' /\ Permutation (entries c) (id :: entries c')
}.

(** Safe evaluators and open list: a state is only reported as a dead end, or refused by
    [insert], if it really is unsolvable; and no applicable operator is pruned. *)
Record controller_safe {T} (ct : controller T) (I : C ct -> Prop) (entries : C ct -> list nat)
  : Prop := {
  k_dead_safe : forall c s g p, I c -> fst (c_dead ct c s g p) = true -> ~ solvable_from T s;
  k_insert_safe : forall c s g p id, I c -> solvable_from T s ->
    In id (entries (c_insert ct c s g p id));
  k_prune_none : forall c s ops, I c -> incl ops (fst (c_prune ct c s ops))
}.

(** Best-first contract relative to operator costs [ac]: entries carry a key; an entry
    inserted with path cost [g] gets a key that is at least [g] and at most [g] plus the
    cost of any plan from that state (i.e. key = g + admissible estimate);
    [remove_min] returns an entry with a smallest key. *)
Record controller_astar {T} (ac : nat -> nat) (ct : controller T) (I : C ct -> Prop)
  (kentries : C ct -> list (nat * nat)) : Prop := {
  a_notify_initial : forall c s, I c -> kentries (c_notify_initial ct c s) = kentries c;
  a_notify : forall c s o s', I c -> kentries (c_notify ct c s o s') = kentries c;
  a_dead : forall c s g p, I c -> kentries (snd (c_dead ct c s g p)) = kentries c;
  a_progress : forall c s g r, I c -> kentries (c_progress ct c s g r) = kentries c;
  a_preferred : forall c s g, I c -> kentries (snd (c_preferred ct c s g)) = kentries c;
  a_prune : forall c s ops, I c -> kentries (snd (c_prune ct c s ops)) = kentries c;
  a_insert : forall c s g p id, I c ->
    (exists k, Permutation (kentries (c_insert ct c s g p id)) ((id, k) :: kentries c) /\
       g <= k /\ forall os, is_plan_from T s os -> k <= g + sum_cost ac os) \/
    (Permutation (kentries (c_insert ct c s g p id)) (kentries c) /\ ~ solvable_from T s);
  a_pop : forall c id c', I c -> c_pop ct c = Some (id, c') ->
    exists k, Permutation (kentries c) ((id, k) :: kentries c') /\
      forall id' k', In (id', k') (kentries c) -> k <= k'
}.
