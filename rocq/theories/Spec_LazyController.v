(** What lazy search may assume of its edge open list, evaluators and random numbers.

    [entries c] is the multiset of edges (parent state ID, operator) in the open list,
    [I c] an invariant of the controller's own data structures. *)
From Coq Require Import List Permutation.
Import ListNotations.
From Verif Require Import Spec_Plan Model_Lazy.

Definition lquiet {T} {ct : lazy_controller T} (I : LC ct -> Prop) (entries : LC ct -> list (nat * nat))
  (c c' : LC ct) : Prop := I c -> I c' /\ entries c' = entries c.

(** Only [insert] and [remove_min] change the open list, [remove_min] takes out exactly one
    entry, [insert] adds nothing but copies of the given edge, preferred operators are
    applicable, and shuffling permutes. *)
Record lazy_ok {T} (ct : lazy_controller T) (I : LC ct -> Prop) (entries : LC ct -> list (nat * nat))
  : Prop := {
  l_notify_initial : forall c s, lquiet I entries c (lc_notify_initial ct c s);
  l_notify : forall c s o s', lquiet I entries c (lc_notify ct c s o s');
  l_dead : forall c s g, lquiet I entries c (snd (lc_dead ct c s g));
  l_progress : forall c s g r, lquiet I entries c (lc_progress ct c s g r);
  l_preferred : forall c s g, lquiet I entries c (snd (lc_preferred ct c s g));
  l_shuffle : forall c l, lquiet I entries c (snd (lc_shuffle ct c l));
  l_preferred_app : forall c s g, I c -> incl (fst (lc_preferred ct c s g)) (ts_app T s);
  l_shuffle_perm : forall c l, I c -> Permutation (fst (lc_shuffle ct c l)) l;
  l_insert : forall c s g p e, I c ->
    I (lc_insert ct c s g p e) /\
    exists k, Permutation (entries (lc_insert ct c s g p e)) (repeat e k ++ entries c);
  l_pop_none : forall c, I c -> lc_pop ct c = None -> entries c = [];
  l_pop_some : forall c e c', I c -> lc_pop ct c = Some (e, c') ->
    I c' /\ Permutation (entries c) (e :: entries c')
}.

(** Safe evaluators and open list: a state is only reported as a dead end, and an edge only
    refused by [insert], if the state (the parent of the edge) is unsolvable. *)
Record lazy_safe {T} (ct : lazy_controller T) (I : LC ct -> Prop) (entries : LC ct -> list (nat * nat))
  : Prop := {
  l_dead_safe : forall c s g, I c -> fst (lc_dead ct c s g) = true -> ~ solvable_from T s;
  l_insert_safe : forall c s g p e, I c -> solvable_from T s -> In e (entries (lc_insert ct c s g p e))
}.
