(** What every open list has to guarantee to a search algorithm: a multiset of entries
    from which nothing is lost and to which nothing else is added. *)
From Coq Require Import List Bool Permutation.
Import ListNotations.
From Verif Require Import Outcome Model_OpenList.

(** [J] is an invariant of the representation, [ents q] the stored entries. *)
Record ol_contract {E} (L : open_list E) (J : OL L -> Prop) (ents : OL L -> list E) : Prop := {
  oc_init : J (ol_init L) /\ ents (ol_init L) = [];
  (** insert never fails and adds only copies of the given entry *)
  oc_insert : forall q x e, J q ->
    exists q', ol_insert L q x e = Ok q' /\ J q' /\
      exists n, Permutation (ents q') (repeat e n ++ ents q);
  (** remove_min on a non-empty list takes out exactly the returned entry *)
  oc_remove : forall q, J q -> ol_empty L q = false ->
    exists e q', ol_remove_min L q = Ok (e, q') /\ J q' /\ Permutation (ents q) (e :: ents q');
  oc_empty : forall q, J q -> (ol_empty L q = true <-> ents q = []);
  oc_clear : forall q, J q -> J (ol_clear L q) /\ ents (ol_clear L q) = [];
  oc_boost : forall q, J q -> J (ol_boost L q) /\ ents (ol_boost L q) = ents q;
  (** a state is only called a dead end if some evaluator says infinity *)
  oc_dead : forall x, ol_dead L x = true -> exists ev, x_val x ev = None;
  oc_rel_dead : forall x, ol_rel_dead L x = true -> exists ev, x_val x ev = None
}.

(** The list stores every entry all of whose evaluator values are finite. *)
Definition ol_accepting {E} (L : open_list E) (J : OL L -> Prop) (ents : OL L -> list E) : Prop :=
  forall q x e q', J q -> (forall ev, x_val x ev <> None) ->
    ol_insert L q x e = Ok q' -> In e (ents q').

(** Key under which a best-first list files an evaluated state; [None]: not inserted
    (infinite estimate, or a non-preferred state offered to a preferred-only list). *)
Definition bf_key (ev : nat) (pref_only : bool) (x : ectx) : option nat :=
  if pref_only && negb (x_pref x) then None else x_val x ev.

(** When a tie-breaking list considers a state a dead end: a reliable evaluator says
    infinity; or unsafe pruning is on and the first evaluator says infinity; or all
    evaluators say infinity. *)
Definition tb_dead (reliable : nat -> bool) (evs : list nat) (unsafe : bool) (x : ectx) : Prop :=
  (exists ev, In ev evs /\ x_val x ev = None /\ reliable ev = true) \/
  (unsafe = true /\ exists ev rest, evs = ev :: rest /\ x_val x ev = None) \/
  (forall ev, In ev evs -> x_val x ev = None).
