(** Specification of the open lists that use random choices. *)
From Coq Require Import List Permutation.
Import ListNotations.
From Verif Require Import Outcome Spec_OpenList Model_OpenList Spec_OpenListContract.

(** Histories of insertions, removals and clearings of a collection of (key, entry) pairs, listed
    in insertion order; [pick l k e l'] says that [(k, e)] may be taken from [l], leaving [l']. *)
Inductive rq_history {X K E : Type} (pick : list (K * E) -> K -> E -> list (K * E) -> Prop) (key : X -> option K)
  : list (K * E) -> list (pq_op X E) -> list E -> list (K * E) -> Prop :=
| rqh_nil : forall l, rq_history pick key l [] [] l
| rqh_insert : forall l x e k ops outs l',
    key x = Some k -> rq_history pick key (l ++ [(k, e)]) ops outs l' ->
    rq_history pick key l (PInsert x e :: ops) outs l'
| rqh_refuse : forall l x e ops outs l',
    key x = None -> rq_history pick key l ops outs l' ->
    rq_history pick key l (PInsert x e :: ops) outs l'
| rqh_remove : forall l k e l1 ops outs l',
    pick l k e l1 -> rq_history pick key l1 ops outs l' ->
    rq_history pick key l (PRemove :: ops) (e :: outs) l'
| rqh_clear : forall l ops outs l',
    rq_history pick key [] ops outs l' -> rq_history pick key l (PClear :: ops) outs l'.

(** A sequence of calls starting from a new list behaves like such a history: it fails only when
    an entry is removed from an empty collection, and empty() says whether nothing is stored. *)
Definition behaves_like {K E : Type} (L : open_list E) (pick : list (K * E) -> K -> E -> list (K * E) -> Prop)
  (key : ectx -> option K) : Prop :=
  forall ops, match ol_run L (ol_init L) ops with
  | Ok (outs, q') => exists l', rq_history pick key [] ops outs l' /\ (ol_empty L q' = true <-> l' = [])
  | UB => exists ops1 ops2 outs, ops = ops1 ++ PRemove :: ops2 /\ rq_history pick key [] ops1 outs []
  | _ => False
  end.

(** Any stored pair. *)
Definition any_pick {K E} (l : list (K * E)) (k : K) (e : E) (l' : list (K * E)) : Prop :=
  exists l1 l2, l = l1 ++ (k, e) :: l2 /\ l' = l1 ++ l2.

(** [v] dominates [w]: nowhere larger, and different. *)
Definition dom (v w : list (option nat)) : Prop := Forall2 (fun a b => ~ val_lt b a) v w /\ v <> w.

(** The oldest pair of some key that no stored key dominates. *)
Definition pareto_pick {E} (l : list (list (option nat) * E)) (k : list (option nat)) (e : E) (l' : list (list (option nat) * E)) : Prop :=
  exists l1 l2, l = l1 ++ (k, e) :: l2 /\ l' = l1 ++ l2 /\
    (forall x, In x l1 -> fst x <> k) /\ (forall x, In x l -> ~ dom (fst x) k).

(** When the Pareto and the type-based list refuse an entry. *)
Definition dead_for (reliable : nat -> bool) (evs : list nat) (x : ectx) : Prop :=
  (exists ev, In ev evs /\ x_val x ev = None /\ reliable ev = true) \/ (forall ev, In ev evs -> x_val x ev = None).
(** [key]: the entry is refused if only preferred ones are wanted or in case of a dead end, and
    filed under the vector of its values otherwise. *)
Definition vector_key (reliable : nat -> bool) (evs : list nat) (pref_only : bool) (key : ectx -> option (list (option nat))) : Prop :=
  forall x, (key x = None <-> (pref_only = true /\ x_pref x = false) \/ dead_for reliable evs x) /\
            (forall k, key x = Some k -> k = map (x_val x) evs).

(** The stored keys that no stored key dominates. *)
Definition undominated {E} (l : list (list (option nat) * E)) (k : list (option nat)) : Prop :=
  In k (map fst l) /\ forall x, In x l -> ~ dom (fst x) k.

(** All sequences of [m] draws, the first one below [s + 1], the second below [s + 2] and so on;
    the random stream that yields [ds] from position [start] on. *)
Fixpoint draws_from (s m : nat) : list (list nat) :=
  match m with
  | O => [[]]
  | S m => flat_map (fun d => map (cons d) (draws_from (S s) m)) (seq 0 (S s))
  end.
Definition stream_of (start : nat) (ds : list nat) (i : nat) : nat := nth (i - start) ds 0.
