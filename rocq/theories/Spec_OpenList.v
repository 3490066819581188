(** Specification of open lists, independent of bucket maps and heaps. *)
From Coq Require Import List Permutation.
Import ListNotations.

(** [l] lists (key, entry) pairs in insertion order.  [stable_min lt l k e l'] says: [(k, e)]
    is the earliest inserted pair among those with a smallest key, and [l'] is [l] without it. *)
Definition stable_min {K E : Type} (lt : K -> K -> Prop) (l : list (K * E)) (k : K) (e : E)
  (l' : list (K * E)) : Prop :=
  exists l1 l2, l = l1 ++ (k, e) :: l2 /\ l' = l1 ++ l2 /\
    (forall x, In x l1 -> lt k (fst x)) /\
    (forall x, In x l2 -> ~ lt (fst x) k).

(** Order of evaluator values; [None] is infinity. *)
Definition val_lt (a b : option nat) : Prop :=
  match a, b with
  | Some x, Some y => x < y
  | Some _, None => True
  | None, _ => False
  end.

(** Lexicographic order on vectors of evaluator values. *)
Inductive lex_lt : list (option nat) -> list (option nat) -> Prop :=
| lex_nil : forall y ys, lex_lt [] (y :: ys)
| lex_here : forall x y xs ys, val_lt x y -> lex_lt (x :: xs) (y :: ys)
| lex_next : forall x xs ys, lex_lt xs ys -> lex_lt (x :: xs) (x :: ys).

(** Histories of a stable priority queue.  An insertion either is refused or appends a pair
    with the key given by [key]; a removal returns a stable minimum. *)
Inductive pq_op (X E : Type) := PInsert (x : X) (e : E) | PRemove | PClear.
Arguments PInsert {X E}.
Arguments PRemove {X E}.
Arguments PClear {X E}.

Inductive pq_history {X K E : Type} (lt : K -> K -> Prop) (key : X -> option K)
  : list (K * E) -> list (pq_op X E) -> list E -> list (K * E) -> Prop :=
| pqh_nil : forall l, pq_history lt key l [] [] l
| pqh_insert : forall l x e k ops outs l',
    key x = Some k -> pq_history lt key (l ++ [(k, e)]) ops outs l' ->
    pq_history lt key l (PInsert x e :: ops) outs l'
| pqh_refuse : forall l x e ops outs l',
    key x = None -> pq_history lt key l ops outs l' ->
    pq_history lt key l (PInsert x e :: ops) outs l'
| pqh_remove : forall l k e l1 ops outs l',
    stable_min lt l k e l1 -> pq_history lt key l1 ops outs l' ->
    pq_history lt key l (PRemove :: ops) (e :: outs) l'
| pqh_clear : forall l ops outs l',
    pq_history lt key [] ops outs l' -> pq_history lt key l (PClear :: ops) outs l'.
