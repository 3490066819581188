(** Specification: a priority queue is a bag of (key, value) entries. *)
From Coq Require Import List ZArith Permutation.
Import ListNotations.

Inductive pq_op (V : Type) : Type :=
| QPush (key : Z) (v : V)
| QPop
| QEmpty
| QClear
| QVirtual (n : nat).
Arguments QPush {V}. Arguments QPop {V}. Arguments QEmpty {V}. Arguments QClear {V}. Arguments QVirtual {V}.

Inductive pq_res (V : Type) : Type :=
| RNone
| REntry (key : Z) (v : V)
| RBool (b : bool).
Arguments RNone {V}. Arguments REntry {V}. Arguments RBool {V}.

(** [bag_run M ops rs M']: from the bag [M], a priority queue may answer the calls [ops] with
    [rs] and then hold the bag [M']. *)
Inductive bag_run {V} : list (Z * V) -> list (pq_op V) -> list (pq_res V) -> list (Z * V) -> Prop :=
| br_nil : forall M M', Permutation M M' -> bag_run M [] [] M'
| br_push : forall M k v ops rs M', bag_run ((k, v) :: M) ops rs M' -> bag_run M (QPush k v :: ops) (RNone :: rs) M'
| br_pop : forall M k v M1 ops rs M',
    Permutation M ((k, v) :: M1) -> (forall e, In e M -> (k <= fst e)%Z) ->
    bag_run M1 ops rs M' -> bag_run M (QPop :: ops) (REntry k v :: rs) M'
| br_empty : forall M b ops rs M', (b = true <-> M = []) -> bag_run M ops rs M' -> bag_run M (QEmpty :: ops) (RBool b :: rs) M'
| br_clear : forall M ops rs M', bag_run [] ops rs M' -> bag_run M (QClear :: ops) (RNone :: rs) M'
| br_virtual : forall M n ops rs M', bag_run M ops rs M' -> bag_run M (QVirtual n :: ops) (RNone :: rs) M'.

(** Calls that respect the interface: keys are at least 0 and below [infinity], an empty queue
    is not popped; [n] is the current number of entries. *)
Fixpoint legal {V} (infinity : Z) (n : nat) (ops : list (pq_op V)) : Prop :=
  match ops with
  | [] => True
  | QPush k _ :: r => (0 <= k < infinity)%Z /\ legal infinity (S n) r
  | QPop :: r => 0 < n /\ legal infinity (pred n) r
  | QClear :: r => legal infinity 0 r
  | _ :: r => legal infinity n r
  end.

(** Real and virtual pushes. *)
Fixpoint pushes {V} (ops : list (pq_op V)) : Z :=
  match ops with
  | [] => 0
  | QPush _ _ :: r => 1 + pushes r
  | QVirtual n :: r => Z.of_nat n + pushes r
  | _ :: r => pushes r
  end%Z.
