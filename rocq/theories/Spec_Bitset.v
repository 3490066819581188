(** Specification: a fixed-size set of bit positions, as a total function from positions. *)
From Coq Require Import List Arith Bool.
Import ListNotations.

Inductive bit_op := BSetAll | BResetAll | BSet (pos : nat) | BReset (pos : nat).

Definition bits_step (f : nat -> bool) (op : bit_op) : nat -> bool :=
  match op with
  | BSetAll => fun _ => true
  | BResetAll => fun _ => false
  | BSet p => fun q => if q =? p then true else f q
  | BReset p => fun q => if q =? p then false else f q
  end.
Definition bits_run (ops : list bit_op) : nat -> bool := fold_left bits_step ops (fun _ => false).

(** All positions used are below the size. *)
Definition bits_legal (n : nat) (ops : list bit_op) : bool :=
  forallb (fun op => match op with BSet p | BReset p => p <? n | _ => true end) ops.
