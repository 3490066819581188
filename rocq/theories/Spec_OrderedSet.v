(** Specification of OrderedSet histories: the distinct elements inserted since the last
    time the set was emptied, in order of first insertion. *)
From Coq Require Import List.
Import ListNotations.

Section S.
Context {T : Type}.
Variable eqb : T -> T -> bool.

Inductive os_op :=
| OInsert (x : T)
| OClear
| OPopAsVector
| OShuffle (choices : list nat).    (* the random numbers the shuffle draws *)

(** Elements inserted since the set was last emptied, in order, with repetitions. *)
Fixpoint inserted (ops : list os_op) (acc : list T) : list T :=
  match ops with
  | [] => acc
  | OInsert x :: r => inserted r (acc ++ [x])
  | (OClear | OPopAsVector) :: r => inserted r []
  | OShuffle _ :: r => inserted r acc
  end.

Definition mem (x : T) (l : list T) : bool := existsb (eqb x) l.

(** Keep the first occurrence of every element. *)
Fixpoint first_occurrences (l : list T) : list T :=
  match l with
  | [] => []
  | x :: r => x :: filter (fun y => negb (eqb x y)) (first_occurrences r)
  end.

Definition no_shuffle (ops : list os_op) : Prop := forall c, ~ In (OShuffle c) ops.
End S.
Arguments os_op : clear implicits.
