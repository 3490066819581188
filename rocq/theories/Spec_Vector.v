(** Specification: a plain vector under push_back, pop_back, resize and element writes;
    [None] when an operation's precondition fails (pop_back on an empty vector, a write
    past the end). *)
From Coq Require Import List Arith.
Import ListNotations.

Inductive vec_op (A : Type) :=
| VPush (x : A) | VPop | VResize (n : nat) (x : A) | VSet (i : nat) (x : A).
Arguments VPush {A}.
Arguments VPop {A}.
Arguments VResize {A}.
Arguments VSet {A}.

Definition vec_resize {A} (l : list A) (n : nat) (x : A) : list A :=
  firstn n l ++ repeat x (n - length l).

Definition vec_set {A} (l : list A) (i : nat) (x : A) : list A :=
  firstn i l ++ x :: skipn (S i) l.

Definition vec_step {A} (l : list A) (op : vec_op A) : option (list A) :=
  match op with
  | VPush x => Some (l ++ [x])
  | VPop => match l with [] => None | _ => Some (removelast l) end
  | VResize n x => Some (vec_resize l n x)
  | VSet i x => if i <? length l then Some (vec_set l i x) else None
  end.

Fixpoint vec_run {A} (l : list A) (ops : list (vec_op A)) : option (list A) :=
  match ops with
  | [] => Some l
  | op :: rest => match vec_step l op with Some l' => vec_run l' rest | None => None end
  end.

(** The same for a vector of arrays of fixed length [k]; writes go to one element [j] of the
    array at index [i].  Pushed arrays must have length [k]. *)
Inductive avec_op (A : Type) :=
| APush (a : list A) | APop | AResize (n : nat) (a : list A) | ASet (i j : nat) (x : A).
Arguments APush {A}.
Arguments APop {A}.
Arguments AResize {A}.
Arguments ASet {A}.

Definition avec_step {A} (k : nat) (l : list (list A)) (op : avec_op A) : option (list (list A)) :=
  match op with
  | APush a => if length a =? k then Some (l ++ [a]) else None
  | APop => match l with [] => None | _ => Some (removelast l) end
  | AResize n a => if length a =? k then Some (vec_resize l n a) else None
  | ASet i j x =>
      match nth_error l i with
      | Some a => if j <? k then Some (vec_set l i (vec_set a j x)) else None
      | None => None
      end
  end.

Fixpoint avec_run {A} (k : nat) (l : list (list A)) (ops : list (avec_op A)) : option (list (list A)) :=
  match ops with
  | [] => Some l
  | op :: rest => match avec_step k l op with Some l' => avec_run k l' rest | None => None end
  end.
