(** Model of algorithms/ordered_set.h.  The hash set [unordered_items] is modelled by a
    duplicate-free list with insert reporting whether the element is new; std::shuffle by a
    sequence of swaps at arbitrary positions ([choices]). *)
From Verif Require Import Outcome Spec_OrderedSet.

Section M.
Context {T : Type}.
Variable eqb : T -> T -> bool.

Record oset := { ordered_items : list T; unordered_items : list T }.   (* 18-19 *)
Definition os_empty : oset := {| ordered_items := []; unordered_items := [] |}.

(* assert(unordered_items.size() == ordered_items.size()) *)
Definition os_check (s : oset) : outcome unit :=
  guard (length (unordered_items s) =? length (ordered_items s)).

Definition os_is_empty (s : oset) : outcome bool :=                    (* 22-25 *)
  let* _ := os_check s in Ok (match ordered_items s with [] => true | _ => false end).
Definition os_size (s : oset) : outcome nat :=                         (* 27-30 *)
  let* _ := os_check s in Ok (length (ordered_items s)).
Definition os_clear (s : oset) : oset := {| ordered_items := []; unordered_items := [] |}.   (* 32-36 *)

(* unordered_set::insert *)
Definition hs_insert (x : T) (h : list T) : list T * bool :=
  if existsb (eqb x) h then (h, false) else (x :: h, true).

(* 42-49 *)
Definition os_insert (s : oset) (x : T) : outcome oset :=
  let '(h, inserted) := hs_insert x (unordered_items s) in
  let s' := {| ordered_items := if inserted then ordered_items s ++ [x] else ordered_items s;
               unordered_items := h |} in
  let* _ := os_check s' in Ok s'.

Definition os_contains (s : oset) (x : T) : bool := existsb (eqb x) (unordered_items s).   (* 51-53 *)

(* 59-62 *)
Definition os_get (s : oset) (pos : nat) : outcome T := vget (ordered_items s) pos.

(* 68-73: the vector that is returned, and the emptied set *)
Definition os_pop_as_vector (s : oset) : list T * oset :=
  (ordered_items s, {| ordered_items := []; unordered_items := [] |}).

(* utils/rng.h:47-50: std::shuffle as swaps; the k-th swap exchanges position k with the
   chosen one *)
Definition swap (l : list T) (i j : nat) : list T :=
  match nth_error l i, nth_error l j with
  | Some x, Some y => upd (upd l i y) j x
  | _, _ => l
  end.
Fixpoint shuffle_from (k : nat) (choices : list nat) (l : list T) : list T :=
  match choices with
  | [] => l
  | c :: cs => shuffle_from (S k) cs (swap l k c)
  end.
(* 55-57 *)
Definition os_shuffle (s : oset) (choices : list nat) : oset :=
  {| ordered_items := shuffle_from 0 choices (ordered_items s); unordered_items := unordered_items s |}.

Definition os_step (s : oset) (op : os_op T) : outcome oset :=
  match op with
  | OInsert x => os_insert s x
  | OClear => Ok (os_clear s)
  | OPopAsVector => Ok (snd (os_pop_as_vector s))
  | OShuffle cs => Ok (os_shuffle s cs)
  end.
Definition os_run (ops : list (os_op T)) : outcome oset := fold_outcome os_step ops os_empty.
End M.
