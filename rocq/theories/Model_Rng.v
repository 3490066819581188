(** Model of utils/rng.h: the generator is an arbitrary stream of numbers [r] with a
    position; every theorem quantifies over all streams. *)
From Verif Require Import Outcome.

(* rng.h:29-33: a number in [0, bound); undefined for bound 0 *)
Definition random_int (r : nat -> nat) (k bound : nat) : outcome (nat * nat) :=
  if bound =? 0 then UB else Ok (r k mod bound, S k).

(** Remove and return the element at position [i]. *)
Fixpoint take_out {A} (l : list A) (i : nat) : option (A * list A) :=
  match l with
  | [] => None
  | x :: rest =>
      match i with
      | O => Some (x, rest)
      | S j => match take_out rest j with
               | Some (y, rest') => Some (y, x :: rest')
               | None => None
               end
      end
  end.

(** rng.h:45-48 (std::shuffle, whose algorithm the standard does not fix): pick the elements
    one after the other at random positions.  Every permutation arises for some stream. *)
Fixpoint shuffle_loop {A} (fuel : nat) (r : nat -> nat) (k : nat) (l : list A) : list A * nat :=
  match fuel with
  | O => (l, k)
  | S f =>
      match l with
      | [] => ([], k)
      | _ :: _ =>
          match take_out l (r k mod length l) with
          | Some (x, l') => let (rest, k') := shuffle_loop f r (S k) l' in (x :: rest, k')
          | None => (l, k)
          end
      end
  end.
Definition shuffle {A} (r : nat -> nat) (k : nat) (l : list A) : list A * nat :=
  shuffle_loop (length l) r k l.
