(** Small specification notions for storage-like data structures. *)
From Coq Require Import List Arith NArith.
Import ListNotations.

(** The value last written to cell [v] by a list of writes (oldest first), if any. *)
Fixpoint last_write {A} (writes : list (nat * A)) (v : nat) : option A :=
  match writes with
  | [] => None
  | (w, x) :: rest =>
      match last_write rest v with
      | Some y => Some y
      | None => if Nat.eqb w v then Some x else None
      end
  end.

(** Bits [offset, offset+width) of a word, as a number. *)
Definition bit_field (w : N) (offset width : nat) : N :=
  ((w / 2 ^ N.of_nat offset) mod 2 ^ N.of_nat width)%N.
