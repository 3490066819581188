(** Specification: a set of keys up to an equivalence.  Inserting a key returns the stored
    equivalent key and [false], or stores the key and returns it with [true]. *)
From Coq Require Import List NArith Arith.
Import ListNotations.

Section S.
Variable equal : nat -> nat -> bool.

Definition keyset_insert (s : list nat) (k : nat) : list nat * (nat * bool) :=
  match find (fun k' => equal k' k) s with
  | Some k' => (s, (k', false))
  | None => (s ++ [k], (k, true))
  end.

Fixpoint keyset_run (s : list nat) (ks : list nat) : list nat * list (nat * bool) :=
  match ks with
  | [] => (s, [])
  | k :: r => let (s1, a) := keyset_insert s k in
              let (s2, l) := keyset_run s1 r in (s2, a :: l)
  end.

Definition equivalence : Prop :=
  (forall x, equal x x = true) /\
  (forall x y, equal x y = true -> equal y x = true) /\
  (forall x y z, equal x y = true -> equal y z = true -> equal x z = true).
End S.

(** How crowded a hash function leaves the keys in a table of 2^[m] buckets: the number of
    keys whose hash falls, modulo 2^[m], into the [w] consecutive residues from [start]. *)
Section Crowd.
Variable hasher : nat -> N.
Definition in_window (m w start key : nat) : bool :=
  existsb (fun x => (hasher key mod 2 ^ N.of_nat m =? N.of_nat (start + x) mod 2 ^ N.of_nat m)%N) (seq 0 w).
Definition window_count (m w start : nat) (K : list nat) : nat := length (filter (in_window m w start) K).

(** Some power of two up to 2^30 separates the keys well enough: any 63 consecutive residues
    hold fewer than 32 keys. *)
Definition spread (K : list nat) : Prop :=
  exists m, 6 <= m <= 30 /\ forall start, window_count m 63 start K < 32.
End Crowd.
