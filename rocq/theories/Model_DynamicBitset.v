(** Model of algorithms/dynamic_bitset.h.  A block is a number below [2 ^ B], where [B] is
    the number of digits of the block type; every operation on blocks is truncated to [B]
    bits as the C++ type does.  [compute_num_blocks] returns an int; the model does not
    bound the size. *)
From Verif Require Import Outcome Spec_Bitset.

Section Bitset.
Variable B : nat.          (* bits_per_block, line 24 *)

Definition trunc (x : N) : N := (x mod 2 ^ N.of_nat B)%N.
Definition bs_zeros : N := 0%N.                                             (* 126-127 *)
Definition bs_ones : N := (2 ^ N.of_nat B - 1)%N.                           (* 129-131 *)
Definition block_not (x : N) : N := N.lxor x bs_ones.                       (* ~ at the block type *)

(* 26-29 *)
Definition compute_num_blocks (n : nat) : nat := n / B + (if n mod B =? 0 then 0 else 1).
Definition block_index (p : nat) := p / B.                                  (* 31-33 *)
Definition bit_index (p : nat) := p mod B.                                  (* 35-37 *)
Definition bit_mask (p : nat) : N := trunc (N.shiftl 1 (N.of_nat (bit_index p))).  (* 39-41 *)

Record bitset := { bs_blocks : list N; bs_num_bits : nat }.                 (* 18-19 *)

Definition bs_make (n : nat) : bitset :=                                    (* 57-59 *)
  {| bs_blocks := repeat bs_zeros (compute_num_blocks n); bs_num_bits := n |}.

(* 47-54 with 43-45 *)
Definition zero_unused_bits (s : bitset) : outcome bitset :=
  let k := bit_index (bs_num_bits s) in
  if k =? 0 then Ok s
  else
    let* _ := guard (negb (length (bs_blocks s) =? 0)) in
    let last := length (bs_blocks s) - 1 in
    let* b := vget (bs_blocks s) last in
    let* bl := vset (bs_blocks s) last (N.land b (block_not (trunc (N.shiftl bs_ones (N.of_nat k))))) in
    Ok {| bs_blocks := bl; bs_num_bits := bs_num_bits s |}.

(* 79-82 *)
Definition bs_set_all (s : bitset) : outcome bitset :=
  zero_unused_bits {| bs_blocks := repeat bs_ones (length (bs_blocks s)); bs_num_bits := bs_num_bits s |}.
(* 84-86 *)
Definition bs_reset_all (s : bitset) : outcome bitset :=
  Ok {| bs_blocks := repeat bs_zeros (length (bs_blocks s)); bs_num_bits := bs_num_bits s |}.
(* 88-91 *)
Definition bs_set (s : bitset) (p : nat) : outcome bitset :=
  let* _ := guard (p <? bs_num_bits s) in
  let* b := vget (bs_blocks s) (block_index p) in
  let* bl := vset (bs_blocks s) (block_index p) (N.lor b (bit_mask p)) in
  Ok {| bs_blocks := bl; bs_num_bits := bs_num_bits s |}.
(* 93-96 *)
Definition bs_reset (s : bitset) (p : nat) : outcome bitset :=
  let* _ := guard (p <? bs_num_bits s) in
  let* b := vget (bs_blocks s) (block_index p) in
  let* bl := vset (bs_blocks s) (block_index p) (N.land b (block_not (bit_mask p))) in
  Ok {| bs_blocks := bl; bs_num_bits := bs_num_bits s |}.
(* 98-105 *)
Definition bs_test (s : bitset) (p : nat) : outcome bool :=
  let* _ := guard (p <? bs_num_bits s) in
  let* b := vget (bs_blocks s) (block_index p) in
  Ok (negb (N.eqb (N.land b (bit_mask p)) 0)).

(* 71-77 *)
Definition bs_count (s : bitset) : outcome nat :=
  fold_outcome (fun r p => let* b := bs_test s p in Ok (r + (if b then 1 else 0))) (seq 0 (bs_num_bits s)) 0.

(* 107-114 *)
Fixpoint blocks_intersect (l1 l2 : list N) : outcome bool :=
  match l1 with
  | [] => Ok false
  | b1 :: l1' =>
      match l2 with
      | [] => UB
      | b2 :: l2' => if negb (N.eqb (N.land b1 b2) 0) then Ok true else blocks_intersect l1' l2'
      end
  end.
Definition bs_intersects (s1 s2 : bitset) : outcome bool :=
  let* _ := guard (bs_num_bits s1 =? bs_num_bits s2) in
  blocks_intersect (bs_blocks s1) (bs_blocks s2).

(* 116-123 *)
Fixpoint blocks_subset (l1 l2 : list N) : outcome bool :=
  match l1 with
  | [] => Ok true
  | b1 :: l1' =>
      match l2 with
      | [] => UB
      | b2 :: l2' => if negb (N.eqb (N.land b1 (block_not b2)) 0) then Ok false else blocks_subset l1' l2'
      end
  end.
Definition bs_is_subset_of (s1 s2 : bitset) : outcome bool :=
  let* _ := guard (bs_num_bits s1 =? bs_num_bits s2) in
  blocks_subset (bs_blocks s1) (bs_blocks s2).

Definition bs_step (s : bitset) (op : bit_op) : outcome bitset :=
  match op with
  | BSetAll => bs_set_all s
  | BResetAll => bs_reset_all s
  | BSet p => bs_set s p
  | BReset p => bs_reset s p
  end.
Definition bs_run (n : nat) (ops : list bit_op) : outcome bitset := fold_outcome bs_step ops (bs_make n).
End Bitset.
