(** C07: DynamicBitset is a finite set of positions below its size. *)
From Verif Require Import Outcome Spec_Bitset Model_DynamicBitset Proof_DynamicBitset.

(** For every block width, size and history of in-range set/reset operations: every
    position reads as the history says, out-of-range tests are rejected, [count] is the
    number of set positions, and [intersects] / [is_subset_of] against any other bitset of
    the same size are the set-theoretic relations. *)
Theorem C07_bitset_is_finite_set : forall bits_per_block, 0 < bits_per_block ->
  forall n ops, bits_legal n ops = true ->
  exists s, bs_run bits_per_block n ops = Ok s /\ bs_num_bits s = n /\
    (forall p, bs_test bits_per_block s p = if p <? n then Ok (bits_run ops p) else UB) /\
    bs_count bits_per_block s = Ok (length (filter (bits_run ops) (seq 0 n))) /\
    (forall ops', bits_legal n ops' = true ->
       exists s' r1 r2, bs_run bits_per_block n ops' = Ok s' /\
         bs_intersects s s' = Ok r1 /\
         (r1 = true <-> exists p, p < n /\ bits_run ops p = true /\ bits_run ops' p = true) /\
         bs_is_subset_of bits_per_block s s' = Ok r2 /\
         (r2 = true <-> forall p, p < n -> bits_run ops p = true -> bits_run ops' p = true)).
Proof. exact bitset_history. Qed.
Print Assumptions C07_bitset_is_finite_set.

(* 70 bits in 32-bit blocks: the last block is partial *)
Example C07_nonvacuous :
  let ops := [BSet 3; BSetAll; BReset 69; BReset 64] in
  bits_legal 70 ops = true /\
  (let* s := bs_run 32 70 ops in let* c := bs_count 32 s in Ok (bs_blocks s, c))
  = Ok ([4294967295; 4294967295; 30]%N, 68).
Proof. split; vm_compute; reflexivity. Qed.
