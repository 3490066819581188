(** C05: the hash set of integers behind the state registry. *)
From Verif Require Import Outcome Spec_KeySet Model_IntHashSet Proof_IntHashSet.

(** Every sequence of insertions into a fresh set whose keys the hash function separates well
    enough behaves as find-or-add: each insertion returns the stored equivalent key with
    [false] or the new key with [true], and the size is the number of inequivalent keys. *)
Theorem C05_insert_is_find_or_add : forall hasher equal, equivalence equal ->
  (forall x y, equal x y = true -> hasher x = hasher y) ->
  forall ks, spread hasher (fst (keyset_run equal [] ks)) ->
  exists s, hset_run hasher equal hset_make ks = Ok (s, snd (keyset_run equal [] ks)) /\
    num_entries s = length (fst (keyset_run equal [] ks)).
Proof. exact spread_history. Qed.
Print Assumptions C05_insert_is_find_or_add.

(** For arbitrary keys and hash functions the only other outcome is the termination of the
    process; no insertion ever returns a wrong key or reads outside the table. *)
Theorem C05_insert_is_right_or_aborts : forall hasher equal, equivalence equal ->
  (forall x y, equal x y = true -> hasher x = hasher y) ->
  forall ks, hset_run hasher equal hset_make ks = Exit abort_exit \/
  exists s, hset_run hasher equal hset_make ks = Ok (s, snd (keyset_run equal [] ks)) /\
    num_entries s = length (fst (keyset_run equal [] ks)).
Proof. exact never_else. Qed.
Print Assumptions C05_insert_is_right_or_aborts.

(** Fewer than 32 keys are always spread well enough, whatever the hash function. *)
Theorem C05_few_keys_are_spread : forall hasher K, length K < 32 -> spread hasher K.
Proof. exact few_spread. Qed.
Print Assumptions C05_few_keys_are_spread.

(** Without a condition on the hash function find-or-add is false: 33 keys with one hash
    value always end the process. *)
Theorem C05_any_hash_refuted : exists hasher equal ks,
  equivalence equal /\ (forall x y, equal x y = true -> hasher x = hasher y) /\
  length ks = 33 /\ hset_run hasher equal hset_make ks = Exit abort_exit.
Proof. exact refuted. Qed.
Print Assumptions C05_any_hash_refuted.

Definition example_hash (x : nat) : N := (N.of_nat (x / 2) * 7)%N.
Definition example_equal (x y : nat) : bool := x / 2 =? y / 2.
Example C05_nonvacuous :
  equivalence example_equal /\ (forall x y, example_equal x y = true -> example_hash x = example_hash y) /\
  spread example_hash (fst (keyset_run example_equal [] [4; 7; 5; 9; 6; 20])) /\
  (let* r := hset_run example_hash example_equal hset_make [4; 7; 5; 9; 6; 20] in Ok (snd r))
    = Ok [(4, true); (7, true); (4, false); (9, true); (7, false); (20, true)].
Proof.
  unfold equivalence, example_equal, example_hash. splits; try (intros *; rewrite ?Nat.eqb_eq; congruence).
  - apply few_spread. vm_compute. lia.
  - vm_compute. reflexivity.
Qed.
