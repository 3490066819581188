(** C11: OrderedSet keeps distinct elements in insertion order. *)
From Verif Require Import Outcome Spec_OrderedSet Model_OrderedSet Proof_OrderedSet.

(** After every history, the set holds exactly the elements inserted since it was last
    emptied, each once; [contains] and [size] agree; and, unless it was shuffled, the
    elements are in order of first insertion. *)
Theorem C11_ordered_set : forall (T : Type) (eqb : T -> T -> bool),
  (forall x y, eqb x y = true <-> x = y) ->
  forall ops : list (os_op T), exists s, os_run eqb ops = Ok s /\
    NoDup (ordered_items s) /\
    (forall x, os_contains eqb s x = true <-> In x (inserted ops [])) /\
    (forall x, In x (ordered_items s) <-> In x (inserted ops [])) /\
    os_size s = Ok (length (first_occurrences eqb (inserted ops []))) /\
    (no_shuffle ops -> ordered_items s = first_occurrences eqb (inserted ops [])).
Proof. exact (fun T eqb H => @ordered_set_history T eqb (fun x y => iff_reflect _ _ (iff_sym (H x y)))). Qed.
Print Assumptions C11_ordered_set.

Example C11_nonvacuous :
  (forall x y, Nat.eqb x y = true <-> x = y) /\
  (let* s := os_run Nat.eqb [OInsert 9; OClear; OInsert 3; OInsert 1; OInsert 3; OInsert 2; OInsert 1] in
   Ok (ordered_items s)) = Ok [3; 1; 2].
Proof. split; [apply Nat.eqb_eq|reflexivity]. Qed.
