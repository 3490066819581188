(** Specification for partitions given as lists of blocks. *)
From Coq Require Import List.
Import ListNotations.

(** [blocks] partitions the elements: every element is in some block, blocks hold nothing
    else, no element occurs twice (within or across blocks) and no block is empty. *)
Definition is_partition (elements : list nat) (blocks : list (list nat)) : Prop :=
  NoDup (concat blocks) /\
  (forall x, In x (concat blocks) <-> In x elements) /\
  (elements <> [] -> ~ In [] blocks).

Definition same_block (blocks : list (list nat)) (a b : nat) : Prop :=
  exists B, In B blocks /\ In a B /\ In b B.

(** No set in [Xs] tells [a] and [b] apart. *)
Definition indistinguishable (Xs : list (list nat)) (a b : nat) : Prop :=
  forall X, In X Xs -> (In a X <-> In b X).
