(** Specification: collections from repeated pattern generation. *)
From Coq Require Import List Arith ZArith.
From Verif Require Import Spec_Task Spec_Projection Spec_PatternCollections Spec_PDBCegar.
Import ListNotations.

(** The patterns [pats] found in [n] iterations over the goals, with a limit [M] for a single pattern and
    [C] for the collection: no pattern appears twice; when a pattern was added the collection was below
    its limit, and the pattern fits into what was left of it and into [M], unless it consists of just a
    goal variable; the patterns cover the goals of all iterations, which go through the goals in turn. *)
Definition multiple_spec (t : task) (goals : list fact) (M C : Z) (n : nat) (pats : list (list nat)) : Prop :=
  1 <= n /\ NoDup pats /\
  (forall p, In p pats -> exists g, In g goals /\ In (fst g) p) /\
  (forall pre p post, pats = pre ++ p :: post -> (total_size t pre < C)%Z /\
     ((pattern_size t p <= Z.min M (C - total_size t pre))%Z \/ exists g, In g goals /\ p = [fst g])) /\
  (forall i, i < n -> exists g p, nth_error goals (i mod length goals) = Some g /\ In p pats /\ In (fst g) p).
