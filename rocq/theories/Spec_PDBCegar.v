(** Specification: the patterns of a collection built around goal variables. *)
From Coq Require Import List Arith ZArith.
From Verif Require Import Spec_Task Spec_Projection Spec_PatternCollections.
Import ListNotations.

(** No variable belongs to two patterns. *)
Definition disjoint_patterns (pats : list (list nat)) : Prop :=
  forall i j p q, i <> j -> nth_error pats i = Some p -> nth_error pats j = Some q -> forall v, In v p -> ~ In v q.
(** The number of abstract states of all patterns. *)
Definition total_size (t : task) (pats : list (list nat)) : Z := fold_right (fun p z => (pattern_size t p + z)%Z) 0%Z pats.
(** A pattern that contains one of the given goal variables and otherwise no forbidden variable, and
    that is within the size limit unless it is just a goal variable. *)
Definition cegar_pattern_spec (t : task) (goals : list fact) (forbidden : list nat) (limit : Z) (p : list nat) : Prop :=
  (exists g, In g goals /\ In (fst g) p) /\
  (forall v, In v p -> In v (map fst goals) \/ ~ In v forbidden) /\
  ((pattern_size t p <= limit)%Z \/ exists g, In g goals /\ p = [fst g]).
