(** Specification: collections found by hill climbing. *)
From Coq Require Import List Arith ZArith.
From Verif Require Import Spec_Task Spec_CausalGraph Spec_Projection Spec_Patterns Spec_PatternCollections Spec_PDBCegar.
Import ListNotations.

(** The collection starts with a pattern for each goal variable.  The patterns that were added have at
    least two variables and at most [M] abstract states, and after each addition the collection had at most
    [C] abstract states.  All patterns are interesting, and no pattern appears twice. *)
Definition hill_climbing_spec (t : task) (M C : Z) (pats : list (list nat)) : Prop :=
  NoDup pats /\ (forall p, In p pats -> pattern_of t p /\ interesting t p) /\
  exists added, pats = map (fun g : fact => [fst g]) (t_goal t) ++ added /\
    (forall p, In p added -> 2 <= length p /\ (pattern_size t p <= M)%Z) /\
    forall pre p post, added = pre ++ p :: post -> (total_size t (map (fun g : fact => [fst g]) (t_goal t) ++ pre ++ [p]) <= C)%Z.

(** [q] is [p] with one more variable, which occurs in a precondition of an operator that affects a
    variable of [p], or has a goal and is a successor of a variable of [p] in the causal graph. *)
Definition extends (t : task) (p q : list nat) : Prop :=
  exists v u, In v p /\ ~ In u p /\ (pre_eff t u v \/ (is_goal_var t u /\ causal_arc t v u)) /\ forall x, In x q <-> x = u \/ In x p.

(** A new pattern that may be added to the collection [pats]. *)
Definition admissible (t : task) (M C : Z) (pats : list (list nat)) (q : list nat) : Prop :=
  (exists p, In p pats /\ extends t p q) /\ pattern_of t q /\ ~ In q pats /\ (pattern_size t q <= M)%Z /\ (total_size t pats + pattern_size t q <= C)%Z.
