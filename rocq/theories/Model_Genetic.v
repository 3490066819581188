(** The genetic pattern collection generator, src/search/pdbs/pattern_collection_generator_genetic.cc.

    The random number generator is given by its results: [shuffle i] orders the variables for collection
    [i], [flip e c p k] says if bit [k] of pattern [p] of collection [c] is flipped in episode [e], and
    [select e i] is the index chosen for place [i] at the end of episode [e] (genetic.cc:40-70; by the
    loop there it is some index into the collections, so the fitness values, which only make some choices
    more likely, are not kept).  [fitness] is the approximate mean heuristic value of a collection
    (zero_one_pdbs.cc), here an integer with the same order.  Not modelled: logging. *)
From Verif Require Import Outcome Spec_Task Model_MAS Model_CausalGraph Model_Evaluators.
Import ListNotations.

(** [map] with the index. *)
Fixpoint mapi {A B} (f : nat -> A -> B) (i : nat) (l : list A) : list B :=
  match l with [] => [] | x :: r => f i x :: mapi f (i + 1) r end.
Definition mem (v : nat) (l : list nat) : bool := existsb (Nat.eqb v) l.

(** genetic.cc:85-93 transform_to_pattern_normal_form. *)
Definition normal_form (bits : list bool) : list nat := filter (fun i => nth i bits false) (seq 0 (length bits)).
(** genetic.cc:112-132 the loop of remove_irrelevant_variables; [check]: vars_to_check, last first. *)
Fixpoint prune_loop (fuel : nat) (cg : causal_graph) (original check result : list nat) : outcome (list nat) :=
  match fuel with
  | 0 => NoFuel
  | S fuel =>
      match check with
      | [] => Ok result
      | v :: check =>
          let* rel := vget (g_eff_to_pre cg) v in
          let (check, result) := fold_left (fun cr u => if mem u original && negb (mem u (snd cr)) then (u :: fst cr, u :: snd cr) else cr) rel (check, result) in
          prune_loop fuel cg original check result
      end
  end.
(** genetic.cc:95-136 remove_irrelevant_variables. *)
Definition prune (t : task) (cg : causal_graph) (pattern : list nat) : outcome (list nat) :=
  let (check, result) := fold_left (fun cr (g : fact) => if mem (fst g) pattern then (fst g :: fst cr, if mem (fst g) (snd cr) then snd cr else fst g :: snd cr) else cr) (t_goal t) ([], []) in
  let* r := prune_loop (length (t_goal t) + length (t_vars t) + 1) cg pattern check result in
  Ok (sort Nat.leb r).
(** genetic.cc:138-152 is_pattern_too_large. *)
Fixpoint too_large (t : task) (limit m : Z) (pattern : list nat) : outcome bool :=
  match pattern with
  | [] => Ok false
  | v :: r =>
      let* x := vget (t_vars t) v in
      let* b := is_product_within_limit m (Z.of_nat (vdom x)) limit in
      if negb b then Ok true
      else
        let* _ := guard (m * Z.of_nat (vdom x) <=? INT_MAX)%Z in
        too_large t limit (m * Z.of_nat (vdom x)) r
  end.
(** genetic.cc:154-163 mark_used_variables. *)
Fixpoint mark_used (pattern : list nat) (used : list bool) : outcome (bool * list bool) :=
  match pattern with
  | [] => Ok (false, used)
  | v :: r =>
      let* b := vget used v in
      if b : bool then Ok (true, used) else let* used := vset used v true in mark_used r used
  end.

Section Genetic.
Variable fitness : list (list nat) -> Z.
Variable t : task.
Variable limit : Z.
Variable disjoint : bool.
Variable cg : causal_graph.

(** genetic.cc:176-203 the patterns of a collection, or [None] if it is not valid. *)
Fixpoint patterns_of (coll : list (list bool)) (used : list bool) (acc : list (list nat)) : outcome (option (list (list nat))) :=
  match coll with
  | [] => Ok (Some acc)
  | bits :: coll =>
      let pattern := normal_form bits in
      let* big := too_large t limit 1 pattern in
      if big : bool then Ok None
      else
        let* (clash, used) := (if disjoint then mark_used pattern used else Ok (false, used)) in
        if clash : bool then Ok None
        else
          let* p := prune t cg pattern in
          patterns_of coll used (acc ++ [p])
  end.
(** genetic.cc:165-224 evaluate: the best fitness and the best patterns so far. *)
Definition evaluate (colls : list (list (list bool))) (best : Z * option (list (list nat))) : outcome (Z * option (list (list nat))) :=
  fold_outcome (fun best coll =>
    let* r := patterns_of coll (repeat false (length (t_vars t))) [] in
    match r with
    | None => Ok best
    | Some ps => if (fst best <? fitness ps)%Z then Ok (fitness ps, Some ps) else Ok best
    end) colls best.
(** genetic.cc:236-269 one collection of bin_packing: the finished bins, the open bin and its size. *)
Definition pack_step (s : list (list bool) * list bool * Z) (v : nat) : outcome (list (list bool) * list bool * Z) :=
  let '(coll, pattern, size) := s in
  let* x := vget (t_vars t) v in
  let d := Z.of_nat (vdom x) in
  if (limit <? d)%Z then Ok s
  else
    let* b := is_product_within_limit size d limit in
    let '(coll, pattern, size) := (if negb b then (coll ++ [pattern], repeat false (length (t_vars t)), 1%Z) else (coll, pattern, size)) in
    let* _ := guard (size * d <=? INT_MAX)%Z in
    let* pattern := vset pattern v true in
    Ok (coll, pattern, (size * d)%Z).
Definition pack (ids : list nat) : outcome (list (list bool)) :=
  let* (s, size) := fold_outcome pack_step ids ([], repeat false (length (t_vars t)), 1%Z) in
  Ok (if (1 <? size)%Z then fst s ++ [snd s] else fst s).
(** genetic.cc:226-271 bin_packing; the order of the variables is shuffled again for each collection. *)
Fixpoint bin_packing (shuffle : nat -> list nat -> list nat) (n i : nat) (ids : list nat) : outcome (list (list (list bool))) :=
  match n with
  | 0 => Ok []
  | S n =>
      let ids := shuffle i ids in
      let* c := pack ids in
      let* cs := bin_packing shuffle n (i + 1) ids in
      Ok (c :: cs)
  end.
(** genetic.cc:72-83 mutate. *)
Definition mutate (flip : nat -> nat -> nat -> bool) (colls : list (list (list bool))) : list (list (list bool)) :=
  mapi (fun c coll => mapi (fun p bits => mapi (fun k b => xorb b (flip c p k)) 0 bits) 0 coll) 0 colls.
(** genetic.cc:40-70 select. *)
Definition selection (select : nat -> nat) (n : nat) (colls : list (list (list bool))) : outcome (list (list (list bool))) :=
  fold_outcome (fun new i => let* c := vget colls (select i) in Ok (new ++ [c])) (seq 0 n) [].
(** genetic.cc:279-288 the episodes. *)
Fixpoint episodes (flip : nat -> nat -> nat -> nat -> bool) (select : nat -> nat -> nat) (n e num : nat) (colls : list (list (list bool))) (best : Z * option (list (list nat))) : outcome (Z * option (list (list nat))) :=
  match n with
  | 0 => Ok best
  | S n =>
      let colls := mutate (flip e) colls in
      let* best := evaluate colls best in
      let* colls := selection (select e) num colls in
      episodes flip select n (e + 1) num colls best
  end.
End Genetic.
(** genetic.cc:273-304 genetic_algorithm, compute_patterns; without a best collection the result is
    undefined behaviour (a null pointer is dereferenced). *)
Definition genetic fitness shuffle flip select (num_collections num_episodes : nat) (limit : Z) (disjoint : bool) (t : task) : outcome (list (list nat)) :=
  let* cg := build_causal_graph t in
  let* colls := bin_packing t limit shuffle num_collections 0 (seq 0 (length (t_vars t))) in
  let* best := evaluate fitness t limit disjoint cg colls ((-1)%Z, None) in
  let* best := episodes fitness t limit disjoint cg flip select num_episodes 0 num_collections colls best in
  match snd best with Some ps => Ok ps | None => UB end.
