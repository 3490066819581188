(** Which samples a new pattern database improves, in hill climbing over pattern collections.
    As in [Model_PatternCollections] the overflow of sums of values is not modelled. *)
From Verif Require Import Outcome Spec_Task Model_Task Model_PQ Model_PDB Model_PatternCollections.
Import ListNotations.

Definition is_nil {A} (l : list A) : bool := match l with [] => true | _ => false end.
(** pdbs/pattern_cliques.cc:64-90 compute_pattern_cliques_with_pattern. *)
Definition cliques_with_pattern (m : list (list bool)) (pats : list (list nat)) (known : list (list nat)) (new : list nat) : outcome (list (list nat)) :=
  let* cs := fold_outcome (fun cs K =>
    let* c := fold_outcome (fun c i => let* p := vget pats i in let* b := are_patterns_additive m new p in Ok (if b : bool then c ++ [i] else c)) K [] in
    Ok (if is_nil c then cs else cs ++ [c])) known [] in
  Ok (if is_nil cs then [[]] else cs).
(** pattern_collection_generator_hillclimbing.cc:290-302 the loop over the cliques. *)
Fixpoint any_better (hs : list nat) (h_pattern h_collection : nat) (cliques : list (list nat)) : outcome bool :=
  match cliques with
  | [] => Ok false
  | c :: r => let* h := clique_value hs c in if h_collection <? h_pattern + h then Ok true else any_better hs h_pattern h_collection r
  end.
(** pattern_collection_generator_hillclimbing.cc:267-304 is_heuristic_improved. *)
Definition heuristic_improved (db : pdb) (s : state) (h_collection : option nat) (dbs : list pdb) (cliques : list (list nat)) : outcome bool :=
  let* h_pattern := pdb_value db s in
  match h_pattern with
  | None => Ok true
  | Some h_pattern =>
      match h_collection with
      | None => Ok false
      | Some h_collection =>
          let* hs := pdb_values dbs s in
          match hs with
          | None => Ok false
          | Some hs => any_better hs h_pattern h_collection cliques
          end
      end
  end.
