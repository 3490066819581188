(** The hill climbing pattern collection generator (iPDB),
    src/search/pdbs/pattern_collection_generator_hillclimbing.cc, with the databases and their total size as
    in incremental_canonical_pdbs.cc.

    The samples are not modelled: [count k current db] is the number of samples of iteration [k] for which
    the database [db] improves the current collection, any natural number.  [dead k current]: the initial
    state is a dead end (checked in each iteration; before the first one also in compute_patterns);
    [sampling k] and [expired k i]: the time is up while the states are sampled, or at candidate [i].
    A null pointer among the candidates is [None].  Not modelled: pattern cliques (see C41), logging, counters. *)
From Verif Require Import Outcome Spec_Task Model_MAS Model_CausalGraph Model_PQ Model_Evaluators Model_PDB Model_PatternGenerators Model_Genetic.
Import ListNotations.

(** hillclimbing.cc:79-115 compute_relevant_neighbours.  The lists are sorted without repetitions; the
    intersection is a filter, the union merges. *)
Definition relevant_neighbours (t : task) (cg : causal_graph) : outcome (list (list nat)) :=
  fold_outcome (fun r v =>
    let* pre := vget (g_eff_to_pre cg) v in
    let* succ := vget (g_successors cg) v in
    Ok (r ++ [unique_nats (sort Nat.leb (pre ++ filter (fun u => mem u (map fst (t_goal t))) succ))])) (seq 0 (length (t_vars t))) [].
Definition pattern_in (p : list nat) (l : list (list nat)) : bool := existsb (fun q => if list_eq_dec Nat.eq_dec p q then true else false) l.

Section HC.
Variable P : pqueue.
Variable q0 : PQ P.
Variable pdb_fuel : nat.
Variable t : task.
Variables pdb_max_size collection_max_size : Z.
Variable min_improvement : nat.
Variable count : nat -> list pdb -> pdb -> nat.
Variable dead : nat -> list pdb -> bool.
Variable sampling : nat -> bool.
Variable expired : nat -> nat -> bool.

(** hillclimbing.cc:152-177 the loop over the relevant variables: the generated patterns and the candidates. *)
Definition try_variable (db : pdb) (s : list (list nat) * list (option pdb)) (u : nat) : outcome (list (list nat) * list (option pdb)) :=
  let* x := vget (t_vars t) u in
  let* b := is_product_within_limit (Z.of_nat (pj_num (db_pj db))) (Z.of_nat (vdom x)) pdb_max_size in
  if b : bool then
    let new := sort Nat.leb (pj_pattern (db_pj db) ++ [u]) in
    if pattern_in new (fst s) then Ok s
    else
      let* d := compute_pdb P q0 pdb_fuel t new [] in
      Ok (new :: fst s, snd s ++ [Some d])
  else Ok s.
(** hillclimbing.cc:135-180 generate_candidate_pdbs. *)
Definition generate_candidates (nb : list (list nat)) (db : pdb) (s : list (list nat) * list (option pdb)) : outcome (list (list nat) * list (option pdb)) :=
  fold_outcome (fun s v =>
    let* conn := vget nb v in
    fold_outcome (try_variable db) (filter (fun u => negb (mem u (pj_pattern (db_pj db)))) conn) s) (pj_pattern (db_pj db)) s.
(** hillclimbing.cc:197-258 find_best_improving_pdb; [None] if the time is up. *)
Fixpoint find_best (k : nat) (current : list pdb) (size : Z) (i : nat) (cands : list (option pdb)) (improvement : nat) (best : option nat) : outcome (option (nat * option nat * list (option pdb))) :=
  match cands with
  | [] => Ok (Some (improvement, best, []))
  | c :: r =>
      if expired k i then Ok None
      else
        let continue c improvement best :=
          let* res := find_best k current size (i + 1) r improvement best in
          Ok (match res with Some (x, y, l) => Some (x, y, c :: l) | None => None end) in
        match c with
        | None => continue None improvement best
        | Some db =>
            let combined := (size + Z.of_nat (pj_num (db_pj db)))%Z in
            let* _ := guard (combined <=? INT_MAX)%Z in
            if (collection_max_size <? combined)%Z then continue None improvement best
            else if improvement <? count k current db then continue (Some db) (count k current db) (Some i)
            else continue (Some db) improvement best
        end
  end.
(** hillclimbing.cc:348-419 the main loop; a missing best candidate is undefined behaviour. *)
Fixpoint climb (fuel k : nat) (nb : list (list nat)) (current : list pdb) (size : Z) (s : list (list nat) * list (option pdb)) : outcome (list pdb) :=
  match fuel with
  | 0 => NoFuel
  | S fuel =>
      if dead k current then Ok current
      else if sampling k then Ok current
      else
        let* r := find_best k current size 0 (snd s) 0 None in
        match r with
        | None => Ok current
        | Some (improvement, best, cands) =>
            if improvement <? min_improvement then Ok current
            else
              match best with
              | None => UB
              | Some i =>
                  let* c := vget cands i in
                  match c with
                  | None => UB
                  | Some db =>
                      let* _ := guard (size + Z.of_nat (pj_num (db_pj db)) <=? INT_MAX)%Z in
                      let* s := generate_candidates nb db (fst s, cands) in
                      let* cands := vset (snd s) i None in
                      climb fuel (k + 1) nb (current ++ [db]) (size + Z.of_nat (pj_num (db_pj db))) (fst s, cands)
                  end
              end
        end
  end.
(** incremental_canonical_pdbs.cc:11-29: the databases of the initial patterns and their size. *)
Definition initial_pdbs (pats : list (list nat)) : outcome (list pdb * Z) :=
  fold_outcome (fun s p =>
    let* d := compute_pdb P q0 pdb_fuel t p [] in
    let* _ := guard (snd s + Z.of_nat (pj_num (db_pj d)) <=? INT_MAX)%Z in
    Ok (fst s ++ [d], (snd s + Z.of_nat (pj_num (db_pj d)))%Z)) pats ([], 0%Z).
(** hillclimbing.cc:439-463 compute_patterns, and 306-337 the candidates of the initial patterns. *)
Definition hill_climbing (fuel : nat) (dead_at_start no_time : bool) : outcome (list pdb) :=
  let* (current, size) := initial_pdbs (map (fun g : fact => [fst g]) (t_goal t)) in
  if dead_at_start || no_time then Ok current
  else
    let* cg := build_causal_graph t in
    let* nb := relevant_neighbours t cg in
    let* s := fold_outcome (fun s db => generate_candidates nb db s) current ([], []) in
    climb fuel 0 nb current size s.
End HC.
