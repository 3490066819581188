(** Model of the heuristics over collections of pattern databases: pdbs/zero_one_pdbs.cc,
    pdbs/canonical_pdbs.cc, pdbs/pattern_cliques.cc, pdbs/dominance_pruning.cc.
    Values are natural numbers ([None] is infinity): the int overflow of the sums is not modelled.
    Patterns are sorted, as PatternCollectionInformation's constructor makes them
    (validate_and_normalize_patterns is not modelled). *)
From Verif Require Import Outcome Spec_Task Model_Task Model_PQ Model_PDB Model_MaxCliques.

(* pdbs/utils.cc:46-54 (binary search in the sorted pattern) *)
Definition is_operator_relevant (pat : list nat) (op : operator) : bool :=
  existsb (fun e => existsb (Nat.eqb (fst (eff_fact e))) pat) (op_effs op).

Section COLL.
Variable P : pqueue.
Variable q0 : PQ P.

(* pdbs/zero_one_pdbs.cc:24-39 *)
Definition zero_relevant (t : task) (pat : list nat) (costs : list nat) : outcome (list nat) :=
  fold_outcome (fun costs io => if is_operator_relevant pat (snd io) then vset costs (fst io) 0 else Ok costs)
    (combine (seq 0 (length (t_ops t))) (t_ops t)) costs.
Fixpoint zero_one_loop (fuel : nat) (t : task) (pats : list (list nat)) (costs : list nat) : outcome (list pdb) :=
  match pats with
  | [] => Ok []
  | pat :: r =>
      let* db := compute_pdb P q0 fuel t pat costs in
      let* costs := zero_relevant t pat costs in
      let* dbs := zero_one_loop fuel t r costs in
      Ok (db :: dbs)
  end.
Definition zero_one_pdbs (fuel : nat) (t : task) (pats : list (list nat)) : outcome (list pdb) :=
  zero_one_loop fuel t pats (map op_cost (t_ops t)).
(* zero_one_pdbs.cc:42-55 *)
Fixpoint zero_one_value_from (dbs : list pdb) (s : state) (h : nat) : outcome (option nat) :=
  match dbs with
  | [] => Ok (Some h)
  | db :: r => let* v := pdb_value db s in
               match v with None => Ok None | Some v => zero_one_value_from r s (h + v) end
  end.
Definition zero_one_value (dbs : list pdb) (s : state) : outcome (option nat) := zero_one_value_from dbs s 0.

(* pattern_collection_information.cc:60-68: one database per pattern, with the task's costs *)
Fixpoint compute_pdbs (fuel : nat) (t : task) (pats : list (list nat)) : outcome (list pdb) :=
  match pats with
  | [] => Ok []
  | pat :: r => let* db := compute_pdb P q0 fuel t pat [] in let* dbs := compute_pdbs fuel t r in Ok (db :: dbs)
  end.
End COLL.

(* pattern_cliques.cc:25-39 *)
Definition mark (m : list (list bool)) (v1 v2 : nat) : outcome (list (list bool)) :=
  let* row := vget m v1 in let* row := vset row v2 false in vset m v1 row.
Definition compute_additive_vars (t : task) : outcome (list (list bool)) :=
  let n := length (t_vars t) in
  fold_outcome (fun m op =>
    fold_outcome (fun m e1 => fold_outcome (fun m e2 => mark m (fst (eff_fact e1)) (fst (eff_fact e2))) (op_effs op) m) (op_effs op) m)
    (t_ops t) (repeat (repeat true n) n).
(* pattern_cliques.cc:12-23 *)
Fixpoint all_additive (m : list (list bool)) (v1 : nat) (p2 : list nat) : outcome bool :=
  match p2 with
  | [] => Ok true
  | v2 :: r => let* row := vget m v1 in let* b := vget row v2 in if b then all_additive m v1 r else Ok false
  end.
Fixpoint are_patterns_additive (m : list (list bool)) (p1 p2 : list nat) : outcome bool :=
  match p1 with
  | [] => Ok true
  | v1 :: r => let* b := all_additive m v1 p2 in if b then are_patterns_additive m r p2 else Ok false
  end.
(* pattern_cliques.cc:44-57 *)
Definition push_edge (g : list (list nat)) (i j : nat) : outcome (list (list nat)) :=
  let* li := vget g i in let* g := vset g i (li ++ [j]) in
  let* lj := vget g j in vset g j (lj ++ [i]).
Definition compatibility_graph (m : list (list bool)) (pats : list (list nat)) : outcome (list (list nat)) :=
  let n := length pats in
  fold_outcome (fun g i =>
    fold_outcome (fun g j =>
      let* pi := vget pats i in let* pj := vget pats j in
      let* b := are_patterns_additive m pi pj in
      if b then push_edge g i j else Ok g) (seq (S i) (n - S i)) g) (seq 0 n) (repeat [] n).
(* pattern_cliques.cc:41-62 *)
Definition compute_pattern_cliques (m : list (list bool)) (pats : list (list nat)) : outcome (list (list nat)) :=
  let* g := compatibility_graph m pats in compute_max_cliques g.

(* canonical_pdbs.cc:25-36 *)
Fixpoint pdb_values (dbs : list pdb) (s : state) : outcome (option (list nat)) :=
  match dbs with
  | [] => Ok (Some [])
  | db :: r => let* v := pdb_value db s in
               match v with
               | None => Ok None
               | Some h => let* hs := pdb_values r s in Ok (option_map (cons h) hs)
               end
  end.
(* canonical_pdbs.cc:37-44 *)
Definition clique_value (hs : list nat) (clique : list nat) : outcome nat :=
  fold_outcome (fun c i => let* h := vget hs i in Ok (c + h)) clique 0.
Definition canonical_value (dbs : list pdb) (cliques : list (list nat)) (s : state) : outcome (option nat) :=
  let* hs := pdb_values dbs s in
  match hs with
  | None => Ok None
  | Some hs => let* m := fold_outcome (fun m c => let* h := clique_value hs c in Ok (Nat.max m h)) cliques 0 in Ok (Some m)
  end.

(* dominance_pruning.cc:53-66, release build: the assertion that no variable occurs in two patterns
   of the clique is not checked, a later pattern overwrites the entry *)
Definition variable_to_pattern_id (nvars : nat) (pats : list (list nat)) (clique : list nat) : outcome (list (option nat)) :=
  fold_outcome (fun m id => let* pat := vget pats id in fold_outcome (fun m v => vset m v (Some id)) pat m) clique (repeat None nvars).
(* dominance_pruning.cc:75-93 *)
Fixpoint all_entries (m : list (option nat)) (id : nat) (pat : list nat) : outcome bool :=
  match pat with
  | [] => Ok true
  | v :: r => let* e := vget m v in
              match e with Some id' => if id' =? id then all_entries m id r else Ok false | None => Ok false end
  end.
Definition is_pattern_dominated (m : list (option nat)) (pat : list nat) : outcome bool :=
  match pat with
  | [] => UB
  | v :: r => let* e := vget m v in match e with None => Ok false | Some id => all_entries m id r end
  end.
(* dominance_pruning.cc:68-72 *)
Definition dominated_patterns (m : list (option nat)) (pats : list (list nat)) : outcome (list bool) :=
  fold_outcome (fun l pat => let* b := is_pattern_dominated m pat in Ok (l ++ [b])) pats [].
(* dominance_pruning.cc:95-106 *)
Fixpoint is_clique_dominated (dom : list bool) (clique : list nat) : outcome bool :=
  match clique with [] => Ok true | id :: r => let* b := vget dom id in if b then is_clique_dominated dom r else Ok false end.
(* dominance_pruning.cc:117-151; the time limit is reached after [limit] iterations ([None]: never) *)
Definition pruned_cliques (limit : option nat) (nvars : nat) (pats : list (list nat)) (cliques : list (list nat)) : outcome (list bool) :=
  let n := length cliques in
  fold_outcome (fun pruned c1 =>
    let* p1 := vget pruned c1 in
    if (p1 : bool) then Ok pruned
    else
      let* clique := vget cliques c1 in
      let* m := variable_to_pattern_id nvars pats clique in
      let* dom := dominated_patterns m pats in
      fold_outcome (fun pruned c2 =>
        let* p2 := vget pruned c2 in
        if negb (c1 =? c2) && negb p2 then
          let* clique2 := vget cliques c2 in
          let* b := is_clique_dominated dom clique2 in
          if (b : bool) then vset pruned c2 true else Ok pruned
        else Ok pruned) (seq 0 n) pruned)
    (seq 0 (match limit with Some k => Nat.min n (S k) | None => n end)) (repeat false n).

(* dominance_pruning.cc:154-213 *)
Definition renumber (old_to_new : list (option nat)) (clique : list nat) : outcome (list nat) :=
  fold_outcome (fun l id => let* e := vget old_to_new id in
                            match e with Some id' => Ok (l ++ [id']) | None => UB end) clique [].
Definition prune_dominated_cliques {D} (limit : option nat) (nvars : nat) (pats : list (list nat)) (dbs : list D) (cliques : list (list nat))
  : outcome (list (list nat) * list D * list (list nat)) :=
  let* pruned := pruned_cliques limit nvars pats cliques in
  let* (remaining, used) := fold_outcome (fun st ci =>
      let '(rem, used) := st in
      let* p := vget pruned (fst ci) in
      if (p : bool) then Ok (rem, used)
      else let* used := fold_outcome (fun used id => vset used id true) (snd ci) used in Ok (rem ++ [snd ci], used))
    (combine (seq 0 (length cliques)) cliques) ([], repeat false (length pats)) in
  let* (st, old_to_new) := fold_outcome (fun st id =>
      let '((rpats, rdbs), m) := st in
      let* u := vget used id in
      if (u : bool) then
        let* m := vset m id (Some (length rpats)) in
        let* pat := vget pats id in let* db := vget dbs id in
        Ok ((rpats ++ [pat], rdbs ++ [db]), m)
      else Ok st) (seq 0 (length pats)) (([], []), repeat None (length pats)) in
  let* cliques := fold_outcome (fun l c => let* c := renumber old_to_new c in Ok (l ++ [c])) remaining [] in
  Ok (fst st, snd st, cliques).
