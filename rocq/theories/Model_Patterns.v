(** The systematic pattern collection generator
    (src/search/pdbs/pattern_collection_generator_systematic.cc) and the normalisation of patterns
    (src/search/pdbs/validation.cc).

    Sets of variables kept in an unordered_set are duplicate-free lists; the order in which such a set
    is copied to a vector is unspecified: it is the parameter [order], which may even differ from one
    call to the next (its first argument is the position of the pattern being processed).  Not
    modelled: logging. *)
From Verif Require Import Outcome Spec_Task Model_MAS Model_CausalGraph.
Import ListNotations.

(* unordered_set<int>::insert of a range, and erase *)
Definition insert_all (xs s : list nat) : list nat := fold_left (fun s x => set_insert x s) xs s.
Definition erase (x : nat) (s : list nat) : list nat := filter (fun y => negb (y =? x)) s.

(** pattern_collection_generator_systematic.cc:21-37 patterns_are_disjoint: the two positions are the
    two lists of remaining elements. *)
Fixpoint patterns_are_disjoint (p1 : list nat) : list nat -> bool :=
  match p1 with
  | [] => fun _ => true
  | a :: r1 => fix go (p2 : list nat) : bool :=
      match p2 with
      | [] => true
      | b :: r2 => if a =? b then false else if a <? b then patterns_are_disjoint r1 p2 else go r2
      end
  end.

(** 39-46 compute_union_pattern (std::set_union). *)
Fixpoint union_pattern (p1 : list nat) : list nat -> list nat :=
  match p1 with
  | [] => fun p2 => p2
  | a :: r1 => fix go (p2 : list nat) : list nat :=
      match p2 with
      | [] => p1
      | b :: r2 => if a <? b then a :: union_pattern r1 p2 else if b <? a then b :: go r2 else a :: union_pattern r1 r2
      end
  end.

Section Systematic.
Variable order : nat -> list nat -> list nat.
Variable max_size : nat.

(** 56-77 compute_eff_pre_neighbors. *)
Definition compute_eff_pre_neighbors (no : nat) (cg : causal_graph) (p : list nat) : outcome (list nat) :=
  let* c := fold_outcome (fun c v => let* l := vget (g_eff_to_pre cg) v in Ok (insert_all l c)) p [] in
  Ok (order no (fold_left (fun c v => erase v c) p c)).

(** 79-118 compute_connection_points. *)
Definition compute_connection_points (no : nat) (cg : causal_graph) (p : list nat) : outcome (list nat) :=
  let* c := fold_outcome (fun c v => let* l := vget (g_successors cg) v in Ok (insert_all l c)) p [] in
  let* c := fold_outcome (fun c v =>
    let c := erase v c in
    let* l := vget (g_eff_to_pre cg) v in
    Ok (fold_left (fun c x => erase x c) l c)) p c in
  Ok (order no c).

(** 120-124 enqueue_pattern_if_new; the members pattern_set and patterns. *)
Record queue := { q_set : list (list nat); q_patterns : list (list nat) }.
Definition enqueue (q : queue) (p : list nat) : queue :=
  if in_dec (list_eq_dec Nat.eq_dec) p (q_set q) then q
  else {| q_set := p :: q_set q; q_patterns := q_patterns q ++ [p] |}.

(** 154-175 the growing loop of build_sga_patterns. *)
Fixpoint grow_sga (fuel : nat) (cg : causal_graph) (no : nat) (q : queue) : outcome queue :=
  if no <? length (q_patterns q) then
    match fuel with
    | 0 => NoFuel
    | S fuel =>
        let* p := vget (q_patterns q) no in
        if length p =? max_size then Ok q
        else
          let* ns := compute_eff_pre_neighbors no cg p in
          grow_sga fuel cg (no + 1) (fold_left (fun q v => enqueue q (sort Nat.leb (p ++ [v]))) ns q)
    end
  else Ok q.

(** 126-178 build_sga_patterns. *)
Definition build_sga_patterns (fuel : nat) (t : task) (cg : causal_graph) : outcome (list (list nat)) :=
  let q := fold_left (fun q (g : fact) => enqueue q [fst g]) (t_goal t) {| q_set := []; q_patterns := [] |} in
  let* q := grow_sga fuel cg 0 q in
  Ok (q_patterns q).

(** 192-203 sga_patterns_by_var. *)
Definition index_by_var (n : nat) (sga : list (list nat)) : outcome (list (list (list nat))) :=
  fold_outcome (fun m p => fold_outcome (fun m v => let* l := vget m v in vset m v (l ++ [p])) p m) sga (repeat [] n).

(** 227-237 the loop over the candidates. *)
Fixpoint attach (p1 : list nat) (cands : list (list nat)) (q : queue) : queue :=
  match cands with
  | [] => q
  | p2 :: r =>
      if max_size <? length p1 + length p2 then q
      else attach p1 r (if patterns_are_disjoint p1 p2 then enqueue q (union_pattern p1 p2) else q)
  end.

(** 213-239 the growing loop of build_patterns. *)
Fixpoint grow_unions (fuel : nat) (cg : causal_graph) (by_var : list (list (list nat))) (no : nat) (q : queue) : outcome queue :=
  if no <? length (q_patterns q) then
    match fuel with
    | 0 => NoFuel
    | S fuel =>
        let* p1 := vget (q_patterns q) no in
        let* ns := compute_connection_points no cg p1 in
        let* q := fold_outcome (fun q v => let* cands := vget by_var v in Ok (attach p1 cands q)) ns q in
        grow_unions fuel cg by_var (no + 1) q
    end
  else Ok q.

(** 180-245 build_patterns. *)
Definition build_patterns (fuel : nat) (t : task) : outcome (list (list nat)) :=
  let* cg := build_causal_graph t in
  let* sga := build_sga_patterns fuel t cg in
  let* by_var := index_by_var (length (t_vars t)) sga in
  let q := fold_left enqueue sga {| q_set := []; q_patterns := [] |} in
  let* q := grow_unions fuel cg by_var 0 q in
  Ok (q_patterns q).

(** 253-265 one round of build_patterns_naive: all the patterns with one more variable. *)
Definition naive_round (n i : nat) (current : list (list nat)) : outcome (list (list nat)) :=
  fold_outcome (fun next p =>
    let* first := (if 0 <? i then let* m := vget p (length p - 1) in Ok (m + 1) else Ok 0) in
    Ok (next ++ map (fun v => p ++ [v]) (seq first (n - first)))) current [].
(** 247-271 build_patterns_naive. *)
Definition build_patterns_naive (t : task) : outcome (list (list nat)) :=
  let* r := fold_outcome (fun (cp : list (list nat) * list (list nat)) i =>
      let* next := naive_round (length (t_vars t)) i (fst cp) in
      Ok (next, snd cp ++ next)) (seq 0 max_size) ([[]], []) in
  Ok (snd r).
End Systematic.

(** validation.cc:15-42 validate_and_normalize_pattern, for a task with [n] variables; 32 is the exit
    code SEARCH_CRITICAL_ERROR. *)
Fixpoint unique_ints (l : list Z) : list Z :=
  match l with
  | [] => []
  | x :: r => match r with y :: _ => if (x =? y)%Z then unique_ints r else x :: unique_ints r | [] => [x] end
  end.
Definition validate_and_normalize_pattern (n : nat) (p : list Z) : outcome (list nat) :=
  let p := unique_ints (sort Z.leb p) in
  match p with
  | [] => Ok []
  | front :: _ =>
      if (front <? 0)%Z then Exit 32
      else if (Z.of_nat n <=? last p 0)%Z then Exit 32
      else Ok (map Z.to_nat p)
  end.
(** validation.cc:44-61 validate_and_normalize_patterns (the rest only warns about duplicates). *)
Definition validate_and_normalize_patterns (n : nat) (ps : list (list Z)) : outcome (list (list nat)) :=
  fold_outcome (fun r p => let* p := validate_and_normalize_pattern n p in Ok (r ++ [p])) ps [].

(** pattern_collection_generator_systematic.cc:277-289 compute_patterns, and the constructor of the
    result (pattern_collection_information.cc:19-29). *)
Definition systematic_patterns (order : nat -> list nat -> list nat) (max_size : nat) (only_interesting : bool) (fuel : nat) (t : task) : outcome (list (list nat)) :=
  let* ps := (if only_interesting then build_patterns order max_size fuel t else build_patterns_naive max_size t) in
  validate_and_normalize_patterns (length (t_vars t)) (map (map Z.of_nat) ps).
