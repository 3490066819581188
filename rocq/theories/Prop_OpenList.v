(** C25, C26, C27: best-first, tie-breaking and alternation open lists. *)
From Coq Require Import Permutation.
From Verif Require Import Outcome Spec_OpenList Spec_OpenListContract Model_OpenList
  Proof_OpenList Proof_Controller Proof_Alternation.

(** C25.  Every history of insert / remove_min / clear calls on a fresh best-first list
    returns what a stable priority queue ordered by the evaluator value returns (earliest
    inserted entry among those with the smallest value), and the list reports empty exactly
    when that queue is empty.  The list has undefined behaviour only for histories the
    queue does not have either (remove_min on an empty list). *)
Theorem C25_best_first_is_stable_queue : forall E reliable ev pref_only (ops : list (pq_op ectx E)),
  match ol_run (best_first E reliable ev pref_only) (ol_init (best_first E reliable ev pref_only)) ops with
  | Ok (outs, q') => exists l', pq_history lt (bf_key ev pref_only) [] ops outs l' /\
                       (ol_empty (best_first E reliable ev pref_only) q' = true <-> l' = [])
  | _ => forall outs l', ~ pq_history lt (bf_key ev pref_only) [] ops outs l'
  end.
Proof. exact best_first_history. Qed.
Print Assumptions C25_best_first_is_stable_queue.

Example C25_nonvacuous :
  let x v p := {| x_val := fun _ => v; x_pref := p |} in
  let L := best_first nat (fun _ => false) 0 false in
  option_map fst (match ol_run L (ol_init L)
    [PInsert (x (Some 4) true) 10; PInsert (x (Some 2) true) 11; PInsert (x None true) 12;
     PInsert (x (Some 2) false) 13; PRemove; PInsert (x (Some 2) true) 14; PRemove; PRemove; PRemove]
    with Ok r => Some r | _ => None end) = Some [11; 13; 14; 10].
Proof. vm_compute. reflexivity. Qed.

(** C26.  The same for the tie-breaking list, ordered lexicographically by the vector of
    evaluator values (infinity is largest); an entry is refused exactly when the list is for
    preferred operators only and the state is not preferred, or when the state counts as a
    dead end. *)
Theorem C26_tie_breaking_is_stable_lexicographic_queue : forall E reliable evs unsafe pref_only,
  exists key : ectx -> option (list (option nat)),
    (forall x, (key x = None <-> (pref_only = true /\ x_pref x = false) \/ tb_dead reliable evs unsafe x) /\
               (forall k, key x = Some k -> k = map (x_val x) evs)) /\
    forall ops : list (pq_op ectx E),
      match ol_run (tie_breaking E reliable evs unsafe pref_only)
                   (ol_init (tie_breaking E reliable evs unsafe pref_only)) ops with
      | Ok (outs, q') => exists l', pq_history lex_lt key [] ops outs l' /\
                           (ol_empty (tie_breaking E reliable evs unsafe pref_only) q' = true <-> l' = [])
      | _ => forall outs l', ~ pq_history lex_lt key [] ops outs l'
      end.
Proof. exact tie_breaking_history_spec. Qed.
Print Assumptions C26_tie_breaking_is_stable_lexicographic_queue.

Example C26_nonvacuous :
  let x v w := {| x_val := fun ev => match ev with 0 => v | _ => w end; x_pref := true |} in
  let L := tie_breaking nat (fun ev => ev =? 1) [0; 1] false false in
  option_map fst (match ol_run L (ol_init L)
    [PInsert (x (Some 4) (Some 7)) 10; PInsert (x (Some 4) (Some 2)) 11; PInsert (x (Some 1) None) 12;
     PInsert (x None (Some 5)) 13; PInsert (x (Some 4) (Some 2)) 14; PRemove; PRemove; PRemove; PRemove]
    with Ok r => Some r | _ => None end) = Some [11; 14; 10; 13].
Proof. vm_compute. reflexivity. Qed.

(** C27, selection.  For sublists that meet the open-list contract: whenever the alternation
    list is not empty, remove_min takes from a non-empty sublist whose priority is minimal
    among the non-empty ones (the first such), and raises only that priority, by one. *)
Theorem C27_alternation_selects_minimal_priority :
  forall E (Ls : list (open_list E)) J ents boost, subs_ok Ls J ents -> Ls <> [] ->
  forall q : alt_state Ls, J (alt_subs q) /\ length (alt_prio q) = length Ls ->
  ol_empty (alternation E Ls boost) q = false ->
  exists i p e s',
    alt_served q = Some i /\
    nth_error (subs_empty Ls (alt_subs q)) i = Some false /\
    nth_error (alt_prio q) i = Some p /\
    (forall j pj, nth_error (subs_empty Ls (alt_subs q)) j = Some false ->
       nth_error (alt_prio q) j = Some pj -> (p <= pj)%Z /\ (j < i -> (p < pj)%Z)) /\
    subs_remove Ls (alt_subs q) i = Ok (e, s') /\
    ol_remove_min (alternation E Ls boost) q =
      Ok (e, {| alt_subs := s'; alt_prio := upd (alt_prio q) i (p + 1)%Z |}).
Proof. intros E Ls J ents boost HS Hne q. exact (alt_select_spec Ls J ents boost HS q). Qed.
Print Assumptions C27_alternation_selects_minimal_priority.

(** C27, content.  The alternation list is a multiset container (the union of its
    sublists): insert adds only copies of the given entry, remove_min on a non-empty list
    takes out exactly one entry, it is empty iff all sublists are. *)
Theorem C27_alternation_loses_nothing :
  forall E (Ls : list (open_list E)) J ents boost, subs_ok Ls J ents -> Ls <> [] ->
  ol_contract (alternation E Ls boost)
    (fun q => J (alt_subs q) /\ length (alt_prio q) = length Ls) (fun q => ents (alt_subs q)).
Proof. exact alternation_contract. Qed.
Print Assumptions C27_alternation_loses_nothing.

(** C27, fairness.  From any state and for any number [B] of boosts there is a bound [N]:
    in every run with at most [B] boosts and more than [N] removals during which sublist
    [i] is never empty when an entry is removed, sublist [i] is served. *)
Theorem C27_alternation_fair :
  forall E (Ls : list (open_list E)) J ents boost, subs_ok Ls J ents -> Ls <> [] ->
  forall i (q : alt_state Ls) B, (0 <= boost)%Z -> i < length Ls ->
  J (alt_subs q) /\ length (alt_prio q) = length Ls ->
  exists N, forall cs, num_boosts cs <= B -> N < length (removals (alternation E Ls boost) q cs) ->
    (forall q', In q' (removals (alternation E Ls boost) q cs) ->
       nth_error (subs_empty Ls (alt_subs q')) i = Some false) ->
    exists q', In q' (removals (alternation E Ls boost) q cs) /\ alt_served q' = Some i.
Proof. intros E Ls J ents boost HS Hne. exact (alternation_fair Ls J ents boost HS Hne). Qed.
Print Assumptions C27_alternation_fair.

(** C27, boosting.  boost_preferred lowers the priority of exactly the sublists for preferred
    operators only, by the boost value, and changes no content. *)
Theorem C27_alternation_boost : forall E (Ls : list (open_list E)) boost (q : alt_state Ls),
  alt_subs (ol_boost (alternation E Ls boost) q) = alt_subs q /\
  forall i L p, nth_error Ls i = Some L -> nth_error (alt_prio q) i = Some p ->
    nth_error (alt_prio (ol_boost (alternation E Ls boost) q)) i =
      Some (if ol_only_pref L then p - boost else p)%Z.
Proof. exact alternation_boost_spec. Qed.
Print Assumptions C27_alternation_boost.

(** The hypotheses are met by alternating a best-first list, a preferred-only best-first
    list and a tie-breaking list. *)
Definition C27_lists : list (open_list nat) :=
  [best_first nat (fun _ => true) 0 false; best_first nat (fun _ => true) 0 true;
   tie_breaking nat (fun _ => true) [1; 0] false false].
Example C27_nonvacuous : exists J ents,
  subs_ok C27_lists J ents /\ C27_lists <> [] /\
  (J (subs_init C27_lists)) /\
  let A := alternation nat C27_lists 1000 in
  let x v w p := {| x_val := fun ev => match ev with 0 => v | _ => w end; x_pref := p |} in
  let cs := [CInsert (x (Some 3) (Some 1) false) 10; CInsert (x (Some 2) (Some 4) true) 11; CBoost;
             CRemove; CRemove; CRemove; CRemove] in
  map alt_served (removals A (ol_init A) cs) = [Some 1; Some 0; Some 2; Some 0].
Proof.
  eexists _, _. split.
  - unfold C27_lists. apply so_cons; [apply best_first_contract|].
    apply so_cons; [apply best_first_contract|]. apply so_cons; [|apply so_nil].
    apply tie_breaking_contract. discriminate.
  - split; [discriminate|]. split; [|vm_compute; reflexivity].
    cbn. splits; auto using bqJ_init.
Qed.
