(** C28, C29, C30: Pareto, type-based and epsilon-greedy open lists. *)
From Coq Require Import Permutation.
From Verif Require Import Outcome Spec_OpenList Model_OpenList Spec_OpenListContract Spec_RandomOpenList Proof_OpenList
  Model_OpenList2 Proof_OpenList2 Proof_OpenList3 Proof_OpenList4 Proof_OpenList5.

(** Concrete data: two evaluators given by tables, entries are numbers. *)
Definition xy (a b : nat) : ectx := {| x_val := fun ev => match ev with 0 => Some a | _ => Some b end; x_pref := true |}.
Definition ops3 : list (pq_op ectx nat) :=
  [PInsert (xy 1 5) 10; PInsert (xy 5 1) 20; PInsert (xy 5 1) 21; PInsert (xy 5 1) 22; PInsert (xy 6 6) 30].

(* ------------------------------------------------------------------ C28 *)
(** Whatever the random numbers, removals of a Pareto list return the oldest entry of a key that
    no stored key dominates, exactly that entry is taken out, and empty() tells whether anything
    is stored. *)
Theorem C28_pareto_nondominated : forall E r reliable evs state_uniform pref_only, evs <> [] ->
  exists key, vector_key reliable evs pref_only key /\
    behaves_like (pareto E r reliable evs state_uniform pref_only) pareto_pick key.
Proof. intros. exists (vec_key reliable evs pref_only). split; [apply vec_key_spec|now apply pal_behaves]. Qed.
Print Assumptions C28_pareto_nondominated.

(** In every reachable state, every undominated key can be chosen. *)
Theorem C28_pareto_any_choice : forall E r reliable evs state_uniform pref_only ops outs q, evs <> [] ->
  ol_run (pareto E r reliable evs state_uniform pref_only) (ol_init (pareto E r reliable evs state_uniform pref_only)) ops = Ok (outs, q) ->
  exists key l, vector_key reliable evs pref_only key /\ rq_history pareto_pick key [] ops outs l /\
    forall k, undominated l k -> exists r' e q' l',
      ol_remove_min (pareto E r' reliable evs state_uniform pref_only) q = Ok (e, q') /\ pareto_pick l k e l'.
Proof.
  intros E r reliable evs su po ops outs q He H. destruct (pal_run _ _ _ _ _ _ He _ _ _ H) as (l & H1 & H2). exists (vec_key reliable evs po), l. splits; auto; [apply vec_key_spec|].
  intros k Hk. exact (pa_choose E evs su q l k He H2 Hk).
Qed.
Print Assumptions C28_pareto_any_choice.

(** Without state-uniform selection the choice is uniform: each undominated key is chosen by the
    same number of the possible sequences of draws. *)
Theorem C28_pareto_uniform : forall E r reliable evs pref_only ops outs q, evs <> [] ->
  ol_run (pareto E r reliable evs false pref_only) (ol_init (pareto E r reliable evs false pref_only)) ops = Ok (outs, q) ->
  exists key l, vector_key reliable evs pref_only key /\ rq_history pareto_pick key [] ops outs l /\
    (l <> [] -> exists ks choose, NoDup ks /\ (forall k, In k ks <-> undominated l k) /\
      (forall ds, In ds (draws_from 0 (length ks)) -> exists e q' l',
         ol_remove_min (pareto E (stream_of (pa_rng E q) ds) reliable evs false pref_only) q = Ok (e, q') /\ pareto_pick l (choose ds) e l') /\
      (forall k, In k ks ->
         length (filter (fun ds => okey_eqb (choose ds) k) (draws_from 0 (length ks))) * length ks = length (draws_from 0 (length ks)))).
Proof.
  intros E r reliable evs po ops outs q He H. destruct (pal_run _ _ _ _ _ _ He _ _ _ H) as (l & H1 & H2). exists (vec_key reliable evs po), l. splits; auto; [apply vec_key_spec|].
  intros Hl. exact (pa_uniform E evs q l He H2 Hl).
Qed.
Print Assumptions C28_pareto_uniform.

(** It satisfies what the search algorithms rely on. *)
Theorem C28_pareto_contract : forall E r reliable evs state_uniform pref_only, evs <> [] ->
  exists J ents, ol_contract (pareto E r reliable evs state_uniform pref_only) J ents /\
    (pref_only = false -> ol_accepting (pareto E r reliable evs state_uniform pref_only) J ents).
Proof. intros. eexists _, _. split; [now apply pal_contract|]. intros. now apply pal_accepting. Qed.
Print Assumptions C28_pareto_contract.

Example C28_nonvacuous : exists outs q, [0; 1] <> [] /\
  ol_run (pareto nat (fun i => i) (fun _ => true) [0; 1] false false) (ol_init (pareto nat (fun i => i) (fun _ => true) [0; 1] false false))
    (ops3 ++ [PRemove; PRemove]) = Ok (outs, q) /\ outs = [10; 20] /\ pa_nd nat q = [[Some 5; Some 1]].
Proof. eexists _, _. split; [discriminate|]. split; [vm_compute; reflexivity|]. split; reflexivity. Qed.

(** Finding: with state-uniform selection the documentation promises to weight the keys with their
    numbers of entries.  Keys (1,5) and (5,1) are undominated and hold 1 and 3 entries; among the
    sixteen pairs of draws from {0,..,3} (taken modulo 2 and modulo 4 by the code) twelve would have
    to choose (5,1), but only eight do. *)
Theorem C28_state_uniform_refuted : exists evs q,
  ol_run (pareto nat (fun _ => 0) (fun _ => true) evs true false) (ol_init (pareto nat (fun _ => 0) (fun _ => true) evs true false)) ops3 = Ok ([], q) /\
  (forall e, In e [10; 20; 21; 22; 30] <-> In e (pa_ents nat q)) /\
  length (filter (fun ds => match ol_remove_min (pareto nat (stream_of 0 ds) (fun _ => true) evs true false) q with
                            | Ok (e, _) => e =? 20 | _ => false end)
            (map (fun p => [fst p; snd p]) (list_prod (seq 0 4) (seq 0 4)))) = 8.
Proof.
  exists [0; 1]. eexists. split; [vm_compute; reflexivity|]. split; [|vm_compute; reflexivity].
  intros e. cbn. intuition auto.
Qed.
Print Assumptions C28_state_uniform_refuted.

(* ------------------------------------------------------------------ C29 *)
(** Whatever the random numbers, removals of a type-based list return a stored entry and take out
    exactly one copy of it; empty() tells whether anything is stored. *)
Theorem C29_type_based_nothing_lost : forall E r reliable evs,
  exists key, vector_key reliable evs false key /\ behaves_like (type_based E r reliable evs) any_pick key.
Proof. intros. exists (vec_key reliable evs false). split; [apply vec_key_spec|apply tbl_behaves]. Qed.
Print Assumptions C29_type_based_nothing_lost.

(** The stored entries are grouped by their keys; the first random number chooses uniformly among
    the keys, the second among the entries with that key. *)
Theorem C29_type_based_uniform : forall E r reliable evs ops outs q,
  ol_run (type_based E r reliable evs) (ol_init (type_based E r reliable evs)) ops = Ok (outs, q) ->
  exists key l ks ents, vector_key reliable evs false key /\ rq_history any_pick key [] ops outs l /\
    NoDup ks /\ (forall k, In k ks -> ents k <> []) /\ Permutation l (flat_map (fun k => map (pair k) (ents k)) ks) /\
    (l <> [] -> forall r', exists k e q' l',
      nth_error ks (r' (tb_rng E q) mod length ks) = Some k /\
      nth_error (ents k) (r' (S (tb_rng E q)) mod length (ents k)) = Some e /\
      ol_remove_min (type_based E r' reliable evs) q = Ok (e, q') /\ any_pick l k e l').
Proof.
  intros E r reliable evs ops outs q H. destruct (tbl_run _ _ _ _ _ _ _ H) as (l & H1 & H2). destruct (tb_two_draws q l H2) as (ks & ents & A & B & C & D).
  exists (vec_key reliable evs false), l, ks, ents. splits; auto; [apply vec_key_spec|]. intros Hl r'. destruct (D Hl r') as (k & e & q' & l' & F & G & I & K & _). exists k, e, q', l'. auto.
Qed.
Print Assumptions C29_type_based_uniform.

(** Hence every stored entry can be the next one returned. *)
Theorem C29_type_based_any_choice : forall E r reliable evs ops outs q,
  ol_run (type_based E r reliable evs) (ol_init (type_based E r reliable evs)) ops = Ok (outs, q) ->
  exists key l, vector_key reliable evs false key /\ rq_history any_pick key [] ops outs l /\
    forall k e, In (k, e) l -> exists r' q' l', ol_remove_min (type_based E r' reliable evs) q = Ok (e, q') /\ any_pick l k e l'.
Proof.
  intros E r reliable evs ops outs q H. destruct (tbl_run _ _ _ _ _ _ _ H) as (l & H1 & H2). exists (vec_key reliable evs false), l. splits; auto; [apply vec_key_spec|]. intros k e Hin. exact (tb_reach_all q l k e H2 Hin).
Qed.
Print Assumptions C29_type_based_any_choice.

Theorem C29_type_based_contract : forall E r reliable evs, evs <> [] ->
  exists J ents, ol_contract (type_based E r reliable evs) J ents /\ ol_accepting (type_based E r reliable evs) J ents.
Proof. intros. eexists _, _. split; [now apply tbl_contract|]. now apply tbl_accepting. Qed.
Print Assumptions C29_type_based_contract.

Example C29_nonvacuous : exists outs q,
  ol_run (type_based nat (fun i => i + 1) (fun _ => true) [0; 1]) (ol_init (type_based nat (fun i => i + 1) (fun _ => true) [0; 1]))
    (ops3 ++ [PRemove; PRemove]) = Ok (outs, q) /\ outs = [22; 10].
Proof. eexists _, _. split; [vm_compute; reflexivity|reflexivity]. Qed.

(* ------------------------------------------------------------------ C30 *)
(** Nothing is lost or invented, whatever the random numbers. *)
Theorem C30_epsilon_greedy_nothing_lost : forall E r coin reliable ev pref_only,
  behaves_like (epsilon_greedy E r coin reliable ev pref_only) any_pick (bf_key ev pref_only).
Proof. intros. apply egl_behaves. Qed.
Print Assumptions C30_epsilon_greedy_nothing_lost.

(** Without promotions it is the standard list: smallest value first, first in first out among
    equal values. *)
Theorem C30_epsilon_greedy_standard : forall E r coin reliable ev pref_only, (forall i, coin i = false) ->
  behaves_like (epsilon_greedy E r coin reliable ev pref_only) (stable_min lt) (bf_key ev pref_only).
Proof. intros. now apply egl_behaves_min. Qed.
Print Assumptions C30_epsilon_greedy_standard.

(** At every reachable point: if the coin does not ask for a promotion, the oldest entry of the
    smallest value is returned, whatever was promoted before; and every stored entry is returned at
    once if it is promoted. *)
Theorem C30_epsilon_greedy_each_step : forall E r coin reliable ev pref_only ops outs q,
  ol_run (epsilon_greedy E r coin reliable ev pref_only) (ol_init (epsilon_greedy E r coin reliable ev pref_only)) ops = Ok (outs, q) ->
  exists l, rq_history any_pick (bf_key ev pref_only) [] ops outs l /\
    (forall r' coin', l <> [] -> coin' (eg_rng E q) = false -> exists k e q' l',
       ol_remove_min (epsilon_greedy E r' coin' reliable ev pref_only) q = Ok (e, q') /\ stable_min lt l k e l') /\
    (forall k e, In (k, e) l -> exists r' q' l',
       ol_remove_min (epsilon_greedy E r' (fun _ => true) reliable ev pref_only) q = Ok (e, q') /\ any_pick l k e l').
Proof.
  intros E r coin reliable ev po ops outs q H. destruct (egl_run _ _ _ _ _ _ _ _ _ H) as (l & H1 & H2). exists l. splits; auto.
  - intros r' coin' Hl Hc. destruct (egl_remove_any E reliable ev po r' coin' q l H2 Hl) as (k & e & q' & l' & A & B & C & D). exists k, e, q', l'. auto.
  - intros k e Hin. destruct (egl_promote_all E reliable ev po q l k e H2 Hin) as (r' & q' & l' & A & B & _). eauto.
Qed.
Print Assumptions C30_epsilon_greedy_each_step.

Theorem C30_epsilon_greedy_contract : forall E r coin reliable ev pref_only,
  exists J ents, ol_contract (epsilon_greedy E r coin reliable ev pref_only) J ents /\
    (pref_only = false -> ol_accepting (epsilon_greedy E r coin reliable ev pref_only) J ents).
Proof. intros. eexists _, _. split; [apply egl_contract|]. intros. now apply egl_accepting. Qed.
Print Assumptions C30_epsilon_greedy_contract.

Example C30_nonvacuous : exists outs q,
  ol_run (epsilon_greedy nat (fun _ => 3) (fun i => i =? 1) (fun _ => true) 0 false)
    (ol_init (epsilon_greedy nat (fun _ => 3) (fun i => i =? 1) (fun _ => true) 0 false))
    (ops3 ++ [PRemove; PRemove; PRemove]) = Ok (outs, q) /\ outs = [10; 30; 20].
Proof. eexists _, _. split; [vm_compute; reflexivity|reflexivity]. Qed.
