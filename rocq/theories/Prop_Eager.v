(** C18-C21: plan extraction, eager search, A-star. *)
From Verif Require Import Outcome Spec_Plan Spec_OpenList Spec_Controller Spec_OpenListContract
  Model_SearchSpace Model_OpenList Model_Eager Model_Controller
  Proof_OpenList Proof_Controller Proof_Trace Proof_Eager Proof_EagerComplete Proof_EagerTerm Proof_Planner.

(** C18.  After any sequence of search-space operations that runs without violating an
    assertion, the path extracted for any reached node is executable from the initial
    state and ends in that node's state; in particular it is a plan if that state is a goal
    state.  Its adjusted cost is at most the node's g-value, and the cost reported for it is
    the sum of its operators' costs. *)
Theorem C18_extracted_plan_valid :
  forall (T : TS) (ac : nat -> nat), ts_wf T ->
  forall (ops : list ss_op) (sp : space T), ss_run ac ops = Ok sp ->
  forall id s n g, nth_error sp id = Some (s, n) -> ni_g n = Some g ->
  exists plan, trace_path sp id = Ok plan /\
    path T (ts_init T) plan s /\ (ts_goal T s = true -> is_plan T plan) /\
    sum_cost ac plan <= g /\ @calculate_plan_cost T plan = sum_cost (ts_cost T) plan.
Proof.
  intros T ac Hwf ops sp Hr id s n g Hn Hg.
  destruct (trace_valid T ac Hwf ops sp id s n g Hr Hn Hg) as (plan & A & B & D).
  exists plan. split; [exact A|]. split; [exact B|]. split; [intros Hgoal; exists s; auto|].
  split; [exact D|apply calculate_plan_cost_sum].
Qed.
Print Assumptions C18_extracted_plan_valid.

(** C19.  Whatever the open list, evaluators, preferred operators, pruning method and lazy
    evaluator do (within [controller_ok]: open-list content is only changed by insert and
    remove_min, pruning only removes operators), with or without reopening, for every step
    limit: the plan of a SOLVED search is a plan of the task; with real operator costs
    (cost_type = NORMAL) it is cheaper than the bound unless it is empty. *)
Theorem C19_eager_sound :
  forall (T : TS) (ct : controller T) (cfg : eager_config) I entries,
  ts_wf T -> controller_ok ct I entries ->
  forall fuel c0 plan st, I c0 -> entries c0 = [] ->
  eager_search T ct cfg fuel c0 = Ok (SOLVED plan st) ->
  is_plan T plan /\
  (ec_cost_type cfg = NORMAL -> forall b, ec_bound cfg = Some b ->
     plan = [] \/ sum_cost (ts_cost T) plan < b).
Proof. intros T ct cfg I entries Hwf HK fuel c0 plan st. exact (eager_sound T ct cfg I entries Hwf HK fuel c0 plan st). Qed.
Print Assumptions C19_eager_sound.

(** C19.  Nor does any run read or write outside the search space or violate a node-status
    assertion. *)
Theorem C19_eager_no_undefined_behaviour :
  forall (T : TS) (ct : controller T) (cfg : eager_config) I entries,
  ts_wf T -> controller_ok ct I entries ->
  forall fuel c0, I c0 -> entries c0 = [] -> exists r, eager_search T ct cfg fuel c0 = Ok r.
Proof. intros T ct cfg I entries Hwf HK fuel c0. exact (eager_no_ub T ct cfg I entries Hwf HK fuel c0). Qed.
Print Assumptions C19_eager_no_undefined_behaviour.

(** C20.  Eager search with any open list that meets the container contract and stores all
    states with finite estimates, safe evaluators and no pruning: when it fails, every plan
    costs at least the bound; without a bound there is no plan.  (With a bound this needs
    reopening and real costs.) *)
Theorem C20_eager_complete :
  forall (T : TS) (L : open_list nat) J ents evs boosting preferred prune cfg,
  ts_wf T -> ol_contract L J ents -> ol_accepting L J ents ->
  (forall ev s g, evs ev s g = None -> ~ solvable_from T s) ->
  (forall s ops, prune s ops = ops) ->
  ec_bound cfg = None \/ (ec_cost_type cfg = NORMAL /\ ec_reopen cfg = true) ->
  forall fuel st,
  eager_search T (ol_controller T L evs boosting preferred prune) cfg fuel (cs_init L) = Ok (FAILED st) ->
  forall os, is_plan T os -> exists b, ec_bound cfg = Some b /\ b <= sum_cost (ts_cost T) os.
Proof.
  intros T L J ents evs boosting preferred prune cfg Hwf HL HA Hs Hp Hm fuel st.
  exact (ol_eager_complete T L J ents evs boosting preferred prune cfg Hwf HL fuel st HA Hs Hp Hm).
Qed.
Print Assumptions C20_eager_complete.

(** C20.  On finite state spaces the search always terminates: from some step limit on it
    ends with SOLVED or FAILED. *)
Theorem C20_eager_terminates :
  forall (T : TS) (L : open_list nat) J ents evs boosting preferred prune cfg,
  ts_wf T -> finite_space T -> ol_contract L J ents ->
  (forall s ops, incl (prune s ops) ops) ->
  exists fuel r,
    eager_search T (ol_controller T L evs boosting preferred prune) cfg fuel (cs_init L) = Ok r /\
    match r with IN_PROGRESS _ => False | _ => True end.
Proof.
  intros T L J ents evs boosting preferred prune cfg Hwf Hfin HL Hp.
  exact (ol_eager_terminates T L J ents evs boosting preferred prune cfg Hwf HL Hfin Hp).
Qed.
Print Assumptions C20_eager_terminates.

(** C21.  A-star with an admissible evaluator (not necessarily consistent) on a finite state
    space: if there is a plan, all runs with a large enough step limit return SOLVED with
    the same plan, and that plan is optimal for the costs the search uses. *)
Theorem C21_astar_finds_optimal_plan :
  forall (T : TS) (h : ts_state T -> option nat) reliable cost_type unit_cost,
  ts_wf T ->
  (forall s, admissible_at T (adj T (astar_config cost_type unit_cost None)) s (h s)) ->
  finite_space T -> (exists os, is_plan T os) ->
  exists n plan st,
    (forall fuel, n <= fuel ->
       astar T h reliable (astar_config cost_type unit_cost None) fuel = Ok (SOLVED plan st)) /\
    optimal_plan T (adj T (astar_config cost_type unit_cost None)) plan.
Proof. exact astar_finds_optimal. Qed.
Print Assumptions C21_astar_finds_optimal_plan.

(** C21, with a cost bound, and without assuming a finite state space: a returned plan is
    at most as expensive as every plan below the bound; FAILED means no plan is below the
    bound. *)
Theorem C21_astar_optimal_below_bound :
  forall (T : TS) (h : ts_state T -> option nat) reliable cost_type unit_cost bound,
  ts_wf T ->
  (forall s, admissible_at T (adj T (astar_config cost_type unit_cost bound)) s (h s)) ->
  bound = None \/ cost_type = NORMAL ->
  forall fuel,
  match astar T h reliable (astar_config cost_type unit_cost bound) fuel with
  | Ok (SOLVED plan _) =>
      is_plan T plan /\
      forall os, is_plan T os -> (forall b, bound = Some b -> sum_cost (ts_cost T) os < b) ->
        sum_cost (adj T (astar_config cost_type unit_cost bound)) plan <=
        sum_cost (adj T (astar_config cost_type unit_cost bound)) os
  | Ok (FAILED _) =>
      forall os, is_plan T os -> exists b, bound = Some b /\ b <= sum_cost (ts_cost T) os
  | Ok (IN_PROGRESS _) => True
  | _ => False
  end.
Proof.
  intros T h reliable cost_type unit_cost bound Hwf Hadm Hmode fuel.
  pose proof (astar_solved_optimal T h reliable cost_type unit_cost Hwf bound Hadm Hmode fuel) as HS.
  pose proof (astar_failed_unsolvable T h reliable cost_type unit_cost Hwf bound Hadm Hmode fuel) as HF.
  destruct (eager_no_ub T (astar_controller T h reliable) (astar_config cost_type unit_cost bound) _ _ Hwf
    (astar_controller_ok T h reliable) fuel (cs_init (astar_open reliable)) (proj1 (aI_init reliable))
    (f_equal (map fst) (proj2 (aI_init reliable)))) as [r Hr].
  unfold astar in *. rewrite Hr in *. destruct r as [st|st|plan st]; eauto.
Qed.
Print Assumptions C21_astar_optimal_below_bound.

(** A concrete transition system with zero-cost operators and an admissible but inconsistent
    evaluator that forces reopening: states 0..5, operators 10*i+j from i to j. *)
Definition ex_ts : TS := {|
  ts_state := nat; ts_eqb := Nat.eqb; ts_init := 0; ts_goal := fun s => s =? 5;
  ts_app := fun s => match s with
    | 0 => [1; 2] | 1 => [13] | 2 => [21] | 3 => [34] | 4 => [45; 43] | _ => [] end;
  ts_succ := fun _ o => o mod 10;
  ts_cost := fun o => match o with 1 => 6 | 2 => 1 | 13 => 2 | 21 => 1 | 34 => 0 | 45 => 5 | _ => 3 end |}.
Definition ex_h (s : nat) : option nat :=
  match s with 0 => Some 7 | 1 => Some 0 | 2 => Some 8 | 3 => Some 5 | 4 => Some 0 | _ => Some 0 end.

Lemma ex_ts_wf : ts_wf ex_ts.
Proof. intros a b. apply Nat.eqb_eq. Qed.
Lemma ex_ts_finite : finite_space ex_ts.
Proof.
  exists [0; 1; 2; 3; 4; 5]. split; [cbn; auto|].
  intros s o Hs Ho. cbn in Hs. decompose [or] Hs; subst; cbn in Ho; decompose [or] Ho; subst; cbn; tauto.
Qed.
(* exact goal distances: 0->9, 1->7, 2->8, 3->5, 4->5, 5->0 *)
Definition ex_star (s : nat) : nat := match s with 0 => 9 | 1 => 7 | 2 => 8 | 3 => 5 | 4 => 5 | _ => 0 end.
Lemma ex_lower : forall s os s', path ex_ts s os s' -> ts_goal ex_ts s' = true ->
  ex_star s <= sum_cost (ts_cost ex_ts) os.
Proof.
  intros s os s' H Hg; induction H as [s|s o os s' Ho Hp IH].
  - cbn in Hg. apply Nat.eqb_eq in Hg. subst. cbn. lia.
  - specialize (IH Hg). unfold sum_cost in *. cbn [fold_right].
    destruct s as [|[|[|[|[|s]]]]]; cbn in Ho; decompose [or] Ho; subst; try tauto; cbn in IH |- *; lia.
Qed.
Lemma ex_admissible cfg : ec_cost_type cfg = NORMAL -> forall s, admissible_at ex_ts (adj ex_ts cfg) s (ex_h s).
Proof.
  intros Hc s os (s' & Hp & Hg). pose proof (ex_lower s os s' Hp Hg) as H.
  assert (sum_cost (adj ex_ts cfg) os = sum_cost (ts_cost ex_ts) os) as ->.
  { unfold sum_cost. clear - Hc. induction os as [|o os IH]; cbn [fold_right]; auto.
    rewrite IH. unfold adj. now rewrite Hc. }
  destruct s as [|[|[|[|[|s]]]]]; cbn [ex_h ex_star] in *; eexists; split; eauto; lia.
Qed.

Example C18_nonvacuous :
  exists sp, @ss_run ex_ts (ts_cost ex_ts)
    [SSOpenInitial; SSClose 0; SSGenerate 0 1 true; SSGenerate 0 2 true; SSClose 1;
     SSGenerate 1 13 true; SSClose 2; SSGenerate 2 21 true] = Ok sp /\
    option_map (fun x => ni_g (snd x)) (nth_error sp 1) = Some (Some 2) /\
    trace_path sp 3 = Ok [2; 21; 13].
Proof. eexists. split; [vm_compute; reflexivity|]. split; vm_compute; reflexivity. Qed.

Example C21_nonvacuous :
  ts_wf ex_ts /\ finite_space ex_ts /\ (exists os, is_plan ex_ts os) /\
  (forall s, admissible_at ex_ts (adj ex_ts (astar_config NORMAL false None)) s (ex_h s)) /\
  match astar ex_ts ex_h true (astar_config NORMAL false None) 20 with
  | Ok (SOLVED plan _) => plan = [2; 21; 13; 34; 45]
  | _ => False
  end /\
  match astar ex_ts ex_h true (astar_config NORMAL false (Some 9)) 20 with
  | Ok (FAILED _) => True
  | _ => False
  end.
Proof.
  split; [exact ex_ts_wf|]. split; [exact ex_ts_finite|]. split.
  - exists [2; 21; 13; 34; 45]. exists 5. split; [|reflexivity].
    repeat (apply path_cons; [cbn; tauto|]; cbn [ts_succ ex_ts]). apply path_nil.
  - split; [intros s; apply ex_admissible; reflexivity|].
    split; vm_compute; auto.
Qed.

(** C19/C20 hypotheses are met by the alternation of a best-first and a preferred-only
    best-first list over the same transition system. *)
Definition C20_lists : list (open_list nat) :=
  [best_first nat (fun _ => true) 1 false; best_first nat (fun _ => true) 1 true].
Example C20_nonvacuous : exists J ents,
  ol_contract (alternation nat C20_lists 1000) J ents /\
  ol_accepting (alternation nat C20_lists 1000) J ents /\
  (forall ev s g, @astar_evs ex_ts ex_h ev s g = None -> ~ solvable_from ex_ts s) /\
  match eager_search ex_ts
          (ol_controller ex_ts (alternation nat C20_lists 1000) (@astar_evs ex_ts ex_h) [1]
             (fun _ => [34]) (fun _ ops => ops))
          {| ec_reopen := false; ec_cost_type := ONE; ec_unit_cost := false; ec_bound := None |} 30
          (cs_init _) with
  | Ok (SOLVED plan _) => plan = [1; 13; 34; 45]
  | _ => False
  end.
Proof.
  eexists _, _. split; [|split; [|split]].
  - apply alternation_contract; [|discriminate]. unfold C20_lists.
    apply so_cons; [apply best_first_contract|]. apply so_cons; [apply best_first_contract|apply so_nil].
  - unfold C20_lists. apply (alternation_accepting nat (best_first nat (fun _ => true) 1 false)
      [best_first nat (fun _ => true) 1 true] (bqJ lt) bqents
      (fun st => bqJ lt (fst st) /\ True) (fun st => bqents (fst st) ++ []) 1000);
      [apply best_first_contract|apply best_first_accepting|].
    apply (so_cons (best_first nat (fun _ => true) 1 true) [] (bqJ lt) bqents (fun _ => True) (fun _ => []));
      [apply best_first_contract|apply so_nil].
  - intros [|ev] s g H; destruct s as [|[|[|[|[|s]]]]]; discriminate.
  - vm_compute. reflexivity.
Qed.

(** C19: the bound clause is false of the code for transformed costs.  With cost_type = ONE
    a node can be redirected to a path with fewer but more expensive operators after its
    successors were generated; the bound is checked for the node itself, and the successors
    keep their parent pointers.  Here state 2 is first reached by three operators of cost 1,
    the goal 3 is generated from it (cost 3 + 5 < 10), then 2 is redirected to a path with two
    operators of total cost 8, and the goal is finally reached with cost 13 >= 10. *)
Definition bound_ts : TS := {|
  ts_state := nat; ts_eqb := Nat.eqb; ts_init := 0; ts_goal := fun s => s =? 3;
  ts_app := fun s => match s with 0 => [1; 4] | 1 => [15] | 5 => [52] | 4 => [42] | 2 => [23] | _ => [] end;
  ts_succ := fun _ o => o mod 10;
  ts_cost := fun o => match o with 42 => 7 | 23 => 5 | _ => 1 end |}.
Definition bound_h (s : nat) : option nat := Some (match s with 4 => 5 | 3 => 10 | _ => 1 end).

Theorem C19_bound_with_transformed_costs_refuted :
  exists (T : TS) (L : open_list nat) J ents evs b fuel plan st,
    ts_wf T /\ ol_contract L J ents /\
    eager_search T (ol_controller T L evs [] (fun _ => []) (fun _ ops => ops))
      {| ec_reopen := true; ec_cost_type := ONE; ec_unit_cost := false; ec_bound := Some b |}
      fuel (cs_init L) = Ok (SOLVED plan st) /\
    plan <> [] /\ b <= sum_cost (ts_cost T) plan.
Proof.
  exists bound_ts, (best_first nat (fun _ => false) 1 false), (bqJ lt), bqents, (@astar_evs bound_ts bound_h), 10, 20.
  eexists _, _. split; [intros a b; apply Nat.eqb_eq|]. split; [apply best_first_contract|].
  split; [vm_compute; reflexivity|]. split; [discriminate|]. vm_compute. repeat constructor.
Qed.
Print Assumptions C19_bound_with_transformed_costs_refuted.
