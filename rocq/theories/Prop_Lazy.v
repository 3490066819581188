(** C22: lazy search. *)
From Verif Require Import Outcome Spec_Plan Spec_OpenList Spec_OpenListContract Spec_LazyController
  Model_SearchSpace Model_OpenList Model_Eager Model_Controller Model_Lazy Model_Rng Model_LazyController
  Proof_OpenList Proof_Controller Proof_Lazy Proof_LazyController Prop_Eager.

(** C22.  Whatever the edge open list, evaluators, preferred operators and random numbers do
    (within [lazy_ok]), with or without reopening, randomised successors and preferred
    successors first, for every step limit: the plan of a SOLVED search is a plan of the
    task; with real operator costs it is cheaper than the bound unless it is empty. *)
Theorem C22_lazy_sound :
  forall (T : TS) (ct : lazy_controller T) (cfg : lazy_config) I entries,
  ts_wf T -> lazy_ok ct I entries ->
  forall fuel c0 plan st, I c0 -> entries c0 = [] ->
  lazy_search T ct cfg fuel c0 = Ok (SOLVED plan st) ->
  is_plan T plan /\
  (ec_cost_type (lz_base cfg) = NORMAL -> forall b, ec_bound (lz_base cfg) = Some b ->
     plan = [] \/ sum_cost (ts_cost T) plan < b).
Proof. intros T ct cfg I entries Hwf HK fuel c0 plan st. exact (lazy_sound T ct cfg I entries Hwf HK fuel c0 plan st). Qed.
Print Assumptions C22_lazy_sound.

(** C22.  Nor does any run read or write outside the search space, apply an inapplicable
    operator or violate a node-status assertion. *)
Theorem C22_lazy_no_undefined_behaviour :
  forall (T : TS) (ct : lazy_controller T) (cfg : lazy_config) I entries,
  ts_wf T -> lazy_ok ct I entries ->
  forall fuel c0, I c0 -> entries c0 = [] -> exists r, lazy_search T ct cfg fuel c0 = Ok r.
Proof. intros T ct cfg I entries Hwf HK fuel c0. exact (lazy_no_ub T ct cfg I entries Hwf HK fuel c0). Qed.
Print Assumptions C22_lazy_no_undefined_behaviour.

(** C22, for the open lists of the planner: with any edge open list meeting the container
    contract and storing all edges with finite estimates, safe evaluators, applicable
    preferred operators, any random number stream and no cost bound, a FAILED search means
    that the task has no plan. *)
Theorem C22_lazy_complete :
  forall (T : TS) (L : open_list (nat * nat)) J ents evs boosting preferred (r : nat -> nat) cfg,
  ts_wf T -> ol_contract L J ents -> ol_accepting L J ents ->
  (forall ev s g, evs ev s g = None -> ~ solvable_from T s) ->
  (forall s, incl (preferred s) (ts_app T s)) ->
  ec_bound (lz_base cfg) = None ->
  forall fuel st,
  lazy_search T (lz_controller T L evs boosting preferred r) cfg fuel (lk_init L) = Ok (FAILED st) ->
  forall os, ~ is_plan T os.
Proof.
  intros T L J ents evs boosting preferred r cfg Hwf HL HA Hs Hp Hb fuel st.
  destruct (lk_init_ok L J ents HL) as [A B].
  exact (lazy_complete T _ cfg _ _ Hwf (lz_controller_ok T L J ents evs boosting preferred r HL Hp)
    (lz_controller_safe T L J ents evs boosting preferred r HL HA Hs) Hb fuel (lk_init L) st A B).
Qed.
Print Assumptions C22_lazy_complete.

Definition C22_cfg (ct : OperatorCost) (reopen : bool) (b : option nat) : lazy_config :=
  {| lz_base := {| ec_reopen := reopen; ec_cost_type := ct; ec_unit_cost := false; ec_bound := b |};
     lz_randomize := true; lz_pref_first := true |}.

Definition C22_list : open_list (nat * nat) := best_first (nat * nat) (fun _ => true) 1 false.

(** The hypotheses are met, with randomised successors, preferred successors first, and a
    bound that one of the two plans does not respect. *)
Example C22_nonvacuous :
  (forall r, lazy_ok (lz_controller ex_ts C22_list (@astar_evs ex_ts ex_h) [1] (fun s => firstn 1 (ts_app ex_ts s)) r)
     (lzI C22_list (bqJ lt)) (lz_entries C22_list bqents)) /\
  (forall r, lazy_safe (lz_controller ex_ts C22_list (@astar_evs ex_ts ex_h) [1] (fun s => firstn 1 (ts_app ex_ts s)) r)
     (lzI C22_list (bqJ lt)) (lz_entries C22_list bqents)) /\
  match lazy_search ex_ts
          (lz_controller ex_ts C22_list (@astar_evs ex_ts ex_h) [1] (fun s => firstn 1 (ts_app ex_ts s)) (fun k => k))
          (C22_cfg NORMAL true (Some 13)) 30 (lk_init C22_list) with
  | Ok (SOLVED plan _) => plan = [2; 21; 13; 34; 45]
  | _ => False
  end /\
  match lazy_search ex_ts
          (lz_controller ex_ts C22_list (@astar_evs ex_ts ex_h) [1] (fun s => firstn 1 (ts_app ex_ts s)) (fun k => k))
          (C22_cfg NORMAL true (Some 9)) 30 (lk_init C22_list) with
  | Ok (FAILED _) => True
  | _ => False
  end.
Proof.
  split; [|split; [|split]].
  - intros r. apply lz_controller_ok; [apply best_first_contract|].
    intros s o Ho. revert Ho. destruct (ts_app ex_ts s) as [|a l]; cbn; tauto.
  - intros r. apply lz_controller_safe; [apply best_first_contract|apply best_first_accepting|].
    intros [|ev] s g H; destruct s as [|[|[|[|[|s]]]]]; discriminate.
  - vm_compute. reflexivity.
  - vm_compute. exact Logic.I.
Qed.

(** C22: as for eager search (C19), the bound clause is false of the code for transformed
    costs: an edge that respected the bound when it was inserted can exceed it when its
    parent has been reopened with a lower adjusted but higher real cost. *)
Definition C22_bound_h (s : nat) : option nat := Some (match s with 0 => 5 | 2 => 10 | 4 => 5 | _ => 1 end).
Theorem C22_bound_with_transformed_costs_refuted :
  exists (T : TS) (L : open_list (nat * nat)) J ents evs b fuel plan st,
    ts_wf T /\ ol_contract L J ents /\
    lazy_search T (lz_controller T L evs [] (fun _ => []) (fun _ => 0))
      {| lz_base := {| ec_reopen := true; ec_cost_type := ONE; ec_unit_cost := false; ec_bound := Some b |};
         lz_randomize := false; lz_pref_first := false |}
      fuel (lk_init L) = Ok (SOLVED plan st) /\
    plan <> [] /\ b <= sum_cost (ts_cost T) plan.
Proof.
  exists bound_ts, C22_list, (bqJ lt), bqents, (@astar_evs bound_ts C22_bound_h), 10, 20.
  eexists _, _. split; [intros a b; apply Nat.eqb_eq|]. split; [apply best_first_contract|].
  split; [vm_compute; reflexivity|]. split; [discriminate|]. vm_compute. repeat constructor.
Qed.
Print Assumptions C22_bound_with_transformed_costs_refuted.
