(** The states the merge-and-shrink computation can go through. *)
From Verif Require Import Outcome Spec_Task Spec_Relaxation Spec_Projection Model_PQ Model_MAS Spec_FTS Proof_MAS1.

(** The labels of a group sit in one local label group of a transition system
    (label_reduction.cc:118-149 takes the groups from the local label groups of the other systems). *)
Definition one_local_group (T : tsys) (olds : list nat) : Prop := exists k, forall l, In l olds -> nth_error (ts_l2l T) l = Some (Some k).

(** The mappings label reduction computes (label_reduction.cc:71-116): numbered consecutively, at
    least two labels each, all in use, disjoint, and of equal cost. *)
Definition label_groups (L : label_costs) (mp : label_mapping) : Prop :=
  (forall j e, nth_error mp j = Some e -> fst e = length L + j) /\ NoDup (concat (map snd mp)) /\
  (forall e, In e mp -> 2 <= length (snd e) /\ exists c, forall l, In l (snd e) -> active L l c).

Section RUN.
Variable P : pqueue.
Variable q0 : PQ P.
Variable ord : list (nat * list nat) -> list (nat * list nat).
Variable ci cg : bool.
Variable t : task.

(** merge_and_shrink_algorithm.cc:239-392 main_loop and :395-477 build_factored_transition_system:
    starting from the atomic systems, any sequence of label reductions, shrinkings, prunings and
    merges that the strategies may choose.  The flag tells that only bisimilar states were combined.  The main loop
    stops when a factor has no initial state any more, so factors worked on have one. *)
Inductive built : bool -> fts -> Prop :=
| built_start : forall F, create_fts P q0 ci cg t = Ok F -> built true F
| built_merge : forall e F i j f g F', built e F -> i <> j -> get_factor F i = Ok f -> get_factor F j = Ok g ->
    ts_init (f_ts f) <> None -> ts_init (f_ts g) <> None ->
    merge_factors P q0 ord ci cg F i j = Ok F' -> built e F'
| built_shrink : forall e F i f x cls F', built e F -> get_factor F i = Ok f -> ts_init (f_ts f) = Some x ->
    grouping (ts_n (f_ts f)) cls -> only_useless_ungrouped (active (F_labels F)) (the_lts (f_ts f)) cls -> grouped cls x ->
    apply_abstraction P q0 ci cg F i cls = Ok F' -> built false F'
| built_bisim : forall e F i f x cls F', built e F -> get_factor F i = Ok f -> ts_init (f_ts f) = Some x ->
    grouping (ts_n (f_ts f)) cls -> (forall s, s < ts_n (f_ts f) -> grouped cls s) -> bisimulation (active (F_labels F)) (the_lts (f_ts f)) cls ->
    apply_abstraction P q0 ci cg F i cls = Ok F' -> built e F'
| built_prune : forall e F i f pu pi F', built e F -> get_factor F i = Ok f -> ts_init (f_ts f) <> None ->
    (pu = true -> ci = true) -> (pi = true -> cg = true) ->
    prune_step P q0 ci cg F i pu pi = Ok F' -> built e F'
| built_reduce : forall e F mp comb F', built e F -> label_groups (F_labels F) mp ->
    (forall i f en, i <> comb -> get_factor F i = Ok f -> In en mp -> one_local_group (f_ts f) (snd en)) ->
    apply_label_mapping F mp comb = Ok F' -> built e F'.
End RUN.

(** Tasks the heuristic supports: no derived variables; a condition mentions a variable once. *)
Definition mas_task (t : task) : Prop :=
  task_ok t /\ no_derived t /\ forall op e, In op (t_ops t) -> In e (op_effs op) -> NoDup (map fst (eff_cond e)).
(** Tasks on which it is exact if nothing is shrunk: also no conditional effects, and operators and
    the goal mention a variable once. *)
Definition mas_exact_task (t : task) : Prop :=
  mas_task t /\ NoDup (map fst (t_goal t)) /\
  forall op, In op (t_ops t) -> (forall e, In e (op_effs op) -> eff_cond e = []) /\ NoDup (map fst (op_pre op)) /\ NoDup (map (fun e => fst (eff_fact e)) (op_effs op)).
