(** C72: merge strategies. *)
From Coq Require Import Permutation Sorted Relation_Operators.
From Verif Require Import Outcome Spec_Task Spec_Relaxation Spec_Projection Spec_CausalGraph Model_PQ Model_Graph Model_MAS Spec_FTS Model_MASRun Model_MASAlgorithm Spec_MASAlgorithm Model_MergeStrategy Spec_MergeStrategy Spec_Selection.
From Verif Require Import Proof_MAS11 Proof_MAS12 Proof_MAA11 Proof_MS1 Proof_MS2 Proof_MS3 Proof_MS4 Proof_MS5 Proof_MS6 Proof_MS7 Proof_MS11 Prop_PDB Prop_MAS Prop_MASAlgorithm.

(** ** Variable orders *)
(** The variable order finder lists every variable once: each time a variable of highest priority, and
    among several the first one in the order that the option names.  The orders by causal graph and
    goals end with an input error exactly if a variable does not influence the goal. *)
Theorem C72_variable_order t o shuffle : task_ok t -> 0 < length (t_vars t) -> (forall l, Permutation (shuffle l) l) ->
  exists base, base_order o (length (t_vars t)) base /\
    ((exists vs, variable_order o shuffle t = Ok vs /\ follows_order t o base vs /\ (needs_relevance o -> forall v, v < length (t_vars t) -> relevant t v)) \/
     (variable_order o shuffle t = Exit 33 /\ needs_relevance o /\ exists v, v < length (t_vars t) /\ ~ relevant t v)).
Proof. intros Ht Hpos Hsh. exact (variable_order_ok t Ht Hpos o shuffle Hsh). Qed.
Print Assumptions C72_variable_order.

(** ** All strategies *)
(** Every strategy starts and always names two different factors. *)
Theorem C72_good_merges P bag q0 ord O t shuffle_vars shuffle random pick sort s :
  pq_contract P bag -> bag q0 = [] -> (forall b, Permutation (ord b) b) -> mas_task t -> 0 < length (t_vars t) ->
  (forall l, Permutation (shuffle_vars l) l) -> random_ok shuffle random pick -> sorts sort -> strategy_ok t s ->
  o_merge_init O = strategy_init_distances s -> o_merge_goal O = strategy_goal_distances s ->
  good_merges P q0 ord O t (make_strategy P q0 ord shuffle_vars shuffle random pick sort s t).
Proof.
  intros HP Hq Hord Ht Hpos Hsv Hrnd Hsort Hs Hi Hg. destruct s as [o|l|o l]; cbn [make_strategy strategy_ok strategy_init_distances strategy_goal_distances] in *.
  - destruct (variable_order_ok t (proj1 Ht) Hpos o shuffle_vars Hsv) as (base & _ & [(vs & E & [Hperm _] & _)|(_ & Hn & v & Hv & Hno)]); [|destruct (Hno (Hs Hn v Hv))]. apply (linear_good P q0 ord O t o shuffle_vars vs E Hperm Hpos).
  - destruct Hs as [H1 H2]. apply (stateless_good P bag HP q0 Hq ord Hord O t Ht shuffle random pick Hrnd l H1 H2); unfold o_ci, o_cg; intros K; [rewrite Hi, K|rewrite Hg, K]; now rewrite orb_true_r.
  - destruct Hs as [H1 H2]. destruct (components t (proj1 Ht) sort Hsort o) as (cs & E & A1 & A2 & A3 & _). apply (scc_good P bag HP q0 Hq ord Hord O t Ht shuffle random pick Hrnd l H1 H2) with (cs := cs); auto; unfold o_ci, o_cg; intros K; [rewrite Hi, K|rewrite Hg, K]; now rewrite orb_true_r.
Qed.
Print Assumptions C72_good_merges.

(** So merge-and-shrink is admissible with each of them, and perfect if nothing is lost. *)
Theorem C72_admissible P bag q0 ord O pick_groups t shuffle_vars shuffle random pick sort s timeout no_time :
  pq_contract P bag -> bag q0 = [] -> (forall b, Permutation (ord b) b) -> mas_task t -> 0 < length (t_vars t) -> options_ok t O -> picks_two_groups pick_groups ->
  (forall l, Permutation (shuffle_vars l) l) -> random_ok shuffle random pick -> sorts sort -> strategy_ok t s ->
  o_merge_init O = strategy_init_distances s -> o_merge_goal O = strategy_goal_distances s ->
  exists F rs, build_factored_transition_system P q0 ord O pick_groups (make_strategy P q0 ord shuffle_vars shuffle random pick sort s t) timeout t no_time = Ok F /\ extract_factors P q0 F = Ok rs /\
    forall os st, task_path t (t_init t) os st -> exists v, compute_heuristic rs st = Ok v /\
      forall plan, task_plan_from t st plan -> exists h, v = Some h /\ h <= plan_cost t plan.
Proof. intros. eapply C71_admissible; eauto. eapply C72_good_merges; eauto. Qed.
Print Assumptions C72_admissible.

Theorem C72_exact P bag q0 ord O pick_groups t shuffle_vars shuffle random pick sort s timeout use_up :
  pq_contract P bag -> bag q0 = [] -> (forall b, Permutation (ord b) b) -> mas_exact_task t -> 0 < length (t_vars t) -> options_ok t O -> picks_two_groups pick_groups ->
  (forall l, Permutation (shuffle_vars l) l) -> random_ok shuffle random pick -> sorts sort -> strategy_ok t s ->
  o_merge_init O = strategy_init_distances s -> o_merge_goal O = strategy_goal_distances s ->
  o_shrink O = ShrinkBisimulation false use_up -> number_of_states t <= o_before_merge O -> (forall n k, timeout n k = false) ->
  exists F rs, build_factored_transition_system P q0 ord O pick_groups (make_strategy P q0 ord shuffle_vars shuffle random pick sort s t) timeout t false = Ok F /\ extract_factors P q0 F = Ok rs /\
    (exists v, compute_heuristic rs (t_init t) = Ok v /\ perfect_value t (t_init t) v) /\
    forall plan, task_plan_from t (t_init t) plan -> forall os st, task_path t (t_init t) os st -> exists v, compute_heuristic rs st = Ok v /\ perfect_value t st v.
Proof. intros. eapply C71_exact; eauto. eapply C72_good_merges; eauto. exact (proj1 H2). Qed.
Print Assumptions C72_exact.

(** ** Linear merging *)
(** The factors of the first two variables of the order are merged, then each time the latest product
    with the factor of the next variable.  Without an order the strategy ends with an input error. *)
Theorem C72_linear P q0 ord O t o shuffle : task_ok t -> 0 < length (t_vars t) -> (forall l, Permutation (shuffle l) l) ->
  (exists vs base, variable_order o shuffle t = Ok vs /\ base_order o (length (t_vars t)) base /\ follows_order t o base vs /\
     forall h m F, strategy_run P q0 ord O t (precomputed_linear o shuffle t) h m F -> forall q c, nth_error h q = Some c -> c = linear_merge vs q) \/
  (forall F, ms_start (precomputed_linear o shuffle t) F = Exit 33).
Proof.
  intros Ht Hpos Hsh. destruct (variable_order_ok t Ht Hpos o shuffle Hsh) as (base & HB & [(vs & E & HF & _)|(E & _)]); [left|right].
  - exists vs, base. split; [exact E|]. split; [exact HB|]. split; [exact HF|]. intros h m F HR. eapply linear_run; eauto. exact (proj1 HF).
  - intros F. cbn [ms_start precomputed_linear]. now rewrite E.
Qed.
Print Assumptions C72_linear.

(** ** Components first *)
(** As long as a component of the causal graph is spread over several factors, each merge stays inside
    one component; the components are treated one after the other in the order that the option names. *)
Theorem C72_components P bag q0 ord O t shuffle random pick sort o l h m F :
  pq_contract P bag -> bag q0 = [] -> (forall b, Permutation (ord b) b) -> mas_task t -> random_ok shuffle random pick -> sorts sort -> selector_ok l ->
  o_merge_init O = sel_init_distances l -> o_merge_goal O = sel_goal_distances l ->
  strategy_run P q0 ord O t (sccs_first P q0 ord shuffle random pick sort o l t) h m F ->
  (forall q, q < length h -> (exists u, merge_inside t h q u) \/ all_together t h q) /\
  (forall q q' u u', q < q' -> merge_inside t h q u -> merge_inside t h q' u' -> ~ connected t u u' -> in_order t o u u').
Proof.
  intros HP Hq Hord Ht Hrnd Hsort [H1 H2] Hi Hg HR. destruct (components t (proj1 Ht) sort Hsort o) as (cs & E & A1 & A2 & A3 & A4 & A5 & A6).
  assert (Ki : sel_init_distances l = true -> o_ci O = true) by (unfold o_ci; intros K; rewrite Hi, K; now rewrite orb_true_r). assert (Kg : sel_goal_distances l = true -> o_cg O = true) by (unfold o_cg; intros K; rewrite Hg, K; now rewrite orb_true_r).
  destruct (scc_run P bag HP q0 Hq ord Hord O t Ht shuffle random pick Hrnd l H1 H2 Ki Kg sort o cs E A1 A2 A3 h m F HR) as [f Hf]. exact (past_components t o cs h f A4 A5 A6 Hf).
Qed.
Print Assumptions C72_components.

(** ** Selection by scores *)
(** All pairs of factors are candidates.  The scoring functions are applied one after the other; each
    keeps the candidates with the best score, until one candidate is left, which is merged next.  If
    several are left at the end, the strategy ends with a critical error. *)
Theorem C72_selection P bag q0 ord O t shuffle random pick l :
  pq_contract P bag -> bag q0 = [] -> (forall b, Permutation (ord b) b) -> mas_task t -> mentions_once t -> random_ok shuffle random pick -> Forall scoring_ok l ->
  o_merge_init O = sel_init_distances l -> o_merge_goal O = sel_goal_distances l ->
  let MS := stateless P q0 ord shuffle random pick l t in
  exists ols, (forall k a p b, nth_error l k = Some (TotalOrder a p b) -> system_sequence a p b (length (t_vars t)) (ols k)) /\
    forall h m F n, strategy_run P q0 ord O t MS h m F -> 2 <= num_active F ->
      exists cands r, NoDup cands /\ (forall i j, In (i, j) cands <-> i < j /\ (exists f, get_factor F i = Ok f) /\ exists g, get_factor F j = Ok g) /\
        narrowed (fun F0 => exists h0 h1 m0, h = h0 ++ h1 /\ strategy_run P q0 ord O t MS h0 m0 F0) F ols 0 l cands r /\
        ((exists c m', r = [c] /\ ms_get_next MS n m F = Ok (c, m')) \/ (2 <= length r /\ ms_get_next MS n m F = Exit 32)).
Proof.
  intros HP Hq Hord Ht Hm Hrnd HL Hi Hg MS. assert (Ki : sel_init_distances l = true -> o_ci O = true) by (unfold o_ci; intros K; rewrite Hi, K; now rewrite orb_true_r). assert (Kg : sel_goal_distances l = true -> o_cg O = true) by (unfold o_cg; intros K; rewrite Hg, K; now rewrite orb_true_r).
  exists (the_orders t shuffle l). split.
  - intros k a p b E. unfold the_orders. rewrite E. apply sequence_ok; apply (proj1 Hrnd).
  - intros h m F n HR H2. exact (stateless_selection P bag HP q0 Hq ord Hord O t Ht Hm shuffle random pick Hrnd l HL Ki Kg h m F n HR H2).
Qed.
Print Assumptions C72_selection.

(** ** A task with two components *)
(* variables 0 and 1 depend on each other, and so do 2 and 3; variable 0 depends on variable 3 *)
Definition two_sccs : task := {|
  t_vars := repeat {| vdom := 2; vlayer := None; vdefault := 0 |} 4;
  t_ops := [{| op_pre := [(1, 0)]; op_effs := [{| eff_cond := []; eff_fact := (0, 1) |}]; op_cost := 5 |};
            {| op_pre := [(0, 1)]; op_effs := [{| eff_cond := []; eff_fact := (1, 1) |}]; op_cost := 1 |};
            {| op_pre := [(3, 0)]; op_effs := [{| eff_cond := []; eff_fact := (2, 1) |}]; op_cost := 1 |};
            {| op_pre := [(2, 1)]; op_effs := [{| eff_cond := []; eff_fact := (3, 1) |}]; op_cost := 1 |};
            {| op_pre := [(3, 1)]; op_effs := [{| eff_cond := []; eff_fact := (0, 1) |}]; op_cost := 1 |}];
  t_rules := []; t_init := [0; 0; 0; 0]; t_goal := [(0, 1); (1, 1)] |}.
Lemma fact_ok_two_sccs f : (fst f <? 4) && (snd f <? 2) = true -> fact_ok two_sccs f.
Proof.
  destruct f as [v d]. cbn [fst snd]. intros H. apply andb_true_iff in H. destruct H as [H1 H2]. apply Nat.ltb_lt in H1, H2.
  destruct v as [|[|[|[|v]]]]; try lia; eexists; (split; [reflexivity|exact H2]).
Qed.
Lemma two_sccs_task : mas_exact_task two_sccs.
Proof.
  unfold mas_exact_task. splits.
  - unfold mas_task. splits.
    + unfold task_ok. splits; cbn [t_vars t_ops t_rules t_init t_goal two_sccs].
      * repeat constructor; cbn; try lia; intros H; congruence.
      * repeat constructor; try (apply fact_ok_two_sccs; reflexivity).
      * constructor.
      * repeat constructor.
      * repeat constructor; apply fact_ok_two_sccs; reflexivity.
    + split; [reflexivity|]. intros [|[|[|[|v]]]]; try reflexivity. unfold layer_of. cbn [t_vars two_sccs repeat]. destruct v; reflexivity.
    + cbn [t_ops two_sccs]. intros op e Ho He. cbn [In] in Ho. decompose [or] Ho; subst; try contradiction; cbn [op_effs In] in He; decompose [or] He; subst; try contradiction; cbn [eff_cond map]; apply NoDup_nil.
  - cbn [t_goal two_sccs map fst]. repeat constructor; cbn [In]; intuition discriminate.
  - cbn [t_ops two_sccs]. intros op Ho. cbn [In] in Ho. decompose [or] Ho; subst; try contradiction; cbn [op_pre op_effs];
      (split; [intros e He; cbn [In] in He; decompose [or] He; subst; try contradiction; reflexivity|]);
      repeat split; try reflexivity; cbn [map fst eff_fact]; repeat constructor; cbn [In]; intuition discriminate.
Qed.
Definition no_shuffle : nat -> bool -> list nat -> list nat := fun _ _ l => l.
Definition pick_first : nat -> nat -> nat * nat -> bool -> list (list nat) -> nat * nat := fun _ _ _ _ _ => (0, 1).
Definition ex_random : nat -> nat -> nat -> nat := fun _ _ m => m - 1.
(* insertion sort *)
Fixpoint insert_by (less : list nat -> list nat -> bool) (x : list nat) (l : list (list nat)) : list (list nat) :=
  match l with [] => [x] | y :: r => if less y x then y :: insert_by less x r else x :: l end.
Definition ex_sort less (l : list (list nat)) := fold_right (insert_by less) [] l.
Definition ex_scores : list scoring := [GoalRelevance; DFP; MIASM (ShrinkFH true false) 6 6 1 true; TotalOrder AtomicReverseLevel NewToOld false].
Definition ex_options (s : strategy_option) : mas_options := {|
  o_shrink := ShrinkBisimulation false true; o_reduction := Some (AllSystemsFixpoint, true, false); o_order := system_order Regular (fun l => l) 4;
  o_prune_unreachable := true; o_prune_irrelevant := true; o_max_states := 16; o_before_merge := 16; o_threshold := 1;
  o_merge_init := strategy_init_distances s; o_merge_goal := strategy_goal_distances s |}.
(* the merges if nothing else is done, and the value of the initial state *)
Fixpoint ex_merges (MS : merge_strategy) ci cg (k n : nat) (m : ms_state MS) (F : fts) : list (nat * nat) :=
  match k with
  | 0 => []
  | S k => match ms_get_next MS n m F with
           | Ok (i, j, m) => (i, j) :: match merge_factors list_pq [] idord ci cg F i j with Ok F => ex_merges MS ci cg k (S n) m F | _ => [] end
           | _ => []
           end
  end.
Definition ex_strategy s := make_strategy list_pq [] idord (fun l => l) no_shuffle ex_random pick_first ex_sort s two_sccs.
Definition ex_run (s : strategy_option) : list (nat * nat) :=
  let O := ex_options s in
  match create_fts list_pq [] (o_ci O) (o_cg O) two_sccs with
  | Ok F => match ms_start (ex_strategy s) F with Ok m => ex_merges (ex_strategy s) (o_ci O) (o_cg O) 3 0 m F | _ => [] end
  | _ => []
  end.
Definition ex_value (s : strategy_option) : option (outcome (option nat)) :=
  match build_factored_transition_system list_pq [] idord (ex_options s) (fun _ _ => (0, 1)) (ex_strategy s) (fun _ _ => false) two_sccs false with
  | Ok F => match extract_factors list_pq [] F with Ok rs => Some (compute_heuristic rs (t_init two_sccs)) | _ => None end
  | _ => None
  end.
(* with this goal, variables 0 and 1 are irrelevant *)
Definition only_two_three : task := {| t_vars := t_vars two_sccs; t_ops := t_ops two_sccs; t_rules := []; t_init := t_init two_sccs; t_goal := [(2, 1)] |}.
Lemma insert_perm less x : forall l, Permutation (insert_by less x l) (x :: l).
Proof. induction l as [|y l IH]; cbn [insert_by]; [reflexivity|]. destruct (less y x); [|reflexivity]. rewrite IH. apply perm_swap. Qed.
Lemma ex_sorts : sorts ex_sort.
Proof.
  intros less l. split.
  - unfold ex_sort. induction l as [|x l IH]; cbn [fold_right]; [reflexivity|]. rewrite insert_perm. now constructor.
  - intros As Tr. unfold ex_sort. induction l as [|x l IH]; cbn [fold_right]; [constructor|]. revert IH. generalize (fold_right (insert_by less) [] l) as r. clear l.
    induction r as [|y r IH]; intros HS; cbn [insert_by]; [repeat constructor|]. inversion HS as [|? ? HS' HF]; subst. destruct (less y x) eqn:E.
    + constructor; [auto|]. apply Forall_forall. intros z Hz. apply (Permutation_in z (insert_perm less x r)) in Hz. rewrite Forall_forall in HF. destruct Hz as [<-|Hz]; [auto|now apply HF].
    + constructor; [exact HS|]. constructor; [exact E|]. rewrite Forall_forall in *. intros z Hz. apply (Tr x y z E (HF z Hz)).
Qed.
Definition ex_strategies : list strategy_option :=
  [MergePrecomputedLinear CgGoalLevel; MergePrecomputedLinear ReverseLevel; MergeStateless ex_scores; MergeSccs Topological ex_scores; MergeSccs Decreasing [SingleRandom]].
Definition ex_topological := MergeSccs Topological ex_scores.
Lemma ex_steps : exists m F, strategy_run list_pq [] idord (ex_options ex_topological) two_sccs (ex_strategy ex_topological) [(2, 3); (0, 1)] m F.
Proof.
  set (O := ex_options ex_topological). set (get := fun o => match o with Ok F => F | _ => no_fts end).
  set (F0 := get (create_fts list_pq [] true true two_sccs)). set (F1 := get (merge_factors list_pq [] idord true true F0 2 3)). set (F2 := get (merge_factors list_pq [] idord true true F1 0 1)).
  assert (B0 : built list_pq [] idord true true two_sccs true F0) by (apply built_start; vm_compute; reflexivity).
  assert (B1 : built list_pq [] idord true true two_sccs true F1) by (eapply built_merge with (F := F0) (i := 2) (j := 3); [exact B0|discriminate|vm_compute; reflexivity|vm_compute; reflexivity|vm_compute; discriminate|vm_compute; discriminate|vm_compute; reflexivity]).
  assert (B2 : built list_pq [] idord true true two_sccs true F2) by (eapply built_merge with (F := F1) (i := 0) (j := 1); [exact B1|discriminate|vm_compute; reflexivity|vm_compute; reflexivity|vm_compute; discriminate|vm_compute; discriminate|vm_compute; reflexivity]).
  assert (Sv : forall F, forallb (fun f => match f with Some f => match is_solvable f with Ok true => true | _ => false end | None => true end) (F_factors F) = true -> forall i f, get_factor F i = Ok f -> is_solvable f = Ok true).
  { intros F HF i f Hf. rewrite forallb_forall in HF. unfold get_factor in Hf. apply bind_ok in Hf. destruct Hf as (x & E & Hf). apply vget_ok in E. specialize (HF x (nth_error_In _ _ E)). destruct x as [g|]; [|discriminate]. inversion Hf; subst g. destruct (is_solvable f) as [[]| | |]; congruence. }
  assert (U0 : usable list_pq [] idord O two_sccs F0) by (split; [exists true; exact B0|apply Sv; vm_compute; reflexivity]).
  assert (U1 : usable list_pq [] idord O two_sccs F1) by (split; [exists true; exact B1|apply Sv; vm_compute; reflexivity]).
  assert (U2 : usable list_pq [] idord O two_sccs F2) by (split; [exists true; exact B2|apply Sv; vm_compute; reflexivity]).
  destruct (ms_start (ex_strategy ex_topological) F0) as [m0| | |] eqn:E0; try (exfalso; vm_compute in E0; discriminate).
  destruct (ms_get_next (ex_strategy ex_topological) 0 m0 F0) as [[[i j] m1]| | |] eqn:E1; try (exfalso; vm_compute in E0; inversion E0; subst m0; vm_compute in E1; discriminate).
  assert (i = 2 /\ j = 3) as [-> ->] by (vm_compute in E0; inversion E0; subst m0; vm_compute in E1; inversion E1; auto).
  destruct (ms_get_next (ex_strategy ex_topological) 1 m1 F1) as [[[i j] m2]| | |] eqn:E2; try (exfalso; vm_compute in E0; inversion E0; subst m0; vm_compute in E1; inversion E1; subst m1; vm_compute in E2; discriminate).
  assert (i = 0 /\ j = 1) as [-> ->] by (vm_compute in E0; inversion E0; subst m0; vm_compute in E1; inversion E1; subst m1; vm_compute in E2; inversion E2; auto).
  exists m2, F2. change [(2, 3); (0, 1)] with ([(2, 3)] ++ [(0, 1)]).
  apply run_next with (m := m1) (F := F1) (n := 1); [|vm_compute; lia|exact E2|exact U2|vm_compute; reflexivity].
  change [(2, 3)] with ([] ++ [(2, 3)]). apply run_next with (m := m0) (F := F0) (n := 0); [|vm_compute; lia|exact E1|exact U1|vm_compute; reflexivity].
  apply run_start; [exact U0|vm_compute; reflexivity|exact E0].
Qed.
Example C72_nonvacuous :
  mas_exact_task two_sccs /\ random_ok no_shuffle ex_random pick_first /\ sorts ex_sort /\ Forall (strategy_ok two_sccs) ex_strategies /\
  (forall s, options_ok two_sccs (ex_options s)) /\ number_of_states two_sccs = 16 /\
  variable_order CgGoalLevel (fun l => l) two_sccs = Ok [1; 0; 3; 2] /\ variable_order CgGoalLevel (fun l => l) only_two_three = Exit 33 /\
  map ex_run ex_strategies = [[(1, 0); (4, 3); (5, 2)]; [(0, 1); (4, 2); (5, 3)]; [(0, 1); (3, 4); (2, 5)]; [(2, 3); (0, 1); (4, 5)]; [(2, 3); (0, 1); (4, 5)]] /\
  (exists m F, strategy_run list_pq [] idord (ex_options ex_topological) two_sccs (ex_strategy ex_topological) [(2, 3); (0, 1)] m F) /\
  map ex_value ex_strategies = repeat (Some (Ok (Some 4))) 5.
Proof.
  split; [exact two_sccs_task|]. split. { split; [reflexivity|]. split; [intros n k m Hm; unfold ex_random; lia|]. intros n k c b gs Hg. unfold pick_first. cbn [fst snd]. lia. }
  split; [exact ex_sorts|]. split.
  { assert (R : forall v, v < length (t_vars two_sccs) -> relevant two_sccs v).
    { assert (A3 : pre_eff two_sccs 3 0). { split; [discriminate|]. left. eexists. eexists. exists 1. cbn [t_ops two_sccs In]. split; [right; right; right; right; left; reflexivity|]. split; [left; reflexivity|]. split; [reflexivity|]. left. left. reflexivity. }
      assert (A2 : pre_eff two_sccs 2 3). { split; [discriminate|]. left. eexists. eexists. exists 1. cbn [t_ops two_sccs In]. split; [right; right; right; left; reflexivity|]. split; [left; reflexivity|]. split; [reflexivity|]. left. left. reflexivity. }
      assert (G0 : goal_var two_sccs 0) by (exists 1; now left). assert (G1 : goal_var two_sccs 1) by (exists 1; right; now left).
      intros [|[|[|[|v]]]] Hv; [exists 0|exists 1|exists 0|exists 0|cbn in Hv; lia]; (split; [assumption|]).
      - apply rt_refl.
      - apply rt_refl.
      - eapply rt_trans; apply rt_step; eassumption.
      - apply rt_step. assumption. }
    assert (K : selector_ok ex_scores) by (split; [repeat constructor; cbn; lia|do 3 apply Exists_cons_tl; apply Exists_cons_hd; exact I]).
    unfold ex_strategies. repeat (apply Forall_cons); [intros _; exact R|intros _; exact R|exact K|exact K|split; [repeat constructor|now apply Exists_cons_hd]|apply Forall_nil]. }
  split; [intros s; split; [cbn; lia|exists Regular, (fun l => l); auto]|]. split; [reflexivity|]. split; [vm_compute; reflexivity|]. split; [vm_compute; reflexivity|]. split; [vm_compute; reflexivity|]. split; [exact ex_steps|]. vm_compute. reflexivity.
Qed.

(* the selection is exercised: three scoring functions leave ties that the total order breaks *)
Lemma ex_stateless_run : exists m F, strategy_run list_pq [] idord (ex_options (MergeStateless ex_scores)) two_sccs (ex_strategy (MergeStateless ex_scores)) [] m F /\ num_active F = 4.
Proof.
  set (O := ex_options (MergeStateless ex_scores)). set (F0 := match create_fts list_pq [] true true two_sccs with Ok F => F | _ => no_fts end).
  assert (B0 : built list_pq [] idord true true two_sccs true F0) by (apply built_start; vm_compute; reflexivity).
  assert (U0 : usable list_pq [] idord O two_sccs F0).
  { split; [exists true; exact B0|]. assert (HF : forallb (fun f => match f with Some f => match is_solvable f with Ok true => true | _ => false end | None => true end) (F_factors F0) = true) by (vm_compute; reflexivity).
    intros i f Hf. rewrite forallb_forall in HF. unfold get_factor in Hf. apply bind_ok in Hf. destruct Hf as (x & E & Hf). apply vget_ok in E. specialize (HF x (nth_error_In _ _ E)). destruct x as [g|]; [|discriminate]. inversion Hf; subst g. destruct (is_solvable f) as [[]| | |]; congruence. }
  eexists. exists F0. split; [apply run_start; [exact U0|vm_compute; reflexivity|cbn [ex_strategy make_strategy stateless ms_start]; reflexivity]|vm_compute; reflexivity].
Qed.
Example C72_selection_nonvacuous :
  mas_task two_sccs /\ mentions_once two_sccs /\ random_ok no_shuffle ex_random pick_first /\ Forall scoring_ok ex_scores /\
  (exists m F, strategy_run list_pq [] idord (ex_options (MergeStateless ex_scores)) two_sccs (ex_strategy (MergeStateless ex_scores)) [] m F /\ num_active F = 4) /\
  map (fun l => ex_run (MergeStateless l)) [[GoalRelevance]; [SingleRandom]; [TotalOrder AtomicLevel OldToNew true]; [TotalOrder AtomicLevel OldToNew false]] =
    [[]; [(2, 3); (1, 4); (0, 5)]; [(2, 3); (0, 1); (4, 5)]; [(2, 3); (1, 4); (0, 5)]].
Proof.
  split; [exact (proj1 two_sccs_task)|]. split.
  { intros op Ho. cbn [t_ops two_sccs In] in Ho. decompose [or] Ho; subst; try contradiction; cbn [op_pre op_effs map fst eff_fact]; (split; [|intros _]); (constructor; [intros []|constructor]). }
  split. { split; [reflexivity|]. split; [intros n k m Hm; unfold ex_random; lia|]. intros n k c b gs Hg. unfold pick_first. cbn [fst snd]. lia. }
  split; [repeat constructor|]. split; [exact ex_stateless_run|]. vm_compute. reflexivity.
Qed.
