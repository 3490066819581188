(** C62: building Cartesian abstractions by counterexample-guided refinement. *)
From Coq Require Import String.
From Verif Require Import Outcome Spec_Task Spec_Relaxation Spec_Cartesian Spec_DomainAbstraction Spec_CostSaturation Spec_CEGAR Model_Task Model_PQ Model_DomainAbstraction Model_Cartesian Model_CostSaturation Model_CEGAR.
From Verif Require Import Proof_TaskCheck Proof_Task Proof_Cartesian2 Proof_Cartesian5 Proof_Cartesian6 Proof_CostSaturation3 Proof_DomainAbstraction2 Prop_Cartesian Prop_CostSaturation Proof_CEGAR3 Proof_CEGAR4 Proof_CEGAR5 Proof_CEGAR6.

(** Building an abstraction never fails: for any priority queue that pops a least entry, any choice
    among the possible splits, any limit on the number of refinements and any operator costs, finite
    or not, every assertion on the way holds. The result comes from legal splits, so that it is an
    exact partition with induced transitions (see C46), and has at most one state more than there
    were refinements allowed. *)
Theorem C62_builds : forall P bag, pq_contract P bag -> forall q0, bag q0 = [] ->
  forall t, cartesian_task t -> single_effects t -> forall costs, length costs = length (t_ops t) ->
  forall choose budget, exists A st, cegar P q0 choose budget t costs = Ok (A, st) /\
    (exists marked, refined t marked A) /\ w_num (view_of A) <= S budget.
Proof.
  intros P bag HP q0 Hq0 t Ht He costs Hc choose budget. destruct (cegar_ok t Ht He costs Hc P bag HP q0 Hq0 choose budget) as (A & st & E & [H1 H2 _ _]). eauto 6.
Qed.
Print Assumptions C62_builds.

(** If refinement ends with a solution, its operators are a plan of least cost; if it ends because
    there is no abstract solution, there is no plan of finite cost. *)
Theorem C62_answers : forall P bag, pq_contract P bag -> forall q0, bag q0 = [] ->
  forall t, cartesian_task t -> single_effects t -> forall costs, length costs = length (t_ops t) ->
  forall choose budget A st, cegar P q0 choose budget t costs = Ok (A, st) ->
  match st with
  | Limit => True
  | Unsolvable => no_plan t costs
  | Solved sol => optimal_plan t costs (map fst sol)
  end.
Proof.
  intros P bag HP q0 Hq0 t Ht He costs Hc choose budget A st E. destruct (cegar_ok t Ht He costs Hc P bag HP q0 Hq0 choose budget) as (A' & st' & E' & [_ _ H _]).
  rewrite E in E'. injection E' as <- <-. destruct st; auto.
Qed.
Print Assumptions C62_answers.

(** Without a limit refinement ends, with one of these two answers: a limit larger than the number
    of states and variables is never reached. *)
Theorem C62_decides : forall P bag, pq_contract P bag -> forall q0, bag q0 = [] ->
  forall t, cartesian_task t -> single_effects t -> forall costs, length costs = length (t_ops t) ->
  forall choose budget, num_states t + length (t_vars t) < budget ->
  exists A, cegar P q0 choose budget t costs = Ok (A, Unsolvable) /\ no_plan t costs \/
    exists sol, cegar P q0 choose budget t costs = Ok (A, Solved sol) /\ optimal_plan t costs (map fst sol).
Proof.
  intros P bag HP q0 Hq0 t Ht He costs Hc choose budget Hb. destruct (cegar_ok t Ht He costs Hc P bag HP q0 Hq0 choose budget) as (A & st & E & [(m & H1) _ H _]).
  exists A. destruct st as [| |sol]; [|auto|eauto]. pose proof (num_bound t m A Ht (refined_AI t m A Ht H1)). lia.
Qed.
Print Assumptions C62_decides.

(** The subtasks the heuristic is built from: the task with some of its goal facts, possibly with
    values merged, and a landmark as the only goal, possibly with values merged that are reachable
    before the landmark. *)
Inductive heuristic_subtask (t : task) : subtask -> Prop :=
| hs_goals : forall gs st, subtask_of t gs st -> incl gs (t_goal t) -> heuristic_subtask t st
| hs_landmark : forall l, fact_ok t l -> relaxed_landmark t l ->
    heuristic_subtask t {| st_task := with_goal t [l]; st_conv := Ok |}
| hs_merged : forall l groups sm name t' vms names, fact_ok t l -> relaxed_landmark t l -> grouping_ok t groups -> groups_before t l groups ->
    build_domain_abstracted_task sm (with_goal t [l]) name groups = Ok (t', vms, names) ->
    heuristic_subtask t {| st_task := t'; st_conv := convert_state vms |}.

Lemma one_fact t l : fact_ok t l -> Forall (fact_ok t) [l] /\ NoDup (map fst [l]).
Proof. intros H. split; [constructor; auto|constructor; [intros []|constructor]]. Qed.
Lemma hs_sub t st : heuristic_subtask t st -> exists gs, subtask_of t gs st.
Proof.
  intros [gs st' H _|l H1 H2|l groups sm name t' vms names H1 H2 H3 H4 H5]; eauto; exists [l]; destruct (one_fact t l H1); [now apply sub_goal|eapply sub_merged; eauto].
Qed.

Section USE.
Variable P : pqueue.
Variable bag : PQ P -> list (nat * nat).
Hypothesis HP : pq_contract P bag.
Variable q0 : PQ P.
Hypothesis Hq0 : bag q0 = [].
Variable t : task.
Hypothesis Ht : cartesian_task t.
Hypothesis He : single_effects t.

Lemma sep_usable st gs l A budget costs stp : subtask_of t gs st -> t_goal (st_task st) = [l] -> built (st_task st) costs budget A stp ->
  (forall s s', state_ok t s -> goal_state t s -> st_conv st s = Ok s' -> exists f, holds s' f /\ ~ rreach (st_task st) (allowed (st_task st) l) (t_init (st_task st)) f) ->
  usable t gs st A.
Proof.
  intros Hsub Hl Hb Hsep. pose proof (sub_simulates t gs st Ht Hsub) as Sim. destruct Hb as [(m & HR) _ _ HG]. split; [eauto|]. right. intros s s' i Hs Hg Ec Ei.
  destruct (sm_conv _ _ Sim s Hs) as (x & Ex & Hx). rewrite Ec in Ex. injection Ex as <-. pose proof (refined_AI _ m A (sm_task _ _ Sim) HR) as HA.
  destruct (C46_abstraction_exact _ _ _ (sm_task _ _ Sim) HR) as ((Part & _) & _). destruct (Part s' Hx) as (j & Hj & Hlk & Hm & _). rewrite Ei in Hlk. injection Hlk as <-.
  apply (members_cset (st_task st) A i s') in Hm; auto. apply (HG l Hl i s' Hj (proj2 Hm)). eauto.
Qed.

Lemma hs_usable st : heuristic_subtask t st -> forall choose budget costs, length costs = length (t_ops t) ->
  exists gs A stp, subtask_of t gs st /\ cegar P q0 choose budget (st_task st) costs = Ok (A, stp) /\ usable t gs st A.
Proof.
  intros Hst choose budget costs Hc. destruct (hs_sub t st Hst) as (gs0 & Hsub). pose proof (sub_simulates t gs0 st Ht Hsub) as Sim.
  assert (Hc' : length costs = length (t_ops (st_task st))) by (rewrite Hc; symmetry; apply (sm_ops _ _ Sim)).
  destruct (cegar_ok (st_task st) (sm_task _ _ Sim) (sub_single t gs0 st Ht He Hsub) costs Hc' P bag HP q0 Hq0 choose budget) as (A & stp & E & Hb).
  destruct Hst as [gs st Hsub' Hi|l H1 (g & Hg & Hr)|l groups sm name t' vms names H1 (g & Hg & Hr) H3 H4 H5].
  - exists gs, A, stp. split; auto. split; auto. split; [apply (bu_ref _ _ _ _ _ Hb)|now left].
  - destruct (one_fact t l H1) as [F1 F2]. assert (Hs : subtask_of t [l] {| st_task := with_goal t [l]; st_conv := Ok |}) by now apply sub_goal.
    exists [l], A, stp. split; auto. split; auto. apply (sep_usable _ _ l A budget costs stp); auto. intros s s' Hs' Hgs [= <-]. exists g. split; [now apply Hgs|]. cbn [st_task]. rewrite rreach_goal. exact Hr.
  - destruct (one_fact t l H1) as [F1 F2]. assert (Hs : subtask_of t [l] {| st_task := t'; st_conv := convert_state vms |}) by (eapply sub_merged; eauto).
    destruct (merged_reach sm name t l groups t' vms names Ht H1 H3 H4 H5) as (Eg & Hre & Hho).
    exists [l], A, stp. split; auto. split; auto. apply (sep_usable _ _ (afact vms l) A budget costs stp); auto. intros s s' Hs' Hgs Ec. exists (afact vms g). split; [eapply Hho; eauto|].
    cbn [st_task]. intros Hx. apply Hr. apply (Hre g); auto. apply (goal_ok t Ht g Hg).
Qed.
End USE.

(** The abstraction the heuristic is built with. *)
Definition cegar_abstraction P q0 (choose : nat -> nat -> nat) (budget : nat -> nat) (k : nat) (u : task) (costs : list (option nat)) : outcome abstraction :=
  let* (A, _) := cegar P q0 (choose k) (budget k) u costs in Ok A.
Lemma run_usable P bag (HP : pq_contract P bag) q0 (Hq0 : bag q0 = []) t (Ht : cartesian_task t) (He : single_effects t) choose budget gens :
  Forall (heuristic_subtask t) (concat gens) ->
  forall k st rem, In st (concat gens) -> length rem = length (t_ops t) ->
  exists gs A, subtask_of t gs st /\ cegar_abstraction P q0 choose budget k (st_task st) rem = Ok A /\ usable t gs st A.
Proof.
  intros Hall k st rem Hin L. rewrite Forall_forall in Hall. destruct (hs_usable P bag HP q0 Hq0 t Ht He st (Hall st Hin) (choose k) (budget k) rem L) as (gs & A & stp & H1 & H2 & H3).
  exists gs, A. split; auto. split; auto. unfold cegar_abstraction. now rewrite H2.
Qed.

(** Saturated cost partitioning over abstractions built this way, one for each subtask: the
    heuristic is always computed, is 0 in goal states, never exceeds the cost of a plan and never
    declares a reachable state with a plan a dead end. *)
Theorem C62_heuristic_admissible : forall P bag, pq_contract P bag -> forall q0, bag q0 = [] ->
  forall t, cartesian_task t -> single_effects t -> forall choose budget general abort gens, Forall (heuristic_subtask t) (concat gens) ->
  exists fs, generate_heuristic_functions P q0 (cegar_abstraction P q0 choose budget) abort general t gens = Ok fs /\
  (forall s, state_ok t s -> (exists v, compute_heuristic fs s = Ok v) /\ (goal_state t s -> compute_heuristic fs s = Ok (Some 0))) /\
  forall p s os, task_path t (t_init t) p s -> task_plan_from t s os -> exists a, compute_heuristic fs s = Ok (Some a) /\ a <= plan_cost t os.
Proof.
  intros P bag HP q0 Hq0 t Ht He choose budget general abort gens Hall. pose proof (run_usable P bag HP q0 Hq0 t Ht He choose budget gens Hall) as Hu.
  destruct (C47_total P bag HP q0 Hq0 t Ht general abort _ gens Hu) as (fs & E & Htot). exists fs. splits; auto. apply (C47_admissible P bag HP q0 Hq0 t Ht general abort _ gens Hu fs E).
Qed.
Print Assumptions C62_heuristic_admissible.

(** ... and it is consistent on the reachable states. *)
Theorem C62_heuristic_consistent : forall P bag, pq_contract P bag -> forall q0, bag q0 = [] ->
  forall t, cartesian_task t -> single_effects t -> forall choose budget general abort gens, Forall (heuristic_subtask t) (concat gens) ->
  forall fs, generate_heuristic_functions P q0 (cegar_abstraction P q0 choose budget) abort general t gens = Ok fs ->
  forall p s o op s' b, task_path t (t_init t) p s -> nth_error (t_ops t) o = Some op -> applicable t s o -> progress t s o s' ->
  compute_heuristic fs s' = Ok (Some b) -> exists a, compute_heuristic fs s = Ok (Some a) /\ a <= op_cost op + b.
Proof.
  intros P bag HP q0 Hq0 t Ht He choose budget general abort gens Hall. apply (C47_consistent P bag HP q0 Hq0 t Ht general abort). now apply (run_usable P bag HP q0 Hq0 t Ht He choose budget gens).
Qed.
Print Assumptions C62_heuristic_consistent.

(** Concrete runs: the task of C46 with two goal facts, the landmark (0, 1), and the same landmark
    with the values 0 and 3 merged; a run cut short; infinite costs. *)
Definition ex_costs : list (option nat) := [Some 2; Some 3; Some 1; Some 1].
Definition ex_lm_groups : list (nat * list (list nat)) := [(0, [[0; 3]])].
Definition ex_lm_merged : task * list (list nat) * list (list string) := Eval vm_compute in
  match build_domain_abstracted_task (fun s => s) (with_goal cart_ex [(0, 1)]) (fun _ _ => EmptyString) ex_lm_groups with Ok x => x | _ => (cart_ex, [], []) end.
Definition ex_lm_sub : subtask := {| st_task := fst (fst ex_lm_merged); st_conv := convert_state (snd (fst ex_lm_merged)) |}.
Definition ex_cegar_gens : list (list subtask) :=
  [[ex_lm_sub; ex_sub [(0, 1)]]; [ex_sub [(0, 3)]; ex_sub [(1, 1)]]; [ex_sub (t_goal cart_ex)]].
Definition ex_run (budget : nat) (u : task) (costs : list (option nat)) : option (nat * list nat * stop) :=
  match cegar list_pq [] (fun k => k) budget u costs with Ok (A, st) => Some (length (ab_states A), ab_goals A, st) | _ => None end.
Definition ex_cegar_values : option (list (outcome (option nat))) :=
  match generate_heuristic_functions list_pq [] (cegar_abstraction list_pq [] (fun _ k => k) (fun _ => 20)) (fun _ => false) true cart_ex ex_cegar_gens with
  | Ok fs => Some (map (compute_heuristic fs) [[0; 0]; [1; 0]; [2; 1]; [3; 1]])
  | _ => None
  end.
Lemma ex_single : single_effects cart_ex.
Proof. intros op [<-|[<-|[<-|[<-|[]]]]]; cbn; repeat constructor; cbn; intuition lia. Qed.
Lemma ex_landmark : relaxed_landmark cart_ex (0, 1).
Proof.
  exists (1, 1). split; [right; now left|]. intros H.
  assert (G : forall f, rreach cart_ex (fun o => ~ exists op e, nth_error (t_ops cart_ex) o = Some op /\ In e (op_effs op) /\ eff_fact e = (0, 1)) (t_init cart_ex) f -> f <> (0, 1) /\ f <> (1, 1)).
  { intros f Hf. induction Hf as [f Hf|o op e Ho Hop He _ IH|r Hr _ IH].
    - destruct f as [[|[|v]] d]; unfold holds in Hf; cbn in Hf; [injection Hf as <-; split; discriminate|injection Hf as <-; split; discriminate|destruct v; discriminate].
    - destruct o as [|[|[|[|o]]]]; cbn in Hop; try (injection Hop as <-).
      + destruct Ho. eexists _, _. split; [reflexivity|]. split; [left; reflexivity|reflexivity].
      + destruct (IH (0, 1)) as [K _]; [cbn; auto|]. congruence.
      + cbn in He. destruct He as [<-|[]]. split; discriminate.
      + cbn in He. destruct He as [<-|[]]. split; discriminate.
      + destruct o; discriminate.
    - destruct Hr. }
  now apply (G (1, 1)).
Qed.
Lemma ex_before : groups_before cart_ex (0, 1) ex_lm_groups.
Proof.
  intros v gr g d [[= <- <-]|[]] [<-|[]] [<-|[<-|[]]]; [apply rr_state; reflexivity|].
  apply (rr_op cart_ex _ _ 2 {| op_pre := []; op_effs := [{| eff_cond := []; eff_fact := (0, 3) |}]; op_cost := 1 |} {| eff_cond := []; eff_fact := (0, 3) |}); [|reflexivity|now left|intros f []].
  intros (op & e & Ho & He & E). cbn in Ho. injection Ho as <-. cbn in He. destruct He as [<-|[]]. discriminate.
Qed.
Lemma ex_fact_ok f : In f [(0, 1); (0, 3); (1, 1)] -> fact_ok cart_ex f.
Proof. intros [<-|[<-|[<-|[]]]]; (eexists; split; [reflexivity|cbn; lia]). Qed.
Lemma ex_hs : Forall (heuristic_subtask cart_ex) (concat ex_cegar_gens).
Proof.
  assert (G : forall gs, incl gs (t_goal cart_ex) -> NoDup (map fst gs) -> heuristic_subtask cart_ex (ex_sub gs)).
  { intros gs Hi Hn. apply (hs_goals cart_ex gs); auto. apply sub_goal; auto. apply Forall_forall. intros f Hf. apply Hi in Hf. apply ex_fact_ok. cbn in Hf |- *. intuition. }
  cbn [concat ex_cegar_gens app]. repeat apply Forall_cons; [| | | | |apply Forall_nil].
  - apply (hs_merged cart_ex (0, 1) ex_lm_groups (fun s => s) (fun _ _ => EmptyString) _ _ (snd ex_lm_merged)); [apply ex_fact_ok; now left|exact ex_landmark| |exact ex_before|vm_compute; reflexivity].
    split; [repeat constructor; cbn; intuition lia|]. intros v groups [[= <- <-]|[]]. eexists. split; [reflexivity|]. unfold groups_ok. splits; [repeat constructor; cbn; intuition lia|cbn; intuition lia|intros g [<-|[]]; discriminate].
  - apply hs_landmark; [apply ex_fact_ok; now left|exact ex_landmark].
  - apply G; [intros f [<-|[]]; now left|repeat constructor; cbn; intuition lia].
  - apply G; [intros f [<-|[]]; right; now left|repeat constructor; cbn; intuition lia].
  - apply G; [apply incl_refl|repeat constructor; cbn; intuition lia].
Qed.
Example C62_nonvacuous :
  pq_contract list_pq (fun q => q) /\ cartesian_task cart_ex /\ single_effects cart_ex /\ length ex_costs = length (t_ops cart_ex) /\
  num_states cart_ex + length (t_vars cart_ex) < 20 /\
  ex_run 20 cart_ex ex_costs = Some (5, [2], Solved [(0, 4); (1, 3); (2, 2)]) /\
  ex_run 3 cart_ex ex_costs = Some (4, [2], Limit) /\
  ex_run 20 cart_ex [Some 2; None; Some 1; Some 1] = Some (4, [2], Unsolvable) /\
  Forall (heuristic_subtask cart_ex) (concat ex_cegar_gens) /\
  ex_run 20 (with_goal cart_ex [(0, 1)]) ex_costs = Some (4, [1; 2; 3], Solved [(0, 3)]) /\
  ex_cegar_values = Some [Ok (Some 6); Ok (Some 4); Ok (Some 1); Ok (Some 0)].
Proof.
  split; [exact list_pq_contract|]. split; [exact cart_ex_ok|]. split; [exact ex_single|]. split; [reflexivity|]. split; [vm_compute; lia|].
  split; [vm_compute; reflexivity|]. split; [vm_compute; reflexivity|]. split; [vm_compute; reflexivity|]. split; [exact ex_hs|]. split; vm_compute; reflexivity.
Qed.

(** Operators must not have two effects on one variable: such an operator is taken to achieve its
    first effect, and the abstract state of its real result has no goal state although it is an
    abstract goal, so that no split is found (assertion in cegar.cc:72). *)
Definition dup_ex : task := {|
  t_vars := [{| vdom := 3; vlayer := None; vdefault := 0 |}];
  t_ops := [{| op_pre := []; op_effs := [{| eff_cond := []; eff_fact := (0, 1) |}; {| eff_cond := []; eff_fact := (0, 2) |}]; op_cost := 1 |}];
  t_rules := []; t_init := [0]; t_goal := [(0, 1)] |}.
Theorem C62_duplicate_effects_refuted : exists t costs budget, cartesian_task t /\ length costs = length (t_ops t) /\
  cegar list_pq [] (fun _ => 0) budget t costs = UB.
Proof.
  exists dup_ex, [Some 1], 5. split; [|split; [reflexivity|vm_compute; reflexivity]].
  split; [apply task_okb_ok; reflexivity|]. split; [reflexivity|]. split; [intros x [<-|[]]; reflexivity|]. split; [|repeat constructor; cbn; intuition lia].
  intros op [<-|[]]; cbn; split; [constructor|intros e He; repeat destruct He as [<-|He]; try reflexivity; destruct He].
Qed.
Print Assumptions C62_duplicate_effects_refuted.
