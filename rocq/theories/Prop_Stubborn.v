(** C53: stubborn-set pruning is safe: it never makes a solvable task unsolvable and preserves
    the optimal plan cost. *)
From Coq Require Import Permutation.
From Verif Require Import Outcome Spec_Task Spec_Relaxation Spec_Plan Spec_HM Spec_Stubborn Model_Task Proof_Task Model_Stubborn Model_StubbornEC Proof_Stubborn1 Proof_Stubborn2 Proof_Stubborn3 Proof_Stubborn4.
From Verif Require Import Model_TaskSpace Proof_TaskSpace Model_SearchSpace Model_Eager Model_Controller Prop_Eager.

(** The three pruning methods of pruning/stubborn_sets_*.cc. *)
Inductive stubborn_method (t : task) : (state -> list nat -> outcome (list nat)) -> Prop :=
| method_simple : stubborn_method t (prune_simple t)
| method_atom_centric : forall use_sibling_shortcut strategy, stubborn_method t (prune_atom t use_sibling_shortcut strategy)
| method_ec : stubborn_method t (prune_ec t).

(** Each method terminates normally in every state that is not a goal state, and returns the
    applicable operators of some strong stubborn set, in their order. *)
Lemma stubborn_result t prune s : stub_task t -> stubborn_method t prune -> state_ok t s -> ~ goal_state t s ->
  exists E T, envelope t s E /\ strong_stubborn t s E T /\ prune s (app_ops t s) = Ok (filter T (app_ops t s)).
Proof.
  intros Ht Hm Hs Hg. destruct Hm as [|sc strat|].
  - destruct (compute_simple_ok t Ht s Hg) as (st & E & L & H). exists (fun _ => True), (fun o => nth o st false). split; [repeat intro; exact I|]. split; auto. unfold prune_simple. rewrite E. apply prune_with_spec. rewrite L. apply app_lt.
  - destruct (compute_atom_ok t Ht sc strat s Hs Hg) as (st & E & L & H). exists (fun _ => True), (fun o => nth o st false). split; [repeat intro; exact I|]. split; auto. unfold prune_atom. rewrite E. apply prune_with_spec. rewrite L. apply app_lt.
  - destruct (compute_ec_ok t s Ht Hs Hg) as (st & Env & E & L & HE & H). exists Env, (fun o => nth o st false). split; auto. split; auto. unfold prune_ec. rewrite E. apply prune_with_spec. rewrite L. apply app_lt.
Qed.

(** Pruning returns normally and only removes operators. *)
Theorem C53_pruning_only_removes : forall t prune s, stub_task t -> stubborn_method t prune -> state_ok t s -> ~ goal_state t s ->
  exists keep, prune s (app_ops t s) = Ok (filter keep (app_ops t s)).
Proof. intros t prune s Ht Hm Hs Hg. destruct (stubborn_result t prune s Ht Hm Hs Hg) as (E & T & _ & _ & H). eauto. Qed.
Print Assumptions C53_pruning_only_removes.

(** C53: for every plan of the task there is a plan that survives pruning and uses a subset of its
    operators (counted with multiplicity), hence costs at most as much. *)
Theorem C53_pruning_keeps_plans : forall t prune s os, stub_task t -> stubborn_method t prune -> state_ok t s -> task_plan_from t s os ->
  exists os' rest, pruned_plan t prune s os' /\ task_plan_from t s os' /\ Permutation os (os' ++ rest) /\ plan_cost t os' <= plan_cost t os.
Proof.
  intros t prune s os Ht Hm Hs (s' & Hp & Hg). destruct (stubborn_safe t Ht prune) with (n := length os) (os := os) (s := s) (s' := s') as (os' & rest & A & B); auto.
  - intros s1 Hs1 Hg1. destruct (stubborn_result t prune s1 Ht Hm Hs1 Hg1) as (E & T & H1 & H2 & H3). exists (filter T (app_ops t s1)), E, T. splits; auto. intros o Ho HT. apply filter_In. auto.
  - exists os', rest. split; auto. split; [|split; auto].
    + destruct (pruned_is_plan t prune s os' A) as (s2 & X & Y). exists s2. auto.
    + rewrite (plan_cost_perm t _ _ B), plan_cost_app. lia.
Qed.
Print Assumptions C53_pruning_keeps_plans.

(** The state space that a search with pruning explores. *)
Lemma pruned_path_space t prune init : task_ok t -> no_derived t -> forall os (s : wstate t), pruned_plan t prune (proj1_sig s) os -> is_plan_from (pruned_space t prune init) s os.
Proof.
  intros Htk Hnd os. induction os as [|o os IH]; intros s H; inversion H as [|? ? s' ? ops H2 H3 H4 H5 H6 H7]; subst.
  - exists s. split; [constructor|]. cbn [ts_goal pruned_space]. now apply all_holdb_spec.
  - rewrite (progress_wsucc t Htk Hnd s o s' H6) in H7. destruct (IH _ H7) as (w & A & B). exists w. split; auto. constructor; auto. cbn [ts_app pruned_space].
    destruct (is_goalb t (proj1_sig s)) eqn:E; [apply all_holdb_spec in E; contradiction|]. now rewrite H3.
Qed.
Lemma pruned_sub t prune init : task_ok t -> no_derived t -> (forall s, state_ok t s -> ~ goal_state t s -> exists keep, prune s (app_ops t s) = Ok (filter keep (app_ops t s))) ->
  forall os s s', path (pruned_space t prune init) s os s' -> path (task_space t init) s os s'.
Proof.
  intros Htk Hnd HP os. induction os as [|o os IH]; intros s s' H; inversion H as [|? ? ? ? H3 H4]; subst; constructor; auto. cbn [ts_app pruned_space] in H3. cbn [ts_app task_space]. destruct (is_goalb t (proj1_sig s)) eqn:E; auto.
  destruct (HP (proj1_sig s)) as [keep Hk]; [apply wstate_ok|intros G; apply all_holdb_spec in G; unfold is_goalb in E; congruence|]. rewrite Hk in H3. now apply filter_In in H3.
Qed.

(** C53: A-star with stubborn-set pruning and an admissible evaluator finds a plan of the task
    whenever there is one, and that plan is optimal among all plans of the task. *)
Theorem C53_astar_with_pruning_is_optimal : forall t prune (init : wstate t) (h : wstate t -> option nat) reliable,
  stub_task t -> stubborn_method t prune ->
  (forall s os, task_plan_from t (proj1_sig s) os -> exists x, h s = Some x /\ x <= plan_cost t os) ->
  (exists os, task_plan_from t (proj1_sig init) os) ->
  exists n plan st,
    (forall fuel, n <= fuel -> astar (pruned_space t prune init) h reliable (astar_config NORMAL false None) fuel = Ok (SOLVED plan st)) /\
    task_plan_from t (proj1_sig init) plan /\
    forall os, task_plan_from t (proj1_sig init) os -> plan_cost t plan <= plan_cost t os.
Proof.
  intros t prune init h rel Ht Hm Hh (os0 & Hos0). pose proof Ht as (Htk & Hnd & _).
  assert (HP : forall s, state_ok t s -> ~ goal_state t s -> exists keep, prune s (app_ops t s) = Ok (filter keep (app_ops t s))) by (intros s A B; apply C53_pruning_only_removes; auto).
  assert (Hsub : forall s os, is_plan_from (pruned_space t prune init) s os -> task_plan_from t (proj1_sig s) os).
  { intros s os (s' & A & B). apply (plan_iff t Htk Hnd init). exists s'. split; [|exact B]. now apply (pruned_sub t prune init). }
  assert (Hkeep : forall os, task_plan_from t (proj1_sig init) os -> exists os', is_plan (pruned_space t prune init) os' /\ plan_cost t os' <= plan_cost t os).
  { intros os H. destruct (C53_pruning_keeps_plans t prune (proj1_sig init) os Ht Hm (wstate_ok t init) H) as (os' & rest & A & _ & _ & B). exists os'. split; auto. apply (pruned_path_space t prune init Htk Hnd os' init A). }
  destruct (C21_astar_finds_optimal_plan (pruned_space t prune init) h rel NORMAL false) as (n & plan & st & A & (B & C)).
  - exact (space_wf t init).
  - intros s os H. destruct (Hh s os (Hsub s os H)) as (x & X & Y). exists x. split; auto. change (adj (pruned_space t prune init) (astar_config NORMAL false None)) with (op_costs t). now rewrite space_cost.
  - destruct (all_wstates t) as [l Hl]. exists l. split; intros; apply Hl.
  - destruct (Hkeep os0 Hos0) as (os' & X & _). eauto.
  - exists n, plan, st. split; auto. split; [apply (Hsub init plan B)|]. intros os H. destruct (Hkeep os H) as (os' & X & Y). specialize (C os' X).
    change (adj (pruned_space t prune init) (astar_config NORMAL false None)) with (op_costs t) in C. rewrite !space_cost in C. lia.
Qed.
Print Assumptions C53_astar_with_pruning_is_optimal.

(** The same without pruning: A-star on a task. *)
Theorem C21_astar_on_task_is_optimal : forall t (init : wstate t) (h : wstate t -> option nat) reliable,
  task_ok t -> no_derived t ->
  (forall s os, task_plan_from t (proj1_sig s) os -> exists x, h s = Some x /\ x <= plan_cost t os) ->
  (exists os, task_plan_from t (proj1_sig init) os) ->
  exists n plan st,
    (forall fuel, n <= fuel -> astar (task_space t init) h reliable (astar_config NORMAL false None) fuel = Ok (SOLVED plan st)) /\
    task_plan_from t (proj1_sig init) plan /\
    forall os, task_plan_from t (proj1_sig init) os -> plan_cost t plan <= plan_cost t os.
Proof.
  intros t init h rel Htk Hnd Hh (os0 & Hos0).
  destruct (C21_astar_finds_optimal_plan (task_space t init) h rel NORMAL false) as (n & plan & st & A & (B & C)).
  - exact (space_wf t init).
  - intros s os H. apply (plan_iff t Htk Hnd init) in H. destruct (Hh s os H) as (x & X & Y). exists x. split; auto. change (adj (task_space t init) (astar_config NORMAL false None)) with (op_costs t). now rewrite space_cost.
  - apply space_finite.
  - exists os0. now apply (plan_iff t Htk Hnd init).
  - exists n, plan, st. split; auto. split; [now apply (plan_iff t Htk Hnd init)|]. intros os H. specialize (C os (proj2 (plan_iff t Htk Hnd init init os) H)).
    change (adj (task_space t init) (astar_config NORMAL false None)) with (op_costs t) in C. now rewrite !space_cost in C.
Qed.
Print Assumptions C21_astar_on_task_is_optimal.

(** A task with two independent operators, one of which is pruned in the initial state, and a
    third operator that interferes with the first. *)
Definition mkop (pre eff : list fact) (c : nat) : operator := {| op_pre := pre; op_effs := map (fun f => {| eff_cond := []; eff_fact := f |}) eff; op_cost := c |}.
Definition mkvar (d : nat) : variable := {| vdom := d; vlayer := None; vdefault := 0 |}.
Definition stub_ex : task := {|
  t_vars := [mkvar 2; mkvar 3; mkvar 2];
  t_ops := [mkop [(0, 0)] [(0, 1)] 1; mkop [(1, 0)] [(1, 1)] 1; mkop [(1, 1)] [(1, 2)] 2; mkop [(2, 0)] [(2, 1); (0, 0)] 1];
  t_rules := []; t_init := [0; 0; 0]; t_goal := [(1, 2); (0, 1)] |}.
Lemma stub_ex_task : stub_task stub_ex.
Proof.
  assert (F : forall v d, match nth_error [2; 3; 2] v with Some n => d <? n | None => false end = true -> fact_ok stub_ex (v, d)).
  { intros v d H. destruct v as [|[|[|v]]]; [| | |destruct v; discriminate]; (eexists; split; [reflexivity|]; cbn [nth_error] in H; apply Nat.ltb_lt in H; exact H). }
  assert (L : forall v, layer_of stub_ex v = None) by (intros v; destruct v as [|[|[|v]]]; cbn; auto; destruct v; reflexivity).
  split; [|split; [split; auto|]].
  - split; [|split; [|split; [|split]]].
    + repeat (apply Forall_cons || apply Forall_nil); (split; [cbn; lia|split; [cbn; lia|cbn; congruence]]).
    + repeat (apply Forall_cons || apply Forall_nil); (split; cbn [op_pre op_effs mkop map]; repeat (apply Forall_cons || apply Forall_nil); try (apply F; reflexivity); (split; [apply Forall_nil|split; [apply F; reflexivity|apply L]])).
    + apply Forall_nil.
    + apply state_okb_spec. reflexivity.
    + repeat (apply Forall_cons || apply Forall_nil); apply F; reflexivity.
  - intros op Hop. split; [|split].
    + intros e He. repeat (destruct Hop as [<-|Hop]; [cbn in He; intuition subst; reflexivity|]). destruct Hop.
    + repeat (destruct Hop as [<-|Hop]; [cbn; repeat constructor; cbn; intuition discriminate|]). destruct Hop.
    + repeat (destruct Hop as [<-|Hop]; [cbn; repeat constructor; cbn; intuition discriminate|]). destruct Hop.
Qed.
Example C53_nonvacuous :
  stub_task stub_ex /\ state_ok stub_ex (t_init stub_ex) /\ task_plan_from stub_ex (t_init stub_ex) [1; 2; 0] /\
  app_ops stub_ex (t_init stub_ex) = [0; 1; 3] /\
  prune_simple stub_ex (t_init stub_ex) [0; 1; 3] = Ok [0; 3] /\
  (forall sc strat, exists l, prune_atom stub_ex sc strat (t_init stub_ex) [0; 1; 3] = Ok l /\ length l < 3) /\
  prune_ec stub_ex (t_init stub_ex) [0; 1; 3] = Ok [0; 3] /\
  (* the second operator is then not interfered with any more *)
  prune_simple stub_ex [1; 0; 0] [1; 3] = Ok [1] /\ prune_ec stub_ex [1; 0; 0] [1; 3] = Ok [1].
Proof.
  split; [exact stub_ex_task|]. split; [apply state_okb_spec; reflexivity|]. split.
  - assert (H : is_plan_from (task_space stub_ex (exist _ [0; 0; 0] eq_refl)) (exist _ [0; 0; 0] eq_refl) [1; 2; 0]).
    { eexists. split; [repeat (apply path_cons; [vm_compute; tauto|]); apply path_nil|vm_compute; reflexivity]. }
    apply (plan_iff stub_ex (proj1 stub_ex_task) (proj1 (proj2 stub_ex_task))) in H. exact H.
  - split; [reflexivity|]. split; [vm_compute; reflexivity|]. split; [intros [] []; (eexists; split; [vm_compute; reflexivity|cbn; lia])|]. split; [vm_compute; reflexivity|]. split; vm_compute; reflexivity.
Qed.

(** Finding: an operator that sets a variable twice hides a conflict from the two-pointer
    comparison, and pruning then makes a solvable task unsolvable.  The input parser does not
    reject such operators. *)
Definition dup_ex : task := {|
  t_vars := [mkvar 2; mkvar 2; mkvar 2];
  t_ops := [mkop [] [(0, 0); (0, 1); (1, 1)] 1; mkop [(0, 0)] [(2, 1)] 1];
  t_rules := []; t_init := [0; 0; 0]; t_goal := [(1, 1); (2, 1)] |}.
Theorem C53_duplicate_effects_refuted : exists t s os,
  no_derived t /\ (forall op e, In op (t_ops t) -> In e (op_effs op) -> eff_cond e = []) /\ state_ok t s /\
  (forall op, In op (t_ops t) -> NoDup (map fst (op_pre op))) /\
  task_plan_from t s os /\ ~ exists os', pruned_plan t (prune_simple t) s os'.
Proof.
  assert (L : no_derived dup_ex) by (split; [reflexivity|]; intros v; destruct v as [|[|[|v]]]; cbn; auto; destruct v; reflexivity).
  assert (P : forall s o op, nth_error (t_ops dup_ex) o = Some op -> forall s', progress dup_ex s o s' <-> s' = apply_effects s (op_effs op)) by (intros; now apply progress_apply).
  exists dup_ex, [0; 0; 0], [1; 0]. split; [exact L|]. split; [intros op e [<-|[<-|[]]] He; cbn in He; intuition subst; reflexivity|]. split; [apply state_okb_spec; reflexivity|].
  split; [intros op [<-|[<-|[]]]; cbn; repeat constructor; intros []|]. split.
  - exists [1; 1; 1]. split.
    + apply task_path_cons with (s' := [0; 0; 1]); [apply app_ops_spec; vm_compute; tauto|apply (P _ 1 _ eq_refl); reflexivity|].
      apply task_path_cons with (s' := [1; 1; 1]); [apply app_ops_spec; vm_compute; tauto|apply (P _ 0 _ eq_refl); reflexivity|]. constructor.
    + apply all_holdb_spec. reflexivity.
  - intros (os' & H).
    assert (G1 : ~ goal_state dup_ex [0; 0; 0]) by (intros G; apply all_holdb_spec in G; discriminate).
    assert (G2 : ~ goal_state dup_ex [1; 1; 0]) by (intros G; apply all_holdb_spec in G; discriminate).
    inversion H as [|? o s' os ops _ Hp Hin _ Hpr Hrest]; subst; [contradiction|]. vm_compute in Hp. inversion Hp; subst ops. destruct Hin as [<-|[]].
    apply (P _ 0 _ eq_refl) in Hpr. cbn in Hpr. subst s'. clear H Hp.
    assert (Hloop : forall os, ~ pruned_plan dup_ex (prune_simple dup_ex) [1; 1; 0] os).
    { induction os0 as [|x os0 IH]; intros H; inversion H as [|? o s' ? ops _ Hp Hin _ Hpr Hr]; subst; [contradiction|]. vm_compute in Hp. inversion Hp; subst ops. cbn [In] in Hin. try contradiction.
      destruct Hin as [<-|[]]. apply (P _ 0 _ eq_refl) in Hpr. cbn in Hpr. subst s'. now apply IH. }
    exact (Hloop _ Hrest).
Qed.
Print Assumptions C53_duplicate_effects_refuted.
