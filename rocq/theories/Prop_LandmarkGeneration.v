(** C67: relaxed exploration, achievers and the exhaustive landmark factory. *)
From Coq Require Import QArith.
From Verif Require Import Outcome Spec_Task Spec_Relaxation Spec_Landmarks Spec_LandmarkGeneration Model_Task Model_DefaultRules Model_Landmarks Model_LandmarkGeneration.
From Verif Require Import Proof_Task Proof_TaskCheck Proof_TaskSpace Proof_PerState2 Proof_LG1 Proof_LG2 Proof_LG3 Proof_LG4 Proof_LG5 Prop_Landmarks.
Local Open Scope nat_scope.

(** Relaxed exploration works without error for every set [X] of excluded facts, marks exactly the
    facts that can be reached without those, and leaves no exclusion behind for the next call
    (whatever the previous call left in the other fields). *)
Theorem C67_exploration : forall t ex X un, relax_ok t -> state_ok t (t_init t) -> Forall (fact_ok t) X ->
  (forall f, ex_excluded ex f = false) ->
  exists re ex', compute_relaxed_reachability t ex X un = Ok (re, ex') /\
    (forall f, ex_excluded ex' f = false) /\
    forall f, re f = true <-> avoiding t un (fun g => In g X) f.
Proof. exact reachability_ok. Qed.
Print Assumptions C67_exploration.

(** The graph the exhaustive factory computes, for tasks with or without rules and conditional
    effects: atoms without which a goal is unreachable; no orderings. *)
Theorem C67_atoms : forall io il t un, relax_ok t -> state_ok t (t_init t) ->
  exists g, compute_landmark_graph io il t (Exhaust un) = Ok g /\
    (forall a, (exists n, In n g /\ n_atom n = a) <->
       fact_ok t a /\ ~ forall f, In f (t_goal t) -> avoiding t un (fun b => b = a) f) /\
    (NoDup (t_goal t) -> NoDup (map n_atom g)) /\
    forall n, In n g -> (n_goal n = true <-> In (n_atom n) (t_goal t)) /\
      (n_derived n = true <-> layer_of t (fst (n_atom n)) <> None) /\ n_parents n = [] /\ n_children n = [].
Proof.
  intros io il t un Hro Hi. destruct (exhaust_graph io il t un Hro Hi) as (g & g' & E & H1 & H2 & H3 & H4). exists g'. splits; auto.
  - intros a. rewrite (achieved_has t g g' a H1). apply H3.
  - rewrite (achieved_atoms t g g' H1). auto.
  - intros n' Hn'. destruct (forall2_in_r _ _ _ H1 n' Hn') as (n & Hn & A). rewrite Forall_forall in H2. destruct (H2 n Hn) as (B1 & B2 & B3 & B4).
    rewrite (ac_goal _ _ _ A), (ac_atom _ _ _ A), (ac_parents _ _ _ A), (ac_children _ _ _ A), (ac_derived _ _ _ A), B3. splits; auto. split; auto. intros [K|K]; [discriminate|auto].
Qed.
Print Assumptions C67_atoms.

(** For tasks the cost-partitioning heuristic accepts: the landmarks are exactly the landmarks of
    the delete relaxation (of its unary version if the option is set), goals are marked, the
    achievers are the operators with such an effect, and the first achievers are those that can be
    applied without having reached the atom. *)
Theorem C67_exhaust_exact : forall io il t un, relax_ok t -> state_ok t (t_init t) -> t_rules t = [] -> no_conditional_effects t ->
  exists g, cost_partitioning_graph io il t (Exhaust un) = Ok g /\
    (forall a, (exists l, In l g /\ lm_atoms l = [a]) <->
       fact_ok t a /\ relaxed_landmark t (if un then unary_relaxation (t_ops t) else t_ops t) a) /\
    forall l, In l g -> exists a, lm_atoms l = [a] /\ lm_disjunctive l = false /\ (lm_goal l = true <-> In a (t_goal t)) /\
      (forall o, In o (lm_possible l) <-> exists op e, nth_error (t_ops t) o = Some op /\ In e (op_effs op) /\ eff_fact e = a) /\
      (forall o, In o (lm_first l) <-> exists op e, nth_error (t_ops t) o = Some op /\ In e (op_effs op) /\ eff_fact e = a /\
         forall f, In f (op_pre op) -> avoiding t false (fun b => b = a) f) /\
      lm_parents l = [] /\ lm_children l = [].
Proof.
  intros io il t un Hro Hi Hr Hc. destruct (exhaust_graph io il t un Hro Hi) as (g & g' & E & H1 & H2 & H3 & H4). exists (map landmark_of g').
  unfold cost_partitioning_graph. rewrite Hr. apply no_cond in Hc as Hc'. rewrite Hc', andb_false_r, E. cbn [bind]. splits; auto.
  - intros a. change (if un then unary_relaxation (t_ops t) else t_ops t) with (relaxation_ops t un). rewrite (landmark_av t un a Hr (or_intror Hc)).
    change (~ forall g0, In g0 (t_goal t) -> avoiding t un (fun f => f = a) g0) with (needed t un a). rewrite <- H3, <- (achieved_has t g g' a H1). split.
    + intros (l & Hl & Ea). apply in_map_iff in Hl as (n & <- & Hn). exists n. split; auto. cbn in Ea. congruence.
    + intros (n & Hn & <-). exists (landmark_of n). split; [now apply in_map|reflexivity].
  - intros l Hl. apply in_map_iff in Hl as (n' & <- & Hn'). destruct (forall2_in_r _ _ _ H1 n' Hn') as (n & Hn & A). rewrite Forall_forall in H2. destruct (H2 n Hn) as (B1 & B2 & B3 & B4).
    exists (n_atom n). split; [cbn; now rewrite (ac_atom _ _ _ A)|]. split; [reflexivity|]. split; [cbn; now rewrite (ac_goal _ _ _ A)|]. split; [intros o; now apply possible_ops|].
    split; [|cbn; now rewrite (ac_parents _ _ _ A), (ac_children _ _ _ A)].
    intros o. rewrite (first_ops t n n' o Hr A). split; intros (op & e & K1 & K2 & K3 & K4); exists op, e; splits; auto; [intros f Hf; apply K4, in_app_iff; auto|].
    rewrite (Hc op e (nth_error_In _ _ K1) K2), app_nil_r. auto.
Qed.
Print Assumptions C67_exhaust_exact.

(** Landmarks that are not true initially are the facts that every relaxed plan reaches. *)
Theorem C67_every_relaxed_plan : forall io il t un a, relax_ok t -> state_ok t (t_init t) -> t_rules t = [] -> no_conditional_effects t ->
  fact_ok t a -> ~ holds (t_init t) a ->
  exists g, cost_partitioning_graph io il t (Exhaust un) = Ok g /\
    ((exists l, In l g /\ lm_atoms l = [a]) <->
     forall os F, relaxed_plan t (if un then unary_relaxation (t_ops t) else t_ops t) os F -> In a F).
Proof.
  intros io il t un a Hro Hi Hr Hc Ha Hn. destruct (C67_exhaust_exact io il t un Hro Hi Hr Hc) as (g & E & H & _). exists g. split; auto.
  rewrite H, (landmark_every_plan t _ a Hn). tauto.
Qed.
Print Assumptions C67_every_relaxed_plan.

(** The graph is what the landmark heuristics need: every plan of the task makes the landmarks
    true, through the listed achievers. *)
Theorem C67_sound : forall io il t un g, task_ok t -> no_derived t -> unconditional_effects_happen t ->
  cost_partitioning_graph io il t (Exhaust un) = Ok g -> graph_ok t g /\ sound t g.
Proof.
  intros io il t un g Ht Hnd Hu E. assert (Hro := task_relax t Ht Hnd). assert (Hi : state_ok t (t_init t)) by (destruct Ht as (_ & _ & _ & K & _); auto).
  destruct (exhaust_graph io il t un Hro Hi) as (g0 & g' & E' & H1 & H2 & H3 & H4). unfold cost_partitioning_graph in E. rewrite E' in E. cbn [bind] in E.
  destruct (match t_rules t with [] => false | _ => true end); [discriminate|]. destruct (negb (supports_conditional_effects (Exhaust un)) && has_conditional_effects t); [discriminate|]. injection E as <-.
  rewrite Forall_forall in H2. assert (Hf : forall n, In n g0 -> fact_ok t (n_atom n) /\ needed t un (n_atom n)) by (intros n Hn; apply H3; eauto). split.
  - apply (nodes_graph_ok t Hnd g0) ; auto; [intros n Hn; apply Hf; auto|].
    intros i a Ha j ty. destruct (H2 a (nth_error_In _ _ Ha)) as (-> & -> & _). split; intros [].
  - apply (nodes_sound t Ht Hnd Hu g0); auto.
    + intros n Hn. destruct un; [apply needed_false|]; apply Hf; auto.
    + intros n Hn. apply H2. auto.
    + intros i b j ty Hb Hp. destruct (H2 b (nth_error_In _ _ Hb)) as (E & _). rewrite E in Hp. destruct Hp.
Qed.
Print Assumptions C67_sound.

(** Together with C54: cost partitioning over the generated landmarks never overestimates. *)
Theorem C67_admissible : forall io il t un g opt alm rnd es st s os0 ss0 os,
  task_ok t -> no_derived t -> unconditional_effects_happen t -> cost_partitioning_graph io il t (Exhaust un) = Ok g ->
  history t es -> rounding unit_roundoff rnd -> notify_all t g opt es = Ok st -> known t es s os0 ss0 -> task_plan_from t s os ->
  (Z.of_nat (S (length g)) * Z.of_nat (S (plan_cost t os)) <= 2 ^ 43)%Z ->
  exists v, heuristic rnd t g alm st s = Ok (Some v) /\ (v <= Z.of_nat (plan_cost t os))%Z.
Proof.
  intros io il t un g opt alm rnd es st s os0 ss0 os Ht Hnd Hu E. destruct (C67_sound io il t un g Ht Hnd Hu E) as [Hg Hs].
  intros. eapply C54_admissible; eauto. destruct Ht as (_ & _ & _ & K & _). auto.
Qed.
Print Assumptions C67_admissible.

(** Tasks the combination does not support are rejected: rules, and conditional effects. *)
Theorem C67_unsupported : forall io il t un,
  t_rules t <> [] \/ ~ no_conditional_effects t -> cost_partitioning_graph io il t (Exhaust un) = Exit 34.
Proof.
  intros io il t un H. unfold cost_partitioning_graph. destruct (t_rules t) eqn:E; auto. destruct H as [H|H]; [congruence|].
  destruct (has_conditional_effects t) eqn:Ec; auto. elim H. now apply no_cond.
Qed.
Print Assumptions C67_unsupported.

(** Without the last hypothesis of [C67_sound] it fails: if an operator sets a variable twice, only
    the second value is reached, but the first is reported as a landmark. *)
Definition twice_ex : task := {|
  t_vars := [lv 3]; t_ops := [lop [(0, 0)] [(0, 1); (0, 2)] 1]; t_rules := []; t_init := [0]; t_goal := [(0, 2)] |}.
Theorem C67_conflicting_effects_refuted : exists io il t g l os ss,
  task_ok t /\ no_derived t /\ no_conditional_effects t /\ cost_partitioning_graph io il t (Exhaust false) = Ok g /\ In l g /\
  plan_run t (t_init t) os ss /\ forall i, ~ true_at l ss i.
Proof.
  assert (Hnd : no_derived twice_ex) by (split; [reflexivity|]; intros [|[|v]]; cbn; auto).
  exists (fun x => x), (fun x => x), twice_ex.
  remember (cost_partitioning_graph (fun x => x) (fun x => x) twice_ex (Exhaust false)) as r eqn:Er. vm_compute in Er. subst r.
  eexists _, {| lm_disjunctive := false; lm_atoms := [(0, 1)]; lm_goal := false; lm_first := [0]; lm_possible := [0]; lm_parents := []; lm_children := [] |}, [0], [[0]; [2]].
  splits.
  - apply task_okb_ok. reflexivity.
  - exact Hnd.
  - apply no_cond. reflexivity.
  - reflexivity.
  - cbn; auto 10.
  - split.
    + apply (run_cons twice_ex [0] 0 [2]); [|eapply (progress_apply twice_ex Hnd [0] 0); [reflexivity|reflexivity]|constructor]. exists (lop [(0, 0)] [(0, 1); (0, 2)] 1). split; auto. intros f [<-|[]]. reflexivity.
    + intros f [<-|[]]. reflexivity.
  - intros i (x & Hx & Hl). specialize (Hl (0, 1) (or_introl eq_refl)). destruct i as [|[|i]]; cbn in Hx; [| |destruct i; discriminate]; injection Hx as <-; discriminate.
Qed.
Print Assumptions C67_conflicting_effects_refuted.

(** A concrete case: the task of C54's example. *)
Example C67_nonvacuous :
  task_ok lm_ex /\ no_derived lm_ex /\ relax_ok lm_ex /\ no_conditional_effects lm_ex /\ unconditional_effects_happen lm_ex /\
  (forall un, match cost_partitioning_graph (fun x => x) (fun x => x) lm_ex (Exhaust un) with
   | Ok g => map (fun l => (lm_atoms l, lm_goal l, lm_first l, lm_possible l)) g =
       [([(1, 2)], true, [2], [2]); ([(0, 1)], true, [0], [0]); ([(1, 0)], false, [], [3]); ([(1, 1)], false, [1], [1])]
   | _ => False end) /\
  (match cost_partitioning_graph (fun x => x) (fun x => x) lm_ex (Exhaust false) with
   | Ok g => match notify_all lm_ex g all_on lm_history with
             | Ok st => map (heuristic worst_rounding lm_ex g true st) [[0; 0]; [1; 0]; [1; 1]; [1; 2]] = [Ok (Some 6); Ok (Some 4); Ok (Some 1); Ok (Some 0)]%Z
             | _ => False end
   | _ => False end).
Proof.
  split; [apply lm_ex_ok|]. split; [apply lm_ex_nd|]. split; [apply task_relax; [apply lm_ex_ok|apply lm_ex_nd]|].
  split; [apply no_cond; reflexivity|]. split.
  { intros op e e' Ho He He' _ Hf. repeat (destruct Ho as [<-|Ho]; [cbn in He, He'; intuition (subst; cbn in *; congruence)|]). destruct Ho. }
  split; [intros []; vm_compute; reflexivity|]. vm_compute. reflexivity.
Qed.
