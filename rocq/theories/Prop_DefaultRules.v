(** C59: rules for the default values of derived variables. *)
From Coq Require Import List Permutation.
From Verif Require Import Outcome Spec_Task Spec_Graph Spec_Relaxation Model_PQ Model_Task Model_Relaxation Model_Sccs Spec_DefaultRules Model_DefaultRules.
From Verif Require Import Proof_DefaultRules Proof_DefaultRules2 Proof_DefaultRules3 Proof_RelaxHeur Proof_FF Prop_Relaxation Prop_Axioms Model_Axioms Model_Registry Proof_Registry Proof_TaskCheck.
Import ListNotations.
Local Open Scope nat_scope.

Lemma extended_relax_ok t mode t' : task_ok t -> extended_if_needed t mode = Ok t' -> relax_ok t'.
Proof.
  intros Ht E. destruct (extended_shape t mode t' E) as (E1 & E2 & E3 & _ & E4).
  assert (F : forall f, fact_ok t f -> fact_ok t' f) by (intros f; unfold fact_ok, is_var; rewrite E2; auto).
  assert (FF : forall fs, Forall (fact_ok t) fs -> Forall (fact_ok t') fs) by (intros fs; apply Forall_impl; auto).
  assert (RO : forall r, In r (t_rules t) -> Forall (fact_ok t') (r_body r) /\ fact_ok t' (r_head r) /\ exists x, is_var t' (fst (r_head r)) x /\ vdom x = 2).
  { intros r Hr. destruct (rule_in_ok t Ht r Hr) as (HB & HH & x & k & Hx & Hk & _ & _). splits; auto. exists x. unfold is_var. rewrite E2. split; auto.
    apply (var_ok t Ht _ _ Hx). congruence. }
  unfold relax_ok. splits.
  - intros op Hop. rewrite E1 in Hop. destruct (op_in_ok t Ht op Hop) as [HP HE]. split; auto. intros e He. rewrite Forall_forall in HE. destruct (HE e He) as (A & B & _). auto.
  - destruct E4 as [[_ ->]|(added & Ea & ->)]; [intros r []|]. intros r Hr. apply in_app_iff in Hr as [Hr|Hr]; auto.
    destruct (default_value_axioms_ok t mode) as (sccs & N & added' & H1 & H2 & H3 & H4). assert (added' = added) by congruence. subst added'.
    apply (proj1 (H4 r)) in Hr; destruct Hr as (v & a & Hv & Ha & Hr). assert (Hp := N_ok _ _ _ _ H2 _ Hv). apply is_derived_spec in Hp as (x & k & Hx & Hk). cbn [fst] in Hx.
    destruct (var_ok t Ht _ _ Hx) as (_ & Hd & Hb). assert (Dx := default_value_is t _ _ Hx).
    assert (HH : r_head r = (v, default_value t v)) by (destruct a; [destruct Hr as [<-|[]]; auto|apply (add_for_var_head t _ _ _ Hr)]).
    rewrite HH. splits.
    + apply Forall_forall. intros f Hf. destruct a; [destruct Hr as [<-|[]]; destruct Hf|]. destruct (add_for_var_body t _ _ _ _ Hr Hf) as (r' & c & Hr' & _ & Hc & K1 & _ & K3).
      destruct (rule_in_ok t Ht r' Hr') as (HB & _). rewrite Forall_forall in HB. destruct (HB c Hc) as (y & Hy & _). apply F. exists y. rewrite K1. split; auto. now rewrite (domain_size_is t _ _ Hy) in K3.
    + apply F. exists x. cbn [fst snd]. rewrite Dx. split; auto. apply Hd. congruence.
    + exists x. cbn [fst]. unfold is_var. rewrite E2. split; auto. apply Hb. congruence.
  - rewrite E3. apply FF. destruct Ht as (_ & _ & _ & _ & HG). tauto.
Qed.

(** The extended task always exists.  It has the same variables, operators, initial state and
    goal, and all rules of the original task; every added rule derives the default value of a
    derived variable from facts in range. *)
Theorem C59_original_kept : forall t mode, task_ok t -> t_rules t <> [] ->
  exists t' added, extended_if_needed t mode = Ok t' /\
    t_vars t' = t_vars t /\ t_ops t' = t_ops t /\ t_init t' = t_init t /\ t_goal t' = t_goal t /\
    t_rules t' = t_rules t ++ added /\
    forall r, In r added -> is_default t (r_head r) /\ Forall (fact_ok t) (r_body r).
Proof.
  intros t mode Ht Hne. destruct (default_value_axioms_ok t mode) as (sccs & N & added & H1 & H2 & H3 & H4).
  assert (E : extended_if_needed t mode = Ok {| t_vars := t_vars t; t_ops := t_ops t; t_rules := t_rules t ++ added; t_init := t_init t; t_goal := t_goal t |}).
  { unfold extended_if_needed, extended_task. rewrite H3. destruct (t_rules t); [contradiction|reflexivity]. }
  eexists _, added. split; [exact E|]. cbn [t_vars t_ops t_init t_goal t_rules]. splits; auto. intros r Hr. split.
  - apply (proj1 (H4 r)) in Hr; destruct Hr as (v & a & Hv & Ha & Hr). assert (Hp := N_ok _ _ _ _ H2 _ Hv). apply is_derived_spec in Hp as (x & k & Hx & Hk). cbn [fst] in Hx.
    assert (HH : r_head r = (v, default_value t v)) by (destruct a; [destruct Hr as [<-|[]]; auto|apply (add_for_var_head t _ _ _ Hr)]).
    exists x, k. rewrite HH. cbn [fst snd]. splits; auto. apply (default_value_is t _ _ Hx).
  - destruct (extended_relax_ok t mode _ Ht E) as (_ & HR & _). destruct (HR r) as (HB & _); [cbn [t_rules]; apply in_app_iff; auto|]. exact HB.
Qed.
Print Assumptions C59_original_kept.

(** Exactness.  Unless the variable takes part in a cyclic definition (or all negative
    information is to be approximated), in every state left by evaluation the bodies of the
    added rules for its default value hold only if the default value holds. *)
Theorem C59_only_if : forall t t' added, task_ok t ->
  extended_task t APPROXIMATE_NEGATIVE_CYCLES = Ok t' -> t_rules t' = t_rules t ++ added ->
  forall s r, evaluated t s -> In r added -> ~ cyclic t (fst (r_head r)) -> all_hold s (r_body r) -> holds s (r_head r).
Proof.
  intros t t' added Ht E Er s r [Hs Hm] Hr Hnc Hall. unfold extended_task in E. apply bind_ok in E as (added' & Ea & E). injection E as <-. cbn [t_rules] in Er. apply app_inv_head in Er. subst added'.
  destruct (default_value_axioms_ok t APPROXIMATE_NEGATIVE_CYCLES) as (sccs & N & added' & H1 & H2 & H3 & H4). assert (added' = added) by congruence. subst added'.
  apply (proj1 (H4 r)) in Hr; destruct Hr as (v & a & Hv & Ha & Hr). assert (Hp := N_ok _ _ _ _ H2 _ Hv). apply is_derived_spec in Hp as (x & k & Hx & Hk). cbn [fst] in Hx.
  assert (HH : r_head r = (v, default_value t v)) by (destruct a; [destruct Hr as [<-|[]]; auto|apply (add_for_var_head t _ _ _ Hr)]).
  rewrite HH in *. cbn [fst] in Hnc. destruct (approximated_cyclic t Ht sccs v H1 (is_var_lt t _ _ Hx)) as (a' & Ha' & Hc). assert (a' = a) by congruence. subst a'.
  destruct a; [exfalso; apply Hnc, Hc; auto|]. rewrite (default_value_is t _ _ Hx) in *. apply (add_for_var_exact t Ht s s Hs Hm v x k Hx Hk). eauto.
Qed.
Print Assumptions C59_only_if.

(** Support.  Every default value that holds in a state left by evaluation and that the goal,
    a precondition or an effect condition mentions has an added rule whose body holds there. *)
Theorem C59_if : forall t mode t' added, task_ok t -> extended_task t mode = Ok t' -> t_rules t' = t_rules t ++ added ->
  forall s f, evaluated t s -> is_default t f -> used t f -> holds s f ->
  exists r, In r added /\ r_head r = f /\ all_hold s (r_body r).
Proof.
  intros t mode t' added Ht E Er s [v d] [Hs Hm] (x & k & Hx & Hk & Hd) Hu Hh. cbn [fst snd] in *. subst d.
  unfold extended_task in E. apply bind_ok in E as (added' & Ea & E). injection E as <-. cbn [t_rules] in Er. apply app_inv_head in Er. subst added'.
  destruct (default_value_axioms_ok t mode) as (sccs & N & added' & H1 & H2 & H3 & H4). assert (added' = added) by congruence. subst added'.
  assert (HN : In (v, true) N).
  { assert (K := N_used _ _ _ _ H2 (v, vdefault x) Hu). cbn [fst snd] in K. rewrite (default_value_is t _ _ Hx), Nat.eqb_refl in K. apply K. apply is_derived_spec. eauto. }
  destruct (approximated_ok t mode sccs v H1 (is_var_lt t _ _ Hx)) as (a & Ha & _). assert (Dx := default_value_is t _ _ Hx). destruct a.
  - exists {| r_body := []; r_head := (v, default_value t v) |}. splits; [apply H4; exists v, true; splits; auto; now left|cbn [r_head]; now rewrite Dx|intros ? []].
  - destruct (proj2 (add_for_var_exact t Ht s s Hs Hm v x k Hx Hk) Hh) as (r & Hr & Hall). rewrite <- Dx in Hr. exists r. splits; auto; [apply H4; eauto|]. now rewrite (add_for_var_head t _ _ _ Hr), Dx.
Qed.
Print Assumptions C59_if.

(** With either setting, cyclic definitions get one rule without conditions. *)
Theorem C59_cyclic_unconditional : forall t mode t' added, task_ok t -> extended_task t mode = Ok t' -> t_rules t' = t_rules t ++ added ->
  forall r, In r added -> mode = APPROXIMATE_NEGATIVE \/ cyclic t (fst (r_head r)) -> r_body r = [].
Proof.
  intros t mode t' added Ht E Er r Hr Hc.
  unfold extended_task in E. apply bind_ok in E as (added' & Ea & E). injection E as <-. cbn [t_rules] in Er. apply app_inv_head in Er. subst added'.
  destruct (default_value_axioms_ok t mode) as (sccs & N & added' & H1 & H2 & H3 & H4). assert (added' = added) by congruence. subst added'.
  apply (proj1 (H4 r)) in Hr; destruct Hr as (v & a & Hv & Ha & Hr). assert (Hp := N_ok _ _ _ _ H2 _ Hv). apply is_derived_spec in Hp as (x & k & Hx & Hk). cbn [fst] in Hx.
  assert (HH : r_head r = (v, default_value t v)) by (destruct a; [destruct Hr as [<-|[]]; auto|apply (add_for_var_head t _ _ _ Hr)]).
  rewrite HH in Hc. cbn [fst] in Hc. destruct a; [destruct Hr as [<-|[]]; auto|exfalso]. destruct mode.
  - discriminate Ha.
  - destruct Hc as [Hc|Hc]; [discriminate|]. destruct (approximated_cyclic t Ht sccs v H1 (is_var_lt t _ _ Hx)) as (a' & Ha' & Hc'). assert (a' = false) by congruence. subst a'. apply Hc' in Hc. discriminate.
Qed.
Print Assumptions C59_cyclic_unconditional.

(** What the rules are for: with them, h^max on a task with derived variables never exceeds the
    cost of a plan, and none of the relaxation heuristics reports a dead end for a state that
    has a plan.  No rule may contain its own head in its body (see below). *)
Definition no_self_rule (t : task) : Prop := forall r, In r (t_rules t) -> ~ In (r_head r) (r_body r).

Theorem C59_hmax_admissible : forall P bag, pq_contract P bag ->
  forall t mode, task_ok t -> no_self_rule t ->
  exists t', extended_if_needed t mode = Ok t' /\
  forall s q0 by0, evaluated t s -> length by0 = num_props t' ->
  exists v, hmax P t' q0 by0 s = Ok v /\
    forall os, task_plan_from t s os -> exists x, v = Some x /\ x <= plan_cost t os.
Proof.
  intros P bag HP t mode Ht Hself. destruct (default_value_axioms_ok t mode) as (sccs & N & added & H1 & H2 & H3 & H4).
  assert (exists t', extended_if_needed t mode = Ok t') as (t' & E).
  { unfold extended_if_needed, extended_task. rewrite H3. destruct (t_rules t); eexists; reflexivity. }
  exists t'. split; auto. intros s q0 by0 Hev Hb. assert (Hro := extended_relax_ok t mode t' Ht E). destruct (extended_shape t mode t' E) as (_ & Ev & Eg & _).
  assert (Hs' : state_ok t' s) by (unfold state_ok; rewrite Ev; apply Hev).
  destruct (hmax_exact P bag HP t' s q0 by0 Hro Hs' Hb) as (v & Ehv & Hv). exists v. split; auto. intros os Hos.
  apply (hmax_value_le t' s (t_goal t') v (plan_cost t os) Hv). intros f Hf. rewrite Eg in Hf.
  exact (plan_within t Ht mode Hself t' E s Hev os f Hos Hf).
Qed.
Print Assumptions C59_hmax_admissible.

Theorem C59_dead_ends_safe : forall P bag, pq_contract P bag ->
  forall t mode mx, task_ok t -> no_self_rule t -> (forall op, In op (t_ops t) -> op_cost op <= mx) ->
  exists t', extended_if_needed t mode = Ok t' /\
  forall s q0 by0 os, evaluated t s -> length by0 = num_props t' -> task_plan_from t s os ->
  (exists h pref, hadd P mx t' q0 by0 s = Ok (Some h, pref)) /\
  (exists h pref plan, hff P mx t' q0 by0 s = Ok (Some h, pref, plan)).
Proof.
  intros P bag HP t mode mx Ht Hself Hmx. destruct (default_value_axioms_ok t mode) as (sccs & N & added & H1 & H2 & H3 & H4).
  assert (exists t', extended_if_needed t mode = Ok t') as (t' & E).
  { unfold extended_if_needed, extended_task. rewrite H3. destruct (t_rules t); eexists; reflexivity. }
  exists t'. split; auto. intros s q0 by0 os Hev Hb Hos. assert (Hro := extended_relax_ok t mode t' Ht E). destruct (extended_shape t mode t' E) as (Eo & Ev & Eg & _).
  assert (Hs' : state_ok t' s) by (unfold state_ok; rewrite Ev; apply Hev).
  assert (Hreach : forall f, In f (t_goal t') -> rreach t' (fun _ => True) s f).
  { intros f Hf. rewrite Eg in Hf. destruct (plan_within t Ht mode Hself t' E s Hev os f Hos Hf) as (c & Hc & _). eapply rcost_rreach; eauto. }
  assert (Hc' : forall op, In op (t_ops t') -> op_cost op <= mx) by (rewrite Eo; auto). split.
  - destruct (C33_hadd_exact P bag HP mx t' s q0 by0 Hro Hs' Hb Hc') as (h & pref & v & Eh & _ & _ & Hd & _). destruct h as [h|]; [eauto|]. exfalso. destruct (proj1 Hd eq_refl) as (f & Hf & Hn). auto.
  - destruct (C34_ff_relaxed_plan P bag HP mx t' s q0 by0 Hro Hs' Hb Hc') as (h & pref & plan & Eh & Hh). destruct h as [h|]; [eauto|]. exfalso. destruct Hh as (f & Hf & Hn). auto.
Qed.
Print Assumptions C59_dead_ends_safe.

(** Every state the planner evaluates is of the required kind. *)
Theorem C59_reached_states_evaluated : forall t s0 s os s', task_ok t -> state_ok t s -> stratified_model t s0 s -> task_path t s os s' -> evaluated t s'.
Proof.
  intros t s0 s os s' Ht Hs Hm Hp. revert s0 Hs Hm. induction Hp as [s|s o s1 os s2 Ha Hpr Hp IH]; intros s0 Hs Hm.
  - split; auto. destruct Hm as (_ & _ & H3). splits; auto. unfold stratified_model. splits; auto.
  - destruct (progress_derived t Ht s o s1 Hs Hpr) as (_ & sx & _ & Hm1 & Hs1 & _). eauto.
Qed.
Print Assumptions C59_reached_states_evaluated.

(** Non-vacuity, and where the English claim fails.  Basic variables 0 (b) and 1 (c); derived
    variables 2 and 3 that do not depend on each other's non-default values cyclically:
    2 <- b=1, c=1;  2 <- b=2;  3 <- 2=default, c=1. *)
Definition bvar n : variable := {| vdom := n; vlayer := None; vdefault := 0 |}.
Definition dvar k : variable := {| vdom := 2; vlayer := Some k; vdefault := 0 |}.
Definition dr_ex : task := {|
  t_vars := [bvar 3; bvar 2; dvar 0; dvar 1];
  t_ops := [ {| op_pre := [(2, 1)]; op_effs := [ {| eff_cond := []; eff_fact := (0, 0) |} ]; op_cost := 2 |};
             {| op_pre := [(3, 0)]; op_effs := [ {| eff_cond := []; eff_fact := (1, 1) |} ]; op_cost := 3 |} ];
  t_rules := [ {| r_body := [(0, 1); (1, 1)]; r_head := (2, 1) |}; {| r_body := [(0, 2)]; r_head := (2, 1) |};
               {| r_body := [(2, 0); (1, 1)]; r_head := (3, 1) |} ];
  t_init := [2; 0; 1; 0]; t_goal := [(2, 0); (3, 1)] |}.
Lemma dr_ex_ok : task_ok dr_ex.
Proof. apply task_okb_ok. vm_compute. reflexivity. Qed.
Lemma dr_ex_eval s s' : state_okb s (t_vars dr_ex) = true -> evaluatedb dr_ex s s' -> stratified_model dr_ex s s' /\ state_ok dr_ex s'.
Proof. intros H1 H2. apply evaluatedb_ok; auto; [apply dr_ex_ok|discriminate|now apply state_okb_ok]. Qed.
Lemma one_step t s o op s' : nth_error (t_ops t) o = Some op -> stratified_model t (apply_effects s (op_effs op)) s' -> progress t s o s'.
Proof. apply strat_progress. Qed.

Example C59_nonvacuous :
  task_ok dr_ex /\ no_self_rule dr_ex /\ evaluated dr_ex [2; 0; 1; 0] /\ task_plan_from dr_ex [2; 0; 1; 0] [0; 1] /\ plan_cost dr_ex [0; 1] = 5 /\
  ~ cyclic dr_ex 2 /\
  match extended_if_needed dr_ex APPROXIMATE_NEGATIVE_CYCLES with
  | Ok t' => skipn 3 (t_rules t') = [ {| r_body := [(0, 0)]; r_head := (2, 0) |}; {| r_body := [(0, 1); (1, 0)]; r_head := (2, 0) |};
                                      {| r_body := [(1, 0)]; r_head := (3, 0) |}; {| r_body := [(2, 1)]; r_head := (3, 0) |} ] /\
             hmax list_pq t' [] (repeat None 9) [2; 0; 1; 0] = Ok (Some 3) /\
             hadd list_pq 100 t' [] (repeat None 9) [2; 0; 1; 0] = Ok (Some 7, [0; 1])
  | _ => False
  end.
Proof.
  splits.
  - apply dr_ex_ok.
  - intros r Hr Hi. cbn in Hr. decompose [or] Hr; try contradiction; subst r; cbn in Hi; decompose [or] Hi; try contradiction; discriminate.
  - destruct (dr_ex_eval [2; 0; 1; 0] [2; 0; 1; 0]) as [A B]; [reflexivity|reflexivity|]. split; auto.
  - exists [0; 1; 0; 1]. split.
    + apply task_path_cons with [0; 0; 0; 0].
      * eexists. split; [reflexivity|]. intros f [<-|[]]. reflexivity.
      * eapply one_step; [reflexivity|]. apply (dr_ex_eval [0; 0; 1; 0] [0; 0; 0; 0]); vm_compute; reflexivity.
      * apply task_path_cons with [0; 1; 0; 1]; [| |constructor].
        -- eexists. split; [reflexivity|]. intros f [<-|[]]. reflexivity.
        -- eapply one_step; [reflexivity|]. apply (dr_ex_eval [0; 1; 0; 0] [0; 1; 0; 1]); vm_compute; reflexivity.
    + intros f [<-|[<-|[]]]; reflexivity.
  - reflexivity.
  - intros (w & _ & H & _). assert (D : forall w, ~ depends dr_ex 2 w).
    { intros w' (r & f & x & k & H1 & H2 & H3 & H4 & H5 & H6 & _). cbn in H1. decompose [or] H1; try contradiction; subst r; cbn in *; try discriminate; decompose [or] H3; try contradiction; subst f; cbn in *; subst w'; cbn in H5; inv H5; discriminate. }
    inversion H as [? ? K|? ? ? K _]; subst; now apply D in K.
  - vm_compute. splits; reflexivity.
Qed.

(** "Only if" fails for cyclic definitions: 1 <- 2;  2 <- 1;  1 <- b.  Default value 0 of variable 1
    gets a rule without conditions, whose body holds in states where variable 1 is not 0. *)
Definition dr_cyc : task := {|
  t_vars := [bvar 2; dvar 0; dvar 0];
  t_ops := [];
  t_rules := [ {| r_body := [(2, 1)]; r_head := (1, 1) |}; {| r_body := [(1, 1)]; r_head := (2, 1) |}; {| r_body := [(0, 1)]; r_head := (1, 1) |} ];
  t_init := [1; 1; 1]; t_goal := [(1, 0)] |}.
Theorem C59_only_if_refuted :
  exists t t' added s r, task_ok t /\ no_self_rule t /\ extended_if_needed t APPROXIMATE_NEGATIVE_CYCLES = Ok t' /\ t_rules t' = t_rules t ++ added /\
    evaluated t s /\ In r added /\ all_hold s (r_body r) /\ ~ holds s (r_head r).
Proof.
  assert (Hok : task_ok dr_cyc) by (apply task_okb_ok; vm_compute; reflexivity).
  exists dr_cyc. eexists _, [{| r_body := []; r_head := (1, 0) |}], [1; 1; 1], {| r_body := []; r_head := (1, 0) |}. splits; auto.
  - intros r Hr Hi. cbn in Hr. decompose [or] Hr; try contradiction; subst r; cbn in Hi; decompose [or] Hi; try contradiction; discriminate.
  - vm_compute. reflexivity.
  - reflexivity.
  - destruct (evaluatedb_ok dr_cyc [1; 1; 1] [1; 1; 1] Hok) as [A B]; [discriminate|now apply state_okb_ok|vm_compute; reflexivity|]. split; auto.
  - left. reflexivity.
  - intros f [].
  - discriminate.
Qed.
Print Assumptions C59_only_if_refuted.

(** A rule with its own head in its body counts as acyclic, and its default rules can never be
    applied: 2 <- b;  2 <- 2, c.  From b=1, c=1 the operator b:=0 reaches the goal 2=0, but the
    extended task is relaxed unsolvable: h^max, h^add and h^FF report a dead end. *)
Definition dr_self : task := {|
  t_vars := [bvar 2; bvar 2; dvar 0];
  t_ops := [ {| op_pre := []; op_effs := [ {| eff_cond := []; eff_fact := (0, 0) |} ]; op_cost := 1 |} ];
  t_rules := [ {| r_body := [(0, 1)]; r_head := (2, 1) |}; {| r_body := [(2, 1); (1, 1)]; r_head := (2, 1) |} ];
  t_init := [1; 1; 1]; t_goal := [(2, 0)] |}.
Theorem C59_self_rule_refuted :
  exists t t' s os, task_ok t /\ evaluated t s /\ task_plan_from t s os /\
    extended_if_needed t APPROXIMATE_NEGATIVE_CYCLES = Ok t' /\
    hmax list_pq t' [] (repeat None (num_props t')) s = Ok None.
Proof.
  assert (Hok : task_ok dr_self) by (apply task_okb_ok; vm_compute; reflexivity).
  assert (EV : forall s s', state_okb s (t_vars dr_self) = true -> evaluatedb dr_self s s' -> stratified_model dr_self s s' /\ state_ok dr_self s').
  { intros. apply evaluatedb_ok; auto; [discriminate|now apply state_okb_ok]. }
  eexists dr_self, _, [1; 1; 1], [0]. splits; auto.
  - destruct (EV [1; 1; 1] [1; 1; 1]) as [A B]; [reflexivity|vm_compute; reflexivity|]. split; auto.
  - exists [0; 1; 0]. split; [|intros f [<-|[]]; reflexivity]. apply task_path_cons with [0; 1; 0]; [| |constructor].
    + eexists. split; [reflexivity|]. intros f [].
    + eapply one_step; [reflexivity|]. apply (EV [0; 1; 1] [0; 1; 0]); vm_compute; reflexivity.
  - vm_compute. reflexivity.
  - vm_compute. reflexivity.
Qed.
Print Assumptions C59_self_rule_refuted.
