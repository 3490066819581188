(** C32-C34, C36: the delete-relaxation heuristics hmax(), add() and ff(). *)
From Verif Require Import Outcome Spec_Task Spec_Relaxation Model_Task Proof_Task Model_PQ Model_Relaxation
  Proof_Dijkstra Proof_Relaxation Proof_RelaxHeur Proof_FF Prop_Axioms.

(** C32.  Whatever is left in the queue and in the [reached_by] fields from earlier evaluations,
    evaluating a state succeeds and returns the h^max value: for a goal relaxed-unreachable
    infinity, otherwise the maximum over the goals of their least max-derivation costs. *)
Theorem C32_hmax_exact : forall P bag, pq_contract P bag ->
  forall t s q0 by0, relax_ok t -> state_ok t s -> length by0 = num_props t ->
  exists v, hmax P t q0 by0 s = Ok v /\ hmax_value t s (t_goal t) v /\
    (v = None <-> exists f, In f (t_goal t) /\ ~ rreach t (fun _ => True) s f).
Proof.
  intros P bag HP t s q0 by0 Ht Hs Hb. destruct (hmax_exact P bag HP t s q0 by0 Ht Hs Hb) as (v & E & Hv).
  exists v. splits; auto. rewrite <- (rvalue_none list_max). split; [intros ->; exact Hv|].
  intros (f & Hf & Hn). destruct v as [x|]; auto. destruct Hv as (cs & HF & _). exfalso.
  clear -HF Hf Hn. induction HF as [|a c l cs [Hl _] HF IH]; [destruct Hf|]. destruct Hf as [->|Hf]; eauto.
  now apply (Hn c).
Qed.
Print Assumptions C32_hmax_exact.

(** Without derived variables it never exceeds the cost of a plan from the state: in particular
    a state with a plan is not reported as a dead end. *)
Theorem C32_hmax_admissible : forall P bag, pq_contract P bag ->
  forall t s q0 by0, relax_ok t -> state_ok t s -> length by0 = num_props t -> no_derived t ->
  exists v, hmax P t q0 by0 s = Ok v /\
    forall os, task_plan_from t s os -> exists x, v = Some x /\ x <= plan_cost t os.
Proof.
  intros P bag HP t s q0 by0 Ht Hs Hb Hn. destruct (hmax_exact P bag HP t s q0 by0 Ht Hs Hb) as (v & E & Hv).
  exists v. split; auto. intros os Hos. eapply hmax_value_admissible; eauto.
Qed.
Print Assumptions C32_hmax_admissible.

Theorem C32_hmax_consistent : forall P bag, pq_contract P bag ->
  forall t s o op s' q0 by0 q1 by1, relax_ok t -> state_ok t s -> state_ok t s' ->
  length by0 = num_props t -> length by1 = num_props t -> no_derived t ->
  nth_error (t_ops t) o = Some op -> applicable t s o -> progress t s o s' ->
  exists v v', hmax P t q0 by0 s = Ok v /\ hmax P t q1 by1 s' = Ok v' /\
    forall x', v' = Some x' -> exists x, v = Some x /\ x <= op_cost op + x'.
Proof.
  intros P bag HP t s o op s' q0 by0 q1 by1 Ht Hs Hs' Hb Hb1 Hn Ho Ha Hp.
  destruct (hmax_exact P bag HP t s q0 by0 Ht Hs Hb) as (v & E & Hv).
  destruct (hmax_exact P bag HP t s' q1 by1 Ht Hs' Hb1) as (v' & E' & Hv').
  exists v, v'. splits; auto. intros x' ->. eapply hmax_value_consistent; eauto.
Qed.
Print Assumptions C32_hmax_consistent.

(** C33.  The additive heuristic, with its clamping constant [mx] (100,000,000 in the code):
    infinity exactly for relaxed-unreachable goals, otherwise the h^add value or [mx] if that is
    larger.  (Operator costs are at most [mx]; see finding r in DESIGN.md.) *)
Theorem C33_hadd_exact : forall P bag, pq_contract P bag ->
  forall mx t s q0 by0, relax_ok t -> state_ok t s -> length by0 = num_props t ->
  (forall op, In op (t_ops t) -> op_cost op <= mx) ->
  exists h pref v, hadd P mx t q0 by0 s = Ok (h, pref) /\
    hadd_value t s (t_goal t) v /\ h = option_map (Nat.min mx) v /\
    (h = None <-> exists f, In f (t_goal t) /\ ~ rreach t (fun _ => True) s f) /\
    (forall o, In o pref -> applicable t s o).
Proof.
  intros P bag HP mx t s q0 by0 Ht Hs Hb Hc. destruct (hadd_spec P bag mx t s q0 by0 HP Ht Hs Hb Hc) as (h & pref & v & E & Hv & -> & Hp).
  exists (option_map (Nat.min mx) v), pref, v. splits; auto. rewrite <- (rvalue_none list_sum). split.
  - destruct v; [discriminate|]. intros _. exact Hv.
  - intros (f & Hf & Hn). destruct v as [x|]; auto. destruct Hv as (cs & HF & _). exfalso.
    clear -HF Hf Hn. induction HF as [|a c l cs [Hl _] HF IH]; [destruct Hf|]. destruct Hf as [->|Hf]; eauto. now apply (Hn c).
Qed.
Print Assumptions C33_hadd_exact.

(** C34.  The FF heuristic: the value is the total cost of a set of operators with which, under
    the delete relaxation, all goals are reachable; infinity exactly for relaxed-unreachable
    goals; preferred operators are applicable. *)
Theorem C34_ff_relaxed_plan : forall P bag, pq_contract P bag ->
  forall mx t s q0 by0, relax_ok t -> state_ok t s -> length by0 = num_props t ->
  (forall op, In op (t_ops t) -> op_cost op <= mx) ->
  exists h pref plan, hff P mx t q0 by0 s = Ok (h, pref, plan) /\
    match h with
    | Some v => (exists RP, NoDup RP /\ v = plan_cost t RP /\ (forall o, In o RP -> o < length (t_ops t)) /\
                   forall f, In f (t_goal t) -> rreach t (fun o => In o RP) s f) /\
                (forall o, In o pref -> applicable t s o)
    | None => exists f, In f (t_goal t) /\ ~ rreach t (fun _ => True) s f
    end.
Proof.
  intros P bag HP mx t s q0 by0 Ht Hs Hb Hc. destruct (hff_spec P bag mx t s q0 by0 HP Ht Hs Hb Hc) as (h & pref & plan & E & Hh).
  exists h, pref, plan. split; auto. destruct h; auto. now apply rvalue_none in Hh.
Qed.
Print Assumptions C34_ff_relaxed_plan.

(** C36.  Simplification: the remaining operators are among the original ones, and every fact has
    the same cost (including "no derivation") from every set of facts, for both heuristics. *)
Definition plain (u : uop) : list nat * nat * nat := (u_pre u, u_eff u, u_cost u).
Lemma der_ucost M comb us I p c : (forall b cs, uval M b cs = b + comb cs) ->
  (der M us I p c <-> ucost comb (map plain us) I p c).
Proof.
  intros Hu. split.
  - induction 1 as [p Hp|u k Hin Hq IH]; [now apply uc_init|]. rewrite Hu. apply uc_op; auto.
    apply in_map_iff. exists u; auto.
  - induction 1 as [p Hp|pre p c k Hin Hq IH]; [now apply der_init|]. apply in_map_iff in Hin.
    destruct Hin as (u & E & Hin). inversion E; subst. rewrite <- Hu. apply der_op; auto.
Qed.

Theorem C36_simplify_preserves_costs : forall us, (forall u, In u us -> NoDup (u_pre u)) ->
  incl (simplify us) us /\
  forall I p c,
    (least (ucost list_max (map plain (simplify us)) I p) c <-> least (ucost list_max (map plain us) I p) c) /\
    (least (ucost list_sum (map plain (simplify us)) I p) c <-> least (ucost list_sum (map plain us) I p) c).
Proof.
  intros us Hnd. split; [intros u; apply simplify_sub|]. intros I p c.
  assert (L : forall P Q : nat -> Prop, (forall c, P c <-> Q c) -> (least P c <-> least Q c)).
  { intros P Q E. unfold least. rewrite E. split; intros [H1 H2]; split; auto; intros c' Hc'; apply H2; now apply E. }
  split.
  - rewrite <- (L _ _ (fun c => der_ucost _ _ _ _ _ c hmax_uval)), <- (L _ _ (fun c => der_ucost _ _ us _ _ c hmax_uval)).
    apply (least_simplify hmax_mode _ hmax_mode_ok). intros u Hu. split; auto.
  - rewrite <- (L _ _ (fun c => der_ucost _ _ _ _ _ c sum_uval)), <- (L _ _ (fun c => der_ucost _ _ us _ _ c sum_uval)).
    apply (least_simplify sum_mode _ sum_mode_ok). intros u Hu. split; auto.
Qed.
Print Assumptions C36_simplify_preserves_costs.

(** The unary operators that the heuristics build meet the hypothesis. *)
Theorem C36_unary_ops_nodup : forall t u, In u (unary_ops t) -> NoDup (u_pre u).
Proof.
  intros t u Hu. apply in_app_iff in Hu. destruct Hu as [Hu|Hu].
  - apply unary_of_ops_in in Hu. destruct Hu as (i & op & e & _ & _ & ->). apply sort_unique_nodup.
  - apply in_map_iff in Hu. destruct Hu as (r & <- & _). apply sort_unique_nodup.
Qed.
Print Assumptions C36_unary_ops_nodup.

(** Non-vacuity. *)
Lemma ex_relax_ok : relax_ok ex_task.
Proof.
  unfold relax_ok. splits.
  - intros op Hop. cbn in Hop. decompose [or] Hop; try contradiction; subst op; cbn [op_pre op_effs];
      (split; [repeat constructor; apply fact_ok_ex; reflexivity|]); intros e He; cbn in He;
      decompose [or] He; try contradiction; subst e; cbn [eff_cond eff_fact]; split; repeat constructor; apply fact_ok_ex; reflexivity.
  - intros r Hr. cbn in Hr. decompose [or] Hr; try contradiction; subst r; cbn [r_body r_head fst];
      (split; [repeat constructor; apply fact_ok_ex; reflexivity|]); (split; [apply fact_ok_ex; reflexivity|]);
      eexists; split; reflexivity.
  - repeat constructor; apply fact_ok_ex; reflexivity.
Qed.

Lemma ex_costs : forall op, In op (t_ops ex_task) -> op_cost op <= 100.
Proof. intros op Hop. cbn in Hop. decompose [or] Hop; try contradiction; subst op; cbn [op_cost]; lia. Qed.

Example C32_nonvacuous : relax_ok ex_task /\ state_ok ex_task [0; 0; 0; 0; 1] /\
  hmax list_pq ex_task [(7, 3)] (repeat (Some 5) 11) [0; 0; 0; 0; 1] = Ok (Some 3).
Proof.
  split; [apply ex_relax_ok|]. split; [|reflexivity].
  repeat constructor.
Qed.
Example C34_nonvacuous :
  hff list_pq 100 ex_task [] (repeat None 11) [0; 0; 0; 0; 1] = Ok (Some 3, [0; 1], [true; true]).
Proof. vm_compute. reflexivity. Qed.

(** A task without derived variables for the admissibility statements: the optimal plan costs 5,
    h^max is 4 because the two subgoals share nothing but only the larger is counted. *)
Definition relax_ex : task := {|
  t_vars := [ {| vdom := 3; vlayer := None; vdefault := 0 |}; {| vdom := 2; vlayer := None; vdefault := 0 |} ];
  t_ops := [ {| op_pre := [(0, 0)]; op_effs := [ {| eff_cond := []; eff_fact := (0, 1) |} ]; op_cost := 1 |};
             {| op_pre := [(0, 1)]; op_effs := [ {| eff_cond := []; eff_fact := (0, 2) |} ]; op_cost := 3 |};
             {| op_pre := []; op_effs := [ {| eff_cond := []; eff_fact := (1, 1) |} ]; op_cost := 1 |} ];
  t_rules := []; t_init := [0; 0]; t_goal := [(0, 2); (1, 1)] |}.
Lemma fact_ok_relax_ex f : (fst f <? 2) && (snd f <? nth (fst f) [3; 2] 0) = true -> fact_ok relax_ex f.
Proof.
  destruct f as [v d]. unfold fact_ok, is_var. cbn [fst snd].
  intros H. apply andb_true_iff in H. destruct H as [H1 H2]. apply Nat.ltb_lt in H1, H2.
  do 2 (destruct v as [|v]; [eexists; split; [reflexivity|exact H2]|]). lia.
Qed.
Lemma relax_ex_ok : relax_ok relax_ex.
Proof.
  unfold relax_ok. splits.
  - intros op Hop. cbn in Hop. decompose [or] Hop; try contradiction; subst op; cbn [op_pre op_effs];
      (split; [repeat constructor; apply fact_ok_relax_ex; reflexivity|]); intros e He; cbn in He;
      decompose [or] He; try contradiction; subst e; cbn [eff_cond eff_fact]; split; repeat constructor; apply fact_ok_relax_ex; reflexivity.
  - intros r [].
  - repeat constructor; apply fact_ok_relax_ex; reflexivity.
Qed.
Lemma relax_ex_no_derived : no_derived relax_ex.
Proof. split; auto. intros v. unfold layer_of. do 2 (destruct v as [|v]; [reflexivity|]). destruct v; reflexivity. Qed.
Example C32_admissible_nonvacuous :
  relax_ok relax_ex /\ no_derived relax_ex /\ state_ok relax_ex [0; 0] /\
  hmax list_pq relax_ex [] (repeat None 5) [0; 0] = Ok (Some 4) /\
  hmax list_pq relax_ex [] (repeat None 5) [1; 0] = Ok (Some 3) /\ applicable relax_ex [0; 0] 0 /\
  plan_cost relax_ex [0; 1; 2] = 5.
Proof.
  splits; try reflexivity; [apply relax_ex_ok|apply relax_ex_no_derived|repeat constructor|].
  eexists. split; [reflexivity|]. intros f [<-|[]]. reflexivity.
Qed.
Example C33_nonvacuous :
  hadd list_pq 100 ex_task [] (repeat None 11) [0; 0; 0; 0; 1] = Ok (Some 3, [0; 1]) /\
  hadd list_pq 100 ex_task [] (repeat None 11) [2; 0; 0; 0; 1] = Ok (None, []) /\
  hadd list_pq 100 relax_ex [] (repeat None 5) [0; 0] = Ok (Some 5, [0; 2]) /\
  hadd list_pq 4 relax_ex [] (repeat None 5) [0; 0] = Ok (Some 4, [0; 2]) /\
  (forall op, In op (t_ops relax_ex) -> op_cost op <= 4).
Proof.
  splits; try (vm_compute; reflexivity).
  intros op Hop. cbn in Hop. decompose [or] Hop; try contradiction; subst op; cbn [op_cost]; lia.
Qed.
Example C36_nonvacuous :
  let us := [ {| u_pre := [1; 2]; u_eff := 3; u_cost := 4; u_no := Some 0 |};
              {| u_pre := [2]; u_eff := 3; u_cost := 4; u_no := Some 1 |};
              {| u_pre := [1]; u_eff := 3; u_cost := 5; u_no := Some 2 |};
              {| u_pre := [2]; u_eff := 3; u_cost := 4; u_no := Some 3 |} ] in
  (forall u, In u us -> NoDup (u_pre u)) /\ map u_no (simplify us) = [Some 1; Some 2].
Proof.
  split; [|reflexivity]. intros u Hu. cbn in Hu. decompose [or] Hu; try contradiction; subst u; cbn [u_pre];
    repeat constructor; cbn; intuition lia.
Qed.
