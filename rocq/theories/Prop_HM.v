(** C39: the h^m heuristic computes the h^m fixpoint over fact sets of size at most m, and never
    overestimates the cost of a plan. *)
From Coq Require Import Sorted.
From Verif Require Import Outcome Spec_Task Spec_Relaxation Spec_Projection Spec_HM Model_Task Proof_Task Model_HM Proof_HM1 Proof_HM2.

(** For every supported task, every m >= 1 and every state the computation terminates without a
    failed table access, and returns the h^m value of the goal ([None], a dead end, if infinite). *)
Theorem C39_hm_exact : forall m t s, hm_task t -> 1 <= m -> state_ok t s ->
  exists f0 v, (forall fuel, f0 <= fuel -> hm_heuristic fuel t m s = Ok v) /\ hm_value m t s (t_goal t) v.
Proof. exact hm_exact. Qed.
Print Assumptions C39_hm_exact.

Lemma hm_result fuel m t s v : hm_task t -> 1 <= m -> state_ok t s -> hm_heuristic fuel t m s = Ok v -> hm_value m t s (t_goal t) v.
Proof.
  intros Ht Hm Hs E. destruct (hm_exact m t s Ht Hm Hs) as (f0 & v' & Hf & Hv).
  enough (Ev : v = v') by now subst.
  assert (Hmono : forall fuel k tab r, update_table fuel t m tab = Ok r -> update_table (fuel + k) t m tab = Ok r).
  { clear. induction fuel as [|fuel IH]; intros k tab r H; [discriminate|]. cbn [update_table Nat.add] in *. apply bind_ok in H as (st & E & H). rewrite E. cbn [bind]. destruct (snd st); auto. }
  specialize (Hf (fuel + f0)). unfold hm_heuristic in *. destruct (is_goalb t s); [rewrite E in Hf; specialize (Hf ltac:(lia)); congruence|].
  apply bind_ok in E as (tab & E1 & E2). rewrite (Hmono fuel f0 _ _ E1) in Hf. cbn [bind] in Hf. rewrite E2 in Hf. specialize (Hf ltac:(lia)). congruence.
Qed.

(** No plan from the state is cheaper than the value. *)
Theorem C39_hm_admissible : forall fuel m t s v, hm_task t -> 1 <= m -> state_ok t s -> hm_heuristic fuel t m s = Ok v ->
  forall os, task_plan_from t s os -> exists c, v = Some c /\ c <= plan_cost t os.
Proof.
  intros fuel m t s v Ht Hm Hs E os Hos. apply hm_result in E; auto. pose proof (plan_hle m t Ht s os Hs Hos) as H. destruct v as [c|]; cbn [hm_value] in E.
  - exists c. split; auto. now apply E.
  - now apply E in H.
Qed.
Print Assumptions C39_hm_admissible.

(** The value drops by at most the operator cost along a transition. *)
Theorem C39_hm_consistent : forall f1 f2 m t s o op s' v v', hm_task t -> 1 <= m -> state_ok t s -> state_ok t s' ->
  applicable t s o -> nth_error (t_ops t) o = Some op -> progress t s o s' ->
  hm_heuristic f1 t m s = Ok v -> hm_heuristic f2 t m s' = Ok v' ->
  match v', v with
  | Some c', Some c => c <= op_cost op + c'
  | Some _, None => False
  | None, _ => True
  end.
Proof.
  intros f1 f2 m t s o op s' v v' Ht Hm Hs Hs' Ha Ho Hp E E'. apply hm_result in E; auto. apply hm_result in E'; auto.
  destruct v' as [c'|]; auto. cbn [hm_value] in E'. destruct E' as [E' _]. pose proof (hle_step m t s o op s' _ _ Ht Hs Ha Ho Hp E') as H.
  destruct v as [c|]; cbn [hm_value] in E; [now apply E|now apply E in H].
Qed.
Print Assumptions C39_hm_consistent.

(** A larger m gives values at least as large. *)
Theorem C39_hm_monotone : forall f1 f2 m m' t s v v', hm_task t -> 1 <= m -> m <= m' -> state_ok t s ->
  hm_heuristic f1 t m s = Ok v -> hm_heuristic f2 t m' s = Ok v' ->
  match v, v' with
  | Some c, Some c' => c <= c'
  | None, Some _ => False
  | _, None => True
  end.
Proof.
  intros f1 f2 m m' t s v v' Ht Hm Hmm Hs E E'. apply hm_result in E; auto. apply hm_result in E'; auto; [|lia].
  destruct v' as [c'|]; [|destruct v; auto]. cbn [hm_value] in E'. destruct E' as [E' _]. apply (hle_m m m') in E'; auto.
  destruct v as [c|]; cbn [hm_value] in E; [now apply E|now apply E in E'].
Qed.
Print Assumptions C39_hm_monotone.

(** Two switches that reset each other: h^1 sees two steps, h^2 the true cost 6. *)
Definition hm_ex (goal : list fact) : task :=
  let eff f := {| eff_cond := []; eff_fact := f |} in {|
  t_vars := [ {| vdom := 2; vlayer := None; vdefault := 0 |}; {| vdom := 2; vlayer := None; vdefault := 0 |} ];
  t_ops := [ {| op_pre := []; op_effs := [eff (0, 1); eff (1, 0)]; op_cost := 1 |};
             {| op_pre := []; op_effs := [eff (1, 1); eff (0, 0)]; op_cost := 1 |};
             {| op_pre := [(0, 1)]; op_effs := [eff (1, 1)]; op_cost := 5 |} ];
  t_rules := []; t_init := [0; 0]; t_goal := goal |}.
Example C39_nonvacuous : hm_task (hm_ex [(0, 1); (1, 1)]) /\ state_ok (hm_ex [(0, 1); (1, 1)]) [0; 0] /\
  hm_heuristic 9 (hm_ex [(0, 1); (1, 1)]) 1 [0; 0] = Ok (Some 1) /\
  hm_heuristic 9 (hm_ex [(0, 1); (1, 1)]) 2 [0; 0] = Ok (Some 6) /\
  task_plan_from (hm_ex [(0, 1); (1, 1)]) [1; 0] [2].
Proof.
  assert (Hok : forall v d, v < 2 -> d < 2 -> fact_ok (hm_ex [(0, 1); (1, 1)]) (v, d)).
  { intros v d Hv Hd. destruct v as [|[|v]]; [| |lia]; eexists; (split; [reflexivity|cbn; lia]). }
  assert (Hl : forall v, layer_of (hm_ex [(0, 1); (1, 1)]) v = None) by (intros [|[|[|v]]]; reflexivity).
  split; [|split; [|split; [|split]]].
  - split; [|split; [|split]].
    + unfold task_ok. cbn [hm_ex t_vars t_ops t_rules t_init t_goal].
      split; [repeat (apply Forall_cons || apply Forall_nil); unfold variable_ok; cbn; repeat split; try lia; congruence|].
      split; [repeat (apply Forall_cons || apply Forall_nil); unfold operator_ok; cbn [op_pre op_effs]; (split; [repeat (apply Forall_cons || apply Forall_nil); apply Hok; lia|]);
        repeat (apply Forall_cons || apply Forall_nil); unfold effect_ok; cbn [eff_cond eff_fact fst]; (split; [apply Forall_nil|split; [apply Hok; lia|apply Hl]])|].
      split; [apply Forall_nil|]. split; [repeat constructor|repeat (apply Forall_cons || apply Forall_nil); apply Hok; lia].
    + split; [reflexivity|apply Hl].
    + intros op [<-|[<-|[<-|[]]]]; cbn [op_effs op_pre op_facts map eff_fact fst];
        (split; [intros e He; cbn [In] in He; repeat (destruct He as [<-|He]; [reflexivity|]); destruct He|]);
        (split; repeat (apply NoDup_cons; [cbn; intuition lia|]); apply NoDup_nil).
    + cbn. repeat (constructor; auto).
  - repeat constructor.
  - vm_compute. reflexivity.
  - vm_compute. reflexivity.
  - exists [1; 1]. split.
    + econstructor; [| |constructor].
      * eexists. split; [reflexivity|]. intros f [<-|[]]. reflexivity.
      * exists {| op_pre := [(0, 1)]; op_effs := [{| eff_cond := []; eff_fact := (1, 1) |}]; op_cost := 5 |}, [1; 1]. split; [reflexivity|]. split; [reflexivity|]. split.
        -- intros v r Hv He. cbn [op_effs] in He. inversion He as [|es e w d Hc Ef Ees|es e w r' Hn He' Ees].
           ++ destruct es as [|? [|]]; try discriminate. cbn in Ees. inversion Ees. subst. cbn in Ef. inversion Ef. subst. reflexivity.
           ++ destruct es as [|? [|]]; try discriminate. cbn in Ees. inversion Ees. subst. inversion He' as [|es ? ? ? ? ? X|es ? ? ? ? ? X]; [|destruct es; discriminate|destruct es; discriminate]. subst.
              assert (v <> 1) by (intros ->; apply Hn; [intros f []|reflexivity]). destruct v as [|[|v]]; [reflexivity|lia|cbn [length] in Hv; lia].
        -- split; [reflexivity|]. split; auto. intros v x k d Hx Hk. specialize (Hl v). unfold layer_of in Hl. unfold is_var in Hx. rewrite Hx in Hl. congruence.
    + intros f [<-|[<-|[]]]; reflexivity.
Qed.

(** Finding: the goal is not sorted by variable before its partial tuples are looked up
    (hm_heuristic.cc:20 and 44), and the input format does not require a sorted goal: for such
    tasks the heuristic aborts (std::out_of_range) instead of returning the value. *)
Theorem C39_unsorted_goal_refuted : exists t s m, 1 <= m /\ task_ok t /\ state_ok t s /\ NoDup (map fst (t_goal t)) /\
  forall fuel, 9 <= fuel -> hm_heuristic fuel t m s = Exit (-6).
Proof.
  exists (hm_ex [(1, 1); (0, 1)]), [0; 0], 2. split; [lia|]. destruct C39_nonvacuous as (((H1 & H2 & H3 & H4 & H5) & _) & Hs & _). split; [|split; [|split]].
  - unfold task_ok. split; [exact H1|split; [exact H2|split; [exact H3|split; [exact H4|]]]]. inversion_clear H5. inversion_clear H0. repeat (apply Forall_cons || apply Forall_nil); auto.
  - exact Hs.
  - cbn. repeat (apply NoDup_cons; [cbn; intuition lia|]). apply NoDup_nil.
  - intros fuel Hf. assert (Hmono : forall fuel k tab r, update_table fuel (hm_ex [(1, 1); (0, 1)]) 2 tab = Ok r -> update_table (fuel + k) (hm_ex [(1, 1); (0, 1)]) 2 tab = Ok r).
    { clear. induction fuel as [|fuel IH]; intros k tab r H; [discriminate|]. cbn [update_table Nat.add] in *. apply bind_ok in H as (st & E & H). rewrite E. cbn [bind]. destruct (snd st); auto. }
    unfold hm_heuristic. replace (is_goalb (hm_ex [(1, 1); (0, 1)]) [0; 0]) with false by reflexivity.
    replace fuel with (9 + (fuel - 9)) by lia. 
    destruct (update_table 9 (hm_ex [(1, 1); (0, 1)]) 2 (init_table (all_tuples (hm_ex [(1, 1); (0, 1)]) 2) [0; 0])) as [tab| | |] eqn:E; vm_compute in E; try discriminate.
    rewrite (Hmono 9 (fuel - 9) _ tab); [|vm_compute; exact E]. inversion E. subst tab. vm_compute. reflexivity.
Qed.
Print Assumptions C39_unsorted_goal_refuted.
