(** C35: the LM-cut heuristic. *)
From Verif Require Import Outcome Spec_Task Spec_Relaxation Model_Task Proof_Task Model_PQ Model_Relaxation Model_LMCut
  Proof_Dijkstra Proof_Relaxation Proof_RelaxHeur Proof_LMCut1 Proof_LMCut2 Proof_LMCut3 Prop_Relaxation.

(** A disjunctive action landmark: every plan from [s] contains one of the operators [L]. *)
Definition action_landmark (t : task) (s : state) (L : list nat) : Prop :=
  forall os, task_plan_from t s os -> exists o, In o L /\ In o os.

(** The part of the cost of operator [o] used by the landmarks that contain it. *)
Definition used (lms : list (list (option nat) * nat)) (o : nat) : nat :=
  list_sum (map (fun x : list (option nat) * nat =>
    if existsb (fun y => match y with Some o' => o' =? o | None => false end) (fst x) then snd x else 0) lms).

(** The tasks that the heuristic supports, with no fact listed twice in a condition. *)
Definition lmcut_task (t : task) : Prop :=
  relax_ok t /\ no_derived t /\ (forall op e, In op (t_ops t) -> In e (op_effs op) -> eff_cond e = []) /\
  (forall op, In op (t_ops t) -> NoDup (op_pre op)) /\ NoDup (t_goal t).

(** C35.  For whatever queue [q0] and costs [h0] an earlier evaluation left behind, the evaluation
    terminates; it reports a dead end exactly if some goal is unreachable under the delete
    relaxation; every reported operator set is a landmark of positive cost; and the heuristic value
    (the sum of the landmark costs) is at most the cost of every plan from the state, and even of
    every operator list that reaches the goals under the delete relaxation.  The landmark costs
    partition the operator costs, and no further landmark could be added: the goals are
    reachable with operators whose cost is used up.  (For an operator o, [used lms o] is the sum of the
    costs of the landmarks that contain o.) *)
Theorem C35_lmcut : forall P bag, pq_contract P bag ->
  forall t s q0 h0, lmcut_task t -> state_ok t s -> length h0 = num_props t + 2 ->
  exists r, lmcut_landmarks P t q0 h0 s = Ok r /\
    lmcut P t q0 h0 s = Ok (option_map (fun lms => list_sum (map snd lms)) r) /\
    (r = None <-> exists f, In f (t_goal t) /\ ~ rreach t (fun _ => True) s f) /\
    (r = None -> forall os, ~ task_plan_from t s os) /\
    forall lms, r = Some lms ->
      (forall lm c, In (lm, c) lms -> 0 < c /\ exists L, lm = map Some L /\ action_landmark t s L /\ L <> [] /\ NoDup L /\
         forall o, In o L -> exists op, nth_error (t_ops t) o = Some op /\ c <= op_cost op) /\
      (forall o op, nth_error (t_ops t) o = Some op -> used lms o <= op_cost op) /\
      (forall f, In f (t_goal t) ->
         rreach t (fun o => exists op, nth_error (t_ops t) o = Some op /\ used lms o = op_cost op) s f) /\
      (forall os, task_plan_from t s os -> list_sum (map snd lms) <= plan_cost t os) /\
      (forall os, (forall f, In f (t_goal t) -> rreach t (fun o => In o os) s f) -> list_sum (map snd lms) <= plan_cost t os).
Proof.
  intros P bag HP t s q0 h0 (Ht & Hnd & Hnc & Hpn & Hgn) Hs Hh. pose proof Hnd as [Hnr _].
  destruct (lmcut_spec t Ht Hnr Hnc Hpn Hgn s Hs P bag q0 h0 HP Hh) as (r & E & Hr).
  exists r. split; [exact E|]. split; [unfold lmcut; now rewrite E|]. destruct r as [lms|].
  - destruct Hr as (Hreach & Hlm & Hu1 & Hu2 & Hsum). splits; try discriminate.
    + split; [discriminate|]. intros (f & Hf & Hn). exfalso. apply Hn. auto.
    + intros x Ex. inversion Ex; subst x. splits; auto.
      * intros lm c Hin. destruct (Hlm lm c Hin) as (Hc & L & EL & Hne & HLnd & Hops & HO). split; auto. exists L. splits; auto.
        intros os Hos. apply HO. intros f Hf. now apply rreach_plan.
      * intros os Hos. apply Hsum. intros f Hf. now apply rreach_plan.
  - splits; auto.
    + split; auto. intros _.
      destruct (hmax_exact list_pq (fun q => q) list_pq_contract t s [] (repeat None (num_props t)) Ht Hs (repeat_length _ _)) as (v & _ & Hv).
      destruct v as [x|].
      * exfalso. apply Hr. intros f Hf. destruct Hv as (cs & HF & _). clear -HF Hf. induction HF as [|a c l cs [Hl _] HF IH]; [destruct Hf|].
        destruct Hf as [->|Hf]; auto. apply (Proof_FF.rcost_rreach list_max t s f c Hl).
      * destruct (Proof_FF.rvalue_none list_max t s (t_goal t)) as [H _]. auto.
    + intros _ os Hos. apply Hr. intros f Hf. eapply Proof_FF.rreach_mono; [|apply rreach_plan; eauto]. auto.
    + discriminate.
Qed.
Print Assumptions C35_lmcut.

(** Finding s: the task file format does not forbid listing a precondition twice; such an operator
    enters a cut twice and its cost would become negative (assertion failure in the code). *)
Theorem C35_duplicate_precondition_refuted : exists t s, relax_ok t /\ no_derived t /\ state_ok t s /\
  (forall op e, In op (t_ops t) -> In e (op_effs op) -> eff_cond e = []) /\ NoDup (t_goal t) /\
  lmcut_landmarks list_pq t [] (repeat 0 (num_props t + 2)) s = UB.
Proof.
  exists {| t_vars := [ {| vdom := 3; vlayer := None; vdefault := 0 |}; {| vdom := 2; vlayer := None; vdefault := 0 |} ];
            t_ops := [ {| op_pre := [(0, 0); (0, 0)]; op_effs := [ {| eff_cond := []; eff_fact := (0, 1) |} ]; op_cost := 1 |} ];
            t_rules := []; t_init := [0; 0]; t_goal := [(0, 1)] |}, [0; 0].
  assert (Hf : forall f, (fst f <? 2) && (snd f <? nth (fst f) [3; 2] 0) = true -> exists x,
     nth_error [ {| vdom := 3; vlayer := None; vdefault := 0 |}; {| vdom := 2; vlayer := None; vdefault := 0 |} ] (fst f) = Some x /\ snd f < vdom x).
  { intros [v d] H. cbn [fst snd] in *. apply andb_true_iff in H. destruct H as [H1 H2]. apply Nat.ltb_lt in H1, H2.
    do 2 (destruct v as [|v]; [eexists; split; [reflexivity|exact H2]|]). lia. }
  splits.
  - unfold relax_ok. splits.
    + intros op [<-|[]]; cbn [op_pre op_effs]. split; [repeat constructor; apply Hf; reflexivity|].
      intros e [<-|[]]; cbn [eff_cond eff_fact]; split; [constructor|apply Hf; reflexivity].
    + intros r [].
    + repeat constructor; apply Hf; reflexivity.
  - split; auto. intros v. unfold layer_of. do 2 (destruct v as [|v]; [reflexivity|]). destruct v; reflexivity.
  - repeat constructor.
  - intros op e [<-|[]] [<-|[]]. reflexivity.
  - repeat constructor. intros [].
  - vm_compute. reflexivity.
Qed.
Print Assumptions C35_duplicate_precondition_refuted.

(** Non-vacuity: three landmarks, with total cost 5, the cost of the optimal plan. *)
Example C35_nonvacuous : lmcut_task relax_ex /\ state_ok relax_ex [0; 0] /\
  lmcut_landmarks list_pq relax_ex [] (repeat 9 7) [0; 0] = Ok (Some [([Some 1], 3); ([Some 0], 1); ([Some 2], 1)]) /\
  lmcut list_pq relax_ex [] (repeat 9 7) [0; 0] = Ok (Some 5).
Proof.
  splits; try (vm_compute; reflexivity); [|repeat constructor].
  unfold lmcut_task. splits; [apply relax_ex_ok|apply relax_ex_no_derived| | |].
  - intros op e Hop. cbn in Hop. decompose [or] Hop; try contradiction; subst op; cbn [op_effs]; intros [<-|[]]; reflexivity.
  - intros op Hop. cbn in Hop. decompose [or] Hop; try contradiction; subst op; cbn [op_pre]; repeat constructor; intros [].
  - cbn. repeat constructor; cbn; intuition discriminate.
Qed.
