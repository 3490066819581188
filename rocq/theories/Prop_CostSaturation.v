(** C47: saturated cost partitioning over Cartesian abstractions. *)
From Coq Require Import String.
From Verif Require Import Outcome Spec_Task Spec_Relaxation Spec_Cartesian Spec_DomainAbstraction Spec_CostSaturation Model_Task Model_PQ Model_Graph Model_DomainAbstraction Model_Cartesian Model_CostSaturation.
From Verif Require Import Proof_TaskCheck Proof_Cartesian2 Proof_Cartesian5 Proof_Cartesian6 Proof_CostSaturation1 Proof_CostSaturation2 Proof_CostSaturation3 Proof_DomainAbstraction2 Proof_MAS11 Prop_Cartesian.

Lemma sub_simulates t gs st : cartesian_task t -> subtask_of t gs st -> simulates t st.
Proof. intros Ht [gs' H1 H2|gs' groups sm name t' vms names H1 H2 H3 H4]; [now apply sim_goal|eapply sim_abstracted; eauto]. Qed.
Lemma sub_goal_state t gs st s s' : cartesian_task t -> subtask_of t gs st -> incl gs (t_goal t) -> state_ok t s -> goal_state t s -> st_conv st s = Ok s' -> goal_state (st_task st) s'.
Proof.
  intros Ht Hsub Hincl Hs Hg E. assert (Hg' : all_hold s gs) by (intros f Hf; apply Hg; auto). destruct Hsub as [gs' H1 H2|gs' groups sm name t' vms names H1 H2 H3 H4]; cbn [st_task st_conv] in *.
  - injection E as <-. exact Hg'.
  - destruct (abstracted_facts sm name (with_goal t gs') groups t' vms names) as (doms & -> & L1 & L2 & Hvm); auto. { now apply with_goal_ok. }
    rewrite (convert_state_ok _ doms vms L1 L2 Hvm s Hs) in E. injection E as <-. unfold goal_state, atask. cbn [t_goal with_goal]. eapply (aall_hold (with_goal t gs') doms vms L1 L2); auto.
Qed.
Lemma usable_good t gs st A : cartesian_task t -> subtask_of t gs st -> usable t gs st A -> good t st A.
Proof.
  intros Ht Hsub ((marked & R) & Hgoal). pose proof (sub_simulates t gs st Ht Hsub) as Sim. eapply good_of; eauto. intros s s' i Hs Hg E Ei.
  destruct Hgoal as [Hincl|Hgoal]; [|apply (Hgoal s s' i); auto; cbn [w_lookup view_of]; now rewrite Ei].
  destruct (sm_conv _ _ Sim s Hs) as (x & Ex & Hx). rewrite E in Ex. injection Ex as <-.
  destruct (C46_abstraction_exact _ _ _ (sm_task _ _ Sim) R) as ((Part & _) & _ & _ & Cov & _). destruct (Part s' Hx) as (j & Hj & Hl & Hm & _). cbn [w_lookup view_of] in Hl. rewrite Ei in Hl. injection Hl as <-.
  apply (Cov i s' Hj Hm). eapply sub_goal_state; eauto.
Qed.

Section RUN.
(** Any priority queue that pops a least entry (see C06), any refinement algorithm, any resource
    limits, all or only non-negative saturated costs, any subtasks in any order. *)
Variable P : pqueue.
Variable bag : PQ P -> list (nat * nat).
Hypothesis HP : pq_contract P bag.
Variable q0 : PQ P.
Hypothesis Hq0 : bag q0 = [].
Variable t : task.
Hypothesis Ht : cartesian_task t.
Variable general : bool.
Variable abort : nat -> bool.
Variable cegar : nat -> task -> list (option nat) -> outcome abstraction.
Variable gens : list (list subtask).
Hypothesis Husable : forall k st rem, In st (concat gens) -> length rem = length (t_ops t) ->
  exists gs A, subtask_of t gs st /\ cegar k (st_task st) rem = Ok A /\ usable t gs st A.

Lemma run_ok : exists fs rem, generate_heuristic_functions P q0 cegar abort general t gens = Ok fs /\ sat_ok t rem fs.
Proof.
  eapply generate_ok; eauto. intros k st rem Hin L. destruct (Husable k st rem Hin L) as (gs & A & Hsub & E & Hu). exists A. split; auto. eapply usable_good; eauto.
Qed.

(** The heuristic is always computed, and has a value for every state; goal states have value 0. *)
Lemma run_total : exists fs, generate_heuristic_functions P q0 cegar abort general t gens = Ok fs /\
  forall s, state_ok t s -> (exists v, compute_heuristic fs s = Ok v) /\ (goal_state t s -> compute_heuristic fs s = Ok (Some 0)).
Proof.
  destruct run_ok as (fs & rem & E & [_ V G _]). exists fs. split; auto. intros s Hs. split; [|auto].
  clear -V Hs. induction fs as [|f fs IH]; cbn [compute_heuristic]; [eauto|]. destruct (V f s (or_introl eq_refl) Hs) as (v & ->). cbn [bind]. destruct v as [v|]; [|eauto].
  destruct IH as (x & ->). { intros f' s' Hf'. apply V. now right. } cbn [bind]. eauto.
Qed.
Lemma run_path fs : generate_heuristic_functions P q0 cegar abort general t gens = Ok fs ->
  forall p s os s' b, task_path t (t_init t) p s -> task_path t s os s' -> compute_heuristic fs s' = Ok (Some b) ->
  exists a, compute_heuristic fs s = Ok (Some a) /\ a <= plan_cost t os + b.
Proof.
  intros E p s os s' b H1 H2 Hb. destruct run_ok as (fs' & rem & E' & [_ _ _ Q]). rewrite E in E'. injection E' as <-. destruct (Q p s os s' b H1 H2 Hb) as (a & Ha & _ & Hle). exists a. split; auto. lia.
Qed.
End RUN.

(** Building the heuristic succeeds, every state gets a value or is declared a dead end, and goal
    states get 0. *)
Theorem C47_total : forall P bag, pq_contract P bag -> forall q0, bag q0 = [] -> forall t, cartesian_task t ->
  forall general abort cegar gens,
  (forall k st rem, In st (concat gens) -> length rem = length (t_ops t) ->
     exists gs A, subtask_of t gs st /\ cegar k (st_task st) rem = Ok A /\ usable t gs st A) ->
  exists fs, generate_heuristic_functions P q0 cegar abort general t gens = Ok fs /\
  forall s, state_ok t s -> (exists v, compute_heuristic fs s = Ok v) /\ (goal_state t s -> compute_heuristic fs s = Ok (Some 0)).
Proof. intros. eapply run_total; eauto. Qed.
Print Assumptions C47_total.

(** The sum of the abstract goal distances under the successively reduced costs is a lower bound on
    the cost of every plan from every reachable state, and no reachable state with a plan is
    declared a dead end. *)
Theorem C47_admissible : forall P bag, pq_contract P bag -> forall q0, bag q0 = [] -> forall t, cartesian_task t ->
  forall general abort cegar gens,
  (forall k st rem, In st (concat gens) -> length rem = length (t_ops t) ->
     exists gs A, subtask_of t gs st /\ cegar k (st_task st) rem = Ok A /\ usable t gs st A) ->
  forall fs, generate_heuristic_functions P q0 cegar abort general t gens = Ok fs ->
  forall p s os, task_path t (t_init t) p s -> task_plan_from t s os ->
  exists a, compute_heuristic fs s = Ok (Some a) /\ a <= plan_cost t os.
Proof.
  intros P bag HP q0 Hq0 t Ht general abort cegar gens H fs E p s os H1 (s' & H2 & Hg).
  destruct (run_total P bag HP q0 Hq0 t Ht general abort cegar gens H) as (fs' & E' & Htot). rewrite E in E'. injection E' as <-.
  assert (Hs : state_ok t s) by (eapply path_state_ok; [exact Ht|exact H1|apply Ht]). assert (Hs' : state_ok t s') by (eapply path_state_ok; eauto).
  destruct (run_path P bag HP q0 Hq0 t Ht general abort cegar gens H fs E p s os s' 0 H1 H2) as (a & Ha & Hle). { now apply (Htot s' Hs'). } exists a. split; auto. lia.
Qed.
Print Assumptions C47_admissible.

(** The heuristic is consistent on the reachable states: along an operator the value drops at most
    by the cost of the operator. *)
Theorem C47_consistent : forall P bag, pq_contract P bag -> forall q0, bag q0 = [] -> forall t, cartesian_task t ->
  forall general abort cegar gens,
  (forall k st rem, In st (concat gens) -> length rem = length (t_ops t) ->
     exists gs A, subtask_of t gs st /\ cegar k (st_task st) rem = Ok A /\ usable t gs st A) ->
  forall fs, generate_heuristic_functions P q0 cegar abort general t gens = Ok fs ->
  forall p s o op s' b, task_path t (t_init t) p s -> nth_error (t_ops t) o = Some op -> applicable t s o -> progress t s o s' ->
  compute_heuristic fs s' = Ok (Some b) -> exists a, compute_heuristic fs s = Ok (Some a) /\ a <= op_cost op + b.
Proof.
  intros P bag HP q0 Hq0 t Ht general abort cegar gens H fs E p s o op s' b H1 Hop Ha Hp Hb.
  destruct (run_path P bag HP q0 Hq0 t Ht general abort cegar gens H fs E p s [o] s' b H1) as (a & Ea & Hle); auto. { eapply task_path_cons; eauto. constructor. }
  exists a. split; auto. unfold plan_cost in Hle. cbn in Hle. rewrite Hop in Hle. lia.
Qed.
Print Assumptions C47_consistent.

(** A concrete run: the task twice, its two goal facts, and its goal with two values merged; each
    abstraction comes from three splits. *)
Definition ex_cegar (k : nat) (u : task) (rem : list (option nat)) : outcome abstraction :=
  let* A := initial_abstraction u in
  let* A := refine A 0 1 [1] in
  let* A := refine A 1 0 [0] in
  refine A 0 0 [0].
Definition ex_sub (gs : list fact) : subtask := {| st_task := with_goal cart_ex gs; st_conv := Ok |}.
Definition ex_groups : list (nat * list (list nat)) := [(0, [[1; 2]])].
Definition ex_merged : task * list (list nat) * list (list string) := Eval vm_compute in
  match build_domain_abstracted_task (fun s => s) (with_goal cart_ex (t_goal cart_ex)) (fun _ _ => EmptyString) ex_groups with Ok x => x | _ => (cart_ex, [], []) end.
Definition ex_msub : subtask := {| st_task := fst (fst ex_merged); st_conv := convert_state (snd (fst ex_merged)) |}.
Definition ex_gens : list (list subtask) := [[ex_sub (t_goal cart_ex); ex_sub (t_goal cart_ex)]; [ex_sub [(0, 3)]; ex_sub [(1, 1)]]; [ex_msub]].

Lemma ex_refined u k rem : (forall A0 A1 A2 A3, initial_abstraction u = Ok A0 -> refine A0 0 1 [1] = Ok A1 -> refine A1 1 0 [0] = Ok A2 -> refine A2 0 0 [0] = Ok A3 ->
    legal_split u (view_of A0) 0 1 [1] /\ legal_split u (view_of A1) 1 0 [0] /\ legal_split u (view_of A2) 0 0 [0]) ->
  match ex_cegar k u rem with Ok A => refined u false A | _ => True end.
Proof.
  intros H. unfold ex_cegar. destruct (initial_abstraction u) as [A0| | |] eqn:E0; cbn [bind]; auto. destruct (refine A0 0 1 [1]) as [A1| | |] eqn:E1; cbn [bind]; auto. destruct (refine A1 1 0 [0]) as [A2| | |] eqn:E2; cbn [bind]; auto.
  destruct (refine A2 0 0 [0]) as [A3| | |] eqn:E3; auto. destruct (H A0 A1 A2 A3 eq_refl E1 E2 E3) as (L1 & L2 & L3).
  eapply refined_split; [|exact L3|exact E3]. eapply refined_split; [|exact L2|exact E2]. eapply refined_split; [|exact L1|exact E1]. apply refined_start; auto.
Qed.
Ltac ex_legal := intros A0 A1 A2 A3 E0 E1 E2 E3; vm_compute in E0; injection E0 as <-; vm_compute in E1; injection E1 as <-; vm_compute in E2; injection E2 as <-;
  splits; (apply legal_by_tests; [cbn; lia|discriminate|repeat constructor; cbn; intuition lia|intros d [<-|[]]; reflexivity|];
  first [exists 0; split; [reflexivity|cbn; intuition lia]|exists 1; split; [reflexivity|cbn; intuition lia]]).
Lemma ex_usable k rem st : In st (concat ex_gens) -> exists gs A, subtask_of cart_ex gs st /\ ex_cegar k (st_task st) rem = Ok A /\ usable cart_ex gs st A.
Proof.
  assert (Fg : forall gs, incl gs (t_goal cart_ex) -> Forall (fact_ok cart_ex) gs).
  { intros gs Hi. apply Forall_forall. intros f Hf. pose proof cart_ex_ok as ((_ & _ & _ & _ & HG) & _). rewrite Forall_forall in HG. auto. }
  assert (Gen : forall gs, incl gs (t_goal cart_ex) -> NoDup (map fst gs) -> match ex_cegar k (with_goal cart_ex gs) rem with Ok A => refined (with_goal cart_ex gs) false A | _ => False end ->
    exists gs' A, subtask_of cart_ex gs' (ex_sub gs) /\ ex_cegar k (st_task (ex_sub gs)) rem = Ok A /\ usable cart_ex gs' (ex_sub gs) A).
  { intros gs Hi Hn H. exists gs. destruct (ex_cegar k (with_goal cart_ex gs) rem) as [A| | |] eqn:E; try contradiction. exists A. split; [apply sub_goal; auto|]. split; auto. split; [exists false; auto|now left]. }
  assert (K : forall u, match ex_cegar k u rem with Ok A => refined u false A | _ => True end -> (match ex_cegar k u rem with Ok _ => true | _ => false end = true) -> match ex_cegar k u rem with Ok A => refined u false A | _ => False end).
  { intros u. destruct (ex_cegar k u rem); auto; discriminate. }
  assert (H1 : NoDup (map fst (t_goal cart_ex))) by (repeat constructor; cbn; intuition lia).
  intros [<-|[<-|[<-|[<-|[<-|[]]]]]].
  - apply Gen; [apply incl_refl|exact H1|]. apply K; [apply ex_refined; ex_legal|vm_compute; reflexivity].
  - apply Gen; [apply incl_refl|exact H1|]. apply K; [apply ex_refined; ex_legal|vm_compute; reflexivity].
  - apply Gen; [intros f [<-|[]]; now left|repeat constructor; cbn; intuition lia|]. apply K; [apply ex_refined; ex_legal|vm_compute; reflexivity].
  - apply Gen; [intros f [<-|[]]; right; now left|repeat constructor; cbn; intuition lia|]. apply K; [apply ex_refined; ex_legal|vm_compute; reflexivity].
  - exists (t_goal cart_ex). assert (R : match ex_cegar k (st_task ex_msub) rem with Ok A => refined (st_task ex_msub) false A | _ => False end).
    { apply K; [apply ex_refined; ex_legal|vm_compute; reflexivity]. }
    destruct (ex_cegar k (st_task ex_msub) rem) as [A| | |]; try contradiction. exists A. split; [|split; [auto|split; [eauto|left; apply incl_refl]]].
    apply (sub_merged cart_ex (t_goal cart_ex) ex_groups (fun s => s) (fun _ _ => EmptyString) _ _ (snd ex_merged)); [apply Fg, incl_refl|exact H1| |vm_compute; reflexivity].
    split; [repeat constructor; cbn; intuition lia|]. intros v groups [[= <- <-]|[]]. eexists. split; [reflexivity|]. unfold groups_ok. splits; [repeat constructor; cbn; intuition lia|cbn; intuition lia|intros g [<-|[]]; discriminate].
Qed.
Definition ex_values (general : bool) : option (list (outcome (option nat))) :=
  match generate_heuristic_functions list_pq [] ex_cegar (fun _ => false) general cart_ex ex_gens with
  | Ok fs => Some (map (compute_heuristic fs) [[0; 0]; [1; 0]; [2; 1]; [3; 1]; [2; 0]; [3; 0]])
  | _ => None
  end.
Lemma ex_step u : cartesian_task u -> forall s o op os s2, state_ok u s -> nth_error (t_ops u) o = Some op -> all_hold s (op_pre op) ->
  task_path u (apply_effects s (op_effs op)) os s2 -> task_path u s (o :: os) s2.
Proof. intros Hu s o op os s2 Hs Ho Hp Hr. eapply task_path_cons; [exists op; auto| |exact Hr]. apply (next_state u Hu s o _ Hs). eauto. Qed.
Example C47_nonvacuous :
  cartesian_task cart_ex /\ pq_contract list_pq (fun q => q) /\
  (forall k st rem, In st (concat ex_gens) -> length rem = length (t_ops cart_ex) ->
     exists gs A, subtask_of cart_ex gs st /\ ex_cegar k (st_task st) rem = Ok A /\ usable cart_ex gs st A) /\
  task_plan_from cart_ex (t_init cart_ex) [0; 1; 2] /\ plan_cost cart_ex [0; 1; 2] = 6 /\
  ex_values true = Some [Ok (Some 4); Ok (Some 3); Ok (Some 0); Ok (Some 0); Ok (Some 3); Ok (Some 3)] /\
  ex_values false = Some [Ok (Some 4); Ok (Some 3); Ok (Some 0); Ok (Some 0); Ok (Some 3); Ok (Some 3)].
Proof.
  split; [exact cart_ex_ok|]. split; [exact list_pq_contract|]. split; [intros; now apply ex_usable|]. split; [|splits; vm_compute; reflexivity].
  eexists. split.
  - do 3 (eapply (ex_step cart_ex cart_ex_ok); [repeat (apply Forall2_cons; [cbn; lia|]); apply Forall2_nil|reflexivity|intros f Hf; cbn in Hf; repeat destruct Hf as [<-|Hf]; try reflexivity; destruct Hf|cbn]). constructor.
  - intros f Hf. cbn in Hf. repeat destruct Hf as [<-|Hf]; try reflexivity. destruct Hf.
Qed.

(** Only reachable states count: if all saturated costs are used, the abstractions may assign
    infinite cost to operators that are only applicable in unreachable states, and such a state is
    then declared a dead end although it has a plan. *)
Definition unr_ex : task := {|
  t_vars := [{| vdom := 3; vlayer := None; vdefault := 0 |}];
  t_ops := [{| op_pre := [(0, 0)]; op_effs := [{| eff_cond := []; eff_fact := (0, 2) |}]; op_cost := 1 |};
            {| op_pre := [(0, 1)]; op_effs := [{| eff_cond := []; eff_fact := (0, 2) |}]; op_cost := 1 |}];
  t_rules := []; t_init := [0]; t_goal := [(0, 2)] |}.
Definition unr_cegar (k : nat) (u : task) (rem : list (option nat)) : outcome abstraction :=
  let* A := initial_abstraction u in let* A := refine A 0 0 [2] in refine A 0 0 [1].
Lemma unr_plan : cartesian_task unr_ex -> task_plan_from unr_ex [1] [1].
Proof.
  intros Hok. exists [2]. split.
  - eapply task_path_cons; [|apply (next_state unr_ex Hok); [apply Forall2_cons; [cbn; lia|apply Forall2_nil]|eexists; split; reflexivity]|apply task_path_nil].
    eexists. split; [reflexivity|]. intros f [<-|[]]. reflexivity.
  - intros f [<-|[]]. reflexivity.
Qed.
Theorem C47_unreachable_states_refuted :
  exists t cegar gens fs s os, cartesian_task t /\
  (forall k st rem, In st (concat gens) -> length rem = length (t_ops t) ->
     exists gs A, subtask_of t gs st /\ cegar k (st_task st) rem = Ok A /\ usable t gs st A) /\
  generate_heuristic_functions list_pq [] cegar (fun _ => false) true t gens = Ok fs /\
  state_ok t s /\ task_plan_from t s os /\ compute_heuristic fs s = Ok None.
Proof.
  assert (Hok : cartesian_task unr_ex).
  { split; [apply task_okb_ok; reflexivity|]. split; [reflexivity|]. split; [intros x [<-|[]]; reflexivity|]. split; [|repeat constructor; cbn; intuition lia].
    intros op [<-|[<-|[]]]; cbn; (split; [repeat constructor; cbn; intuition lia|intros e [<-|[]]; reflexivity]). }
  set (fs := match generate_heuristic_functions list_pq [] unr_cegar (fun _ => false) true unr_ex [[ {| st_task := with_goal unr_ex (t_goal unr_ex); st_conv := Ok |}; {| st_task := with_goal unr_ex (t_goal unr_ex); st_conv := Ok |} ]] with Ok fs => fs | _ => [] end).
  exists unr_ex, unr_cegar, [[ {| st_task := with_goal unr_ex (t_goal unr_ex); st_conv := Ok |}; {| st_task := with_goal unr_ex (t_goal unr_ex); st_conv := Ok |} ]], fs, [1], [1]. split; [exact Hok|]. split.
  { intros k st rem Hin _. assert (st = {| st_task := with_goal unr_ex (t_goal unr_ex); st_conv := Ok |}) as -> by (destruct Hin as [<-|[<-|[]]]; reflexivity).
    assert (R : match unr_cegar k unr_ex rem with Ok A => refined unr_ex false A | _ => False end).
    { unfold unr_cegar. destruct (initial_abstraction unr_ex) as [A0| | |] eqn:E0; try (vm_compute in E0; discriminate). cbn [bind]. pose proof E0 as E0'. vm_compute in E0'. injection E0' as <-.
      destruct (refine _ 0 0 [2]) as [A1| | |] eqn:E1; try (vm_compute in E1; discriminate). cbn [bind]. pose proof E1 as E1'. vm_compute in E1'. injection E1' as <-.
      destruct (refine _ 0 0 [1]) as [A2| | |] eqn:E2; try (vm_compute in E2; discriminate).
      eapply refined_split; [|shelve|exact E2]. eapply refined_split; [|shelve|exact E1]. apply refined_start; auto.
      Unshelve.
      - apply legal_by_tests; [cbn; lia|discriminate|repeat constructor; cbn; intuition lia|intros d [<-|[]]; reflexivity|]. exists 0. split; [reflexivity|cbn; intuition lia].
      - apply legal_by_tests; [cbn; lia|discriminate|repeat constructor; cbn; intuition lia|intros d [<-|[]]; reflexivity|]. exists 0. split; [reflexivity|cbn; intuition lia]. }
    exists (t_goal unr_ex). change (unr_cegar k (st_task {| st_task := with_goal unr_ex (t_goal unr_ex); st_conv := Ok |}) rem) with (unr_cegar k unr_ex rem).
    destruct (unr_cegar k unr_ex rem) as [A| | |]; try contradiction. exists A. split; [|split; [auto|split; [exists false; exact R|left; apply incl_refl]]].
    apply sub_goal; [apply Hok|repeat constructor; cbn; intuition lia]. }
  split; [vm_compute; reflexivity|]. split; [apply Forall2_cons; [cbn; lia|apply Forall2_nil]|]. split; [|vm_compute; reflexivity].
  exact (unr_plan Hok).
Qed.
Print Assumptions C47_unreachable_states_refuted.
