(** Abstractions of subtasks, built by any sequence of refinements, satisfy what cost saturation needs. *)
From Verif Require Import Outcome Spec_Task Spec_Relaxation Spec_Cartesian Model_Task Model_Cartesian Model_CostSaturation.
From Verif Require Import Spec_DomainAbstraction Model_DomainAbstraction Proof_DomainAbstraction2 Prop_DomainAbstraction.
From Verif Require Import Proof_Task Proof_Cartesian2 Proof_Cartesian4 Proof_Cartesian5 Proof_Cartesian6 Proof_CostSaturation2 Prop_Cartesian.

(** A subtask that preserves all steps of the task. *)
Record simulates (t : task) (st : subtask) : Prop := {
  sm_task : cartesian_task (st_task st);
  sm_ops : length (t_ops (st_task st)) = length (t_ops t);
  sm_conv : forall s, state_ok t s -> exists s', st_conv st s = Ok s' /\ state_ok (st_task st) s';
  sm_init : st_conv st (t_init t) = Ok (t_init (st_task st));
  sm_step : forall s o s1 s' s1', state_ok t s -> applicable t s o -> progress t s o s1 -> st_conv st s = Ok s' -> st_conv st s1 = Ok s1' ->
    applicable (st_task st) s' o /\ progress (st_task st) s' o s1' }.

Lemma good_of t st marked A : cartesian_task t -> simulates t st -> refined (st_task st) marked A ->
  (forall s s' i, state_ok t s -> goal_state t s -> st_conv st s = Ok s' -> abstract_state_id (ab_nodes A) s' = Ok i -> In i (ab_goals A)) ->
  good t st A.
Proof.
  intros Ht [S1 S2 S3 S4 S5] R Hgoal. set (u := st_task st) in *.
  destruct (C46_abstraction_exact u marked A S1 R) as ((Part & _) & (Tr & Lo) & (Hi1 & Hi2) & _). destruct (C46_transition_lists_consistent u marked A S1 R) as (L1 & L2 & L3 & Mir & _ & _ & Gnd).
  pose proof (refined_AI u marked A S1 R) as HA.
  assert (Find : forall s' i, state_ok u s' -> abstract_state_id (ab_nodes A) s' = Ok i <-> i < length (ab_states A) /\ members u (view_of A) i s').
  { intros s' i Hs. destruct (Part s' Hs) as (j & Hj & Hl & Hm & Hu). cbn [w_lookup view_of w_num] in *. destruct (abstract_state_id (ab_nodes A) s') as [k| | |] eqn:Ek; try discriminate. injection Hl as ->.
    split; [intros [= <-]; auto|]. intros [Hlt Hmi]. f_equal. symmetry. auto. }
  assert (W : forall s o v, In (o, v) (nth s (c_out (ab_ts A)) []) <-> w_trans (view_of A) s o v).
  { intros s o v. cbn [w_trans view_of]. symmetry. apply nth_list. }
  assert (IndOp : forall s o v, induced u (view_of A) s o v -> o < length (t_ops t)). { intros s o v (x & y & _ & (op & Ho & _) & _). rewrite <- S2. eapply nth_error_Some_lt; eauto. }
  constructor; auto.
  - destruct (ai_ts _ _ _ HA) as [(Hp & _) _ _ _ _ _ _]. rewrite Hp. transitivity (length (t_ops u)); [apply map_length|exact S2].
  - intros s o v Hin. apply W in Hin. apply Tr in Hin as (H1 & H2 & _ & H3). splits; auto. eapply IndOp; eauto.
  - intros s o v. rewrite W. cbn [w_trans view_of]. rewrite <- Mir. apply nth_list.
  - intros s o Hin. assert (Hl : w_loop (view_of A) s o) by (cbn [w_loop view_of]; now apply nth_list). apply Lo in Hl as (_ & Hl). eapply IndOp; eauto.
  - intros s Hs. destruct (S3 s Hs) as (s' & E & Hs'). destruct (Part s' Hs') as (j & Hj & Hl & _). cbn [w_lookup view_of w_num] in *. exists j. split; auto. exists s'. split; auto. destruct (abstract_state_id (ab_nodes A) s'); congruence.
  - exists (t_init u). split; [exact S4|]. apply Find; [apply S1|]. cbn [w_init w_num view_of] in *. auto.
  - intros s o s1 i j Hs Happ Hprog (s' & E & Ei) (s1' & E1 & Ej). destruct (S3 s Hs) as (x & Ex & Hx). rewrite E in Ex. injection Ex as <-.
    assert (Hs1 : state_ok t s1) by (eapply next_ok; eauto). destruct (S3 s1 Hs1) as (y & Ey & Hy). rewrite E1 in Ey. injection Ey as <-.
    destruct (S5 s o s1 s' s1' Hs Happ Hprog E E1) as [Ha Hp]. apply Find in Ei as [Hi Mi]; auto. apply Find in Ej as [Hj Mj]; auto.
    assert (Ind : induced u (view_of A) i o j) by (exists s', s1'; auto).
    destruct (Nat.eq_dec i j) as [->|Hne].
    + left. split; auto. assert (Hl : w_loop (view_of A) j o) by (apply Lo; auto). cbn [w_loop view_of] in Hl. now apply nth_list in Hl.
    + right. apply W. apply Tr. auto.
  - apply (ai_glt _ _ _ HA).
  - intros s i Hs Hg (s' & E & Ei). eapply Hgoal; eauto.
Qed.


Lemma supported_goal t gs s k v d : supported (with_goal t gs) s k v d <-> supported t s k v d.
Proof. split; intros H; induction H as [r v d Hr Hh Hl _ IH Ho]; apply supported_rule with (r := r); auto. Qed.
Lemma progress_goal t gs s o s' : progress (with_goal t gs) s o s' <-> progress t s o s'.
Proof.
  unfold progress. split; intros (op & s1 & A & B & C & D & E & F); exists op, s1; splits; auto; unfold stratified_model; splits; auto; intros v x k d Hx Hk Hd; destruct (F v x k d Hx Hk Hd) as [F1 F2]; split.
  - intros Hne. apply (supported_goal t gs). auto.
  - intros Heq d' Hd' Hs. apply (supported_goal t gs) in Hs. eapply F2; eauto.
  - intros Hne. apply supported_goal. auto.
  - intros Heq d' Hd' Hs. apply supported_goal in Hs. eapply F2; eauto.
Qed.
Lemma with_goal_ok t gs : cartesian_task t -> Forall (fact_ok t) gs -> NoDup (map fst gs) -> cartesian_task (with_goal t gs).
Proof.
  intros ((A1 & A2 & A3 & A4 & _) & B & C & D & _) Hg Hn. split; [|splits; auto]. unfold task_ok. cbn [t_vars t_ops t_rules t_init t_goal with_goal]. splits; auto.
Qed.
Lemma sim_goal t gs : cartesian_task t -> Forall (fact_ok t) gs -> NoDup (map fst gs) -> simulates t {| st_task := with_goal t gs; st_conv := Ok |}.
Proof.
  intros Ht Hg Hn. constructor; cbn [st_task st_conv]; auto.
  - now apply with_goal_ok.
  - intros s Hs. exists s. auto.
  - intros s o s1 s' s1' Hs Ha Hp [= <-] [= <-]. split; [exact Ha|]. now apply progress_goal.
Qed.

Lemma cart_no_derived t : cartesian_task t -> no_derived t.
Proof. intros (_ & Hr & Hl & _). split; auto. intros v. unfold layer_of. destruct (nth_error (t_vars t) v) as [x|] eqn:E; auto. apply Hl. eapply nth_error_In; eauto. Qed.
Lemma cart_unconditional t : cartesian_task t -> unconditional t.
Proof. intros (_ & _ & _ & Ho & _) op e Hop He. now apply (Ho op Hop). Qed.
Lemma map_afact vms fs : map fst (map (afact vms) fs) = map fst fs.
Proof. rewrite map_map. reflexivity. Qed.

Lemma abstracted_cart t doms vms : cartesian_task t -> length doms = length (t_vars t) -> length vms = length (t_vars t) ->
  (forall v x, is_var t v x -> exists dom vm, nth_error doms v = Some dom /\ nth_error vms v = Some vm /\ length vm = vdom x /\ forall y a, nth_error vm y = Some a -> a < dom) ->
  cartesian_task (atask t doms vms).
Proof.
  intros Ht L1 L2 Hvm. pose proof (cart_no_derived t Ht) as Hno. pose proof (cart_unconditional t Ht) as Hun. pose proof Ht as ((HV & HO & HR & HI & HG) & Hr & Hl & Hops & Hgn).
  destruct (ano_derived t Hno doms vms) as [Ar Al].
  assert (Alay : forall x, In x (t_vars (atask t doms vms)) -> vlayer x = None).
  { intros x Hx. apply In_nth_error in Hx as [v Hv]. specialize (Al v). unfold layer_of in Al. now rewrite Hv in Al. }
  split; [|splits; auto].
  - unfold task_ok. splits.
    + apply Forall_forall. intros x Hx. assert (Hlx := Alay x Hx). unfold atask in Hx. cbn [t_vars] in Hx. apply in_map_iff in Hx as ((d & y) & <- & Hin). cbn [fst snd vlayer] in *.
      unfold variable_ok. cbn [vdom vlayer vdefault]. split; [|split; intros H; congruence].
      apply In_nth_error in Hin as [v Hv]. assert (Hy : nth_error (t_vars t) v = Some y /\ nth_error doms v = Some d).
      { clear -Hv. revert v Hv. generalize (t_vars t) as l. induction doms as [|a ds IH]; intros [|b l] [|v] E; try discriminate; cbn in *; [injection E as -> ->; auto|eauto]. }
      destruct Hy as [Hy Hd]. destruct (Hvm v y Hy) as (d' & vm & E1 & E2 & L & Hr').
      assert (1 <= vdom y). { rewrite Forall_forall in HV. apply (HV y). eapply nth_error_In; eauto. }
      destruct (nth_error vm 0) as [a|] eqn:Ea; [|apply nth_error_None in Ea; lia]. specialize (Hr' _ _ Ea). assert (d' = d) by congruence. lia.
    + apply Forall_forall. intros op Hop. unfold atask in Hop. cbn [t_ops] in Hop. apply in_map_iff in Hop as (op0 & <- & Hop). rewrite Forall_forall in HO. destruct (HO _ Hop) as [HP HE]. split; cbn [aoperator op_pre op_effs].
      * apply Forall_forall. intros f Hf. apply in_map_iff in Hf as (f0 & <- & Hf). rewrite Forall_forall in HP. apply (afact_ok t doms vms); auto.
      * apply Forall_forall. intros e He. apply in_map_iff in He as (e0 & <- & He). rewrite Forall_forall in HE. destruct (HE _ He) as (_ & K & _). unfold effect_ok. cbn [aeffect eff_cond eff_fact]. rewrite (Hun _ _ Hop He). splits; auto.
        apply (afact_ok t doms vms); auto.
    + rewrite Ar. constructor.
    + unfold atask at 2. cbn [t_init]. apply (astate_ok t doms vms L1 L2 Hvm). exact HI.
    + unfold atask at 2. cbn [t_goal]. apply Forall_forall. intros f Hf. apply in_map_iff in Hf as (f0 & <- & Hf). rewrite Forall_forall in HG. apply (afact_ok t doms vms); auto.
  - intros op Hop. unfold atask in Hop. cbn [t_ops] in Hop. apply in_map_iff in Hop as (op0 & <- & Hop). destruct (Hops _ Hop) as [Hp Hc]. cbn [aoperator op_pre op_effs]. rewrite map_afact. split; auto.
    intros e He. apply in_map_iff in He as (e0 & <- & He). cbn [aeffect eff_cond]. auto.
  - unfold atask. cbn [t_goal]. now rewrite map_afact.
Qed.

Lemma abstracted_facts sm name t groups t' vms names : cartesian_task t -> grouping_ok t groups -> build_domain_abstracted_task sm t name groups = Ok (t', vms, names) ->
  exists doms, t' = atask t doms vms /\ length doms = length (t_vars t) /\ length vms = length (t_vars t) /\
  forall v x, is_var t v x -> exists dom vm, nth_error doms v = Some dom /\ nth_error vms v = Some vm /\ length vm = vdom x /\ forall y a, nth_error vm y = Some a -> a < dom.
Proof.
  intros Ht Hg E. destruct (Prop_DomainAbstraction.build_ok sm name t groups (proj1 Ht) (cart_no_derived t Ht) (cart_unconditional t Ht) Hg) as (doms & vms' & names' & _ & E' & L1 & L2 & Hv).
  rewrite E in E'. injection E' as -> <- _. exists doms. splits; auto. intros v x Hx. destruct (Hv v x Hx) as (dom & vm & ns & A & B & _ & (C & D & _) & _). eauto 6.
Qed.

Lemma sim_abstracted sm name t gs groups t' vms names : cartesian_task t -> Forall (fact_ok t) gs -> NoDup (map fst gs) -> grouping_ok t groups ->
  build_domain_abstracted_task sm (with_goal t gs) name groups = Ok (t', vms, names) -> simulates t {| st_task := t'; st_conv := convert_state vms |}.
Proof.
  intros Ht Hg Hn Hgr E. pose proof (with_goal_ok t gs Ht Hg Hn) as Hu. set (u := with_goal t gs) in *.
  destruct (abstracted_facts sm name u groups t' vms names Hu) as (doms & -> & L1 & L2 & Hvm); auto.
  pose proof (cart_no_derived u Hu) as Hno. pose proof (cart_unconditional u Hu) as Hun.
  constructor; cbn [st_task st_conv].
  - now apply abstracted_cart.
  - unfold atask. cbn [t_ops]. apply map_length.
  - intros s Hs. exists (astate vms s). split; [apply (convert_state_ok u doms vms L1 L2 Hvm); exact Hs|apply (astate_ok u doms vms L1 L2 Hvm); exact Hs].
  - apply (convert_state_ok u doms vms L1 L2 Hvm). apply Ht.
  - intros s o s1 s' s1' Hs Ha Hp E1 E2. rewrite (convert_state_ok u doms vms L1 L2 Hvm s Hs) in E1. injection E1 as <-.
    assert (Hp' : progress u s o s1) by now apply progress_goal. destruct (aprogress u (proj1 Hu) Hno Hun doms vms L1 L2 s o s1 Hs Hp') as [Hs1 Hq].
    rewrite (convert_state_ok u doms vms L1 L2 Hvm s1 Hs1) in E2. injection E2 as <-. split; auto. apply (aapplicable u doms vms L1 L2 s o Hs Ha).
Qed.
