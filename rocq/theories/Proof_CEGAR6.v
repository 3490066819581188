(** Landmark subtasks, plain and with values merged. *)
From Coq Require Import String.
From Verif Require Import Outcome Spec_Task Spec_Relaxation Spec_Cartesian Spec_DomainAbstraction Spec_CEGAR Model_Task Model_DomainAbstraction Model_Cartesian Model_CostSaturation Proof_Task Proof_Cartesian2 Proof_CostSaturation3 Proof_DomainAbstraction2 Proof_CEGAR3 Spec_CostSaturation Prop_CostSaturation.

Lemma rreach_goal t gs O s f : rreach (with_goal t gs) O s f <-> rreach t O s f.
Proof.
  split; intros H; induction H as [f Hf|o op e Ho Hop He _ IH|r Hr _ IH]; [now constructor|eapply rr_op; eauto|eapply rr_rule; eauto|now constructor|eapply rr_op; eauto|eapply rr_rule; eauto].
Qed.
Lemma single_with_goal t gs : single_effects t -> single_effects (with_goal t gs).
Proof. exact (fun H => H). Qed.
Lemma single_abstracted t doms vms : single_effects t -> single_effects (atask t doms vms).
Proof.
  intros H op Hop. unfold atask in Hop. cbn [t_ops] in Hop. apply in_map_iff in Hop as (op0 & <- & Hop). cbn [aoperator op_effs]. rewrite map_map. cbn [aeffect eff_fact afact fst]. apply (H _ Hop).
Qed.
Lemma sub_single t gs st : cartesian_task t -> single_effects t -> subtask_of t gs st -> single_effects (st_task st).
Proof.
  intros Ht Hs [gs' H1 H2|gs' groups sm name t' vms names H1 H2 H3 H4]; cbn [st_task]; [now apply single_with_goal|].
  destruct (abstracted_facts sm name (with_goal t gs') groups t' vms names) as (doms & -> & _); auto; [now apply with_goal_ok|]. apply single_abstracted. now apply single_with_goal.
Qed.

(** Merging values that are reachable before [l] does not make more facts reachable before [l]. *)
Lemma merged_reach sm name t l groups t' vms names : cartesian_task t -> fact_ok t l -> grouping_ok t groups -> groups_before t l groups ->
  build_domain_abstracted_task sm (with_goal t [l]) name groups = Ok (t', vms, names) ->
  t_goal t' = [afact vms l] /\
  (forall f, fact_ok t f -> rreach t' (allowed t' (afact vms l)) (t_init t') (afact vms f) -> rreach t (allowed t l) (t_init t) f) /\
  forall s s' f, state_ok t s -> convert_state vms s = Ok s' -> holds s f -> holds s' (afact vms f).
Proof.
  intros Ht Hl Hg Hb E. set (u := with_goal t [l]) in *.
  assert (Hu : cartesian_task u) by (apply with_goal_ok; [auto|constructor; auto|constructor; [intros []|constructor]]).
  destruct (Prop_DomainAbstraction.build_ok sm name u groups (proj1 Hu) (cart_no_derived u Hu) (cart_unconditional u Hu) Hg) as (doms & vms' & names' & _ & E' & L1 & L2 & Hv).
  rewrite E in E'. injection E' as -> <- _.
  assert (Hvm : forall v x, is_var u v x -> exists dom vm, nth_error doms v = Some dom /\ nth_error vms v = Some vm /\ List.length vm = vdom x /\ forall y a, nth_error vm y = Some a -> a < dom).
  { intros v x Hx. destruct (Hv v x Hx) as (dom & vm & ns & A & B & _ & (C & D & _) & _). eauto 6. }
  split; [reflexivity|]. split.
  - (* facts with the same image are reachable alike *)
    assert (Same : forall f g, fact_ok t f -> fact_ok t g -> afact vms f = afact vms g -> rreach t (allowed t l) (t_init t) f -> rreach t (allowed t l) (t_init t) g).
    { intros [v y] [v' z] (x & Hx & Hy) (x' & Hx' & Hz) Ea Hf. unfold afact in Ea. cbn [fst snd] in *. injection Ea as Ev Ea. subst v'. assert (x' = x) by (unfold is_var in *; congruence). subst x'.
      destruct (Hv v x Hx) as (dom & vm & ns & A & B & _ & (C & D & _ & F) & _).
      assert (nth_error vm y = nth_error vm z) as En.
      { unfold alpha in Ea. rewrite (nth_error_nth _ _ _ B) in Ea. rewrite (nth_error_nth' vm 0) by lia. rewrite (nth_error_nth' vm 0) by lia. now rewrite Ea. }
      apply (F y z Hy Hz) in En as [->|(g & Hgr & Hyg & Hzg)]; auto. unfold groups_of in Hgr. destruct (find (fun p => fst p =? v) groups) as [[v' gr]|] eqn:Ef; [|destruct Hgr].
      apply find_some in Ef as [Hin Ef]. cbn [fst snd] in *. apply Nat.eqb_eq in Ef. subst v'. exact (Hb v gr g z Hin Hgr Hzg). }
    set (t' := atask u doms vms). assert (Gen : forall f', rreach t' (allowed t' (afact vms l)) (t_init t') f' -> exists f, fact_ok t f /\ afact vms f = f' /\ rreach t (allowed t l) (t_init t) f).
    { intros f' H. induction H as [f' Hf|o op e Ho Hop He _ IH|r Hr _ IH].
      - destruct f' as [v d]. unfold holds in Hf. cbn [fst snd] in Hf. unfold t', atask in Hf. cbn [t_init] in Hf. assert (Hi : state_ok u (t_init u)) by apply Hu.
        rewrite (astate_nth u doms vms L1 L2 (t_init u) v Hi) in Hf. destruct (nth_error (t_init u) v) as [y|] eqn:Ey; [|discriminate]. cbn in Hf. injection Hf as <-. exists (v, y). splits.
        + assert (Hlt : v < List.length (t_vars u)) by (rewrite <- (state_ok_length u _ Hi); eapply nth_error_Some_lt; eauto).
          destruct (nth_error (t_vars u) v) as [x|] eqn:Ex; [|apply nth_error_None in Ex; lia]. exists x. split; [exact Ex|]. destruct (state_nth u _ v x Hi Ex) as (y' & Ey' & Hy'). cbn [snd]. congruence.
        + reflexivity.
        + apply rr_state. exact Ey.
      - unfold t', atask in Hop. cbn [t_ops] in Hop. rewrite nth_error_map in Hop. destruct (nth_error (t_ops u) o) as [op0|] eqn:Eo; [|discriminate]. cbn in Hop. injection Hop as <-.
        cbn [aoperator op_effs] in He. apply in_map_iff in He as (e0 & <- & He). cbn [aeffect eff_fact]. assert (Hin : In op0 (t_ops t)) by (eapply nth_error_In; exact Eo).
        pose proof Ht as ((_ & HO & _) & _ & _ & Hops & _). rewrite Forall_forall in HO. destruct (HO _ Hin) as [HPre HEff]. rewrite Forall_forall in HPre, HEff. exists (eff_fact e0). splits; auto.
        + apply (HEff _ He).
        + apply rr_op with (o := o) (op := op0); auto.
          * intros (op1 & e1 & Ho1 & He1 & El). apply Ho. exists (aoperator vms op0), (aeffect vms e1). splits.
            -- unfold t', atask. cbn [t_ops]. rewrite nth_error_map, Eo. reflexivity.
            -- cbn [aoperator op_effs]. apply in_map. assert (op1 = op0) by (change (t_ops u) with (t_ops t) in Eo; congruence). now subst op1.
            -- cbn [aeffect eff_fact]. now rewrite El.
          * intros g Hgp. rewrite (proj2 (Hops _ Hin) e0 He), app_nil_r in Hgp. destruct (IH (afact vms g)) as (f & Hf & Ef & Hr).
            { apply in_or_app. left. cbn [aoperator op_pre]. now apply in_map. }
            apply (Same f g); auto.
      - unfold t', atask in Hr. cbn [t_rules] in Hr. destruct Hu as (_ & Hur & _). rewrite Hur in Hr. destruct Hr. }
    intros f Hf Hr. destruct (Gen _ Hr) as (g & Hg1 & Hg2 & Hg3). apply (Same g f); auto.
  - intros s s' f Hs Ec Hh. rewrite (convert_state_ok u doms vms L1 L2 Hvm s Hs) in Ec. injection Ec as <-. now apply (aholds u doms vms L1 L2).
Qed.
