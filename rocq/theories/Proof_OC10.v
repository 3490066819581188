(** Proofs about operator-counting constraints, part 10: plans satisfy the constraints. *)
From Coq Require Import QArith Lqa Permutation.
From Verif Require Import Outcome Spec_Task Spec_Relaxation Spec_Projection Spec_LP Spec_OperatorCounting Model_LPSolver Model_LMCut Model_OperatorCounting
  Proof_Task Proof_PDB1 Proof_Additive Proof_LMCut3 Prop_LMCut Proof_OC1 Proof_OC2 Proof_OC4 Proof_OC5 Proof_OC7 Proof_OC9.
Local Open Scope nat_scope.

Lemma counts_cons o os o' : (counts (o :: os) o' == ind (o' =? o) + counts os o')%Q.
Proof.
  unfold counts. cbn [count_occ]. destruct (Nat.eq_dec o o') as [->|Hne].
  - rewrite Nat.eqb_refl. cbn [ind]. rewrite Nat2Z.inj_succ, <- Z.add_1_l, inject_Z_plus. reflexivity.
  - destruct (Nat.eqb_spec o' o); [congruence|]. cbn [ind]. ring.
Qed.
Lemma counts_nonneg os o : (0 <= counts os o)%Q.
Proof. unfold counts. change 0%Q with (inject_Z 0). rewrite <- Zle_Qle. lia. Qed.
Lemma counts_integral os o : integral (counts os o). Proof. apply integral_nat. Qed.
Lemma counts_in os o : In o os -> (1 <= counts os o)%Q.
Proof. intros H. unfold counts. apply (count_occ_In Nat.eq_dec) in H. change 1%Q with (inject_Z 1). rewrite <- Zle_Qle. lia. Qed.
(** Summing over the operators weighted by their counts is summing over the sequence. *)
Lemma counts_sum t (h : operator -> Q) os : (forall o, In o os -> exists op, is_op t o op) ->
  (opsum t (fun o op => h op * counts os o) == qsum (fun o => match nth_error (t_ops t) o with Some op => h op | None => 0 end) os)%Q.
Proof.
  induction os as [|o os IH]; intros H; cbn [qsum].
  - apply opsum_zero. intros. unfold counts. cbn [count_occ Z.of_nat]. change (inject_Z 0) with 0%Q. ring.
  - rewrite <- IH by (intros; apply H; now right). destruct (H o (or_introl eq_refl)) as [op Ho]. pose proof Ho as Ho'. unfold is_op in Ho'. rewrite Ho'.
    rewrite (opsum_ext t _ (fun o' op' => ind (o' =? o) * h op' + h op' * counts os o')%Q) by (intros; rewrite counts_cons; ring).
    rewrite <- (opsum_single t o op (fun _ op => h op) Ho). unfold opsum. now rewrite <- qsum_plus.
Qed.
Section C.
Variable t : task.
Hypothesis Ht : plain_task t.
Variable s : state.
Hypothesis Hs : state_ok t s.
Variable os : list nat.
Hypothesis Hplan : task_plan_from t s os.
Lemma plan_ops : forall o, In o os -> exists op, is_op t o op.
Proof. destruct Hplan as (s' & Hp & _). clear - Hp. induction Hp as [|a o a' os a'' (op & Ho & _) _ _ IH]; intros o1 Hi; [destruct Hi|destruct Hi as [<-|Hi]; eauto]. Qed.
Lemma plain_layers : forall v, layer_of t v = None.
Proof. destruct Ht as (_ & _ & Hl & _). intros v. unfold layer_of. destruct (nth_error (t_vars t) v) eqn:E; auto. apply Hl. eapply nth_error_In; eauto. Qed.
Lemma plain_no_derived : no_derived t. Proof. split; [now apply rules_nil|exact plain_layers]. Qed.
Lemma plan_rreach : forall f, In f (t_goal t) -> rreach t (fun o => (1 <= counts os o)%Q) s f.
Proof.
  intros f Hf. assert (H := rreach_plan t s os plain_no_derived Hplan f Hf). clear - H. induction H as [f H|o op e HO Ho He _ IH|r Hr _ IH]; [now apply rr_state|eapply rr_op; eauto; now apply counts_in|now apply rr_rule].
Qed.
Lemma plan_seq : exists l, rseq t s l /\ (forall o, In o l -> (1 <= counts os o)%Q) /\ forall f, In f (t_goal t) -> rch t s l f.
Proof. apply (rreach_goals t Ht). exact plan_rreach. Qed.
Lemma plan_relaxation_if time int : relaxation_if t time int s (counts os).
Proof. destruct plan_seq as (l & H1 & H2 & H3). apply (if_holds t s l H1 H3); auto. intros; apply counts_nonneg. Qed.
Lemma plan_relaxation_rr int : exists f fa, relaxation_rr t int s (counts os) f fa /\ time_labels t int fa /\ forall edges delta, edge_order t int edges delta fa.
Proof.
  destruct plan_seq as (l & H1 & H2 & H3). exists (fun p => ind (reachedb t s l p)), (fun p o => ind (first t s l p o)). splits.
  - apply rr_holds; auto. intros; apply counts_nonneg.
  - now apply tl_holds.
  - intros. now apply eo_holds.
Qed.
Lemma plan_landmark L : action_landmark t s L -> landmark_uses L (counts os).
Proof.
  intros HL. destruct (HL os Hplan) as (o & H1 & H2). unfold landmark_uses. clear - H1 H2. induction L as [|a r IH]; [destruct H1|]. cbn [qsum].
  assert (Hr : (0 <= qsum (counts os) r)%Q) by (clear; induction r as [|b r IH]; cbn [qsum]; [lra|pose proof (counts_nonneg os b); lra]).
  destruct H1 as [->|H1].
  - pose proof (counts_in os o H2). lra.
  - specialize (IH H1). pose proof (counts_nonneg os a). lra.
Qed.
Lemma plan_state_equation : state_equation t s (counts os).
Proof.
  intros f Hf _. pose proof (Proof_Task.state_ok_length t s Hs) as Hl. destruct (plan_mplan t Ht s os Hl Hplan) as (s' & Hp & Hg).
  assert (Hlt : fst f < length (t_vars t)) by now apply fact_lt.
  assert (E : in_state s f = (nth (fst f) s 0 =? snd f)) by (unfold in_state; now rewrite (nth_error_nth' s 0) by lia). rewrite E.
  assert (Hgf : (ind (goal_facts t f) <= ind (s' (fst f) =? snd f))%Q).
  { apply ind_le. unfold goal_facts. intros H. apply existsb_feqb in H. apply Nat.eqb_eq. apply Hg; auto. destruct f; exact H. }
  rewrite (counts_sum t (fun op => ind (adds op f) - ind (consumes op f))%Q os plan_ops).
  set (h := fun o => match nth_error (t_ops t) o with Some op => (ind (adds op f) - ind (consumes op f))%Q | None => 0%Q end).
  enough (G : (ind (s' (fst f) =? snd f) - ind (nth (fst f) s 0%nat =? snd f) <= qsum h os)%Q) by lra. clear E Hgf Hg Hplan.
  change (nth (fst f) s 0) with ((fun v => nth v s 0) (fst f)). generalize dependent (fun v => nth v s 0). intros s0 Hp.
  induction Hp as [s1 s2 He|s1 o op s2 os s3 Ho (Hpre & Heff & Hfr) _ IH]; cbn [qsum].
  - rewrite He by auto. lra.
  - unfold h at 1. rewrite Ho. enough (ind (s2 (fst f) =? snd f) - ind (s1 (fst f) =? snd f) <= ind (adds op f) - ind (consumes op f))%Q by lra. clear IH.
    assert (Hneed : consumes op f = true -> s1 (fst f) = snd f).
    { unfold consumes. intros H. apply andb_true_iff in H. destruct H as [H _]. apply needs_spec in H. apply Hpre; auto. destruct f; exact H. }
    destruct (adds op f) eqn:Ea; cbn [ind].
    + destruct (consumes op f) eqn:Ec; cbn [ind]; [|destruct (s2 (fst f) =? snd f), (s1 (fst f) =? snd f); cbn [ind]; lra]. rewrite (proj2 (Nat.eqb_eq _ _) (Hneed eq_refl)). cbn [ind]. destruct (s2 (fst f) =? snd f); cbn [ind]; lra.
    + destruct (in_dec Nat.eq_dec (fst f) (map fst (efacts op))) as [Hi|Hi].
      * assert (Hne : s2 (fst f) =? snd f = false).
        { apply in_map_iff in Hi. destruct Hi as ([v d] & Ev & Hi). cbn [fst] in Ev. subst v. apply Nat.eqb_neq. rewrite (Heff _ _ Hi Hlt). intros ->. assert (adds op f = true); [|congruence]. apply adds_spec. unfold efacts in Hi. apply in_map_iff in Hi. destruct Hi as (e & Ee & He). exists e. split; auto. rewrite Ee. now destruct f. }
        rewrite Hne. cbn [ind]. destruct (consumes op f) eqn:Ec; cbn [ind]; [|destruct (s1 (fst f) =? snd f); cbn [ind]; lra]. rewrite (proj2 (Nat.eqb_eq _ _) (Hneed eq_refl)). cbn [ind]. lra.
      * assert (Ec : consumes op f = false).
        { unfold consumes. apply andb_false_iff. right. apply not_true_iff_false. rewrite existsb_exists. intros (e & He & Ee). apply Nat.eqb_eq in Ee. apply Hi. rewrite <- Ee. unfold efacts. rewrite map_map. now apply (in_map (fun e => fst (eff_fact e))). }
        rewrite Ec, (Hfr (fst f)) by auto. cbn [ind]. lra.
Qed.
Lemma affects_touches pat o op : is_op t o op -> touches t pat o = affects pat op.
Proof. intros Ho. unfold touches, affects. unfold is_op in Ho. rewrite Ho. unfold efacts. induction (op_effs op) as [|e l IH]; cbn [existsb map]; auto. now rewrite IH. Qed.
Lemma plan_posthoc pat : pattern_ok t pat -> posthoc t pat s (counts os).
Proof.
  intros HP v [_ Hmin]. pose proof (Proof_Task.state_ok_length t s Hs) as Hl. pose proof (plan_mplan t Ht s os Hl Hplan) as Hm.
  assert (Hm' := mplan_restrict t (fun v => v < length (t_vars t)) pat _ os (proj2 HP) Hm).
  assert (Hc : length (task_costs t) = length (t_ops t)) by apply map_length.
  assert (Hp := proj_mplan t Ht pat (task_costs t) _ _ HP Hc Hm'). assert (L := Hmin _ (ex_intro _ _ (conj Hp eq_refl))).
  rewrite (proj_plan_cost t pat (task_costs t) _ Hc) in L.
  rewrite (opsum_ext t _ (fun o op => ind (affects pat op) * inject_Z (Z.of_nat (op_cost op)) * counts os o)%Q) by (intros; ring).
  rewrite (counts_sum t (fun op => ind (affects pat op) * inject_Z (Z.of_nat (op_cost op)))%Q os plan_ops).
  apply Qle_trans with (inject_Z (Z.of_nat (list_sum (map (fun o => nth o (task_costs t) 0) (filter (touches t pat) os))))); [rewrite <- Zle_Qle; lia|].
  pose proof plan_ops as Hops. clear - Hops. induction os as [|o r IH]; cbn [filter map qsum]; [apply Qle_refl|].
  assert (IH' := IH (fun o Hi => Hops o (or_intror Hi))). destruct (Hops o (or_introl eq_refl)) as [op Ho]. rewrite (affects_touches pat o op Ho). pose proof Ho as Ho'. unfold is_op in Ho'. rewrite Ho'.
  destruct (affects pat op); cbn [ind map list_sum fold_right].
  - assert (E : nth o (task_costs t) 0 = op_cost op) by (apply nth_error_nth; unfold task_costs; now apply map_nth_error). rewrite E. change (fold_right Nat.add 0) with list_sum. rewrite Nat2Z.inj_add, inject_Z_plus. lra.
  - lra.
Qed.
(** The objective value of the counts is the cost of the plan. *)
Lemma plan_counts_cost : (opsum t (fun o op => inject_Z (Z.of_nat (op_cost op)) * counts os o) == inject_Z (Z.of_nat (plan_cost t os)))%Q.
Proof.
  rewrite (counts_sum t (fun op => inject_Z (Z.of_nat (op_cost op))) os plan_ops). unfold plan_cost. pose proof plan_ops as Hops. clear - Hops. induction os as [|o r IH]; cbn [map qsum list_sum fold_right]; [reflexivity|].
  change (fold_right Nat.add 0) with list_sum. rewrite IH by (intros; apply Hops; now right). destruct (Hops o (or_introl eq_refl)) as [op Ho]. unfold is_op in Ho. rewrite Ho. rewrite Nat2Z.inj_add, inject_Z_plus. reflexivity.
Qed.
End C.
