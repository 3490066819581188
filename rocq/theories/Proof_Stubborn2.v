(** The simple stubborn set algorithm computes a strong stubborn set. *)
From Coq Require Import Sorted.
From Verif Require Import Outcome Spec_Task Spec_Relaxation Spec_Projection Spec_HM Spec_Stubborn Model_Task Model_MAS Proof_Task Proof_MAS1 Proof_HM1 Proof_Stubborn1 Model_Stubborn.

Lemma ccf_cons f r1 g r2 : contain_conflicting_fact (f :: r1) (g :: r2) =
  if fst f <? fst g then contain_conflicting_fact r1 (g :: r2)
  else if fst g <? fst f then contain_conflicting_fact (f :: r1) r2
  else if negb (snd f =? snd g) then true else contain_conflicting_fact r1 r2.
Proof. reflexivity. Qed.
Lemma ss_head f l g : ssorted (f :: l) -> In g l -> fst f < fst g.
Proof. intros H Hg. apply StronglySorted_inv in H as [_ H]. rewrite Forall_forall in H. now apply H. Qed.
Lemma ccf_complete : forall F G, ssorted F -> ssorted G -> clash F G -> contain_conflicting_fact F G = true.
Proof.
  induction F as [|f F IHF]; [intros G _ _ (a & b & [] & _)|]. induction G as [|g G IHG]; intros SF SG (a & b & Ha & Hb & Hv & Hd); [destruct Hb|].
  rewrite ccf_cons. pose proof (proj1 (StronglySorted_inv SF)) as SF'. pose proof (proj1 (StronglySorted_inv SG)) as SG'.
  destruct (Nat.ltb_spec (fst f) (fst g)).
  - apply IHF; auto. exists a, b. split; [|auto]. destruct Ha as [<-|Ha]; auto. exfalso. destruct Hb as [<-|Hb]; [lia|]. pose proof (ss_head _ _ _ SG Hb). lia.
  - destruct (Nat.ltb_spec (fst g) (fst f)).
    + apply IHG; auto. exists a, b. split; auto. split; auto. destruct Hb as [<-|Hb]; auto. exfalso. destruct Ha as [<-|Ha]; [lia|]. pose proof (ss_head _ _ _ SF Ha). lia.
    + destruct (Nat.eqb_spec (snd f) (snd g)) as [E|E]; cbn [negb]; auto. apply IHF; auto. exists a, b.
      destruct Ha as [<-|Ha], Hb as [<-|Hb]; auto; exfalso.
      * congruence.
      * pose proof (ss_head _ _ _ SG Hb). lia.
      * pose proof (ss_head _ _ _ SF Ha). lia.
Qed.

Definition tr (st : list bool) (o : nat) : Prop := nth_error st o = Some true.
Definition cnt (st : list bool) : nat := count_occ Bool.bool_dec st true.
Lemma cnt_le st : cnt st <= length st.
Proof. apply count_occ_bound. Qed.
Lemma cnt_upd st o : nth_error st o = Some false -> cnt (upd st o true) = S (cnt st).
Proof.
  intros H. destruct (upd_split st o true false H) as (l1 & l2 & -> & _ & ->). unfold cnt. rewrite !count_occ_app. cbn [count_occ]. destruct (Bool.bool_dec true true); [|congruence]. destruct (Bool.bool_dec false true); [congruence|]. lia.
Qed.
Lemma tr_upd st o x : o < length st -> tr (upd st o true) x <-> tr st x \/ x = o.
Proof.
  intros Ho. unfold tr. destruct (Nat.eq_dec x o) as [->|E].
  - rewrite upd_nth_eq by auto. split; auto.
  - rewrite (upd_nth_neq st o x true) by auto. intuition.
Qed.
Lemma tr_dec st o : {tr st o} + {~ tr st o}.
Proof. unfold tr. destruct (nth_error st o) as [[]|]; [left|right|right]; congruence. Qed.
Lemma tr_rep n o : ~ tr (repeat false n) o.
Proof. unfold tr. intros H. apply nth_error_In, repeat_spec in H. discriminate. Qed.
Lemma cnt_rep n : cnt (repeat false n) = 0.
Proof. unfold cnt. induction n; cbn [repeat count_occ]; auto. Qed.

Lemma enq_ok st q o : o < length st -> exists st' q', enqueue (st, q) o = Ok (st', q') /\ length st' = length st /\
  (forall x, tr st' x <-> tr st x \/ x = o) /\ (forall x, In x q -> In x q') /\ (forall x, In x q' -> In x q \/ x = o) /\
  (forall x, tr st' x -> tr st x \/ In x q') /\ cnt st' + length q = cnt st + length q'.
Proof.
  intros Ho. unfold enqueue. cbn [fst snd]. destruct (vget_some st o Ho) as (b & Hb & ->). cbn [bind]. destruct b.
  - exists st, q. splits; auto. intros x. split; auto. intros [H| ->]; auto.
  - unfold vset. destruct (Nat.ltb_spec o (length st)); [|lia]. cbn [bind]. exists (upd st o true), (o :: q). splits; auto using upd_length.
    + intros x. now apply tr_upd.
    + now right.
    + intros x [<-|H1]; auto.
    + intros x H1. apply tr_upd in H1 as [H1| ->]; auto. right. now left.
    + rewrite cnt_upd by auto. cbn [length]. lia.
Qed.
Lemma enq_all_ok : forall os st q, Forall (fun o => o < length st) os -> exists st' q', enqueue_all os (st, q) = Ok (st', q') /\ length st' = length st /\
  (forall x, tr st' x <-> tr st x \/ In x os) /\ (forall x, In x q -> In x q') /\ (forall x, In x q' -> In x q \/ In x os) /\
  (forall x, tr st' x -> tr st x \/ In x q') /\ cnt st' + length q = cnt st + length q'.
Proof.
  induction os as [|o os IH]; intros st q Hf.
  - exists st, q. splits; auto. intros x. cbn [In]. tauto.
  - inversion Hf; subst. destruct (enq_ok st q o H1) as (st1 & q1 & E & L & A & B & C & D & F). unfold enqueue_all in *. cbn [fold_outcome]. rewrite E. cbn [bind].
    destruct (IH st1 q1) as (st2 & q2 & E2 & L2 & A2 & B2 & C2 & D2 & F2); [now rewrite L|]. exists st2, q2. splits; auto; try congruence.
    + intros x. rewrite A2, A. cbn [In]. intuition.
    + intros x Hx. cbn [In]. apply C2 in Hx as [Hx|Hx]; auto. apply C in Hx as [Hx| ->]; auto.
    + intros x Hx. apply D2 in Hx as [Hx|Hx]; auto. apply D in Hx as [Hx|Hx]; auto.
    + lia.
Qed.

Section S.
Variable t : task.
Hypothesis Ht : stub_task t.

Lemma achievers_spec f o : In o (achievers t f) <-> exists op, nth_error (t_ops t) o = Some op /\ In f (op_facts op).
Proof.
  unfold achievers. rewrite in_flat_map. split.
  - intros (o' & Ho' & H). destruct (nth_error (t_ops t) o') as [op|] eqn:E; [|destruct H]. apply in_flat_map in H as (e & He & H). destruct (fact_eqb (eff_fact e) f) eqn:Ef; [|destruct H].
    destruct H as [<-|[]]. exists op. split; auto. apply fact_eqb_spec in Ef as <-. unfold op_facts. now apply in_map.
  - intros (op & Ho & Hf). exists o. split; [apply in_seq; unfold num_operators; apply nth_error_Some_lt in Ho; lia|]. rewrite Ho. unfold op_facts in Hf. apply in_map_iff in Hf as (e & <- & He). apply in_flat_map. exists e. split; auto.
    rewrite (proj2 (fact_eqb_spec _ _) eq_refl). now left.
Qed.
Lemma achievers_lt f : Forall (fun o => o < num_operators t) (achievers t f).
Proof. rewrite Forall_forall. intros o H. apply achievers_spec in H as (op & Ho & _). apply nth_error_Some_lt in Ho. exact Ho. Qed.
Lemma s_pre_spec o op : nth_error (t_ops t) o = Some op -> ssorted (s_pre t o) /\ forall f, In f (s_pre t o) <-> In f (op_pre op).
Proof. intros Ho. unfold s_pre. rewrite Ho. destruct Ht as (_ & _ & H). destruct (H op (nth_error_In _ _ Ho)) as (_ & N & _). split; [now apply sort_ss|]. intros f. apply sort_In. Qed.
Lemma s_eff_spec o op : nth_error (t_ops t) o = Some op -> ssorted (s_eff t o) /\ forall f, In f (s_eff t o) <-> In f (op_facts op).
Proof. intros Ho. unfold s_eff. rewrite Ho. destruct Ht as (_ & _ & H). destruct (H op (nth_error_In _ _ Ho)) as (_ & _ & N). split; [now apply sort_ss|]. intros f. apply sort_In. Qed.
Lemma clash_ext F G F' G' : (forall f, In f F' <-> In f F) -> (forall f, In f G' <-> In f G) -> clash F G -> clash F' G'.
Proof. intros A B (f & g & H1 & H2 & H3). exists f, g. now rewrite A, B. Qed.
Lemma interfering_spec o1 o2 op1 op2 : nth_error (t_ops t) o1 = Some op1 -> nth_error (t_ops t) o2 = Some op2 -> o2 <> o1 -> interf op1 op2 -> In o2 (interfering t o1).
Proof.
  intros H1 H2 Hne Hi. unfold interfering. apply filter_In. split; [apply in_seq; unfold num_operators; apply nth_error_Some_lt in H2; lia|].
  apply andb_true_iff. split; [apply negb_true_iff, Nat.eqb_neq; auto|]. destruct (s_pre_spec _ _ H1) as [P1 Q1], (s_pre_spec _ _ H2) as [P2 Q2], (s_eff_spec _ _ H1) as [P3 Q3], (s_eff_spec _ _ H2) as [P4 Q4].
  unfold interfere. rewrite !orb_true_iff. unfold can_disable, can_conflict. destruct Hi as [H|[H|H]]; [left; left|left; right|right]; (apply ccf_complete; [assumption|assumption|]).
  - exact (clash_ext _ _ _ _ Q3 Q2 H).
  - exact (clash_ext _ _ _ _ Q3 Q4 H).
  - exact (clash_ext _ _ _ _ Q4 Q1 H).
Qed.
Lemma interfering_lt o : Forall (fun x => x < num_operators t) (interfering t o).
Proof. rewrite Forall_forall. intros x H. unfold interfering in H. apply filter_In in H as [H _]. apply in_seq in H. lia. Qed.
Lemma unsat_some conds s f : find_unsatisfied conds s = Some f -> In f conds /\ ~ holds s f.
Proof. unfold find_unsatisfied. intros H. apply find_some in H as [A B]. split; auto. rewrite <- holdsb_spec. cbn beta in B. apply negb_true_iff in B. congruence. Qed.
Lemma unsat_none conds s : find_unsatisfied conds s = None -> all_hold s conds.
Proof. unfold find_unsatisfied. intros H f Hf. pose proof (find_none _ _ H f Hf) as E. apply holdsb_spec. cbn beta in E. now apply negb_false_iff in E. Qed.
Lemma goal_unsat s : ~ goal_state t s -> find_unsatisfied (s_goal t) s <> None.
Proof. intros Hn E. apply Hn. intros f Hf. apply (unsat_none _ _ E). unfold s_goal. now apply sort_In. Qed.

Definition closed (s : state) (st : list bool) (o : nat) : Prop :=
  match find_unsatisfied (s_pre t o) s with
  | None => forall x, In x (interfering t o) -> tr st x
  | Some f => forall x, In x (achievers t f) -> tr st x
  end.
Lemma closed_mono s st st' o : (forall x, tr st x -> tr st' x) -> closed s st o -> closed s st' o.
Proof. intros H. unfold closed. destruct (find_unsatisfied (s_pre t o) s); auto. Qed.
Lemma loop_simple_ok s : forall fuel st q, length st = num_operators t -> (forall o, tr st o -> In o q \/ closed s st o) -> num_operators t + length q <= fuel + cnt st ->
  exists st', loop_simple t s fuel (st, q) = Ok st' /\ length st' = num_operators t /\ (forall o, tr st o -> tr st' o) /\ (forall o, tr st' o -> closed s st' o).
Proof.
  induction fuel as [|fuel IH]; intros st q Hl Hc Hm.
  - destruct q as [|o q]; [|cbn [length] in Hm; pose proof (cnt_le st); lia]. exists st. splits; auto. intros o Ho. destruct (Hc o Ho) as [[]|H]; auto.
  - destruct q as [|o q]; [exists st; splits; auto; intros o Ho; destruct (Hc o Ho) as [[]|H]; auto|]. cbn [loop_simple snd fst].
    assert (Hx : exists st1 q1, handle_simple t s o (st, q) = Ok (st1, q1) /\ length st1 = num_operators t /\ (forall x, tr st x -> tr st1 x) /\ closed s st1 o /\ (forall x, In x q -> In x q1) /\ (forall x, tr st1 x -> tr st x \/ In x q1) /\ cnt st1 + length q = cnt st + length q1).
    { unfold handle_simple, closed. destruct (find_unsatisfied (s_pre t o) s) as [f|].
      - destruct (enq_all_ok (achievers t f) st q) as (st1 & q1 & E & L & A & B & C & D & F); [rewrite Hl; apply achievers_lt|]. exists st1, q1. splits; auto; try congruence; intros x Hx; apply A; auto.
      - destruct (enq_all_ok (interfering t o) st q) as (st1 & q1 & E & L & A & B & C & D & F); [rewrite Hl; apply interfering_lt|]. exists st1, q1. splits; auto; try congruence; intros x Hx; apply A; auto. }
    destruct Hx as (st1 & q1 & E & L & A & B & C & D & F). rewrite E. cbn [bind].
    destruct (IH st1 q1 L) as (st' & E' & L' & A' & B').
    + intros x Hx. apply D in Hx as [Hx|Hx]; auto. destruct (Hc x Hx) as [[<-|Hq]|Hq]; auto. right. eapply closed_mono; eauto.
    + cbn [length] in Hm. lia.
    + exists st'. splits; auto.
Qed.

Lemma stubborn_of_closed s st g : In g (t_goal t) -> ~ holds s g -> (forall x, In x (achievers t g) -> tr st x) ->
  (forall o, tr st o -> closed s st o) -> strong_stubborn t s (fun _ => True) (fun o => nth o st false).
Proof.
  assert (HT : forall o, nth o st false = true <-> tr st o).
  { intros o. unfold tr. split; intros H; [|now apply nth_error_nth]. destruct (Nat.lt_ge_cases o (length st)); [|rewrite nth_overflow in H by auto; discriminate]. rewrite <- H. now apply nth_error_nth'. }
  intros Hg Hng Ha Hc. split; [|split].
  - exists g. splits; auto. intros o op Ho Hf _. apply HT, Ha. apply achievers_spec. eauto.
  - intros o op HTo Ho Hpre o2 op2 Ho2 Hne _ Hi. left. apply HT. apply HT in HTo. specialize (Hc o HTo). unfold closed in Hc. destruct (find_unsatisfied (s_pre t o) s) as [f|] eqn:E.
    + apply unsat_some in E as [A B]. destruct B. apply Hpre. now apply (proj2 (s_pre_spec o op Ho)).
    + apply Hc. eapply interfering_spec; eauto.
  - intros o op HTo Ho Hpre. apply HT in HTo. specialize (Hc o HTo). unfold closed in Hc. destruct (find_unsatisfied (s_pre t o) s) as [f|] eqn:E.
    + apply unsat_some in E as [A B]. exists f. splits; auto; [now apply (proj2 (s_pre_spec o op Ho))|]. intros o2 op2 Ho2 Hf _. apply HT, Hc, achievers_spec. eauto.
    + destruct Hpre. intros f Hf. apply (unsat_none _ _ E). now apply (proj2 (s_pre_spec o op Ho)).
Qed.
Lemma compute_simple_ok s : ~ goal_state t s -> exists st, compute_simple t s = Ok st /\ length st = num_operators t /\ strong_stubborn t s (fun _ => True) (fun o => nth o st false).
Proof.
  intros Hn. pose proof (goal_unsat s Hn) as Hu. unfold compute_simple. destruct (find_unsatisfied (s_goal t) s) as [g|] eqn:E; [|congruence]. apply unsat_some in E as [A B].
  destruct (enq_all_ok (achievers t g) (repeat false (num_operators t)) []) as (st1 & q1 & E1 & L1 & A1 & B1 & C1 & D1 & F1); [rewrite repeat_length; apply achievers_lt|]. rewrite E1. cbn [bind]. rewrite repeat_length in L1. rewrite cnt_rep in F1. cbn [length] in F1.
  destruct (loop_simple_ok s (num_operators t) st1 q1 L1) as (st' & E' & L' & A' & B').
  - intros o Ho. apply D1 in Ho as [Ho|Ho]; auto. now apply tr_rep in Ho.
  - lia.
  - exists st'. splits; auto. apply (stubborn_of_closed s st' g); auto; [unfold s_goal in A; now apply sort_In in A|]. intros x Hx. apply A', A1. auto.
Qed.

(** Pruning keeps exactly the operators of the stubborn set, in order. *)
Lemma prune_with_spec st ops : Forall (fun o => o < length st) ops -> prune_with (Ok st) ops = Ok (filter (fun o => nth o st false) ops).
Proof.
  intros H. unfold prune_with. cbn [bind]. assert (G : forall acc, fold_outcome (fun acc o => let* b := vget st o in Ok (if b : bool then acc ++ [o] else acc)) ops acc = Ok (acc ++ filter (fun o => nth o st false) ops)).
  { induction H as [|o ops Ho H IH]; intros acc; cbn [fold_outcome filter]; [now rewrite app_nil_r|]. destruct (vget_some st o Ho) as (b & Hb & ->). cbn [bind]. rewrite (nth_error_nth _ _ false Hb). rewrite IH. destruct b; auto. now rewrite <- app_assoc. }
  rewrite G. reflexivity.
Qed.
Lemma app_lt s : Forall (fun o => o < num_operators t) (app_ops t s).
Proof. rewrite Forall_forall. intros o H. apply app_ops_spec in H as (op & Ho & _). apply nth_error_Some_lt in Ho. exact Ho. Qed.
End S.
