(** Building an abstraction. *)
From Verif Require Import Outcome Spec_Task Spec_Relaxation Spec_Cartesian Spec_CEGAR Model_Task Model_PQ Model_Cartesian Model_CEGAR Proof_Task Proof_LMCut1 Proof_Cartesian1 Proof_Cartesian2 Proof_Cartesian3 Proof_Cartesian4 Proof_Cartesian5 Proof_Cartesian6 Prop_Cartesian Proof_CEGAR1 Proof_CEGAR2 Proof_CEGAR3 Proof_CEGAR4.

Section BUILD.
Variable t : task.
Hypothesis Ht : cartesian_task t.
Hypothesis Heff : single_effects t.
Notation N := (length (t_vars t)).
Notation doms := (Proof_Cartesian2.doms t).
Notation num A := (length (ab_states A)).
Variable costs : list (option nat).
Hypothesis Hcosts : length costs = length (t_ops t).
Variable P : pqueue.
Variable bag : PQ P -> list (nat * nat).
Hypothesis HP : pq_contract P bag.
Variable q0 : PQ P.
Hypothesis Hq0 : bag q0 = [].
Variable choose : nat -> nat.

Lemma combine_doms (ds : list nat) : forall k, map snd (combine (seq k (length ds)) ds) = ds /\ map fst (combine (seq k (length ds)) ds) = seq k (length ds).
Proof. induction ds as [|d ds IH]; intros k; [auto|]. cbn [length seq combine map fst snd]. destruct (IH (S k)) as [-> ->]. auto. Qed.

(** What is known of the result. *)
Record built (budget : nat) (A : abstraction) (st : stop) : Prop := {
  bu_ref : exists m, refined t m A;
  bu_num : num A <= S budget;
  bu_stop : match st with
            | Limit => budget <= num A + N
            | Unsolvable => no_plan t costs
            | Solved sol => optimal_plan t costs (map fst sol)
            end;
  bu_goals : forall l, t_goal t = [l] -> forall i s, i < num A -> in_cset (csA A i) s ->
    (exists f, holds s f /\ ~ rreach t (allowed t l) (t_init t) f) -> In i (ab_goals A) }.

Lemma build_plain budget A0 : initial_abstraction t = Ok A0 -> (forall l, t_goal t <> [l]) ->
  exists A st, refinement_rounds P q0 choose t costs doms budget 0 A0 [new_sinfo] = Ok (A, st) /\ built budget A st.
Proof.
  intros E0 Hg. assert (R0 : refined t false A0) by now constructor. pose proof (refined_AI t false A0 Ht R0) as H0. destruct (initial_ok t Ht) as (A0' & E0' & _ & Hn). assert (A0' = A0) by congruence. subst A0'.
  destruct (rounds_ok t Ht costs Hcosts P bag HP q0 Hq0 choose (fun _ => True)) with (budget := budget) (k := 0) (A := A0) (si := [new_sinfo]) (m := false) (h := fun _ : nat => 0)
    as (A & st & E & H1 & H2 & H3 & H4); auto.
  - intros s o op _ _ _ _ _. right. auto.
  - intros i Hi. left. split; [intros x d _; exact Logic.I|]. apply (ai_gex t false A0 H0). reflexivity.
  - rewrite Hn. auto.
  - eapply hok_start; eauto.
  - exists A, st. split; auto. constructor; [eauto|lia| |].
    + destruct st; cbn [stop_right] in H4; auto. lia.
    + intros l Hl. destruct (Hg l Hl).
Qed.

Lemma sep_start rf A0 : initial_abstraction t = Ok A0 -> sepI t rf 0 A0 /\ num A0 = 1 /\ length (ab_goals A0) = 1.
Proof.
  intros E0. assert (R0 : refined t false A0) by now constructor. pose proof (refined_AI t false A0 Ht R0) as H0. unfold initial_abstraction in E0. apply bind_ok in E0 as (ts & _ & E0). injection E0 as <-.
  split; [|cbn; auto]. constructor; [exact R0| |cbn; intros; lia]. intros x d. change (has (full_cset doms) x d <-> d < nth x doms 0 /\ (x < 0 -> In (x, d) rf)). rewrite full_has. intuition lia.
Qed.

Lemma build_goal budget A0 l : initial_abstraction t = Ok A0 -> t_goal t = [l] ->
  exists A1 b, separate_facts_unreachable_before_goal t doms l budget A0 = Ok (A1, b) /\
  exists A st, refinement_rounds P q0 choose t costs doms b 0 A1 [new_sinfo] = Ok (A, st) /\ built budget A st.
Proof.
  intros E0 Hl. destruct (possible_before_ok t Ht l) as (facts & Ef & HI & HC). destruct (sep_start (fact_insert facts l) A0 E0) as (S0 & N0 & G0).
  unfold separate_facts_unreachable_before_goal. rewrite G0, N0, Ef. cbn [Nat.eqb guard bind]. destruct (combine_doms doms 0) as [C1 C2].
  assert (Ld : length doms = N) by apply doms_len. assert (Lc : length (combine (seq 0 (length doms)) doms) = N) by (rewrite combine_length, seq_length; lia).
  destruct (separate_ok t Ht (fact_insert facts l) (R_init t l facts HI) (combine (seq 0 (length doms)) doms) 0 budget A0) as (A1 & b & E1 & H1 & H2 & H3 & H4 & H5); auto.
  { rewrite C2. f_equal. lia. }
  rewrite E1. cbn [bind]. exists (mark_all_states_as_goals A1), b. split; auto. rewrite Lc in *.
  assert (R1 : refined t false A1) by (destruct H3 as [[_ H3]|H3]; [exact H3|apply (se_ref _ _ _ _ H3)]). pose proof (refined_mark t false A1 R1) as RM. pose proof (refined_AI t true _ Ht RM) as HM.
  assert (Gall : forall i, i < num A1 -> In i (ab_goals (mark_all_states_as_goals A1))) by (intros i Hi; cbn; apply in_seq; lia).
  destruct H3 as [[-> _]|HS].
  - cbn [refinement_rounds]. eexists _, Limit. split; [reflexivity|]. constructor; [eauto|cbn; lia|cbn; lia|]. intros l' _ i s Hi _ _. now apply Gall.
  - set (R := fun f => In f (fact_insert facts l)) in *.
    assert (Cl : classes t R (mark_all_states_as_goals A1)).
    { intros i Hi. cbn [mark_all_states_as_goals ab_states] in Hi. change (csA (mark_all_states_as_goals A1) i) with (csA A1 i). destruct (Nat.eq_dec i (ab_init A1)) as [->|Hn].
      - left. split.
        + intros x d Hd. pose proof Hd as Hd'. apply (se_init _ _ _ _ HS) in Hd as [Hd1 Hd2]. apply Hd2. destruct (has_lt _ _ _ Hd') as [Hx _]. destruct (ai_shape t true _ HM _ Hi) as [Hs _]. change (csA (mark_all_states_as_goals A1) (ab_init A1)) with (csA A1 (ab_init A1)) in Hs. lia.
        + intros _ f Hf. rewrite Hl in Hf. destruct Hf as [<-|[]]. apply (se_init _ _ _ _ HS). split; [apply (fact_dom t), (goal_ok t Ht); rewrite Hl; now left|].
          intros _. rewrite <- surjective_pairing. apply insert_In. auto.
      - right. split; [now apply Gall|]. now apply (se_out _ _ _ _ HS). }
    destruct (rounds_ok t Ht costs Hcosts P bag HP q0 Hq0 choose R (R_init t l facts HI) (R_step t Ht l Hl Heff facts HC)) with (budget := b) (k := 0) (A := mark_all_states_as_goals A1) (si := [new_sinfo]) (m := true) (h := fun _ : nat => 0)
      as (A & st & E & K1 & K2 & K3 & K4); auto; [cbn; lia|eapply hok_start; eauto|].
    exists A, st. split; auto. change (num (mark_all_states_as_goals A1)) with (num A1) in *. constructor; [eauto|lia| |].
    + destruct st; cbn [stop_right] in K4; auto. lia.
    + intros l' Hl' i s Hi Hin (f & Hf & Hnr). assert (l' = l) by congruence. subst l'. destruct (K2 i Hi) as [[Ki _]|[Ki _]]; auto.
      pose proof (Hin f Hf) as Hh. apply Ki in Hh. rewrite <- surjective_pairing in Hh. apply insert_In in Hh as [Hh|Hh]; [destruct Hnr; now apply (pb_reach _ _ _ HI)|].
      apply (ai_gcov t true A (refined_AI t true A Ht K1) i Hi). intros g Hg. rewrite Hl in Hg. destruct Hg as [<-|[]]. rewrite <- Hh. now apply Hin.
Qed.

Lemma cegar_ok budget : exists A st, cegar P q0 choose budget t costs = Ok (A, st) /\ built budget A st.
Proof.
  unfold cegar. fold (Proof_Cartesian2.doms t). destruct (initial_ok t Ht) as (A0 & E0 & _ & _). rewrite E0. cbn [bind]. destruct (t_goal t) as [|l [|l' ls]] eqn:Eg.
  - cbn [bind]. apply build_plain; auto. rewrite Eg. congruence.
  - destruct (build_goal budget A0 l E0 Eg) as (A1 & b & E1 & A & st & E & Hb). rewrite E1. cbn [bind]. eauto.
  - cbn [bind]. apply build_plain; auto. rewrite Eg. congruence.
Qed.
End BUILD.
