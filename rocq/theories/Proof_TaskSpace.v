(** The state space of a task: correctness of the representation. *)
From Coq Require Import Eqdep_dec.
From Verif Require Import Outcome Spec_Task Spec_Relaxation Spec_Plan Model_Task Proof_Task Proof_RelaxHeur Model_TaskSpace.

Lemma state_okb_spec t s : state_okb (t_vars t) s = true <-> state_ok t s.
Proof.
  unfold state_ok. revert s. induction (t_vars t) as [|x l IH]; intros [|d s]; cbn [state_okb]; split; intros H; try discriminate; try constructor; try (now inversion H).
  - apply andb_true_iff in H as [H _]. now apply Nat.ltb_lt.
  - apply andb_true_iff in H as [_ H]. now apply IH.
  - inversion H; subst. apply andb_true_iff. split; [now apply Nat.ltb_lt|now apply IH].
Qed.
Lemma state_eqb_spec a b : state_eqb a b = true <-> a = b.
Proof.
  revert b. induction a as [|x a IH]; intros [|y b]; cbn [state_eqb]; split; intros H; try discriminate; auto.
  - apply andb_true_iff in H as [H1 H2]. apply Nat.eqb_eq in H1. apply IH in H2. congruence.
  - inversion H; subst. apply andb_true_iff. split; [apply Nat.eqb_refl|now apply IH].
Qed.
Lemma wstate_eq t (a b : wstate t) : proj1_sig a = proj1_sig b -> a = b.
Proof. destruct a as [a Ha], b as [b Hb]. cbn [proj1_sig]. intros ->. f_equal. apply UIP_dec. apply Bool.bool_dec. Qed.
Lemma wstate_ok t (s : wstate t) : state_ok t (proj1_sig s).
Proof. apply state_okb_spec. exact (proj2_sig s). Qed.

(** All states of a task can be listed. *)
Fixpoint all_states (vars : list variable) : list state :=
  match vars with [] => [[]] | x :: vars => flat_map (fun d => map (cons d) (all_states vars)) (seq 0 (vdom x)) end.
Lemma all_states_spec vars s : state_okb vars s = true -> In s (all_states vars).
Proof.
  revert s. induction vars as [|x vars IH]; intros [|d s]; cbn [state_okb all_states]; intros H; try discriminate; [now left|]. apply andb_true_iff in H as [H1 H2]. apply Nat.ltb_lt in H1.
  apply in_flat_map. exists d. split; [apply in_seq; lia|]. apply in_map. auto.
Qed.

Lemma effect_total s es v : exists r, effect_value s es v r.
Proof.
  induction es as [|e es [r IH]] using rev_ind; [exists None; constructor|]. destruct (all_holdb s (eff_cond e)) eqn:E; [destruct (Nat.eq_dec (fst (eff_fact e)) v) as [Ev|Ev]|].
  - exists (Some (snd (eff_fact e))). apply effect_value_last; [now apply all_holdb_spec|]. rewrite <- Ev. now destruct (eff_fact e).
  - exists r. apply effect_value_skip; auto.
  - exists r. apply effect_value_skip; auto. intros H. apply all_holdb_spec in H. congruence.
Qed.

Section S.
Variable t : task.
Hypothesis Htk : task_ok t.
Hypothesis Hnd : no_derived t.

Lemma effs_ok o op : nth_error (t_ops t) o = Some op -> Forall (effect_ok t) (op_effs op).
Proof. intros Ho. destruct Htk as (_ & H & _). rewrite Forall_forall in H. now destruct (H op (nth_error_In _ _ Ho)). Qed.
Lemma progress_apply s o op s' : nth_error (t_ops t) o = Some op -> progress t s o s' <-> s' = apply_effects s (op_effs op).
Proof.
  intros Ho. destruct Hnd as [Hr Hl]. split.
  - intros (op' & s1 & Ho' & L1 & V1 & (L2 & V2 & _)). assert (op' = op) by congruence. subst op'. apply nth_error_ext. intros v. rewrite V2 by auto. destruct (Nat.lt_ge_cases v (length s)) as [Hv|Hv].
    + destruct (effect_total s (op_effs op) v) as [r Hrv]. rewrite (V1 v r Hv Hrv). symmetry. now apply apply_effects_value.
    + rewrite (proj2 (nth_error_None _ _)) by lia. symmetry. apply nth_error_None. rewrite apply_effects_length. lia.
  - intros ->. exists op, (apply_effects s (op_effs op)). splits; auto using apply_effects_length.
    + intros v r Hv Hrv. now apply apply_effects_value.
    + split; auto. split; auto. intros v x k d Hx Hk. specialize (Hl v). rewrite (layer_of_var _ _ _ Hx) in Hl. congruence.
Qed.
Lemma wsucc_spec (s : wstate t) o op : nth_error (t_ops t) o = Some op -> proj1_sig (wsucc t s o) = apply_effects (proj1_sig s) (op_effs op).
Proof.
  intros Ho. unfold wsucc. rewrite Ho. unfold wmake. destruct (Bool.bool_dec _ true) as [E|E]; [reflexivity|]. destruct E. apply state_okb_spec. apply apply_effects_ok; [apply wstate_ok|eapply effs_ok; eauto].
Qed.
Lemma wsucc_progress (s : wstate t) o : In o (app_ops t (proj1_sig s)) -> applicable t (proj1_sig s) o /\ progress t (proj1_sig s) o (proj1_sig (wsucc t s o)).
Proof.
  intros H. apply app_ops_spec in H. split; auto. destruct H as (op & Ho & _). apply (progress_apply _ o op); auto. now apply wsucc_spec.
Qed.
Lemma progress_wsucc (s : wstate t) o s' : progress t (proj1_sig s) o s' -> s' = proj1_sig (wsucc t s o).
Proof. intros H. pose proof H as (op & _ & Ho & _). apply (progress_apply _ o op) in H; auto. rewrite H. symmetry. now apply wsucc_spec. Qed.

(** Paths and plans of the state space are those of the task. *)
Lemma space_path init os : forall s s', path (task_space t init) s os s' -> task_path t (proj1_sig s) os (proj1_sig s').
Proof. induction os as [|o os IH]; intros s s' H; inversion H; subst; [constructor|]. destruct (wsucc_progress s o) as [A B]; [assumption|]. econstructor; eauto. Qed.
Lemma path_space init os : forall s s', task_path t (proj1_sig s) os s' -> exists w, proj1_sig w = s' /\ path (task_space t init) s os w.
Proof.
  induction os as [|o os IH]; intros s s' H; inversion H as [|? ? sa ? ? Ha Hp Hr]; subst; [exists s; split; auto; constructor|]. rewrite (progress_wsucc s o sa Hp) in Hr. destruct (IH _ _ Hr) as (w & A & B). exists w. split; auto. constructor; auto. cbn [ts_app task_space]. now apply app_ops_spec.
Qed.
Lemma plan_iff init (s : wstate t) os : is_plan_from (task_space t init) s os <-> task_plan_from t (proj1_sig s) os.
Proof.
  split.
  - intros (s' & Hp & Hg). exists (proj1_sig s'). split; [eapply space_path; eauto|]. now apply all_holdb_spec.
  - intros (s' & Hp & Hg). destruct (path_space init os s s' Hp) as (w & <- & Hw). exists w. split; auto. cbn [ts_goal task_space]. now apply all_holdb_spec.
Qed.
Lemma space_cost os : sum_cost (op_costs t) os = plan_cost t os.
Proof. unfold plan_cost. induction os as [|o os IH]; [reflexivity|]. cbn [sum_cost fold_right map]. unfold sum_cost in IH. rewrite IH. reflexivity. Qed.
Lemma space_wf init : ts_wf (task_space t init).
Proof. intros a b. cbn [ts_eqb task_space]. rewrite state_eqb_spec. split; [apply wstate_eq|now intros ->]. Qed.

Lemma all_wstates : exists l : list (wstate t), forall s, In s l.
Proof.
  exists (flat_map (fun s => match Bool.bool_dec (state_okb (t_vars t) s) true with left H => [exist _ s H] | right _ => [] end) (all_states (t_vars t))).
  intros [s H]. apply in_flat_map. exists s. split; [now apply all_states_spec|]. destruct (Bool.bool_dec _ true) as [E|E]; [|congruence]. left. now apply wstate_eq.
Qed.
Lemma space_finite init : finite_space (task_space t init).
Proof. destruct all_wstates as [l Hl]. exists l. split; auto. Qed.
End S.
