(** When an operator of a task leads from a member of one Cartesian set to a member of another. *)
From Verif Require Import Outcome Spec_Task Spec_Cartesian Model_Task Model_Cartesian Proof_Task Proof_Registry Proof_LMCut1 Proof_Cartesian1.

Lemma state_choice n (P : nat -> nat -> Prop) : (forall x, x < n -> exists d, P x d) -> exists s : list nat, length s = n /\ forall x, x < n -> P x (nth x s 0).
Proof.
  induction n as [|n IH]; intros H; [exists []; split; auto; lia|]. destruct IH as (s & L & Hs); [intros; apply H; lia|].
  destruct (H n) as [d Hd]; [lia|]. exists (s ++ [d]). split; [rewrite app_length; cbn; lia|]. intros x Hx. destruct (Nat.eq_dec x n) as [->|].
  - rewrite app_nth2 by lia. rewrite L, Nat.sub_diag. exact Hd.
  - rewrite app_nth1 by lia. apply Hs. lia.
Qed.

Definition in_cset (c : cset) (s : state) : Prop := forall f, holds s f -> has c (fst f) (snd f).
Definition step1 (op : operator) (x : nat) (c c' : cset) : Prop :=
  match preV op x with Some p => has c x p | None => True end /\
  match postV op x with Some q => has c' x q | None => exists d, has c x d /\ has c' x d end.

Section TASK.
Variable t : task.
Hypothesis Ht : cartesian_task t.
Definition doms : list nat := map vdom (t_vars t).
Definition edge (op : operator) (c c' : cset) : Prop := forall x, x < length (t_vars t) -> step1 op x c c'.

Lemma ct_ok : task_ok t. Proof. apply Ht. Qed.
Lemma ct_layer v : layer_of t v = None.
Proof.
  unfold layer_of. destruct (nth_error (t_vars t) v) as [x|] eqn:E; auto. destruct Ht as (_ & _ & Hl & _). apply Hl. eapply nth_error_In; eauto.
Qed.
Lemma ct_op o op : nth_error (t_ops t) o = Some op -> NoDup (map fst (op_pre op)) /\ (forall e, In e (op_effs op) -> eff_cond e = []) /\
  (forall f, In f (op_pre op) -> fact_ok t f) /\ (forall e, In e (op_effs op) -> fact_ok t (eff_fact e)).
Proof.
  intros H. apply nth_error_In in H. destruct Ht as (Hok & _ & _ & Hop & _). destruct (Hop _ H) as [H1 H2]. destruct Hok as (_ & Hops & _).
  rewrite Forall_forall in Hops. destruct (Hops _ H) as [H3 H4]. rewrite Forall_forall in H3, H4. splits; auto. intros e He. apply (H4 e He).
Qed.
Lemma doms_nth v x : is_var t v x -> nth v doms 0 = vdom x.
Proof. unfold is_var, doms. intros H. rewrite nth_indep with (d' := vdom x) by (rewrite map_length; eapply nth_error_Some_lt; eauto). rewrite map_nth. now rewrite (nth_error_nth _ _ x H). Qed.
Lemma fact_dom f : fact_ok t f <-> snd f < nth (fst f) doms 0.
Proof.
  split.
  - intros (x & Hx & Hd). now rewrite (doms_nth _ _ Hx).
  - intros H. destruct (nth_error (t_vars t) (fst f)) as [x|] eqn:E.
    + exists x. split; auto. now rewrite (doms_nth _ _ E) in H.
    + apply nth_error_None in E. unfold doms in H. rewrite nth_overflow in H by (rewrite map_length; auto). lia.
Qed.
Lemma state_of_list s : length s = length (t_vars t) -> (forall x, x < length s -> nth x s 0 < nth x doms 0) -> state_ok t s.
Proof.
  intros L H. apply Forall2_intro; auto. intros i d x Hd Hx. specialize (H i (nth_error_Some_lt _ _ _ Hd)).
  rewrite (doms_nth _ _ Hx) in H. now rewrite (nth_error_nth _ _ 0 Hd) in H.
Qed.
Lemma state_holds s v : state_ok t s -> v < length (t_vars t) -> holds s (v, nth v s 0) /\ nth v s 0 < nth v doms 0.
Proof.
  intros Hs Hv. destruct (nth_error (t_vars t) v) as [x|] eqn:E; [|apply nth_error_None in E; lia].
  destruct (state_ok_get t s v x Hs E) as (d & Hd & Hdx). unfold holds in Hd. cbn in Hd. rewrite (nth_error_nth _ _ 0 Hd). split; [exact Hd|]. now rewrite (doms_nth _ _ E).
Qed.
Lemma holds_nth s v d : state_ok t s -> holds s (v, d) -> v < length (t_vars t) /\ d = nth v s 0.
Proof.
  intros Hs Hd. unfold holds in Hd. cbn in Hd. split; [|now rewrite (nth_error_nth _ _ 0 Hd)]. rewrite <- (state_ok_length t s Hs). eapply nth_error_Some_lt; eauto.
Qed.

Lemma apply_effects_last s es v : (forall e, In e es -> eff_cond e = []) -> v < length s ->
  nth_error (apply_effects s es) v = match last_eff es v None with Some d => Some d | None => nth_error s v end.
Proof.
  intros Hc Hv. induction es as [|e es IH] using rev_ind; [reflexivity|]. rewrite apply_effects_snoc. rewrite (Hc e) by (apply in_or_app; right; now left). cbn [all_holdb forallb].
  unfold last_eff. rewrite fold_left_app. cbn [fold_left]. specialize (IH (fun e H => Hc e (in_or_app _ _ _ (or_introl H)))).
  rewrite upd_nth. assert (L : forall s0 l, length (apply_effects s0 l) = length s0) by (intros; apply apply_effects_length).
  rewrite L. destruct (Nat.eqb_spec (fst (eff_fact e)) v) as [<-|]; cbn [andb].
  - now rewrite (proj2 (Nat.ltb_lt _ _) Hv).
  - exact IH.
Qed.

Lemma next_state s o s' : state_ok t s -> progress t s o s' <-> exists op, nth_error (t_ops t) o = Some op /\ s' = apply_effects s (op_effs op).
Proof.
  intros Hs. split.
  - intros (op & s1 & Hop & Hl & Hv & Hm). exists op. split; auto. assert (E : s' = s1).
    { destruct Hm as (L & H & _). apply nth_error_ext. intros v. apply H, ct_layer. }
    subst s1. apply nth_error_ext. intros v. destruct (le_lt_dec (length s) v) as [Hg|Hlt].
    + rewrite !(proj2 (nth_error_None _ _)); auto; [rewrite apply_effects_length; auto|lia].
    + destruct (effect_value_total s (op_effs op) v) as [r Hr]. rewrite (Hv v r Hlt Hr). now rewrite (apply_effects_value s _ v r Hlt Hr).
  - intros (op & Hop & ->). eapply strat_progress; eauto. split; [auto|]. split; [auto|]. intros v x k d Hx Hk. exfalso.
    pose proof (ct_layer v) as Hv. unfold layer_of in Hv. unfold is_var in Hx. rewrite Hx in Hv. congruence.
Qed.
Lemma next_ok s o s' : state_ok t s -> progress t s o s' -> state_ok t s'.
Proof.
  intros Hs Hp. apply (next_state s o s' Hs) in Hp as (op & Hop & ->). apply apply_effects_ok; auto. apply nth_error_In in Hop.
  destruct (ct_ok) as (_ & Hops & _). rewrite Forall_forall in Hops. apply (Hops _ Hop).
Qed.

Lemma edge_complete o op s s' c c' : nth_error (t_ops t) o = Some op -> state_ok t s -> in_cset c s -> in_cset c' s' ->
  applicable t s o -> progress t s o s' -> edge op c c'.
Proof.
  intros Hop Hs Hc Hc' (op' & Hop' & Hpre) Hp x Hx. assert (op' = op) by congruence. subst op'. apply (next_state s o s' Hs) in Hp as (op' & Hop'' & ->).
  assert (op' = op) by congruence. subst op'. clear Hop' Hop''. destruct (ct_op _ _ Hop) as (Hn & Hcond & _ & _). rewrite <- (state_ok_length t s Hs) in Hx.
  assert (HN := apply_effects_last s (op_effs op) x Hcond Hx).
  assert (Hsx : nth_error s x = Some (nth x s 0)) by (apply nth_error_nth'; auto).
  split.
  - destruct (preV op x) as [p|] eqn:E; auto. apply (preV_spec op x p Hn) in E. apply (Hc (x, p)). apply Hpre. exact E.
  - rewrite (postV_spec op x Hn), last_eff_none. destruct (last_eff (op_effs op) x None) as [d|]; [exact (Hc' (x, d) HN)|].
    destruct (preV op x) as [p|] eqn:E.
    + apply (preV_spec op x p Hn) in E. apply (Hc' (x, p)). unfold holds. cbn [fst snd]. rewrite HN. exact (Hpre (x, p) E).
    + exists (nth x s 0). split; [exact (Hc (x, nth x s 0) Hsx)|]. apply (Hc' (x, nth x s 0)). unfold holds. cbn [fst snd]. congruence.
Qed.
Lemma edge_sound o op c c' : nth_error (t_ops t) o = Some op -> shape c doms -> shape c' doms -> (forall x, x < length (t_vars t) -> exists d, has c x d) ->
  edge op c c' -> exists s s', state_ok t s /\ in_cset c s /\ applicable t s o /\ progress t s o s' /\ state_ok t s' /\ in_cset c' s'.
Proof.
  intros Hop Sc Sc' Hne He. destruct (ct_op _ _ Hop) as (Hn & Hcond & Hp & Hef).
  destruct (state_choice (length (t_vars t)) (fun x d => has c x d /\ match preV op x with Some p => d = p | None => True end /\
     match postV op x with None => has c' x d | Some _ => True end)) as (s & L & Hs).
  { intros x Hx. destruct (He x Hx) as [H1 H2]. destruct (preV op x) as [p|] eqn:Ep.
    - exists p. splits; auto. rewrite (postV_spec op x Hn), last_eff_none, Ep. destruct (last_eff _ _ _); auto.
    - destruct (postV op x) as [q|] eqn:Eq; [destruct (Hne x Hx) as [d Hd]; exists d; auto|]. destruct H2 as (d & H2 & H3). exists d. auto. }
  assert (Hok : state_ok t s).
  { apply state_of_list; auto. intros x Hx. rewrite L in Hx. destruct (Hs x Hx) as [H _]. apply has_lt in H as [_ H]. destruct Sc as [_ Sc]. now rewrite Sc in H. }
  assert (Hin : in_cset c s). { intros [v d] Hd. destruct (holds_nth s v d Hok Hd) as [Hv ->]. apply (Hs v Hv). }
  exists s, (apply_effects s (op_effs op)). assert (Hpr : progress t s o (apply_effects s (op_effs op))) by (apply (next_state s o _ Hok); eauto).
  splits; auto.
  - exists op. split; auto. intros [v d] Hd. cbn [fst snd]. assert (Hv : v < length (t_vars t)) by (destruct (Hp _ Hd) as (x & Hx & _); eapply nth_error_Some_lt; eauto).
    destruct (Hs v Hv) as (_ & H & _). rewrite (proj2 (preV_spec op v d Hn) Hd) in H. unfold holds. cbn [fst snd]. rewrite <- H. apply nth_error_nth'. lia.
  - apply (next_ok s o); auto.
  - intros [v d] Hd. unfold holds in Hd. cbn [fst snd] in *. assert (Hv : v < length s) by (rewrite <- (apply_effects_length s (op_effs op)); eapply nth_error_Some_lt; eauto).
    rewrite (apply_effects_last s _ v Hcond Hv) in Hd. rewrite L in Hv. destruct (Hs v Hv) as (_ & H2 & H3). destruct (He v Hv) as [_ H4].
    rewrite (postV_spec op v Hn), last_eff_none in H3, H4. destruct (last_eff (op_effs op) v None) as [q|]; [injection Hd as <-; exact H4|].
    rewrite (nth_error_nth' s 0) in Hd by lia. injection Hd as <-. destruct (preV op v) as [p|]; [subst; exact H4|exact H3].
Qed.
End TASK.
