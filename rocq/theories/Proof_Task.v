(** Lemmas about tasks, states and conditions. *)
From Verif Require Import Outcome Spec_Task Model_Task.

Definition fact_dec (f g : fact) : {f = g} + {f <> g}.
Proof. decide equality; apply Nat.eq_dec. Defined.

Lemma fact_eqb_spec f g : fact_eqb f g = true <-> f = g.
Proof.
  unfold fact_eqb. destruct f as [a b], g as [c d]; simpl.
  rewrite andb_true_iff, !Nat.eqb_eq. split; [intros [-> ->]; auto | intros H; inv H; auto].
Qed.

Lemma holdsb_spec s f : holdsb s f = true <-> holds s f.
Proof.
  unfold holdsb, holds. destruct (nth_error s (fst f)) as [x|].
  - rewrite Nat.eqb_eq. split; [intros ->; auto | intros H; inv H; auto].
  - split; discriminate.
Qed.

Lemma all_holdb_spec s fs : all_holdb s fs = true <-> all_hold s fs.
Proof.
  unfold all_holdb, all_hold. rewrite forallb_forall.
  split; intros H f Hf; [apply holdsb_spec | apply holdsb_spec]; auto.
Qed.

Lemma all_hold_cons s f fs : all_hold s (f :: fs) <-> holds s f /\ all_hold s fs.
Proof.
  unfold all_hold; simpl; split.
  - intros H; split; [apply H; auto | intros g Hg; apply H; auto].
  - intros [H1 H2] g [<-|Hg]; auto.
Qed.

Lemma holds_fun s v d d' : holds s (v, d) -> holds s (v, d') -> d = d'.
Proof. unfold holds; simpl; congruence. Qed.

Lemma app_ops_spec t s o : In o (app_ops t s) <-> applicable t s o.
Proof.
  unfold app_ops, applicable. rewrite filter_In, in_seq. split.
  - intros [_ H]. destruct (nth_error (t_ops t) o) as [op|] eqn:E; [|discriminate].
    exists op; split; auto. now apply all_holdb_spec.
  - intros (op & E & H). rewrite E. split; [|now apply all_holdb_spec].
    split; [lia|]. apply nth_error_Some_lt in E; lia.
Qed.

Lemma state_ok_length t s : state_ok t s -> length s = length (t_vars t).
Proof. intros H. unfold state_ok in H. induction H; simpl; auto. Qed.

Lemma Forall2_nth {A B} (P : A -> B -> Prop) l1 l2 i x y :
  Forall2 P l1 l2 -> nth_error l1 i = Some x -> nth_error l2 i = Some y -> P x y.
Proof.
  intros H; revert i; induction H; intros [|i]; simpl; try discriminate.
  - intros H1 H2; inv H1; inv H2; auto.
  - eauto.
Qed.
Lemma Forall2_intro {A B} (P : A -> B -> Prop) l1 l2 :
  length l1 = length l2 ->
  (forall i x y, nth_error l1 i = Some x -> nth_error l2 i = Some y -> P x y) -> Forall2 P l1 l2.
Proof.
  revert l2; induction l1 as [|a l1 IH]; intros [|b l2] Hl H; simpl in Hl; try discriminate; constructor.
  - apply (H 0); auto.
  - apply IH; [congruence | intros i x y H1 H2; apply (H (S i)); auto].
Qed.

Lemma state_ok_get t s v x : state_ok t s -> is_var t v x -> exists d, holds s (v, d) /\ d < vdom x.
Proof.
  intros Hs Hx. pose proof (state_ok_length _ _ Hs) as Hl.
  assert (Hv : v < length s) by (apply nth_error_Some_lt in Hx; lia).
  destruct (nth_error s v) as [d|] eqn:E; [|apply nth_error_None in E; lia].
  exists d; split; auto. eapply (Forall2_nth _ _ _ v d x Hs); eauto.
Qed.
Lemma state_ok_var t s v d : state_ok t s -> holds s (v, d) -> exists x, is_var t v x /\ d < vdom x.
Proof.
  intros Hs Hd. pose proof (state_ok_length _ _ Hs) as Hl. unfold holds in Hd; simpl in Hd.
  pose proof (nth_error_Some_lt _ _ _ Hd).
  destruct (nth_error (t_vars t) v) as [x|] eqn:E; [|apply nth_error_None in E; lia].
  exists x; split; auto. eapply (Forall2_nth _ _ _ v d x Hs); eauto.
Qed.
Lemma state_ok_upd t s v d x : state_ok t s -> is_var t v x -> d < vdom x -> state_ok t (upd s v d).
Proof.
  intros Hs Hx Hd. apply Forall2_intro.
  - rewrite upd_length. now apply state_ok_length.
  - intros i y z Hi Hz. rewrite upd_nth in Hi.
    destruct (Nat.eqb_spec v i) as [->|Hne]; simpl in Hi.
    + destruct (Nat.ltb_spec i (length s)).
      * inv Hi. unfold is_var in Hx. congruence.
      * eapply (Forall2_nth _ _ _ i y z Hs); eauto.
    + eapply (Forall2_nth _ _ _ i y z Hs); eauto.
Qed.

(** Firing effects: the fold over effects gives each variable its [effect_value]. *)
Lemma apply_effects_snoc s es e : apply_effects s (es ++ [e]) =
  if all_holdb s (eff_cond e) then upd (apply_effects s es) (fst (eff_fact e)) (snd (eff_fact e)) else apply_effects s es.
Proof. unfold apply_effects. rewrite fold_left_app. reflexivity. Qed.

Lemma apply_effects_length s es : length (apply_effects s es) = length s.
Proof.
  induction es as [|e es IH] using rev_ind; [reflexivity|].
  rewrite apply_effects_snoc. destruct (all_holdb _ _); rewrite ?upd_length; auto.
Qed.

Lemma apply_effects_value s es v r : v < length s -> effect_value s es v r ->
  nth_error (apply_effects s es) v = match r with Some d => Some d | None => nth_error s v end.
Proof.
  intros Hv H. induction H as [v|es e v d Hc Hf|es e v r Hn H IH].
  - reflexivity.
  - rewrite apply_effects_snoc. apply all_holdb_spec in Hc. rewrite Hc, Hf; simpl.
    rewrite upd_nth_eq; auto. now rewrite apply_effects_length.
  - rewrite apply_effects_snoc. destruct (all_holdb s (eff_cond e)) eqn:E; auto.
    apply all_holdb_spec in E. rewrite upd_nth_neq by auto. auto.
Qed.

Lemma effect_value_total s es v : exists r, effect_value s es v r.
Proof.
  induction es as [|e es [r IH]] using rev_ind; [exists None; constructor|].
  destruct (all_holdb s (eff_cond e)) eqn:E.
  - apply all_holdb_spec in E. destruct (Nat.eq_dec (fst (eff_fact e)) v) as [<-|Hne].
    + exists (Some (snd (eff_fact e))). apply effect_value_last; auto. now destruct (eff_fact e).
    + exists r. apply effect_value_skip; auto.
  - exists r. apply effect_value_skip; auto. intros H. apply all_holdb_spec in H. congruence.
Qed.

Lemma apply_effects_ok t s es : state_ok t s -> Forall (effect_ok t) es -> state_ok t (apply_effects s es).
Proof.
  intros Hs. induction es as [|e es IH] using rev_ind; intros He; [exact Hs|].
  apply Forall_app in He. destruct He as [He1 He2]. inv He2.
  rewrite apply_effects_snoc. destruct (all_holdb _ _); auto.
  destruct H1 as (_ & (x & Hx & Hd) & _). eapply state_ok_upd; eauto.
Qed.

Lemma layer_of_var t v x : is_var t v x -> layer_of t v = vlayer x.
Proof. unfold layer_of, is_var. now intros ->. Qed.
Lemma layer_of_some t v k : layer_of t v = Some k -> exists x, is_var t v x /\ vlayer x = Some k.
Proof. unfold layer_of, is_var. destruct (nth_error (t_vars t) v) as [x|]; [eauto | discriminate]. Qed.

Lemma apply_effects_derived t s es v : Forall (effect_ok t) es -> layer_of t v <> None ->
  nth_error (apply_effects s es) v = nth_error s v.
Proof.
  intros He Hv. induction es as [|e es IH] using rev_ind; [reflexivity|].
  apply Forall_app in He. destruct He as [He1 He2]. inv He2.
  rewrite apply_effects_snoc. destruct (all_holdb _ _); auto.
  rewrite upd_nth_neq; auto. destruct H1 as (_ & _ & H1). congruence.
Qed.
