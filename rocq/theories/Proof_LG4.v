(** Generated graphs are sound. *)
From Verif Require Import Outcome Spec_Task Spec_Relaxation Spec_Landmarks Spec_LandmarkGeneration Model_DefaultRules Model_LandmarkGeneration.
From Verif Require Import Proof_DefaultRules Proof_OC1 Proof_LG1 Proof_LG2 Proof_LG3 Proof_DefaultRules3.
Local Open Scope nat_scope.

Lemma task_relax t : task_ok t -> no_derived t -> relax_ok t.
Proof.
  intros (_ & HO & _ & _ & HG) [Hr _]. rewrite Forall_forall in HO. split; [|split]; auto.
  - intros op Hop. destruct (HO op Hop) as [H1 H2]. split; auto. intros e He. rewrite Forall_forall in H2. destruct (H2 e He) as (A & B & _). auto.
  - rewrite Hr. intros r [].
Qed.
Lemma holds_dec s f : holds s f \/ ~ holds s f.
Proof. unfold holds. destruct (nth_error s (fst f)) as [d|]; [|right; discriminate]. destruct (Nat.eq_dec d (snd f)) as [->|H]; [auto|right; congruence]. Qed.
Lemma true_at_atom n ss i : true_at (landmark_of n) ss i <-> exists x, nth_error ss i = Some x /\ holds x (n_atom n).
Proof.
  unfold true_at, lm_true, all_hold. cbn [landmark_of lm_disjunctive lm_atoms In]. split; intros (x & H1 & H2); exists x; split; auto.
  intros f [<-|[]]. auto.
Qed.
Lemma some_true_dec n ss k : (exists i, i < k /\ true_at (landmark_of n) ss i) \/ forall i x, i < k -> nth_error ss i = Some x -> ~ holds x (n_atom n).
Proof.
  induction k as [|k [(i & Hi & H)|IH]]; [right; intros; lia|left; exists i; split; [lia|auto]|].
  destruct (nth_error ss k) as [x|] eqn:E.
  - destruct (holds_dec x (n_atom n)) as [H|H]; [left; exists k; split; [lia|]; apply true_at_atom; eauto|right]. intros i y Hi Hy. destruct (Nat.eq_dec i k) as [->|]; [congruence|]. apply (IH i y); [lia|auto].
  - right. intros i y Hi Hy. destruct (Nat.eq_dec i k) as [->|]; [congruence|]. apply (IH i y); [lia|auto].
Qed.
Lemma last_nth {A} (l : list A) d : l <> [] -> nth_error l (length l - 1) = Some (last l d).
Proof.
  induction l as [|a l IH]; intros H; [congruence|]. destruct l as [|b l]; [reflexivity|]. assert (b :: l <> []) as K by discriminate. specialize (IH K).
  replace (length (a :: b :: l) - 1) with (S (length (b :: l) - 1)) by (cbn; lia). exact IH.
Qed.

Section Sound.
Variable t : task.
Hypothesis Ht : task_ok t.
Hypothesis Hnd : no_derived t.
Hypothesis Hun : unconditional_effects_happen t.
Let Hinit : state_ok t (t_init t) := proj1 (proj2 (proj2 (proj2 Ht))).

Variable g : list node.
Hypothesis Hneeded : forall n, In n g -> needed t false (n_atom n).
Hypothesis Hfact : forall n, In n g -> fact_ok t (n_atom n).
Hypothesis Hgoal : forall n, In n g -> n_goal n = true -> In (n_atom n) (t_goal t).
Hypothesis Horder : forall i b j ty, nth_error g i = Some b -> In (j, ty) (n_parents b) -> ty = Natural /\
  forall a, nth_error g j = Some a -> n_atom a <> n_atom b /\ ~ avoiding t true (fun f => f = n_atom a) (n_atom b).
Hypothesis Hends : forall i a, nth_error g i = Some a -> forall j ty,
  (In (j, ty) (n_children a) -> exists b, nth_error g j = Some b /\ In (i, ty) (n_parents b)) /\
  (In (j, ty) (n_parents a) -> exists b, nth_error g j = Some b /\ In (i, ty) (n_children b)).
Variable g' : list node.
Hypothesis Hach : Forall2 (achieved t) g g'.

Lemma node_of i n' : nth_error g' i = Some n' -> exists n, nth_error g i = Some n /\ achieved t n n'.
Proof. intros H. clear -Hach H. revert i H. induction Hach as [|a b l l' Hab Hl IH]; intros [|i] H; cbn [nth_error] in *; try discriminate; [injection H as <-; eauto|eauto]. Qed.
Lemma node_of' i n : nth_error g i = Some n -> exists n', nth_error g' i = Some n' /\ achieved t n n'.
Proof. intros H. clear -Hach H. revert i H. induction Hach as [|a b l l' Hab Hl IH]; intros [|i] H; cbn [nth_error] in *; try discriminate; [injection H as <-; eauto|eauto]. Qed.
Lemma in_graph l : In l (map landmark_of g') -> exists n n', In n g /\ achieved t n n' /\ l = landmark_of n'.
Proof. intros H. apply in_map_iff in H as (n' & <- & H). apply In_nth_error in H as (i & Hi). destruct (node_of i n' Hi) as (n & Hn & Ha). exists n, n'. splits; auto. eapply nth_error_In; eauto. Qed.

Lemma facts_avoid un n os ss i x : (un = false -> unconditional_effects_happen t) -> run t (t_init t) os ss -> nth_error ss i = Some x ->
  (forall j y, j < S i -> nth_error ss j = Some y -> ~ holds y (n_atom n)) -> forall f, holds x f -> avoiding t un (fun f => f = n_atom n) f.
Proof.
  intros Hu Hr Hx Hno. apply (run_avoids t Ht Hnd un Hu (fun f => f = n_atom n) (t_init t) os ss Hr Hinit) with i; auto.
  - intros f Hf Hne. now apply av_init.
  - intros j y f Hj Hy -> . apply (Hno j y); auto. lia.
Qed.
(** The step that makes an atom true. *)
Lemma step_adds os ss i o a : run t (t_init t) os ss -> nth_error os i = Some o -> (exists y, nth_error ss (S i) = Some y /\ holds y a) -> (forall x, nth_error ss i = Some x -> ~ holds x a) ->
  exists x op e, nth_error ss i = Some x /\ nth_error (t_ops t) o = Some op /\ In e (op_effs op) /\ eff_fact e = a /\ forall g, In g (op_pre op ++ eff_cond e) -> holds x g.
Proof.
  intros Hr Ho (y & Hy & Hh) Hno. destruct (run_states t Ht (t_init t) os ss Hr Hinit) as (S1 & _ & S3). destruct (S3 i o Ho) as (x & y' & Hx & Hy' & (op & Hop & Hpre) & Hp).
  assert (y' = y) by congruence. subst y'. destruct (progress_derived t Ht x o y (S1 _ _ Hx) Hp) as (op' & s1 & Hop' & _ & _ & Hf). assert (op' = op) by congruence. subst op'.
  destruct (Hf a (proj2 Hnd _) Hh) as [K|(e & He & Hc & Ee)]; [elim (Hno x Hx K)|]. exists x, op, e. splits; auto. intros h Hg. apply in_app_iff in Hg as [Hg|Hg]; auto.
Qed.
Lemma op_listed o op : nth_error (t_ops t) o = Some op -> In (as_operator (o, op)) (ops_and_axioms t).
Proof. intros H. apply in_app_iff. left. apply in_map, in_numbered. auto. Qed.

Lemma ids_positive n' i n : achieved t n n' -> In i (n_possible n') \/ In i (n_first n') -> exists o op, i = Z.of_nat o /\ nth_error (t_ops t) o = Some op.
Proof.
  intros A H. assert (P : provides t i (n_atom n)).
  { destruct H as [H|H]; [now apply (proj2 (ac_possible _ _ _ A))|]. apply (proj2 (ac_first _ _ _ A)) in H as (x & e & K1 & K2 & K3 & K4 & _). exists x, e. auto. }
  destruct P as (x & e & Hx & <- & _). apply in_app_iff in Hx as [Hx|Hx].
  - apply in_map_iff in Hx as ((o & op) & <- & Hx). apply in_numbered in Hx. exists o, op. auto.
  - unfold axioms in Hx. rewrite (proj1 Hnd) in Hx. destruct Hx.
Qed.
Lemma NoDup_to_nat (l : list Z) : NoDup l -> (forall i, In i l -> (0 <= i)%Z) -> NoDup (map Z.to_nat l).
Proof.
  induction 1 as [|i l Hi Hl IH]; intros H; cbn [map]; constructor.
  - intros K. apply in_map_iff in K as (j & E & Hj). apply Hi. assert (0 <= i)%Z by (apply H; now left). assert (0 <= j)%Z by (apply H; now right). replace i with j by lia. auto.
  - apply IH. intros; apply H; now right.
Qed.

Theorem nodes_sound : sound t (map landmark_of g').
Proof.
  constructor.
  - intros l os ss Hl [Hr Hg]. apply in_graph in Hl as (n & n' & Hn & A & ->).
    destruct (some_true_dec n' ss (length ss)) as [(i & _ & H)|H]; [eauto|]. exfalso. apply (Hneeded n Hn). intros h Hh.
    destruct (run_states t Ht (t_init t) os ss Hr Hinit) as (_ & L & _).
    assert (E : nth_error ss (length ss - 1) = Some (last ss (t_init t))) by (apply last_nth; destruct ss; [cbn in L; lia|discriminate]).
    apply (facts_avoid false n os ss (length ss - 1) _ (fun _ => Hun) Hr E); [|now apply Hg]. intros j y Hj Hy. rewrite <- (ac_atom _ _ _ A). apply (H j y); auto. lia.
  - intros a b ty os ss (i & Hb & j & Ha & Hp) [Hr Hg]. rewrite nth_error_map in Ha, Hb. destruct (nth_error g' i) as [nb'|] eqn:Eb; [|discriminate]. destruct (nth_error g' j) as [na'|] eqn:Ea; [|discriminate].
    injection Hb as <-. injection Ha as <-. destruct (node_of i nb' Eb) as (nb & Enb & Ab). destruct (node_of j na' Ea) as (na & Ena & Aa). cbn [landmark_of lm_parents] in Hp. rewrite (ac_parents _ _ _ Ab) in Hp.
    destruct (Horder i nb j ty Enb Hp) as (-> & HO). destruct (HO na Ena) as (Hne & Hno). cbn [respects]. intros k [Hk1 Hk2].
    destruct (some_true_dec na' ss k) as [(i0 & Hi0 & H)|H]; [eauto|]. exfalso. apply Hno.
    apply true_at_atom in Hk1 as (y & Hy & Hh). rewrite (ac_atom _ _ _ Ab) in Hh.
    assert (NH : forall j y, j < k -> nth_error ss j = Some y -> ~ holds y (n_atom na)) by (intros j0 y0 K1 K2; rewrite <- (ac_atom _ _ _ Aa); apply (H j0 y0); auto).
    destruct k as [|k].
    + apply av_init; [|congruence]. inversion Hr; subst; cbn in Hy; injection Hy as <-; auto.
    + destruct (run_states t Ht (t_init t) os ss Hr Hinit) as (_ & L & _). assert (Hlt : S k < length ss) by (apply nth_error_Some; congruence).
      destruct (nth_error os k) as [o|] eqn:Eo; [|apply nth_error_None in Eo; lia].
      destruct (step_adds os ss k o (n_atom nb) Hr Eo) as (x & op & e & Hx & Hop & He & Ee & Hpre); [eauto| |].
      { intros x Hx Hxb. apply (Hk2 k); [lia|]. apply true_at_atom. exists x. rewrite (ac_atom _ _ _ Ab). auto. }
      rewrite <- Ee. apply av_op with op; auto; [eapply nth_error_In; eauto|discriminate|congruence|].
      intros h Hgh. apply (facts_avoid true na os ss k x); auto; discriminate.
  - intros l s Hl Hgl Hg. apply in_graph in Hl as (n & n' & Hn & A & ->). cbn [landmark_of lm_goal] in Hgl. rewrite (ac_goal _ _ _ A) in Hgl. unfold lm_true. cbn [landmark_of lm_disjunctive lm_atoms].
    intros f [<-|[]]. rewrite (ac_atom _ _ _ A). apply Hg. auto.
  - intros l os ss i o Hl Hr [H1 H2] Ho. apply in_graph in Hl as (n & n' & Hn & A & ->). apply true_at_atom in H1 as (y & Hy & Hh). rewrite (ac_atom _ _ _ A) in Hh.
    assert (NH : forall j y, j < S i -> nth_error ss j = Some y -> ~ holds y (n_atom n)) by (intros j0 y0 K1 K2 K3; apply (H2 j0 K1), true_at_atom; exists y0; rewrite (ac_atom _ _ _ A); auto).
    destruct (step_adds os ss i o (n_atom n) Hr Ho) as (x & op & e & Hx & Hop & He & Ee & Hpre); [eauto|intros x Hx; apply (NH i); auto|].
    cbn [landmark_of lm_first]. apply in_map_iff. exists (Z.of_nat o). split; [apply Nat2Z.id|]. apply (proj2 (ac_first _ _ _ A)). exists (as_operator (o, op)), e. splits; auto; [now apply op_listed|].
    intros h Hgh. apply (facts_avoid false n os ss i x); auto.
  - intros l os ss i o Hl Hr [H1 H2] Ho. apply in_graph in Hl as (n & n' & Hn & A & ->). apply true_at_atom in H2 as (y & Hy & Hh). rewrite (ac_atom _ _ _ A) in Hh.
    destruct (step_adds os ss i o (n_atom n) Hr Ho) as (x & op & e & Hx & Hop & He & Ee & Hpre); [eauto| |].
    { intros x Hx K. apply H1, true_at_atom. exists x. rewrite (ac_atom _ _ _ A). auto. }
    cbn [landmark_of lm_possible]. apply in_map_iff. exists (Z.of_nat o). split; [apply Nat2Z.id|]. apply (proj2 (ac_possible _ _ _ A)). exists (as_operator (o, op)), e. splits; auto. now apply op_listed.
Qed.

Theorem nodes_graph_ok : graph_ok t (map landmark_of g').
Proof.
  constructor.
  - intros l Hl. apply in_graph in Hl as (n & n' & Hn & A & ->). cbn [landmark_of lm_atoms]. constructor; [|constructor]. rewrite (ac_atom _ _ _ A). auto.
  - intros l Hl. apply in_graph in Hl as (n & n' & Hn & A & ->). cbn [landmark_of lm_first]. split.
    + apply NoDup_to_nat; [apply (ac_first _ _ _ A)|]. intros i Hi. destruct (ids_positive n' i n A (or_intror Hi)) as (o & op & -> & _). lia.
    + intros o Ho. apply in_map_iff in Ho as (i & <- & Hi). destruct (ids_positive n' i n A (or_intror Hi)) as (o & op & -> & Hop). rewrite Nat2Z.id. apply nth_error_Some. congruence.
  - intros l Hl. apply in_graph in Hl as (n & n' & Hn & A & ->). cbn [landmark_of lm_possible]. split.
    + apply NoDup_to_nat; [apply (ac_possible _ _ _ A)|]. intros i Hi. destruct (ids_positive n' i n A (or_introl Hi)) as (o & op & -> & _). lia.
    + intros o Ho. apply in_map_iff in Ho as (i & <- & Hi). destruct (ids_positive n' i n A (or_introl Hi)) as (o & op & -> & Hop). rewrite Nat2Z.id. apply nth_error_Some. congruence.
  - intros i a Ha j ty. rewrite nth_error_map in Ha. destruct (nth_error g' i) as [n'|] eqn:E; [|discriminate]. injection Ha as <-. destruct (node_of i n' E) as (n & En & A). cbn [landmark_of lm_children lm_parents].
    rewrite (ac_children _ _ _ A), (ac_parents _ _ _ A). destruct (Hends i n En j ty) as [K1 K2]. split; intros H.
    + destruct (K1 H) as (b & Hb & Hi). destruct (node_of' j b Hb) as (b' & Hb' & A'). exists (landmark_of b'). rewrite nth_error_map, Hb'. split; auto. cbn. now rewrite (ac_parents _ _ _ A').
    + destruct (K2 H) as (b & Hb & Hi). destruct (node_of' j b Hb) as (b' & Hb' & A'). exists (landmark_of b'). rewrite nth_error_map, Hb'. split; auto. cbn. now rewrite (ac_children _ _ _ A').
Qed.
End Sound.
