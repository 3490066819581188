(** Every node reached by search-space operations has a valid path. *)
From Verif Require Import Outcome Spec_Plan Model_SearchSpace Proof_SearchSpace.

Lemma calculate_plan_cost_sum (T : TS) plan : @calculate_plan_cost T plan = sum_cost (ts_cost T) plan.
Proof.
  unfold calculate_plan_cost, sum_cost.
  assert (H : forall l a, fold_left (fun x op => x + ts_cost T op) l a = a + fold_right (fun o acc => ts_cost T o + acc) 0 l).
  { induction l as [|o l IH]; intros a; cbn; [lia|]. rewrite IH. lia. }
  apply H.
Qed.

Section Trace.
Variable T : TS.
Variable ac : nat -> nat.
Hypothesis Hwf : ts_wf T.

Record TInv (sp : space T) : Prop := {
  ti_init : sp = [] \/ exists n, nth_error sp 0 = Some (ts_init T, n);
  ti_uniq : uniq T sp;
  ti_chain : forall id s n g, nth_error sp id = Some (s, n) -> ni_g n = Some g ->
      exists ops ids, chain T ac sp id ops ids;
  ti_new : forall id s n, nth_error sp id = Some (s, n) -> ni_status n = NEW -> ni_g n = None
}.

Lemma put_some (sp : space T) id s (n n' : node_info) :
  nth_error sp id = Some (s, n) -> put_info sp id n' = Ok (upd sp id (s, n')).
Proof.
  intros H. unfold put_info, vget, vset. rewrite H; cbn [bind].
  apply nth_error_Some_lt in H. apply Nat.ltb_lt in H. now rewrite H.
Qed.

Lemma uniq_upd sp id s n n' : uniq T sp -> nth_error sp id = Some (s, n) -> uniq T (upd sp id (s, n')).
Proof.
  intros U H i j s0 m1 m2 H1 H2. rewrite upd_nth in H1, H2.
  assert (Hl := nth_error_Some_lt _ _ _ H). apply Nat.ltb_lt in Hl. rewrite Hl, !andb_true_r in *.
  destruct (Nat.eqb_spec id i), (Nat.eqb_spec id j); subst; auto.
  - inv H1. eapply U; eauto.
  - inv H2. eapply U; eauto.
  - eapply U; eauto.
Qed.

Lemma uniq_snoc sp s n : uniq T sp -> (forall j m, nth_error sp j <> Some (s, m)) -> uniq T (sp ++ [(s, n)]).
Proof.
  intros U Hf i j s0 m1 m2 H1 H2.
  destruct (nth_app_inv _ _ _ _ H1) as [A|[A A']], (nth_app_inv _ _ _ _ H2) as [B|[B B']].
  - eapply U; eauto.
  - inv B'. exfalso; eapply Hf; eauto.
  - inv A'. exfalso; eapply Hf; eauto.
  - congruence.
Qed.

Lemma init_upd (sp : space T) id s n n' : (sp = [] \/ exists m, nth_error sp 0 = Some (ts_init T, m)) ->
  nth_error sp id = Some (s, n) ->
  upd sp id (s, n') = [] \/ exists m, nth_error (upd sp id (s, n')) 0 = Some (ts_init T, m).
Proof.
  intros [->|[m H]] Hid; [destruct id; discriminate|].
  right. destruct id as [|id].
  - rewrite H in Hid. inv Hid. exists n'. apply upd_nth_eq. eapply nth_error_Some_lt; eauto.
  - exists m. rewrite upd_nth_neq; auto.
Qed.

(** registering a state *)
Lemma register_TInv sp s sp1 id : TInv sp -> register sp s = (sp1, id) ->
  (sp <> [] \/ s = ts_init T) ->
  TInv sp1 /\ exists n, nth_error sp1 id = Some (s, n) /\
    (forall i x, nth_error sp i = Some x -> nth_error sp1 i = Some x).
Proof.
  intros Inv Hr Hs. apply register_spec in Hr; auto. destruct Hr as [(-> & n & Hn)|(-> & -> & Hf)].
  - split; auto. exists n; split; auto.
  - split.
    + destruct Inv as [A B D E]. constructor.
      * right. destruct A as [->|[m A]].
        -- destruct Hs as [Hs|Hs]; [congruence|subst s]. exists new_info. reflexivity.
        -- exists m. now apply nth_app_old.
      * now apply uniq_snoc.
      * intros i s1 n g H Hg. destruct (nth_app_inv _ _ _ _ H) as [H1|[H1 H2]]; [|inv H2; discriminate].
        destruct (D _ _ _ _ H1 Hg) as (o & ids & Hc). exists o, ids.
        eapply chain_links_kept; eauto. apply links_kept_app.
      * intros i s1 n H Hst. destruct (nth_app_inv _ _ _ _ H) as [H1|[H1 H2]]; [eauto|inv H2; reflexivity].
    + exists new_info. split; [apply nth_app_last|]. intros i x. apply nth_app_old.
Qed.

Lemma status_TInv sp id s n st : TInv sp -> nth_error sp id = Some (s, n) -> st <> NEW ->
  TInv (upd sp id (s, set_status n st)).
Proof.
  intros [A B D E] Hid Hst. constructor.
  - eapply init_upd; eauto.
  - eapply uniq_upd; eauto.
  - intros i s1 n1 g H Hg.
    assert (exists n2, nth_error sp i = Some (s1, n2) /\ ni_g n2 = Some g) as (n2 & H2 & G2).
    { rewrite upd_nth in H. destruct (_ && _) eqn:Eb; [|eauto].
      apply andb_true_iff in Eb. destruct Eb as [Eb _]. apply Nat.eqb_eq in Eb. inv H. eauto. }
    destruct (D _ _ _ _ H2 G2) as (o & ids & Hc). exists o, ids.
    eapply chain_links_kept; eauto. eapply links_kept_upd; eauto.
  - intros i s1 n1 H Hn. rewrite upd_nth in H. destruct (_ && _) eqn:Eb; [|eauto].
    inv H. cbn in Hn. congruence.
Qed.

Lemma redirect_TInv sp id s n pid ps pn op pg preal st : TInv sp ->
  nth_error sp id = Some (s, n) -> nth_error sp pid = Some (ps, pn) -> ni_g pn = Some pg ->
  In op (ts_app T ps) -> ts_succ T ps op = s ->
  (ni_g n = None \/ exists g, ni_g n = Some g /\ pg + ac op < g) -> st <> NEW ->
  TInv (upd sp id (s, update_parent st pg preal pid op (ac op) (ts_cost T op))).
Proof.
  intros [A B D E] Hid Hpid Hpg Hop Hs Hold Hst.
  destruct (D _ _ _ _ Hpid Hpg) as (opsp & idsp & Hcp).
  destruct (chain_redirect T ac sp id s n (update_parent st pg preal pid op (ac op) (ts_cost T op)) pid ps pn op pg opsp idsp)
    as [Hself Hall]; auto.
  constructor.
  - eapply init_upd; eauto.
  - eapply uniq_upd; eauto.
  - intros i s1 n1 g H Hg. rewrite upd_nth in H. destruct (_ && _) eqn:Eb.
    + apply andb_true_iff in Eb. destruct Eb as [Eb _]. apply Nat.eqb_eq in Eb. subst. eauto.
    + destruct (D _ _ _ _ H Hg) as (o & ids & Hc). eapply Hall; eauto.
  - intros i s1 n1 H Hn. rewrite upd_nth in H. destruct (_ && _) eqn:Eb; [|eauto].
    inv H. cbn in Hn. congruence.
Qed.

Lemma ss_step_TInv sp x sp' : TInv sp -> ss_step ac sp x = Ok sp' -> TInv sp'.
Proof.
  intros Inv. destruct x as [|pid op reopen|id|id]; cbn [ss_step].
  - destruct (register sp (ts_init T)) as [sp1 id] eqn:Er.
    destruct (register_TInv _ _ _ _ Inv Er (or_intror eq_refl)) as (Inv1 & n & Hn & _).
    unfold get_node, vget. rewrite Hn; cbn [bind]. destruct (is_new n) eqn:En.
    + unfold open_initial. rewrite En; cbn [guard bind]. erewrite put_some; eauto.
      intros H; inv H.
      destruct Inv1 as [A B D E].
      destruct A as [->|[m A]]; [destruct id; discriminate|].
      assert (id = 0) by (eapply B; eauto). subst id. rewrite A in Hn; inv Hn.
      assert (Hg : ni_g n = None).
      { eapply E; eauto. unfold is_new in En. destruct (ni_status n); try discriminate; auto. }
      (* no node has a g-value yet, because every chain starts at node 0 *)
      assert (Hno : forall i s1 n1 g, nth_error sp1 i = Some (s1, n1) -> ni_g n1 = Some g -> False).
      { intros i s1 n1 g H Hg1. destruct (D _ _ _ _ H Hg1) as (o & ids & Hc).
        assert (H0 : forall i o ids, chain T ac sp1 i o ids -> False).
        { clear - A Hg. intros i o ids Hc. induction Hc; auto. congruence. }
        eapply H0; eauto. }
      constructor.
      * eapply init_upd; eauto.
      * eapply uniq_upd; eauto.
      * intros i s1 n1 g H Hg1. rewrite upd_nth in H. destruct (_ && _) eqn:Eb.
        -- apply andb_true_iff in Eb. destruct Eb as [Eb _]. apply Nat.eqb_eq in Eb. subst i.
           exists [], [0]. inv H. econstructor; [apply upd_nth_eq; eapply nth_error_Some_lt; eauto|auto|auto].
        -- exfalso. eauto.
      * intros i s1 n1 H Hn1. rewrite upd_nth in H. destruct (_ && _) eqn:Eb; [|eauto].
        inv H. discriminate.
    + intros H; inv H. auto.
  - unfold get_node, vget. destruct (nth_error sp pid) as [[ps pn]|] eqn:Ep; [|discriminate].
    cbn [bind]. unfold get_g at 1. destruct (ni_g pn) as [pg|] eqn:Epg; [|discriminate]. cbn [bind].
    destruct (existsb (Nat.eqb op) (ts_app T ps)) eqn:Eop; [|discriminate]. cbn [guard bind].
    assert (Hop : In op (ts_app T ps)).
    { apply existsb_exists in Eop. destruct Eop as (o & Ho & Heq). apply Nat.eqb_eq in Heq. now subst. }
    destruct (register sp (ts_succ T ps op)) as [sp1 id] eqn:Er.
    assert (Hne : sp <> []) by (intros ->; destruct pid; discriminate).
    destruct (register_TInv _ _ _ _ Inv Er (or_introl Hne)) as (Inv1 & n & Hn & Hkeep).
    rewrite Hn; cbn [bind]. apply Hkeep in Ep.
    destruct (is_dead_end_node n); [intros H; inv H; auto|].
    assert (Hred : forall st, st <> NEW -> (ni_g n = None \/ exists g, ni_g n = Some g /\ pg + ac op < g) ->
       forall r, put_info sp1 id (update_parent st pg (ni_real_g pn) pid op (ac op) (ts_cost T op)) = Ok r -> TInv r).
    { intros st Hst Hold r Hr. erewrite put_some in Hr by eauto. inv Hr. eapply redirect_TInv; eauto. }
    destruct (is_new n) eqn:En.
    + unfold open_new_node. rewrite En; cbn [guard bind]. apply Hred; [discriminate|].
      left. eapply (ti_new _ Inv1); eauto. unfold is_new in En. destruct (ni_status n); try discriminate; auto.
    + unfold get_g. destruct (ni_g n) as [g|] eqn:Eg; [|discriminate]. cbn [bind].
      destruct (Nat.ltb_spec (pg + ac op) g); [|intros Hx; inv Hx; auto].
      assert (Hold : ni_g n = None \/ exists g, ni_g n = Some g /\ pg + ac op < g) by eauto.
      rewrite Eg in Hold.
      destruct (is_open n) eqn:Eo; [|destruct reopen].
      * unfold update_open_node_parent. rewrite Eo; cbn [guard bind]. apply Hred; auto; discriminate.
      * unfold reopen_closed_node. destruct (is_closed n); cbn [guard bind]; [|discriminate].
        apply Hred; auto; discriminate.
      * unfold update_closed_node_parent. destruct (is_closed n); cbn [guard bind]; [|discriminate].
        apply Hred; auto; discriminate.
  - unfold get_node, vget. destruct (nth_error sp id) as [[s n]|] eqn:Ep; [|discriminate]. cbn [bind].
    unfold close_node. destruct (is_open n); [|discriminate]. cbn [guard bind].
    erewrite put_some; eauto. intros H; inv H. apply status_TInv; auto; discriminate.
  - unfold get_node, vget. destruct (nth_error sp id) as [[s n]|] eqn:Ep; [|discriminate]. cbn [bind].
    unfold mark_as_dead_end. erewrite put_some; eauto. intros H; inv H. apply status_TInv; auto; discriminate.
Qed.

Lemma ss_run_TInv ops sp : ss_run ac ops = Ok sp -> TInv sp.
Proof.
  unfold ss_run. assert (H0 : TInv []).
  { constructor; auto; try (intros [|]; discriminate). }
  revert H0. generalize (@nil (ts_state T * node_info)) as sp0.
  induction ops as [|x ops IH]; cbn [fold_outcome]; intros sp0 H0 H; [inv H; auto|].
  apply bind_ok in H. destruct H as (sp1 & H1 & H2). eapply IH; [|exact H2]. eapply ss_step_TInv; eauto.
Qed.

Lemma trace_valid ops sp id s n g : ss_run ac ops = Ok sp ->
  nth_error sp id = Some (s, n) -> ni_g n = Some g ->
  exists plan, trace_path sp id = Ok plan /\ path T (ts_init T) plan s /\ sum_cost ac plan <= g.
Proof.
  intros Hr Hn Hg. pose proof (ss_run_TInv _ _ Hr) as Inv.
  destruct (ti_chain _ Inv _ _ _ _ Hn Hg) as (plan & ids & Hc).
  exists plan. destruct (chain_g _ _ _ _ _ _ Hc) as (s1 & n1 & g1 & E1 & G1 & Sm & P & _).
  rewrite E1 in Hn; inv Hn. rewrite Hg in G1; inv G1. splits; auto.
  eapply trace_path_chain; eauto.
Qed.

End Trace.
