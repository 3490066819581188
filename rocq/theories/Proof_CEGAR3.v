(** Facts that are possible before a fact, and separating the others from the initial state. *)
From Verif Require Import Outcome Spec_Task Spec_Relaxation Spec_Cartesian Model_Task Model_Cartesian Model_CEGAR Proof_Task Proof_LMCut1 Proof_Cartesian1 Proof_Cartesian2 Proof_Cartesian3 Proof_Cartesian4 Proof_Cartesian5 Proof_Cartesian6 Prop_Cartesian Proof_CEGAR1 Proof_CEGAR2.

Lemma fact_eqb_eq f g : fact_eqb f g = true <-> f = g.
Proof. destruct f, g. unfold fact_eqb. cbn. rewrite andb_true_iff, !Nat.eqb_eq. split; [intros [-> ->]; auto|intros H; inversion H; auto]. Qed.
Lemma fact_in_In f l : fact_in f l = true <-> In f l.
Proof.
  unfold fact_in. rewrite existsb_exists. split; [intros (x & Hx & E); apply fact_eqb_eq in E; now subst|intros H; exists f; split; auto; now apply fact_eqb_eq].
Qed.
Lemma insert_In l f g : In g (fact_insert l f) <-> In g l \/ g = f.
Proof.
  unfold fact_insert. destruct (fact_in f l) eqn:E; [apply fact_in_In in E; split; [auto|intros [H| ->]; auto]|]. rewrite in_app_iff. cbn. intuition.
Qed.
Lemma insert_nodup l f : NoDup l -> NoDup (fact_insert l f).
Proof.
  intros H. unfold fact_insert. destruct (fact_in f l) eqn:E; auto. assert (Hn : ~ In f l) by (rewrite <- fact_in_In; congruence).
  apply NoDup_app; auto; [constructor; [intros []|constructor]|]. intros g Hg [<-|[]]. auto.
Qed.
Lemma insert_all_In fs : forall l g, In g (fold_left fact_insert fs l) <-> In g l \/ In g fs.
Proof. induction fs as [|f fs IH]; intros l g; cbn [fold_left In]; [tauto|]. rewrite IH, insert_In. intuition. Qed.
Lemma insert_all_nodup fs : forall l, NoDup l -> NoDup (fold_left fact_insert fs l).
Proof. induction fs as [|f fs IH]; intros l H; cbn [fold_left]; auto. apply IH. now apply insert_nodup. Qed.

Lemma flat_len {A B} (g : A -> list B) l : length (flat_map g l) = list_sum (map (fun x => length (g x)) l).
Proof. induction l as [|a l IH]; [auto|]. cbn [flat_map map]. rewrite app_length, IH. reflexivity. Qed.
Lemma nth_seq_map (ds : list nat) : map (fun x => nth x ds 0) (seq 0 (length ds)) = ds.
Proof. induction ds as [|d ds IH]; [auto|]. cbn [length seq map nth]. f_equal. rewrite <- seq_shift, map_map. exact IH. Qed.

Section PB.
Variable t : task.
Hypothesis Ht : cartesian_task t.
Variable l : fact.
Definition achieves (o : nat) : Prop := exists op e, nth_error (t_ops t) o = Some op /\ In e (op_effs op) /\ eff_fact e = l.
Lemma achieves_spec op : operator_achieves_fact op l = true <-> exists e, In e (op_effs op) /\ eff_fact e = l.
Proof.
  unfold operator_achieves_fact. rewrite existsb_exists. split; intros (e & H1 & H2); exists e; split; auto; [now apply fact_eqb_eq|now apply fact_eqb_eq].
Qed.
Lemma applicable_spec op fs : operator_applicable op fs = true <-> incl (op_pre op) fs.
Proof. unfold operator_applicable. rewrite forallb_forall. split; intros H f Hf; apply fact_in_In; auto. Qed.

Definition pb_step (facts : list fact) (op : operator) : list fact :=
  if operator_achieves_fact op l then facts
  else if operator_applicable op facts then fold_left (fun facts e => fact_insert facts (eff_fact e)) (op_effs op) facts else facts.
Lemma effs_fold es : forall facts, fold_left (fun facts e => fact_insert facts (eff_fact e)) es facts = fold_left fact_insert (map eff_fact es) facts.
Proof. induction es as [|e es IH]; intros facts; cbn [fold_left map]; auto. Qed.
Lemma pb_step_In facts op g : In g (pb_step facts op) <-> In g facts \/ (operator_achieves_fact op l = false /\ incl (op_pre op) facts /\ exists e, In e (op_effs op) /\ eff_fact e = g).
Proof.
  unfold pb_step. destruct (operator_achieves_fact op l); [split; [auto|intros [H|[H _]]; [auto|discriminate]]|].
  destruct (operator_applicable op facts) eqn:E.
  - apply applicable_spec in E. rewrite effs_fold, insert_all_In, in_map_iff. split; [intros [H|(e & H1 & H2)]; [auto|right; splits; eauto]|intros [H|(_ & _ & e & H1 & H2)]; eauto].
  - split; [auto|]. intros [H|(_ & H & _)]; auto. apply applicable_spec in H. congruence.
Qed.
Lemma pb_step_nodup facts op : NoDup facts -> NoDup (pb_step facts op).
Proof.
  intros H. unfold pb_step. destruct (operator_achieves_fact op l); auto. destruct (operator_applicable op facts); auto. rewrite effs_fold. now apply insert_all_nodup.
Qed.
Lemma insert_len fs : forall facts, length facts <= length (fold_left fact_insert fs facts).
Proof.
  induction fs as [|f fs IH]; intros facts; cbn [fold_left]; auto. etransitivity; [|apply IH]. unfold fact_insert. destruct (fact_in f facts); auto. rewrite app_length. lia.
Qed.

Definition allowed (o : nat) : Prop := ~ achieves o.
(** What holds of the set of facts throughout. *)
Record pbI (facts : list fact) : Prop := {
  pb_nd : NoDup facts;
  pb_init : forall f, holds (t_init t) f -> In f facts;
  pb_reach : forall f, In f facts -> rreach t allowed (t_init t) f;
  pb_ok : forall f, In f facts -> fact_ok t f }.
Lemma pb_fold : forall ops facts, incl ops (t_ops t) -> pbI facts -> pbI (fold_left pb_step ops facts) /\ incl facts (fold_left pb_step ops facts) /\
  forall op, In op ops -> operator_achieves_fact op l = false -> incl (op_pre op) facts -> forall e, In e (op_effs op) -> In (eff_fact e) (fold_left pb_step ops facts).
Proof.
  induction ops as [|op ops IH]; intros facts Hi HI; cbn [fold_left]; [splits; auto; [apply incl_refl|intros op []]|].
  assert (Hop : In op (t_ops t)) by (apply Hi; now left).
  assert (HI1 : pbI (pb_step facts op)).
  { destruct HI as [H1 H2 H3 H4]. apply In_nth_error in Hop as (o & Ho). destruct (ct_op t Ht o op Ho) as (_ & Hcond & _ & Hef). constructor.
    - now apply pb_step_nodup.
    - intros f Hf. apply pb_step_In. auto.
    - intros f Hf. apply pb_step_In in Hf as [Hf|(Ha & Hp & e & He & <-)]; [auto|]. apply rr_op with (o := o) (op := op); auto.
      + intros (op' & e' & Ho' & He' & E). assert (op' = op) by congruence. subst op'. assert (operator_achieves_fact op l = true) by (apply achieves_spec; eauto). congruence.
      + intros g Hg. rewrite (Hcond e He), app_nil_r in Hg. auto.
    - intros f Hf. apply pb_step_In in Hf as [Hf|(_ & _ & e & He & <-)]; auto. }
  assert (Hs : incl facts (pb_step facts op)) by (intros f Hf; apply pb_step_In; auto).
  destruct (IH (pb_step facts op)) as (G1 & G2 & G3); [intros x Hx; apply Hi; now right|exact HI1|]. splits; auto; [eapply incl_tran; eauto|].
  intros op' [<-|Hop'] Ha Hp e He; [apply G2, pb_step_In; right; splits; eauto|]. eapply G3; eauto. eapply incl_tran; eauto.
Qed.
Lemma pb_pass_fold facts : pb_pass t l facts = fold_left pb_step (t_ops t) facts.
Proof. reflexivity. Qed.

Definition pb_closed (facts : list fact) : Prop :=
  forall op, In op (t_ops t) -> operator_achieves_fact op l = false -> incl (op_pre op) facts -> forall e, In e (op_effs op) -> In (eff_fact e) facts.
Lemma facts_bound facts : NoDup facts -> (forall f, In f facts -> fact_ok t f) -> length facts <= list_sum (map vdom (t_vars t)).
Proof.
  intros Hn Hok. set (all := flat_map (fun x => map (fun d => (x, d)) (seq 0 (nth x (doms t) 0))) (seq 0 (length (t_vars t)))).
  assert (Hl : length all = list_sum (map vdom (t_vars t))).
  { unfold all. rewrite flat_len. rewrite (map_ext _ (fun x => nth x (doms t) 0)) by (intros x; now rewrite map_length, seq_length).
    rewrite <- (doms_len t), nth_seq_map. reflexivity. }
  rewrite <- Hl. apply NoDup_incl_length; auto. intros [x d] Hf. apply Hok in Hf. apply fact_dom in Hf; auto. cbn [fst snd] in Hf. unfold all. apply in_flat_map.
  exists x. split; [|apply in_map, in_seq; lia]. apply in_seq. destruct (le_lt_dec (length (t_vars t)) x) as [Hg|Hlt]; [|lia]. unfold doms in Hf. rewrite nth_overflow in Hf by (rewrite map_length; auto). lia.
Qed.
Lemma pb_loop_ok : forall fuel last facts, pbI facts -> length facts + fuel > list_sum (map vdom (t_vars t)) -> (last = length facts -> pb_closed facts) ->
  (length facts <= last -> last = length facts) ->
  exists facts', pb_loop fuel t l last facts = Ok facts' /\ pbI facts' /\ pb_closed facts'.
Proof.
  induction fuel as [|fuel IH]; intros last facts HI Hf Hc Hle; cbn [pb_loop].
  - pose proof (facts_bound facts (pb_nd _ HI) (pb_ok _ HI)). lia.
  - destruct (Nat.eqb_spec last (length facts)) as [E|E]; [exists facts; auto|]. destruct (pb_fold (t_ops t) facts (incl_refl _) HI) as (G1 & G2 & G3).
    rewrite <- pb_pass_fold in G1, G2, G3. assert (Hlen : length facts <= length (pb_pass t l facts)) by (apply NoDup_incl_length; auto; apply (pb_nd _ HI)).
    assert (Hcl : length facts = length (pb_pass t l facts) -> incl (pb_pass t l facts) facts) by (intros El; apply NoDup_length_incl; [apply (pb_nd _ HI)|lia|auto]).
    destruct (Nat.eq_dec (length facts) (length (pb_pass t l facts))) as [El|En].
    + destruct fuel as [|fuel']; cbn [pb_loop]; rewrite El, Nat.eqb_refl; (exists (pb_pass t l facts); splits; auto; intros op Hop Ha Hp e He; eapply G3; eauto; eapply incl_tran; [exact Hp|now apply Hcl]).
    + apply IH; [auto|lia|intros; lia|intros; lia].
Qed.
Lemma possible_before_ok : exists facts, get_relaxed_possible_before t l = Ok (fact_insert facts l) /\ pbI facts /\ pb_closed facts.
Proof.
  unfold get_relaxed_possible_before, compute_possibly_before_facts. set (f0 := fold_left fact_insert _ []).
  assert (In0 : forall f, In f f0 <-> holds (t_init t) f). { intros f. unfold f0. rewrite insert_all_In. cbn [In]. rewrite state_facts. tauto. }
  assert (Hs : state_ok t (t_init t)) by now apply init_ok.
  assert (I0 : pbI f0).
  { constructor.
    - apply insert_all_nodup. constructor.
    - intros f Hf. now apply In0.
    - intros f Hf. apply rr_state. now apply In0.
    - intros [x d] Hf. apply In0 in Hf. destruct (holds_nth t _ x d Hs Hf) as [Hx ->]. apply fact_dom; auto. apply (state_holds t _ x Hs Hx). }
  destruct (Nat.eq_dec (length f0) 0) as [Ez|Ez].
  - (* no variables *)
    assert (HN : length (t_vars t) = 0).
    { destruct (Nat.eq_dec (length (t_vars t)) 0) as [|Hne]; auto. exfalso. destruct (state_holds t _ 0 Hs) as [H _]; [lia|]. apply In0 in H. destruct f0; [destruct H|discriminate]. }
    cbn [pb_loop]. rewrite Ez. cbn [Nat.eqb bind]. exists f0. splits; auto. intros op Hop _ _ e He. exfalso.
    apply In_nth_error in Hop as (o & Ho). destruct (ct_op t Ht o op Ho) as (_ & _ & _ & Hef). specialize (Hef e He). apply fact_var in Hef. lia.
  - destruct (pb_loop_ok (S (list_sum (map vdom (t_vars t)))) 0 f0 I0) as (facts & E & H1 & H2); [lia|intros; lia|intros; lia|]. rewrite E. cbn [bind]. eauto.
Qed.

(** The facts of a trace stay possible until the goal is reached. *)
Hypothesis Hgoal : t_goal t = [l].
Hypothesis Heff : forall op, In op (t_ops t) -> NoDup (map (fun e => fst (eff_fact e)) (op_effs op)).
Section R.
Variable facts : list fact.
Hypothesis HI : pbI facts.
Hypothesis HC : pb_closed facts.
Notation R := (fun f => In f (fact_insert facts l)).
Lemma R_init f : holds (t_init t) f -> R f.
Proof. intros H. apply insert_In. left. now apply (pb_init _ HI). Qed.
Lemma R_step s o op : state_ok t s -> ~ goal_state t s -> good t R s -> nth_error (t_ops t) o = Some op -> all_hold s (op_pre op) -> good t R (apply_effects s (op_effs op)).
Proof.
  intros Hs Hng Hg Hop Hp. destruct Hg as [Hg|Hg]; [contradiction|]. assert (Hf : forall f, holds s f -> In f facts).
  { intros f Hf. pose proof (Hg f Hf) as H. apply insert_In in H as [H| ->]; auto. destruct Hng. intros g Hin. rewrite Hgoal in Hin. destruct Hin as [<-|[]]. exact Hf. }
  destruct (ct_op t Ht o op Hop) as (_ & Hcond & Hpo & Hef). pose proof (nth_error_In _ _ Hop) as Hin. destruct (operator_achieves_fact op l) eqn:Ea.
  - left. apply achieves_spec in Ea as (e & He & El). intros g Hin'. rewrite Hgoal in Hin'. destruct Hin' as [<-|[]]. unfold holds.
    assert (Hx : fst l < length s) by (rewrite (state_ok_length t s Hs); rewrite <- El; apply fact_var; auto). rewrite (apply_effects_last s _ (fst l) Hcond Hx).
    destruct (last_eff_Some (op_effs op) (fst l) None e He) as (d & Ed); [now rewrite El|]. rewrite Ed. f_equal. apply last_eff_In in Ed as [Ed|(e' & He' & E')]; [discriminate|].
    assert (Hnd := Heff op Hin). rewrite <- (map_map eff_fact fst) in Hnd.
    apply (NoDup_fst_unique (map eff_fact (op_effs op)) (fst l) d (snd l) Hnd); [rewrite <- E'; now apply in_map|]. rewrite <- surjective_pairing, <- El. now apply in_map.
  - right. intros [x d] Hh. unfold holds in Hh. cbn [fst snd] in Hh. assert (Hx : x < length s) by (rewrite <- (apply_effects_length s (op_effs op)); eapply nth_error_Some_lt; eauto).
    rewrite (apply_effects_last s _ x Hcond Hx) in Hh. apply insert_In. left. destruct (last_eff (op_effs op) x None) as [q|] eqn:El; [|now apply (Hf (x, d))].
    injection Hh as <-. apply last_eff_In in El as [El|(e & He & Ee)]; [discriminate|]. rewrite <- Ee. apply (HC op Hin Ea); auto. intros g Hgp. apply Hf. now apply Hp.
Qed.
End R.
End PB.

Lemma fact_dec (f g : nat * nat) : {f = g} + {f <> g}.
Proof. decide equality; apply Nat.eq_dec. Qed.

Section SEP.
Variable t : task.
Hypothesis Ht : cartesian_task t.
Variable rf : list fact.
Notation R := (fun f => In f rf).
Hypothesis Rinit : forall f, holds (t_init t) f -> R f.
Notation N := (length (t_vars t)).
Notation doms := (doms t).
Notation num A := (length (ab_states A)).

(** The initial state after the first [k] variables. *)
Record sepI (k : nat) (A : abstraction) : Prop := {
  se_ref : refined t false A;
  se_init : forall x d, has (csA A (ab_init A)) x d <-> d < nth x doms 0 /\ (x < k -> R (x, d));
  se_out : forall i, i < num A -> i <> ab_init A -> outR t R (csA A i) }.

Lemma sep_step k A : k < N -> sepI k A ->
  match filter (fun d => negb (fact_in (k, d) rf)) (seq 0 (nth k doms 0)) with
  | [] => sepI (S k) A
  | u => exists A', refine A (ab_init A) k u = Ok A' /\ sepI (S k) A' /\ num A' = S (num A)
  end.
Proof.
  intros Hk [Hr Hin Hout]. pose proof (refined_AI t false A Ht Hr) as HA. set (u := filter _ _).
  assert (Hu : forall d, In d u <-> d < nth k doms 0 /\ ~ R (k, d)).
  { intros d. unfold u. rewrite filter_In, in_seq, negb_true_iff, <- not_true_iff_false, fact_in_In. intuition lia. }
  destruct (ai_init t false A HA) as [Hi Hc]. destruct (state_holds t (t_init t) k (init_ok t Ht) Hk) as [Hk1 Hk2]. set (d0 := nth k (t_init t) 0) in *.
  destruct u as [|d1 u1] eqn:Eu.
  - constructor; auto. intros x d. rewrite Hin. split; intros [H1 H2]; split; auto. intros Hx. destruct (Nat.eq_dec x k) as [->|]; [|apply H2; lia].
    destruct (in_dec fact_dec (k, d) rf) as [|Hn]; auto. destruct (proj2 (Hu d) (conj H1 Hn)).
  - rewrite <- Eu in *. assert (Hnd : NoDup u) by (apply NoDup_filter, seq_NoDup). assert (Hne : u <> []) by (rewrite Eu; discriminate).
    assert (Hl : legal A (ab_init A) k u).
    { split; [exact Hi|]. split; [exact Hne|]. split; [exact Hnd|]. split.
      - intros d Hd. apply Hu in Hd as [Hd _]. apply Hin. split; [auto|intros; lia].
      - exists d0. split; [apply (Hc (k, d0) Hk1)|]. intros Hd. apply Hu in Hd as [_ Hd]. apply Hd. now apply Rinit. }
    destruct (refine_ok t Ht false A (ab_init A) k u HA Hl) as (A' & E & HA' & Hnum & P1 & P2 & P3 & P4 & P5). exists A'. splits; auto.
    assert (Hi' : ab_init A' = ab_init A).
    { destruct P5 as [P5|[_ P5]]; auto. exfalso. destruct (ai_init t false A' HA') as [_ Hc']. rewrite P5 in Hc'. specialize (Hc' (k, d0) Hk1). cbn [fst snd] in Hc'. apply P2 in Hc' as [_ Hw].
      specialize (Hw eq_refl). apply Hu in Hw as [_ Hw]. apply Hw. now apply Rinit. }
    constructor.
    + apply refined_split with (A := A) (i := ab_init A) (x := k) (wanted := u); auto. destruct Hl as (L1 & L2 & L3 & L4 & d & L5 & L6). split; [exact L1|]. split; [auto|]. split; [auto|]. split.
      * intros e He. apply contains_has; [exact L1|]. now apply L4.
      * exists d. split; [|exact L6]. apply contains_has; [exact L1|exact L5].
    + intros x d. rewrite Hi', P1, Hin. split.
      * intros ([H1 H2] & H3). split; auto. intros Hx. destruct (Nat.eq_dec x k) as [->|]; [|apply H2; lia].
        destruct (in_dec fact_dec (k, d) rf) as [|Hn]; auto. destruct H3. split; auto. apply Hu. auto.
      * intros [H1 H2]. split; [split; auto|]. intros [-> H3]. apply Hu in H3 as [_ H3]. apply H3, H2. lia.
    + intros i Hii Hne'. rewrite Hi' in Hne'. rewrite Hnum in Hii. destruct (Nat.eq_dec i (num A)) as [->|Hn].
      * exists k. split; auto. intros d Hd. apply P2 in Hd as [_ Hd]. apply Hu. now apply Hd.
      * rewrite P3 by (auto; lia). apply Hout; auto. lia.
Qed.
Lemma separate_ok : forall r k budget A, map snd r = skipn k doms -> map fst r = seq k (length r) -> k + length r = N -> sepI k A ->
  exists A' b', separate_vars rf r budget A = Ok (A', b') /\ num A <= num A' /\ num A' + b' <= num A + budget /\ (b' = 0 /\ refined t false A' \/ sepI N A') /\ num A' <= num A + length r /\ budget <= b' + length r.
Proof.
  induction r as [|[x d] r IH]; intros k budget A Hs Hf Hk HI; cbn [separate_vars].
  - cbn in Hk. rewrite Nat.add_0_r in Hk. subst k. exists A, budget. splits; auto; cbn; lia.
  - cbn [map seq length fst snd] in Hs, Hf, Hk. inversion Hf as [[Hx Hf']]. subst x.
    assert (Hd : d = nth k doms 0 /\ map snd r = skipn (S k) doms).
    { assert (G : forall (l : list nat) j y z, y :: z = skipn j l -> y = nth j l 0 /\ z = skipn (S j) l).
      { induction l as [|a l IHl]; intros [|j] y z H; cbn in H; try discriminate; [inversion H; auto|]. apply IHl in H. destruct H. split; auto. }
      apply G. exact Hs. }
    destruct Hd as [-> Hs']. destruct budget as [|budget].
    + exists A, 0. splits; auto; try lia. left. split; auto. apply (se_ref _ _ HI).
    + pose proof (sep_step k A ltac:(lia) HI) as Hst. destruct (filter (fun d => negb (fact_in (k, d) rf)) (seq 0 (nth k doms 0))) as [|u1 u] eqn:Eu.
      * destruct (IH (S k) budget A) as (A' & b' & E & H1 & H2 & H3 & H4 & H5); auto; [lia|]. exists A', b'. splits; auto; cbn [length]; lia.
      * destruct Hst as (A1 & E1 & HI1 & Hn1). rewrite E1. cbn [bind]. destruct (IH (S k) budget A1) as (A' & b' & E & H1 & H2 & H3 & H4 & H5); auto; [lia|]. exists A', b'. splits; auto; cbn [length]; lia.
Qed.
End SEP.
