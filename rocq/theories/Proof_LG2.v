(** Reachability without given facts, relaxed plans and executions. *)
From Verif Require Import Outcome Spec_Task Spec_Relaxation Spec_Landmarks Spec_LandmarkGeneration Model_DefaultRules.
From Verif Require Import Proof_DefaultRules Proof_DefaultRules3 Proof_LG1 Proof_Task.
Local Open Scope nat_scope.

Lemma av_not_X t un X f : avoiding t un X f -> ~ X f.
Proof. destruct 1; auto. Qed.
Lemma av_unary_more t X f : avoiding t false X f -> avoiding t true X f.
Proof.
  induction 1 as [f Hh Hx|op e Ho He Hu Hx Hp IH|r Hr Hx Ha IHa Hp IH]; [apply av_init|apply av_op with op|apply av_rule]; auto.
Qed.
Lemma av_fewer t un (X Y : fact -> Prop) f : (forall g, Y g -> X g) -> avoiding t un X f -> avoiding t un Y f.
Proof.
  intros HY. induction 1 as [f Hh Hx|op e Ho He Hu Hx Hp IH|r Hr Hx Ha IHa Hp IH]; [apply av_init|apply av_op with op|apply av_rule]; auto.
  intros E e' H1 H2 H3. eapply Hu; eauto.
Qed.

(** ** Relaxed plans *)
Definition relaxation_ops (t : task) (un : bool) : list operator := if un then unary_relaxation (t_ops t) else t_ops t.

Lemma relaxed_mono ops F os F' : relaxed_run ops F os F' -> forall f, In f F -> In f F'.
Proof. induction 1; auto. intros f Hf. apply IHrelaxed_run, in_app_iff. auto. Qed.
Lemma relaxed_more ops F os F' : relaxed_run ops F os F' -> forall G, (forall f, In f F -> In f G) ->
  exists G', relaxed_run ops G os G' /\ (forall f, In f F' -> In f G') /\ forall f, In f G' -> In f G \/ In f F'.
Proof.
  induction 1 as [F|F o op os F' Ho Hp Hr IH]; intros G HG.
  - exists G. split; [constructor|]. auto.
  - destruct (IH (G ++ map eff_fact (op_effs op))) as (G' & H1 & H2 & H3).
    { intros f Hf. apply in_app_iff in Hf as [Hf|Hf]; apply in_app_iff; auto. }
    exists G'. split; [econstructor; eauto|]. split; auto. intros f Hf. destruct (H3 f Hf) as [K|K]; auto. apply in_app_iff in K as [K|K]; auto.
    right. eapply relaxed_mono; [exact Hr|]. apply in_app_iff. auto.
Qed.
Lemma relaxed_app ops F os F' os' F'' : relaxed_run ops F os F' -> relaxed_run ops F' os' F'' -> relaxed_run ops F (os ++ os') F''.
Proof. induction 1; intros H'; cbn [app]; auto. econstructor; eauto. Qed.

Section Relaxed.
Variables (t : task) (un : bool) (X : fact -> Prop).
Hypothesis Hnr : t_rules t = [].
Hypothesis Hnc : un = true \/ no_conditional_effects t.
Let ops := relaxation_ops t un.

Lemma run_av F0 os F : relaxed_run ops F0 os F -> (forall f, In f F -> ~ X f) -> (forall f, In f F0 -> avoiding t un X f) -> forall f, In f F -> avoiding t un X f.
Proof.
  intros Hr HX. induction Hr as [F|F o op os F' Ho Hp Hr IH]; intros H0; auto. apply IH; auto.
  assert (Hall : forall f, In f (map eff_fact (op_effs op)) -> ~ X f) by (intros f Hf; apply HX; eapply relaxed_mono; [exact Hr|]; apply in_app_iff; auto).
  intros f Hf. apply in_app_iff in Hf as [Hf|Hf]; auto. assert (Hx := Hall f Hf). apply in_map_iff in Hf as (e & <- & He).
  unfold ops, relaxation_ops in Ho. destruct un eqn:Eu.
  - apply nth_error_In in Ho. unfold unary_relaxation in Ho. apply in_flat_map in Ho as (op' & Ho & Hs). apply in_map_iff in Hs as (e' & <- & He'). cbn [op_effs op_pre] in *. destruct He as [<-|[]]. cbn [eff_fact] in *.
    apply av_op with op'; auto. discriminate.
  - destruct Hnc as [|Hc]; [discriminate|]. apply nth_error_In in Ho. apply av_op with op; auto.
    + intros _ e' He' _. apply Hall. now apply in_map.
    + rewrite (Hc op e Ho He), app_nil_r. auto.
Qed.

Lemma av_run F0 f : (forall g, holds (t_init t) g -> ~ X g -> In g F0) -> (forall g, In g F0 -> ~ X g) -> avoiding t un X f ->
  exists os F, relaxed_run ops F0 os F /\ In f F /\ forall g, In g F -> ~ X g.
Proof.
  intros H0 H0'. induction 1 as [f Hh Hx|op e Ho He Hu Hx Hp IH|r Hr _ _ _ _ _]; [exists [], F0; splits; auto; constructor| |rewrite Hnr in Hr; destruct Hr].
  assert (L : forall l, (forall g, In g l -> In g (op_pre op ++ eff_cond e)) -> exists os F, relaxed_run ops F0 os F /\ (forall g, In g l -> In g F) /\ forall g, In g F -> ~ X g).
  { induction l as [|g l IHl]; intros Hl; [exists [], F0; splits; auto; [constructor|intros g []]|].
    destruct IHl as (os & F & R1 & R2 & R3); [intros; apply Hl; now right|]. destruct (IH g) as (os' & F' & S1 & S2 & S3); [apply Hl; now left|].
    destruct (relaxed_more ops F0 os' F' S1 F) as (G & T1 & T2 & T3); [eapply relaxed_mono; eauto|].
    exists (os ++ os'), G. splits.
    - eapply relaxed_app; eauto.
    - intros h [<-|Hh]; auto. eapply relaxed_mono; eauto.
    - intros h Hh. destruct (T3 h Hh); auto. }
  destruct (L _ (fun g H => H)) as (os & F & R1 & R2 & R3).
  assert (E : exists o op', nth_error ops o = Some op' /\ (forall g, In g (op_pre op') -> In g (op_pre op ++ eff_cond e)) /\ In (eff_fact e) (map eff_fact (op_effs op')) /\ forall g, In g (map eff_fact (op_effs op')) -> ~ X g).
  { unfold ops, relaxation_ops. destruct un eqn:Eu.
    - set (op' := {| op_pre := op_pre op ++ eff_cond e; op_effs := [{| eff_cond := []; eff_fact := eff_fact e |}]; op_cost := op_cost op |}).
      assert (In op' (unary_relaxation (t_ops t))) as Hin by (apply in_flat_map; exists op; split; auto; apply in_map_iff; exists e; auto).
      apply In_nth_error in Hin as (o & Hin). exists o, op'. splits; auto; [now left|]. intros g [<-|[]]. exact Hx.
    - destruct Hnc as [|Hc]; [discriminate|]. assert (Hin := Ho). apply In_nth_error in Hin as (o & Hin). exists o, op. splits; auto; [intros g Hg; apply in_app_iff; auto|now apply in_map|].
      intros g Hg. apply in_map_iff in Hg as (e' & <- & He'). apply Hu; auto. eapply Hc; eauto. }
  destruct E as (o & op' & E1 & E2 & E3 & E4). exists (os ++ [o]), (F ++ map eff_fact (op_effs op')). splits.
  - eapply relaxed_app; [exact R1|]. econstructor; eauto. constructor.
  - apply in_app_iff. auto.
  - intros g Hg. apply in_app_iff in Hg as [Hg|Hg]; auto.
Qed.

Lemma av_run_all F0 fs : (forall g, holds (t_init t) g -> ~ X g -> In g F0) -> (forall g, In g F0 -> ~ X g) -> (forall f, In f fs -> avoiding t un X f) ->
  exists os F, relaxed_run ops F0 os F /\ (forall f, In f fs -> In f F) /\ forall g, In g F -> ~ X g.
Proof.
  intros H0 H0' H. induction fs as [|f fs IH]; [exists [], F0; splits; auto; [constructor|intros f []]|].
  destruct IH as (os & F & R1 & R2 & R3); [intros; apply H; now right|]. destruct (av_run F0 f H0 H0' (H f (or_introl eq_refl))) as (os' & F' & S1 & S2 & S3).
  destruct (relaxed_more ops F0 os' F' S1 F) as (G & T1 & T2 & T3); [eapply relaxed_mono; eauto|].
  exists (os ++ os'), G. splits.
  - eapply relaxed_app; eauto.
  - intros h [<-|Hh]; auto. eapply relaxed_mono; eauto.
  - intros h Hh. destruct (T3 h Hh); auto.
Qed.
End Relaxed.

Lemma initial_facts t X : (forall f, X f \/ ~ X f) -> exists F0, initially_without t X F0.
Proof.
  intros HX. assert (G : forall l : list fact, exists F, forall f, In f F <-> In f l /\ ~ X f).
  { induction l as [|g l (F & HF)]; [exists []; intros f; cbn; tauto|]. destruct (HX g) as [Hg|Hg]; [exists F|exists (g :: F)]; intros f; cbn [In]; rewrite HF; intuition (subst; tauto). }
  destruct (G (combine (seq 0 (length (t_init t))) (t_init t))) as (F & HF). exists F. intros f. now rewrite HF, state_atom.
Qed.

(** The relaxed landmarks are the atoms without which some goal cannot be reached. *)
Lemma landmark_av t un a : t_rules t = [] -> un = true \/ no_conditional_effects t ->
  relaxed_landmark t (relaxation_ops t un) a <-> ~ forall g, In g (t_goal t) -> avoiding t un (fun f => f = a) g.
Proof.
  intros Hnr Hnc. destruct (initial_facts t (fun f => f = a)) as (F0 & H0); [intros f; destruct (fact_dec f a); auto|]. split.
  - intros HL Hg. destruct (av_run_all t un (fun f => f = a) Hnr Hnc F0 (t_goal t)) as (os & F & R1 & R2 & R3); auto.
    { intros g H1 H2. now apply H0. }
    { intros g H1. now apply H0 in H1. }
    apply (R3 a); auto. eapply HL; eauto.
  - intros Hn F1 os F H1 Hr Hg. destruct (in_dec fact_dec a F) as [|Ha]; auto. exfalso. apply Hn. intros g Hgg.
    apply (run_av t un (fun f => f = a) Hnc F1 os F Hr); auto.
    + intros f Hf ->. auto.
    + intros f Hf. apply H1 in Hf as [K1 K2]. now apply av_init.
Qed.
Lemma solvable_av t un : t_rules t = [] -> un = true \/ no_conditional_effects t ->
  relaxed_solvable t (relaxation_ops t un) <-> forall g, In g (t_goal t) -> avoiding t un (fun _ => False) g.
Proof.
  intros Hnr Hnc. destruct (initial_facts t (fun _ => False)) as (F0 & H0); [auto|]. split.
  - intros (os & F & F1 & H1 & Hr & Hg) g Hgg. apply (run_av t un (fun _ => False) Hnc F1 os F Hr); auto.
    intros f Hf. apply H1 in Hf as [K1 K2]. now apply av_init.
  - intros H. destruct (av_run_all t un (fun _ => False) Hnr Hnc F0 (t_goal t)) as (os & F & R1 & R2 & R3); auto.
    { intros g H1 H2. now apply H0. }
    exists os, F, F0. auto.
Qed.
(** For atoms that are not true initially: every relaxed plan reaches them. *)
Lemma landmark_every_plan t ops a : ~ holds (t_init t) a -> (relaxed_landmark t ops a <-> forall os F, relaxed_plan t ops os F -> In a F).
Proof.
  intros Hn. assert (E : forall F0, initially_without t (fun f => f = a) F0 <-> initially_without t (fun _ => False) F0).
  { intros F0. split; intros H f; rewrite (H f); (split; intros [H1 H2]; split; [exact H1| |exact H1|]); [tauto|intros ->; auto|intros ->; auto|tauto]. }
  split.
  - intros H os F (F0 & H0 & Hr & Hg). eapply H; eauto. now apply E.
  - intros H F0 os F H0 Hr Hg. apply (H os F). exists F0. splits; auto. now apply E.
Qed.

(** ** Executions *)
Lemma effect_last s es v r : effect_value s es v r -> forall d, (exists e, In e es /\ all_hold s (eff_cond e) /\ eff_fact e = (v, d)) ->
  (forall e, In e es -> fst (eff_fact e) = v -> eff_fact e = (v, d)) -> r = Some d.
Proof.
  induction 1 as [v|es e v d' Hc He|es e v r Hs He IH]; intros d (e0 & H1 & H2 & H3) Hall.
  - destruct H1.
  - assert (K := Hall e). rewrite in_app_iff, He in K. specialize (K (or_intror (or_introl eq_refl)) eq_refl). congruence.
  - apply IH.
    + apply in_app_iff in H1 as [H1|[<-|[]]]; [eauto|]. exfalso. apply (Hs H2). now rewrite H3.
    + intros e1 H4. apply Hall, in_app_iff. auto.
Qed.

Section Execution.
Variable t : task.
Hypothesis Ht : task_ok t.
Hypothesis Hnd : no_derived t.

Lemma effect_happens s o s' op e : state_ok t s -> progress t s o s' -> nth_error (t_ops t) o = Some op -> unconditional_effects_happen t ->
  In e (op_effs op) -> eff_cond e = [] -> holds s' (eff_fact e).
Proof.
  intros Hs (op' & s1 & Hop' & Hl & Hv & Hm) Hop Hu He Hc. assert (op' = op) by congruence. subst op'. assert (Hin := nth_error_In _ _ Hop).
  destruct (op_in_ok t Ht op Hin) as [_ HE]. rewrite Forall_forall in HE. destruct (HE e He) as (_ & (x & Hx & _) & Hlay).
  destruct (eff_fact e) as [v d] eqn:Ef. cbn [fst snd] in *. unfold holds. cbn [fst snd]. destruct Hm as (_ & Hb & _). rewrite Hb by auto.
  destruct (effect_value_total s (op_effs op) v) as [r Hr]. rewrite (Hv v r); auto.
  - rewrite (effect_last s _ v r Hr d); auto.
    + exists e. splits; auto. rewrite Hc. intros f [].
    + intros e' He' Hf. rewrite <- Ef. apply (Hu op e e'); auto. now rewrite Ef.
  - rewrite (state_len t s Hs). unfold is_var in Hx. apply nth_error_Some. congruence.
Qed.

Variable un : bool.
Hypothesis Hu : un = false -> unconditional_effects_happen t.

Lemma step_avoids X s o s' : state_ok t s -> applicable t s o -> progress t s o s' -> (forall f, holds s f -> avoiding t un X f) ->
  (forall f, X f -> ~ holds s' f) -> forall f, holds s' f -> avoiding t un X f.
Proof.
  intros Hs (op & Hop & Hpre) Hpr Hav HX f Hf. destruct (progress_derived t Ht s o s' Hs Hpr) as (op' & s1 & Hop' & _ & _ & Hfs). assert (op' = op) by congruence. subst op'.
  destruct (Hfs f) as [Hh|(e & He & Hc & <-)]; auto; [apply (proj2 Hnd)|]. apply av_op with op; auto.
  - eapply nth_error_In; eauto.
  - intros E e' He' Hc' Hx. apply (HX _ Hx). apply (effect_happens s o s' op e'); auto.
  - intros Hx. apply (HX _ Hx Hf).
  - intros g Hg. apply in_app_iff in Hg as [Hg|Hg]; auto.
Qed.

Lemma run_avoids X s os ss : run t s os ss -> state_ok t s -> (forall f, holds s f -> ~ X f -> avoiding t un X f) ->
  forall i x, nth_error ss i = Some x -> (forall j y f, j <= i -> nth_error ss j = Some y -> X f -> ~ holds y f) -> forall f, holds x f -> avoiding t un X f.
Proof.
  induction 1 as [s|s o s' os ss Ha Hp Hr IH]; intros Hs H0 i x Hx HX f Hf.
  - destruct i as [|[|i]]; try discriminate. injection Hx as <-. apply H0; auto. intros HXf. apply (HX 0 s f); auto.
  - assert (K0 : forall g, holds s g -> avoiding t un X g) by (intros g Hg; apply H0; auto; intros HXg; apply (HX 0 s g); auto; lia).
    destruct i as [|i]; cbn [nth_error] in Hx; [injection Hx as <-; auto|].
    destruct (progress_derived t Ht s o s' Hs Hp) as (_ & _ & _ & _ & Hs' & _).
    assert (E0 : nth_error ss 0 = Some s') by (inversion Hr; subst; reflexivity).
    apply (IH Hs') with i x; auto.
    + intros g Hg _. apply (step_avoids X s o s'); auto. intros h Hh. apply (HX 1 s' h); auto. lia.
    + intros j y g Hj Hy. apply (HX (S j) y g); auto. lia.
Qed.

Lemma run_states s os ss : run t s os ss -> state_ok t s -> (forall i x, nth_error ss i = Some x -> state_ok t x) /\ length ss = S (length os) /\
  forall i o, nth_error os i = Some o -> exists x y, nth_error ss i = Some x /\ nth_error ss (S i) = Some y /\ applicable t x o /\ progress t x o y.
Proof.
  induction 1 as [s|s o s' os ss Ha Hp Hr IH]; intros Hs.
  - splits; auto; [intros [|[|i]] x Hx; try discriminate; injection Hx as <-; auto|intros i o Hi; destruct i; discriminate].
  - destruct (progress_derived t Ht s o s' Hs Hp) as (_ & _ & _ & _ & Hs' & _). destruct (IH Hs') as (I1 & I2 & I3). splits.
    + intros [|i] x Hx; cbn [nth_error] in Hx; [injection Hx as <-; auto|eauto].
    + cbn [length]. lia.
    + intros [|i] o1 Ho; cbn [nth_error] in *; [|eauto]. injection Ho as <-. exists s, s'. splits; auto. inversion Hr; subst; reflexivity.
Qed.
End Execution.
