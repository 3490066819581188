(** Proofs about operator-counting constraints, part 2: the state equation. *)
From Coq Require Import QArith Lqa Permutation.
From Verif Require Import Outcome Spec_Task Spec_Relaxation Spec_Projection Spec_LP Spec_OperatorCounting Model_LPSolver Model_LMCut Model_OperatorCounting
  Proof_PerState2 Proof_OC1.
Local Open Scope nat_scope.

Lemma fold_outcome_map {A B C} (f : C -> B -> outcome C) (g : A -> B) l : forall c, fold_outcome f (map g l) c = fold_outcome (fun c a => f c (g a)) l c.
Proof. induction l as [|a r IH]; intros c; cbn [map fold_outcome]; [auto|]. destruct (f c (g a)); cbn [bind]; auto. Qed.
Lemma nested_fold {A B C} (g : A -> C -> B -> outcome C) (h : A -> list B) l : forall c,
  fold_outcome (fun c a => fold_outcome (g a) (h a) c) l c = fold_outcome (fun c ab => g (fst ab) c (snd ab)) (concat (map (fun a => map (pair a) (h a)) l)) c.
Proof.
  induction l as [|a r IH]; intros c; cbn [map concat fold_outcome]; [auto|]. rewrite fold_outcome_app, fold_outcome_map. cbn [fst snd].
  destruct (fold_outcome (g a) (h a) c); cbn [bind]; auto.
Qed.
Lemma combine_app {A B} (a : list A) (c : list B) b d : length a = length c -> combine (a ++ b) (c ++ d) = combine a c ++ combine b d.
Proof. revert c. induction a as [|x a IH]; intros [|y c] H; cbn in *; try lia; [auto|]. f_equal. apply IH. lia. Qed.
Lemma combine_map_l {A B C} (g : A -> C) (a : list A) (b : list B) : combine (map g a) b = map (fun ab => (g (fst ab), snd ab)) (combine a b).
Proof. revert b. induction a as [|x a IH]; intros [|y b]; cbn [map combine]; auto. f_equal. auto. Qed.

(** ** Sets *)
Lemma set_insert_in x l y : In y (set_insert x l) <-> y = x \/ In y l.
Proof.
  induction l as [|z r IH]; cbn [set_insert]; [cbn; intuition|]. destruct (Nat.ltb_spec x z); [cbn; intuition|]. destruct (Nat.eqb_spec x z) as [->|Hn].
  - cbn. intuition.
  - cbn [In]. rewrite IH. intuition.
Qed.
Lemma set_insert_nodup x l : Sorted.StronglySorted lt l -> Sorted.StronglySorted lt (set_insert x l).
Proof.
  induction l as [|z r IH]; cbn [set_insert]; intros H; [repeat constructor|]. inv H. destruct (Nat.ltb_spec x z).
  - constructor; [now constructor|]. constructor; auto. rewrite Forall_forall in *. intros y Hy. specialize (H3 y Hy). lia.
  - destruct (Nat.eqb_spec x z) as [->|Hn]; [now constructor|]. constructor; auto. rewrite Forall_forall in *. intros y Hy. apply set_insert_in in Hy. destruct Hy as [->|Hy]; [lia|auto].
Qed.
Lemma sorted_nodup l : Sorted.StronglySorted lt l -> NoDup l.
Proof.
  induction 1 as [|a l H IH Hf]; constructor; auto. intros Hi. rewrite Forall_forall in Hf. specialize (Hf a Hi). lia.
Qed.

(** ** Vectors of values *)
Lemma fact_vector_ok n fs : (forall f, In f fs -> fst f < n) -> NoDup (map fst fs) ->
  exists pv, fact_vector n fs = Ok pv /\ length pv = n /\ forall v, v < n ->
    (exists d, In (v, d) fs /\ nth_error pv v = Some (Some d)) \/ (~ In v (map fst fs) /\ nth_error pv v = Some None).
Proof.
  intros Hf Hn. unfold fact_vector.
  destruct (fold_inv (fun pv f => vset pv (fst f) (Some (snd f))) (fun pre pv => length pv = n /\ forall v, v < n ->
     (exists d, In (v, d) pre /\ nth_error pv v = Some (Some d)) \/ (~ In v (map fst pre) /\ nth_error pv v = Some None)) fs (repeat None n)) as (pv & E & H).
  - split; [apply repeat_length|]. intros v Hv. right. split; [intros []|]. now apply nth_error_repeat.
  - intros pre [v d] post pv E [Hl H]. cbn [fst snd]. assert (Hv : v < n) by (apply (Hf (v, d)); rewrite E; apply in_or_app; right; now left).
    exists (upd pv v (Some d)). split; [apply vset_ok; split; auto; lia|]. split; [now rewrite upd_length|]. intros w Hw. rewrite map_app. cbn [map fst].
    assert (Hnv : ~ In v (map fst pre)).
    { rewrite E, map_app in Hn. cbn [map fst] in Hn. apply NoDup_remove_2 in Hn. intros Hi. apply Hn. apply in_or_app. now left. }
    destruct (Nat.eq_dec w v) as [->|Hne].
    + left. exists d. split; [apply in_or_app; right; now left|]. apply upd_nth_eq. lia.
    + rewrite upd_nth_neq by lia. destruct (H w Hw) as [(d' & Hi & Hd)|[Hi Hd]].
      * left. exists d'. split; auto. apply in_or_app. now left.
      * right. split; auto. rewrite in_app_iff. intros [Hi2|[Hi2|[]]]; auto.
  - exists pv. split; [exact E|exact H].
Qed.

Lemma nodup_fst_eq (l : list fact) v a b : NoDup (map fst l) -> In (v, a) l -> In (v, b) l -> a = b.
Proof.
  induction l as [|[v' c] r IH]; cbn [map fst]; intros Hn Ha Hb; [destruct Ha|]. inv Hn. destruct Ha as [Ha|Ha], Hb as [Hb|Hb].
  - congruence.
  - inv Ha. exfalso. apply H1. apply in_map_iff. exists (v, b). auto.
  - inv Hb. exfalso. apply H1. apply in_map_iff. exists (v, a). auto.
  - auto.
Qed.

Section SE.
Variable t : task.
Hypothesis Ht : plain_task t.
(** No effect repeats a precondition. *)
Hypothesis Hno : no_noop_effects t.
Hypothesis Hg : NoDup (map fst (t_goal t)).

Lemma op_in o op : is_op t o op -> In op (t_ops t). Proof. intros H. eapply nth_error_In; eauto. Qed.
Lemma pre_fact o op f : is_op t o op -> In f (op_pre op) -> is_fact t f.
Proof.
  intros Ho Hf. destruct Ht as ((_ & Hops & _) & _). rewrite Forall_forall in Hops. destruct (Hops op (op_in o op Ho)) as [Hp _]. rewrite Forall_forall in Hp. exact (Hp f Hf).
Qed.
Lemma eff_fact_ok o op e : is_op t o op -> In e (op_effs op) -> is_fact t (eff_fact e).
Proof.
  intros Ho He. destruct Ht as ((_ & Hops & _) & _). rewrite Forall_forall in Hops. destruct (Hops op (op_in o op Ho)) as [_ Hp]. rewrite Forall_forall in Hp. apply (Hp e He).
Qed.
Lemma goal_fact f : In f (t_goal t) -> is_fact t f.
Proof. intros Hf. destruct Ht as ((_ & _ & _ & _ & H) & _). rewrite Forall_forall in H. exact (H f Hf). Qed.
Lemma fact_lt f : is_fact t f -> fst f < length (t_vars t).
Proof. intros (x & Hx & _). eapply nth_error_Some_lt; eauto. Qed.

Definition prop_at (props : list (list proposition)) (f : fact) : option proposition :=
  match nth_error props (fst f) with Some row => nth_error row (snd f) | None => None end.
(** The sets after the effects [E] (operator, fact) have been processed. *)
Definition prop_spec (E : list (nat * fact)) (f : fact) (p : proposition) : Prop :=
  constraint_index p = None /\ Sorted.StronglySorted lt (always_produced_by p) /\ Sorted.StronglySorted lt (sometimes_produced_by p) /\ Sorted.StronglySorted lt (always_consumed_by p) /\
  (forall o, In o (always_produced_by p) <-> In (o, f) E /\ exists op, is_op t o op /\ In (fst f) (map fst (op_pre op))) /\
  (forall o, In o (sometimes_produced_by p) <-> In (o, f) E /\ exists op, is_op t o op /\ ~ In (fst f) (map fst (op_pre op))) /\
  (forall o, In o (always_consumed_by p) <-> (exists d, In (o, (fst f, d)) E) /\ exists op, is_op t o op /\ In f (op_pre op)).
Definition shape (props : list (list proposition)) : Prop := Forall2 (fun x row => length row = vdom x) (t_vars t) props.
Definition props_inv (E : list (nat * fact)) (props : list (list proposition)) : Prop :=
  shape props /\ forall f p, prop_at props f = Some p -> prop_spec E f p.

Lemma shape_upd props v row row' : shape props -> nth_error props v = Some row -> length row' = length row -> shape (upd props v row').
Proof.
  unfold shape. intros H. revert v. induction H as [|x r xs rs H1 H2 IH]; intros [|v] Hr Hl; cbn [upd nth_error] in *; try discriminate.
  - inv Hr. constructor; auto. lia.
  - constructor; auto.
Qed.
Lemma shape_at props f : shape props -> is_fact t f -> exists row p, nth_error props (fst f) = Some row /\ nth_error row (snd f) = Some p.
Proof.
  unfold shape. intros H (x & Hx & Hd). unfold is_var in Hx. destruct f as [v d]. cbn [fst snd] in *. revert v Hx. induction H as [|y r ys rs H1 H2 IH]; intros [|v] Hx; try discriminate; cbn [nth_error] in *.
  - inv Hx. destruct (nth_error r d) as [p|] eqn:E; [exists r, p; auto|]. apply nth_error_None in E. lia.
  - apply IH in Hx. exact Hx.
Qed.
Lemma upd_prop_ok props f g : shape props -> is_fact t f -> exists p props', prop_at props f = Some p /\ upd_prop props (fst f) (snd f) g = Ok props' /\ shape props' /\
  forall f', prop_at props' f' = if feqb f f' then Some (g p) else prop_at props f'.
Proof.
  intros Hs Hf. destruct (shape_at props f Hs Hf) as (row & p & Hr & Hp). exists p, (upd props (fst f) (upd row (snd f) (g p))). splits.
  - unfold prop_at. now rewrite Hr.
  - unfold upd_prop. apply vget_ok in Hr as Hr'. rewrite Hr'. cbn [bind]. apply vget_ok in Hp as Hp'. rewrite Hp'. cbn [bind].
    rewrite (proj2 (vset_ok _ _ _ _) (conj (nth_error_Some_lt _ _ _ Hp) eq_refl)). cbn [bind]. apply vset_ok. split; auto. eapply nth_error_Some_lt; eauto.
  - eapply shape_upd; eauto. apply upd_length.
  - intros [v d]. unfold prop_at. cbn [fst snd]. destruct f as [v0 d0]. cbn [fst snd] in *. unfold feqb. cbn [fst snd]. destruct (Nat.eqb_spec v0 v) as [<-|Hn].
    + rewrite upd_nth_eq by (eapply nth_error_Some_lt; eauto). cbn [andb]. destruct (Nat.eqb_spec d0 d) as [<-|Hd].
      * apply upd_nth_eq. eapply nth_error_Some_lt; eauto.
      * rewrite upd_nth_neq by lia. now rewrite Hr.
    + rewrite upd_nth_neq by lia. reflexivity.
Qed.

(** One effect. *)
Lemma se_effect_ok o op e pv E props : is_op t o op -> In e (op_effs op) -> fact_vector (length (t_vars t)) (op_pre op) = Ok pv -> props_inv E props ->
  (forall d, ~ In (o, (fst (eff_fact e), d)) E) ->
  exists props', se_effect o pv props e = Ok props' /\ props_inv (E ++ [(o, eff_fact e)]) props'.
Proof.
  intros Ho He Hpv [Hs Hp] HE. pose proof (eff_fact_ok o op e Ho He) as Hf. destruct Ht as (_ & _ & _ & Hpl). destruct (Hpl op (op_in o op Ho)) as (_ & Hnd & _).
  destruct (fact_vector_ok (length (t_vars t)) (op_pre op) (fun f Hi => fact_lt f (pre_fact o op f Ho Hi)) Hnd) as (pv' & Epv & Hlen & Hv). rewrite Hpv in Epv. inv Epv. rename pv' into pv.
  unfold se_effect. destruct (eff_fact e) as [v d] eqn:Ee. cbn [fst] in HE.
  assert (Hu : forall f o', In (o', f) (E ++ [(o, (v, d))]) <-> In (o', f) E \/ (o' = o /\ f = (v, d))).
  { intros f o'. rewrite in_app_iff. cbn [In]. split; [intros [H|[H|[]]]; [auto|inv H; auto]|intros [H|[-> ->]]; auto]. }
  destruct (Hv v (fact_lt _ Hf)) as [(d0 & Hi & Hn)|[Hi Hn]]; apply vget_ok in Hn; rewrite Hn; cbn [bind].
  - destruct (Nat.eqb_spec d0 d) as [->|Hne].
    { exfalso. apply (Hno op e (op_in o op Ho) He). now rewrite Ee. }
    destruct (upd_prop_ok props (v, d) (produce_always o) Hs Hf) as (p1 & props1 & Hp1 & E1 & Hs1 & H1). cbn [fst snd] in E1. rewrite E1. cbn [bind].
    destruct (upd_prop_ok props1 (v, d0) (consume_always o) Hs1 (pre_fact o op _ Ho Hi)) as (p2 & props2 & Hp2 & E2 & Hs2 & H2). cbn [fst snd] in E2. exists props2. split; auto. split; auto.
    intros f p Hfp. rewrite H2 in Hfp.
    assert (Hiv : In v (map fst (op_pre op))) by (apply in_map_iff; exists (v, d0); auto).
    destruct (feqb (v, d0) f) eqn:Ef.
    + apply feqb_eq in Ef. subst f. inv Hfp. rewrite H1 in Hp2. assert (Ef2 : feqb (v, d) (v, d0) = false) by (unfold feqb; cbn [fst snd]; rewrite Nat.eqb_refl; cbn; apply Nat.eqb_neq; auto). rewrite Ef2 in Hp2.
      destruct (Hp _ _ Hp2) as (K0 & K1 & K2 & K3 & K4 & K5 & K6). unfold prop_spec, consume_always. cbn [always_produced_by sometimes_produced_by always_consumed_by constraint_index fst]. splits; auto.
      * now apply set_insert_nodup.
      * intros o'. rewrite K4, Hu. cbn [fst]. split; [intros [A B]; split; auto|intros [[A|[-> A]] B]; [auto|exfalso; inv A; auto]].
      * intros o'. rewrite K5, Hu. cbn [fst]. split; [intros [A B]; split; auto|intros [[A|[-> A]] B]; [auto|exfalso; inv A; auto]].
      * intros o'. rewrite set_insert_in, K6. cbn [fst]. split.
        -- intros [->|[(d' & A) B]]; [split; [exists d; apply Hu; auto|exists op; auto]|]. split; auto. exists d'. apply Hu. auto.
        -- intros [(d' & A) B]. apply Hu in A. destruct A as [A|[-> A]]; [right; split; eauto|auto].
    + rewrite H1 in Hfp. destruct (feqb (v, d) f) eqn:Ef2.
      * apply feqb_eq in Ef2. subst f. inv Hfp. destruct (Hp _ _ Hp1) as (K0 & K1 & K2 & K3 & K4 & K5 & K6). unfold prop_spec, produce_always. cbn [always_produced_by sometimes_produced_by always_consumed_by constraint_index fst]. splits; auto.
        -- now apply set_insert_nodup.
        -- intros o'. rewrite set_insert_in, K4, Hu. cbn [fst]. split; [intros [->|[A B]]; split; auto; exists op; auto|]. intros [[A|[-> A]] B]; auto.
        -- intros o'. rewrite K5, Hu. cbn [fst]. split; [intros [A B]; split; auto|intros [[A|[-> A]] B]; [auto|]]. destruct B as (op' & B1 & B2). unfold is_op in *. assert (op' = op) by congruence. subst. tauto.
        -- intros o'. rewrite K6. cbn [fst]. split.
           ++ intros [(d' & A) B]. split; auto. exists d'. apply Hu. auto.
           ++ intros [(d' & A) B]. apply Hu in A. destruct A as [A|[-> A]]; [split; eauto|]. destruct B as (op' & B1 & B2). unfold is_op in *. assert (op' = op) by congruence. subst op'.
              exfalso. apply (Hno op e (op_in o op Ho) He). now rewrite Ee.
      * destruct (Hp _ _ Hfp) as (K0 & K1 & K2 & K3 & K4 & K5 & K6). unfold prop_spec. splits; auto.
        -- intros o'. rewrite K4, Hu. split; [intros [A B]; split; auto|intros [[A|[-> A]] B]; [auto|]]. subst f. rewrite feqb_refl in Ef2. discriminate.
        -- intros o'. rewrite K5, Hu. split; [intros [A B]; split; auto|intros [[A|[-> A]] B]; [auto|]]. subst f. rewrite feqb_refl in Ef2. discriminate.
        -- intros o'. rewrite K6. split.
           ++ intros [(d' & A) B]. split; auto. exists d'. apply Hu. auto.
           ++ intros [(d' & A) B]. apply Hu in A. destruct A as [A|[-> A]]; [split; eauto|]. destruct B as (op' & B1 & B2). unfold is_op in *. assert (op' = op) by congruence. subst op'. inv A.
              exfalso. destruct f as [vf df]. cbn [fst] in *. rewrite feqb_sym in Ef. unfold feqb in Ef. cbn [fst snd] in Ef. rewrite Nat.eqb_refl in Ef. cbn in Ef. apply Nat.eqb_neq in Ef.
              apply Ef. eapply nodup_fst_eq; eauto.
  - destruct (upd_prop_ok props (v, d) (produce_sometimes o) Hs Hf) as (p1 & props1 & Hp1 & E1 & Hs1 & H1). cbn [fst snd] in E1. exists props1. split; auto. split; auto.
    intros f p Hfp. rewrite H1 in Hfp. destruct (feqb (v, d) f) eqn:Ef2.
    + apply feqb_eq in Ef2. subst f. inv Hfp. destruct (Hp _ _ Hp1) as (K0 & K1 & K2 & K3 & K4 & K5 & K6). unfold prop_spec, produce_sometimes. cbn [always_produced_by sometimes_produced_by always_consumed_by constraint_index fst]. splits; auto.
      * now apply set_insert_nodup.
      * intros o'. rewrite K4, Hu. cbn [fst]. split; [intros [A B]; split; auto|intros [[A|[-> A]] B]; [auto|]]. destruct B as (op' & B1 & B2). unfold is_op in *. assert (op' = op) by congruence. subst. tauto.
      * intros o'. rewrite set_insert_in, K5, Hu. cbn [fst]. split; [intros [->|[A B]]; split; auto; exists op; auto|]. intros [[A|[-> A]] B]; auto.
      * intros o'. rewrite K6. cbn [fst]. split.
        -- intros [(d' & A) B]. split; auto. exists d'. apply Hu. auto.
        -- intros [(d' & A) B]. apply Hu in A. destruct A as [A|[-> A]]; [split; eauto|]. destruct B as (op' & B1 & B2). unfold is_op in *. assert (op' = op) by congruence. subst op'.
           exfalso. apply Hi. apply in_map_iff. exists (v, d). auto.
    + destruct (Hp _ _ Hfp) as (K0 & K1 & K2 & K3 & K4 & K5 & K6). unfold prop_spec. splits; auto.
      * intros o'. rewrite K4, Hu. split; [intros [A B]; split; auto|intros [[A|[-> A]] B]; [auto|]]. subst f. rewrite feqb_refl in Ef2. discriminate.
      * intros o'. rewrite K5, Hu. split; [intros [A B]; split; auto|intros [[A|[-> A]] B]; [auto|]]. subst f. rewrite feqb_refl in Ef2. discriminate.
      * intros o'. rewrite K6. split.
        -- intros [(d' & A) B]. split; auto. exists d'. apply Hu. auto.
        -- intros [(d' & A) B]. apply Hu in A. destruct A as [A|[-> A]]; [split; eauto|]. destruct B as (op' & B1 & B2). unfold is_op in *. assert (op' = op) by congruence. subst op'. inv A.
           exfalso. apply Hi. apply in_map_iff. exists f. auto.
Qed.

Definition effects_of (ios : list (nat * operator)) : list (nat * fact) :=
  concat (map (fun io => map (fun e => (fst io, eff_fact e)) (op_effs (snd io))) ios).
Lemma build_ok : exists props, build_propositions t = Ok props /\ props_inv (op_effects t) props.
Proof.
  unfold build_propositions. change (op_effects t) with (effects_of (numbered (t_ops t))).
  apply (fold_inv _ (fun pre props => props_inv (effects_of pre) props)).
  - split.
    + unfold shape. clear. induction (t_vars t) as [|x r IH]; cbn [map]; constructor; auto. apply repeat_length.
    + intros f p Hfp. unfold prop_at in Hfp. rewrite nth_error_map in Hfp. destruct (nth_error (t_vars t) (fst f)) as [x|]; [|discriminate]. cbn [option_map] in Hfp.
      apply nth_error_In, repeat_spec in Hfp. subst p. unfold prop_spec, new_proposition. cbn. splits; auto; try constructor; intros; try tauto; firstorder.
  - intros pre [o op] post props El HI. cbn [fst snd]. assert (Ho : is_op t o op) by (apply numbered_in; rewrite El; apply in_or_app; right; now left).
    assert (Hop : forall d, ~ In (o, d) (effects_of pre)).
    { intros d Hd. pose proof (numbered_nodup (t_ops t)) as Hn. assert (Hf : NoDup (map fst (numbered (t_ops t)))) by (rewrite numbered_fst; apply seq_NoDup).
      rewrite El, map_app in Hf. cbn [map fst] in Hf. apply NoDup_remove_2 in Hf. apply Hf. apply in_or_app. left. unfold effects_of in Hd. apply in_concat in Hd. destruct Hd as (l & Hl & Hd).
      apply in_map_iff in Hl. destruct Hl as ([o' op'] & <- & Hi). apply in_map_iff in Hd. destruct Hd as (e & Ee & He). inv Ee. apply in_map_iff. exists (o, op'). auto. }
    destruct Ht as (_ & _ & _ & Hpl). destruct (Hpl op (op_in o op Ho)) as (_ & Hnd & Hnde & _).
    destruct (fact_vector_ok (length (t_vars t)) (op_pre op) (fun f Hi => fact_lt f (pre_fact o op f Ho Hi)) Hnd) as (pv & Epv & Hlen & Hv).
    rewrite Epv. cbn [bind]. unfold effects_of. rewrite map_app, concat_app. cbn [map concat fst snd]. rewrite app_nil_r. fold (effects_of pre).
    apply (fold_inv _ (fun es props => props_inv (effects_of pre ++ map (fun e => (o, eff_fact e)) es) props)).
    + cbn [map]. now rewrite app_nil_r.
    + intros pe e poe props' Ee HI'. destruct (se_effect_ok o op e pv _ props' Ho ltac:(rewrite Ee; apply in_or_app; right; now left) Epv HI') as (props2 & E2 & H2).
      * intros d Hd. apply in_app_or in Hd. destruct Hd as [Hd|Hd]; [eapply Hop; eauto|]. apply in_map_iff in Hd. destruct Hd as (e' & Ed & He'). inv Ed.
        rewrite Ee, map_app in Hnde. cbn [map] in Hnde. apply NoDup_remove_2 in Hnde. apply Hnde. apply in_or_app. left. apply in_map_iff. exists e'. split; auto. now rewrite H0.
      * exists props2. split; auto. rewrite map_app, app_assoc. exact H2.
Qed.

(** What the sets say about the operators. *)
Lemma prop_sum f p x : is_fact t f -> prop_spec (op_effects t) f p ->
  (lin x (se_terms p) == opsum t (fun o op => (ind (adds op f) - ind (consumes op f)) * x o))%Q.
Proof.
  intros Hf (K0 & K1 & K2 & K3 & K4 & K5 & K6). unfold se_terms. rewrite !lin_app. unfold lin. rewrite !qsum_map. cbn [fst snd].
  assert (E1 : (qsum x (always_produced_by p ++ sometimes_produced_by p) == opsum t (fun o op => ind (adds op f) * x o))%Q).
  { apply (opsum_select t (fun op => adds op f)).
    - assert (G : forall a b : list nat, NoDup a -> NoDup b -> (forall o, In o a -> ~ In o b) -> NoDup (a ++ b)).
      { induction a as [|y a IH]; intros b Ha Hb Hd; cbn [app]; auto. inv Ha. constructor; [|apply IH; auto; intros o Ho; apply Hd; now right]. rewrite in_app_iff. intros [H|H]; auto. apply (Hd y); auto. now left. }
      apply G; [now apply sorted_nodup|now apply sorted_nodup|]. intros o H1 H2. apply K4 in H1. apply K5 in H2. destruct H1 as (_ & op & Ho & H1). destruct H2 as (_ & op' & Ho' & H2). unfold is_op in *. assert (op' = op) by congruence. subst. auto.
    - intros o. rewrite in_app_iff, K4, K5. split.
      + intros [[H _]|[H _]]; apply in_op_effects in H; destruct H as (op & e & Ho & He & Ee); exists op; split; auto; apply adds_spec; eauto.
      + intros (op & Ho & Ha). apply adds_spec in Ha. destruct Ha as (e & He & Ee). assert (Hin : In (o, f) (op_effects t)) by (apply in_op_effects; eauto).
        destruct (in_dec Nat.eq_dec (fst f) (map fst (op_pre op))); [left|right]; split; eauto. }
  assert (E2 : (qsum x (always_consumed_by p) == opsum t (fun o op => ind (consumes op f) * x o))%Q).
  { apply (opsum_select t (fun op => consumes op f)).
    - now apply sorted_nodup.
    - intros o. rewrite K6. split.
      + intros [(d & H) (op & Ho & Hp)]. apply in_op_effects in H. destruct H as (op' & e & Ho' & He & Ee). unfold is_op in *. assert (op' = op) by congruence. subst op'. exists op. split; auto. apply consumes_spec. split; auto. exists e. split; auto. now rewrite Ee.
      + intros (op & Ho & Hc). apply consumes_spec in Hc. destruct Hc as [Hp (e & He & Ee)]. split; [|eauto]. exists (snd (eff_fact e)). apply in_op_effects. exists op, e. splits; auto. rewrite <- Ee. apply surjective_pairing. }
  rewrite qsum_app in E1. unfold opsum in *.
  transitivity (qsum (fun io : nat * operator => ind (adds (snd io) f) * x (fst io) + (-1) * (ind (consumes (snd io) f) * x (fst io)))%Q (combine (seq 0 (length (t_ops t))) (t_ops t))).
  - rewrite qsum_plus, (qsum_scale (fun io : nat * operator => (ind (consumes (snd io) f) * x (fst io))%Q) (-1)%Q), <- E1, <- E2.
    rewrite (qsum_scale x (-1)%Q), !(qsum_scale x 1%Q). ring.
  - apply qsum_ext. intros io _. ring.
Qed.
Lemma prop_nonempty f p : prop_spec (op_effects t) f p -> se_terms p <> [] <-> exists o op, is_op t o op /\ (adds op f = true \/ consumes op f = true).
Proof.
  intros (K0 & K1 & K2 & K3 & K4 & K5 & K6). unfold se_terms. split.
  - intros H. assert (Hx : exists o, In o (always_produced_by p) \/ In o (sometimes_produced_by p) \/ In o (always_consumed_by p)).
    { destruct (always_produced_by p) as [|a r]; [|exists a; left; now left]. destruct (sometimes_produced_by p) as [|a r]; [|exists a; right; left; now left].
      destruct (always_consumed_by p) as [|a r]; [|exists a; right; right; now left]. now elim H. }
    destruct Hx as (o & [H1|[H1|H1]]); exists o.
    + apply K4 in H1. destruct H1 as [H1 _]. apply in_op_effects in H1. destruct H1 as (op & e & Ho & He & Ee). exists op. split; auto. left. apply adds_spec. eauto.
    + apply K5 in H1. destruct H1 as [H1 _]. apply in_op_effects in H1. destruct H1 as (op & e & Ho & He & Ee). exists op. split; auto. left. apply adds_spec. eauto.
    + apply K6 in H1. destruct H1 as [(d & H1) (op & Ho & Hp)]. exists op. split; auto. right. apply consumes_spec. split; auto. apply in_op_effects in H1. destruct H1 as (op' & e & Ho' & He & Ee).
      unfold is_op in *. assert (op' = op) by congruence. subst op'. exists e. split; auto. now rewrite Ee.
  - intros (o & op & Ho & H) E. apply app_eq_nil in E. destruct E as [E1 E]. apply app_eq_nil in E. destruct E as [E2 E3]. apply map_eq_nil in E1, E2, E3.
    destruct H as [H|H].
    + apply adds_spec in H. destruct H as (e & He & Ee). assert (Hin : In (o, f) (op_effects t)) by (apply in_op_effects; eauto).
      destruct (in_dec Nat.eq_dec (fst f) (map fst (op_pre op))) as [Hd|Hd].
      * assert (In o (always_produced_by p)) by (apply K4; eauto). rewrite E1 in H. destruct H.
      * assert (In o (sometimes_produced_by p)) by (apply K5; eauto). rewrite E2 in H. destruct H.
    + apply consumes_spec in H. destruct H as [Hp (e & He & Ee)]. assert (In o (always_consumed_by p)).
      { apply K6. split; [|eauto]. exists (snd (eff_fact e)). apply in_op_effects. exists op, e. splits; auto. rewrite <- Ee. apply surjective_pairing. }
      rewrite E3 in H. destruct H.
Qed.
(** No operator is listed twice in a constraint. *)
Lemma prop_terms_nodup f p : prop_spec (op_effects t) f p -> NoDup (map fst (se_terms p)) /\ forall i a, In (i, a) (se_terms p) -> i < length (t_ops t).
Proof.
  intros (K0 & K1 & K2 & K3 & K4 & K5 & K6). unfold se_terms.
  assert (Hm : forall (q : Q) l, map fst (map (fun o : nat => (o, q)) l) = l) by (intros q l; rewrite map_map; apply map_id). split.
  - rewrite !map_app, !Hm. assert (G : forall a b : list nat, NoDup a -> NoDup b -> (forall o, In o a -> ~ In o b) -> NoDup (a ++ b)).
    { induction a as [|y a IH]; intros b Ha Hb Hd; cbn [app]; auto. inv Ha. constructor; [|apply IH; auto; intros o Ho; apply Hd; now right]. rewrite in_app_iff. intros [H|H]; auto. apply (Hd y); auto. now left. }
    assert (Hcons : forall o op, is_op t o op -> In (o, f) (op_effects t) -> In f (op_pre op) -> False).
    { intros o op Ho He Hp. apply in_op_effects in He. destruct He as (op' & e & Ho' & He & Ee). unfold is_op in *. assert (op' = op) by congruence. subst op'. apply (Hno op e (nth_error_In _ _ Ho) He). now rewrite Ee. }
    apply G; [now apply sorted_nodup|apply G; [now apply sorted_nodup|now apply sorted_nodup|]|].
    + intros o H1 H2. apply K5 in H1. apply K6 in H2. destruct H2 as (_ & op & Ho & Hp). eapply Hcons; eauto. apply H1.
    + intros o H1 H2. apply in_app_or in H2. apply K4 in H1. destruct H1 as [H1 (op & Ho & Hp)]. destruct H2 as [H2|H2].
      * apply K5 in H2. destruct H2 as (_ & op' & Ho' & Hp'). unfold is_op in *. assert (op' = op) by congruence. subst. auto.
      * apply K6 in H2. destruct H2 as (_ & op' & Ho' & Hp'). eapply Hcons; eauto.
  - intros i a Hi. assert (exists op, is_op t i op) as [op Ho]; [|eapply nth_error_Some_lt; eauto].
    rewrite !in_app_iff, !in_map_iff in Hi. destruct Hi as [(o & E & Hi)|[(o & E & Hi)|(o & E & Hi)]]; inv E.
    + apply K4 in Hi. destruct Hi as (_ & op & Ho & _). eauto.
    + apply K5 in Hi. destruct Hi as (_ & op & Ho & _). eauto.
    + apply K6 in Hi. destruct Hi as (_ & op & Ho & _). eauto.
Qed.
End SE.
