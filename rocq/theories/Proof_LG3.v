(** Achievers, lm_exhaust, and soundness of generated graphs. *)
From Verif Require Import Outcome Spec_Task Spec_Relaxation Spec_Landmarks Spec_LandmarkGeneration Model_DefaultRules Model_LandmarkGeneration.
From Verif Require Import Proof_DefaultRules Proof_OC1 Proof_LG1 Proof_LG2 Proof_DefaultRules3.
Local Open Scope nat_scope.

Lemma condition_ok t re fs : Forall (fact_ok t) fs -> exists b, condition_is_reachable t re fs = Ok b /\ (b = true <-> forall f, In f fs -> re f = true).
Proof.
  induction 1 as [|f fs Hf Hfs (b & E & Hb)]; cbn [condition_is_reachable]; [exists true; split; auto; split; auto; intros _ f []|].
  rewrite fget_ok by auto. cbn [bind]. destruct (re f) eqn:Er.
  - exists b. split; auto. rewrite Hb. split; [intros H g [<-|Hg]; auto|intros H g Hg; apply H; now right].
  - exists false. split; auto. split; [discriminate|]. intros H. rewrite <- Er. apply H. now left.
Qed.
Lemma add_id_In l i j : In j (add_id l i) <-> In j l \/ j = i.
Proof. unfold add_id. destruct (mem_id i l) eqn:E; [apply mem_id_In in E; split; [auto|intros [H| ->]; auto]|]. rewrite in_app_iff. cbn [In]. intuition. Qed.
Lemma add_id_NoDup l i : NoDup l -> NoDup (add_id l i).
Proof. intros H. unfold add_id. destruct (mem_id i l) eqn:E; auto. apply NoDup_snoc; auto. intros K. apply mem_id_In in K. congruence. Qed.
Lemma add_ids_In l : forall acc j, In j (fold_left add_id l acc) <-> In j acc \/ In j l.
Proof. induction l as [|i l IH]; intros acc j; cbn [fold_left In]; [tauto|]. rewrite IH, add_id_In. intuition. Qed.
Lemma add_ids_NoDup l : forall acc, NoDup acc -> NoDup (fold_left add_id l acc).
Proof. induction l as [|i l IH]; intros acc H; cbn [fold_left]; auto. apply IH, add_id_NoDup; auto. Qed.

Definition ops_and_axioms (t : task) := operators t ++ axioms t.
Lemma get_op_ok t x : In x (ops_and_axioms t) -> get_operator_or_axiom t (a_id x) = Ok x.
Proof.
  unfold ops_and_axioms, operators, axioms, get_operator_or_axiom, vget. intros H. apply in_app_iff in H as [H|H]; apply in_map_iff in H as ((o & y) & <- & H); apply in_numbered in H; cbn [as_operator as_axiom a_id fst snd].
  - rewrite (proj2 (Z.ltb_ge _ _)) by lia. rewrite Nat2Z.id. unfold operators. rewrite nth_error_map.
    assert (nth_error (combine (seq 0 (length (t_ops t))) (t_ops t)) o = Some (o, y)) as ->; [|reflexivity].
    clear -H. assert (G : forall l k i z, nth_error l i = Some z -> nth_error (combine (seq k (length l)) l) i = Some (k + i, z : operator)).
    { induction l as [|a l IH]; intros k [|i] z Hz; cbn [nth_error length seq combine] in *; try discriminate; [injection Hz as ->; now rewrite Nat.add_0_r|]. rewrite (IH (S k) i z Hz). do 2 f_equal. lia. }
    now apply (G _ 0).
  - rewrite (proj2 (Z.ltb_lt _ _)) by lia. replace (Z.to_nat (- (- Z.of_nat o - 1) - 1)) with o by lia. unfold axioms. rewrite nth_error_map.
    assert (nth_error (combine (seq 0 (length (t_rules t))) (t_rules t)) o = Some (o, y)) as ->; [|reflexivity].
    clear -H. assert (G : forall l k i z, nth_error l i = Some z -> nth_error (combine (seq k (length l)) l) i = Some (k + i, z : rule)).
    { induction l as [|a l IH]; intros k [|i] z Hz; cbn [nth_error length seq combine] in *; try discriminate; [injection Hz as ->; now rewrite Nat.add_0_r|]. rewrite (IH (S k) i z Hz). do 2 f_equal. lia. }
    now apply (G _ 0).
Qed.
Lemma op_axiom_ok t x : relax_ok t -> In x (ops_and_axioms t) -> Forall (fact_ok t) (a_pre x) /\ forall e, In e (a_effs x) -> Forall (fact_ok t) (eff_cond e) /\ fact_ok t (eff_fact e).
Proof.
  intros (HO & HR & _) H. apply in_app_iff in H as [H|H]; apply in_map_iff in H as ((o & y) & <- & H); apply in_numbered, nth_error_In in H; cbn [as_operator as_axiom a_pre a_effs fst snd]; auto.
  destruct (HR y H) as (HB & HH & z & Hz & Hd). split; [constructor; auto; exists z; cbn [fst snd]; split; auto; lia|]. intros e [<-|[]]. auto.
Qed.

Section Task.
Variable t : task.
Hypothesis Hro : relax_ok t.
Hypothesis Hinit : state_ok t (t_init t).

Definition provides (i : Z) (a : fact) : Prop := exists x e, In x (ops_and_axioms t) /\ a_id x = i /\ In e (a_effs x) /\ eff_fact e = a.
Definition firsts (i : Z) (a : fact) : Prop := exists x e, In x (ops_and_axioms t) /\ a_id x = i /\ In e (a_effs x) /\ eff_fact e = a /\
  forall g, In g (a_pre x ++ eff_cond e) -> avoiding t false (fun f => f = a) g.
Lemma including_In a i : In i (operators_including_effect t a) <-> provides i a.
Proof.
  unfold operators_including_effect, provides. rewrite in_flat_map. split.
  - intros (x & Hx & H). apply in_flat_map in H as (e & He & H). destruct (fact_eqb (eff_fact e) a) eqn:E; [|destruct H]. destruct H as [<-|[]]. apply fact_eqb_spec in E. exists x, e. auto.
  - intros (x & e & Hx & <- & He & E). exists x. split; auto. apply in_flat_map. exists e. split; auto. apply fact_eqb_spec in E. rewrite E. now left.
Qed.

Lemma effects_reach_ok re a es : (forall e, In e es -> Forall (fact_ok t) (eff_cond e)) ->
  exists b, some_effect_reaches t re a es = Ok b /\ (b = true <-> exists e, In e es /\ eff_fact e = a /\ forall g, In g (eff_cond e) -> re g = true).
Proof.
  induction es as [|e es IH]; intros H; cbn [some_effect_reaches]; [exists false; split; auto; split; [discriminate|intros (e & [] & _)]|].
  destruct IH as (b & E & Hb); [intros; apply H; now right|]. destruct (fact_eqb a (eff_fact e)) eqn:Ea.
  - apply fact_eqb_spec in Ea. destruct (condition_ok t re (eff_cond e) (H e (or_introl eq_refl))) as (c & Ec & Hc). rewrite Ec. cbn [bind]. destruct c.
    + exists true. split; auto. split; auto. intros _. exists e. splits; auto; [now left|]. now apply Hc.
    + exists b. split; auto. rewrite Hb. split; [intros (e' & H1 & H2); exists e'; split; auto; now right|]. intros (e' & [<-|H1] & H2 & H3); [|eauto]. apply Hc in H3. discriminate.
  - cbn [bind]. exists b. split; auto. rewrite Hb. apply fact_eqb_false in Ea. split; [intros (e' & H1 & H2); exists e'; split; auto; now right|]. intros (e' & [<-|H1] & H2); [|eauto]. destruct H2. congruence.
Qed.

(** One landmark's achievers *)
Record achieved (n n' : node) : Prop := {
  ac_atom : n_atom n' = n_atom n;
  ac_goal : n_goal n' = n_goal n;
  ac_parents : n_parents n' = n_parents n;
  ac_children : n_children n' = n_children n;
  ac_possible : NoDup (n_possible n') /\ forall i, In i (n_possible n') <-> provides i (n_atom n);
  ac_first : NoDup (n_first n') /\ forall i, In i (n_first n') <-> firsts i (n_atom n);
  ac_derived : n_derived n' = true <-> n_derived n = true \/ layer_of t (fst (n_atom n)) <> None
}.
Definition unflagged (ex : exploration) : Prop := forall f, ex_excluded ex f = false.

Lemma achievers_ok done ex n : fact_ok t (n_atom n) -> unflagged ex -> exists n' ex', calc_achievers_of t (done, ex) n = Ok (done ++ [n'], ex') /\ unflagged ex' /\ achieved n n'.
Proof.
  intros Hn Hex. unfold calc_achievers_of. assert (Hn' := Hn). destruct Hn' as (x & Hx & Hd).
  unfold is_var in Hx. unfold vget at 1. rewrite Hx. cbn [bind].
  destruct (reachability_ok t ex [n_atom n] false Hro Hinit (Forall_cons _ Hn (Forall_nil _)) Hex) as (re & ex' & E & Hex' & Hre). rewrite E. cbn [bind fst snd].
  assert (Hre' : forall f, re f = true <-> avoiding t false (fun f => f = n_atom n) f).
  { intros f. rewrite Hre. split; apply av_fewer; intros g; cbn [In]; intuition congruence. }
  set (possible := fold_left add_id (operators_including_effect t (n_atom n)) []).
  assert (Hp : forall i, In i possible <-> provides i (n_atom n)) by (intros i; unfold possible; rewrite add_ids_In, including_In; cbn [In]; tauto).
  destruct (fold_inv (fun acc i => let* o := get_operator_or_axiom t i in let* b := possibly_reaches_landmark t o re (n_atom n) in Ok (if b then add_id acc i else acc))
    (fun pre acc => NoDup acc /\ forall i, In i acc <-> In i pre /\ firsts i (n_atom n)) possible []) as (first & Ef & Hf1 & Hf2).
  - split; [constructor|]. intros i. cbn [In]. tauto.
  - intros pre i post acc E1 [H1 H2]. assert (Hi : In i possible) by (rewrite E1; apply in_app_iff; right; now left). apply Hp in Hi as (y & e0 & Hy & Hid & He0 & _).
    assert (Eg : get_operator_or_axiom t i = Ok y) by (rewrite <- Hid; now apply get_op_ok). rewrite Eg. cbn [bind]. unfold possibly_reaches_landmark. destruct (op_axiom_ok t y Hro Hy) as [Hpre Heff].
    destruct (condition_ok t re (a_pre y) Hpre) as (b & Eb & Hb). rewrite Eb. cbn [bind].
    assert (U : forall x, In x (ops_and_axioms t) -> a_id x = i -> x = y) by (intros z Hz Ez; assert (K1 := get_op_ok t z Hz); assert (K2 := get_op_ok t y Hy); congruence).
    assert (S : exists c, (if b then some_effect_reaches t re (n_atom n) (a_effs y) else Ok false) = Ok c /\ (c = true <-> firsts i (n_atom n))).
    { destruct b.
      - destruct (effects_reach_ok re (n_atom n) (a_effs y)) as (c & Ec & Hc); [apply Heff|]. exists c. split; auto. rewrite Hc. split.
        + intros (e & K1 & K2 & K3). exists y, e. splits; auto. intros g Hg. apply Hre'. apply in_app_iff in Hg as [Hg|Hg]; auto. now apply Hb.
        + intros (z & e & K1 & K2 & K3 & K4 & K5). rewrite (U z K1 K2) in *. exists e. splits; auto. intros g Hg. apply Hre', K5, in_app_iff. auto.
      - exists false. split; auto. split; [discriminate|]. intros (z & e & K1 & K2 & K3 & K4 & K5). rewrite (U z K1 K2) in *. apply Hb. intros g Hg. apply Hre', K5, in_app_iff. auto. }
    destruct S as (c & Ec & Hc). rewrite Ec. cbn [bind]. eexists. split; [reflexivity|]. destruct c.
    + split; [apply add_id_NoDup; auto|]. intros j. rewrite add_id_In, H2, in_app_iff. cbn [In]. assert (Hc' := proj1 Hc eq_refl). intuition (subst; auto).
    + split; auto. intros j. rewrite H2, in_app_iff. cbn [In]. split; [tauto|]. intros [[K|[<-|[]]] K2]; auto. apply Hc in K2. discriminate.
  - rewrite Ef. cbn [bind]. eexists _, _. split; [reflexivity|]. split; auto. constructor; cbn [n_atom n_goal n_parents n_children n_possible n_first n_derived]; auto.
    + split; auto. apply add_ids_NoDup. constructor.
    + split; auto. intros i. rewrite Hf2, Hp. split; [tauto|]. intros K. split; auto. destruct K as (y & e & K1 & K2 & K3 & K4 & _). exists y, e. auto.
    + unfold layer_of. rewrite Hx. destruct (vlayer x); [split; auto; intros _; right; discriminate|]. split; [auto|intros [|K]; auto; congruence].
Qed.
Lemma calc_achievers_ok g : forall ex, Forall (fun n => fact_ok t (n_atom n)) g -> unflagged ex -> exists g' ex', calc_achievers t g ex = Ok (g', ex') /\ Forall2 achieved g g'.
Proof.
  intros ex Hg Hex. unfold calc_achievers. destruct (fold_inv (calc_achievers_of t) (fun pre (st : list node * exploration) => unflagged (snd st) /\ Forall2 achieved pre (fst st)) g ([], ex)) as ([g' ex'] & E & H1 & H2).
  - split; auto. constructor.
  - intros pre n post [done ex1] E [H1 H2]. cbn [fst snd] in *. destruct (achievers_ok done ex1 n) as (n' & ex2 & E2 & H3 & H4); auto; [rewrite Forall_forall in Hg; apply Hg; rewrite E; apply in_app_iff; right; now left|].
    eexists. split; [exact E2|]. cbn [fst snd]. split; auto. apply Forall2_app; auto.
  - eauto.
Qed.

(** ** lm_exhaust *)
Lemma position_some a g i : position a g = Some i -> exists n, nth_error g i = Some n /\ n_atom n = a.
Proof.
  revert i. induction g as [|n g IH]; intros i H; cbn [position] in H; [discriminate|]. destruct (fact_eqb (n_atom n) a) eqn:E; [injection H as <-; apply fact_eqb_spec in E; exists n; auto|].
  destruct (position a g) as [j|]; [|discriminate]. injection H as <-. apply (IH j eq_refl).
Qed.
Lemma position_none a g : position a g = None -> forall n, In n g -> n_atom n <> a.
Proof.
  induction g as [|n g IH]; intros H m Hm; [destruct Hm|]. cbn [position] in H. destruct (fact_eqb (n_atom n) a) eqn:E; [discriminate|]. apply fact_eqb_false in E. destruct (position a g); [discriminate|].
  destruct Hm as [<-|Hm]; auto.
Qed.
Lemma contains_spec g a : contains_atomic_landmark g a = true <-> exists n, In n g /\ n_atom n = a.
Proof.
  unfold contains_atomic_landmark. destruct (position a g) as [i|] eqn:E.
  - split; auto. intros _. destruct (position_some a g i E) as (n & Hn & Ha). exists n. split; auto. eapply nth_error_In; eauto.
  - split; [discriminate|]. intros (n & Hn & Ha). elim (position_none a g E n Hn Ha).
Qed.
Lemma task_solvable_ok ex a un : unflagged ex -> fact_ok t a -> exists b ex', relaxed_task_solvable t ex a un = Ok (b, ex') /\ unflagged ex' /\
  (b = true <-> forall g, In g (t_goal t) -> avoiding t un (fun f => f = a) g).
Proof.
  intros Hex Ha. unfold relaxed_task_solvable. destruct (reachability_ok t ex [a] un Hro Hinit (Forall_cons _ Ha (Forall_nil _)) Hex) as (re & ex' & E & Hex' & Hre). rewrite E. cbn [bind fst snd].
  assert (Hre' : forall f, re f = true <-> avoiding t un (fun f => f = a) f).
  { intros f. rewrite Hre. split; apply av_fewer; intros g; cbn [In]; intuition congruence. }
  destruct Hro as (_ & _ & HG). destruct (condition_ok t re (t_goal t) HG) as (b & Eb & Hb). rewrite Eb. cbn [bind]. exists b, ex'. splits; auto. rewrite Hb. split; intros H g Hg; apply Hre'; auto.
Qed.
Definition bare (n : node) : Prop := n_parents n = [] /\ n_children n = [] /\ n_derived n = false /\ (n_goal n = true <-> In (n_atom n) (t_goal t)).
Definition needed (un : bool) (a : fact) : Prop := ~ forall g, In g (t_goal t) -> avoiding t un (fun f => f = a) g.
Lemma goal_needed un a : In a (t_goal t) -> needed un a.
Proof. intros H K. apply (av_not_X _ _ _ _ (K a H)). reflexivity. Qed.

Lemma exhaust_ok un ex : unflagged ex -> exists g ex', generate_all_atomic_landmarks t un (generate_goal_landmarks t) ex = Ok (g, ex') /\ unflagged ex' /\ Forall bare g /\
  (forall a, (exists n, In n g /\ n_atom n = a) <-> fact_ok t a /\ needed un a) /\ (NoDup (t_goal t) -> NoDup (map n_atom g)).
Proof.
  intros Hex. unfold generate_all_atomic_landmarks. set (step := fun (st : list node * exploration) a => let (g, ex) := st in
    if contains_atomic_landmark g a then Ok st else let* r := relaxed_task_solvable t ex a un in Ok (if fst r then g else g ++ [new_node a false], snd r)).
  assert (HG : Forall (fact_ok t) (t_goal t)) by (destruct Hro as (_ & _ & HG); auto).
  destruct (fold_inv step (fun pre (st : list node * exploration) => unflagged (snd st) /\ Forall bare (fst st) /\
      (forall a, (exists n, In n (fst st) /\ n_atom n = a) <-> In a (t_goal t) \/ In a pre /\ needed un a) /\ (NoDup (t_goal t) -> NoDup (map n_atom (fst st))))
    (all_facts t) (generate_goal_landmarks t, ex)) as ([g ex'] & E & H1 & H2 & H3 & H4).
  - cbn [fst snd]. splits; auto.
    + apply Forall_forall. intros n Hn. apply in_map_iff in Hn as (a & <- & Ha). unfold bare. cbn. tauto.
    + intros a. cbn [In]. split.
      * intros (n & Hn & <-). apply in_map_iff in Hn as (b & <- & Hb). auto.
      * intros [H|[[] _]]. exists (new_node a true). split; auto. unfold generate_goal_landmarks. apply in_map_iff. eauto.
    + intros Hnd. unfold generate_goal_landmarks. rewrite map_map. cbn [n_atom new_node]. now rewrite map_id.
  - intros pre a post [g ex1] E (H1 & H2 & H3 & H4). cbn [fst snd] in *. unfold step. destruct (contains_atomic_landmark g a) eqn:Ec.
    + eexists. split; [reflexivity|]. cbn [fst snd]. splits; auto. apply contains_spec in Ec. intros b. rewrite H3, in_app_iff. cbn [In]. split; [tauto|]. intros [K|[[K|[<-|[]]] K2]]; auto. now apply H3.
    + assert (Ha : fact_ok t a) by (apply all_facts_In; rewrite E; apply in_app_iff; right; now left).
      assert (Nc : ~ exists n, In n g /\ n_atom n = a) by (rewrite <- contains_spec; congruence).
      destruct (task_solvable_ok ex1 a un H1 Ha) as (b & ex2 & E2 & Hex2 & Hb). rewrite E2. cbn [bind fst snd]. eexists. split; [reflexivity|]. cbn [fst snd]. destruct b; splits; auto.
      * intros c. rewrite H3, in_app_iff. cbn [In]. split; [tauto|]. intros [K|[[K|[<-|[]]] K2]]; auto. exfalso. apply K2. now apply Hb.
      * apply Forall_app. split; auto. constructor; [|constructor]. unfold bare. cbn. splits; auto. split; [discriminate|]. intros K. exfalso. apply Nc, H3. auto.
      * assert (Hnb : needed un a) by (intros K; apply Hb in K; discriminate).
        intros c. split.
        -- intros (n & Hn & <-). apply in_app_iff in Hn as [Hn|[<-|[]]].
           ++ destruct (proj1 (H3 (n_atom n)) (ex_intro _ n (conj Hn eq_refl))) as [K|[K1 K2]]; auto. right. split; auto. apply in_app_iff. auto.
           ++ cbn [n_atom new_node]. right. split; auto. apply in_app_iff. right. now left.
        -- intros K. assert (K' : (In c (t_goal t) \/ In c pre /\ needed un c) \/ c = a).
           { destruct K as [K|[K K2]]; auto. apply in_app_iff in K as [K|[<-|[]]]; auto. }
           destruct K' as [K'|<-].
           ++ apply H3 in K' as (n & Hn & E3). exists n. split; auto. apply in_app_iff. auto.
           ++ exists (new_node c false). split; auto. apply in_app_iff. right. now left.
      * intros Hnd. rewrite map_app. cbn [map n_atom new_node]. apply NoDup_snoc; auto. intros K. apply in_map_iff in K as (n & K1 & K2). apply Nc. eauto.
  - exists g, ex'. cbn [fst snd] in *. splits; auto. intros a. rewrite H3, all_facts_In. split; [|tauto]. intros [K|K]; auto. split; [rewrite Forall_forall in HG; auto|now apply goal_needed].
Qed.
End Task.
