(** Landmark progression along a history: past bits are exact, future bits are sound. *)
From Verif Require Import Outcome Spec_Task Spec_Relaxation Spec_Landmarks Model_Task Model_Landmarks Proof_Task Proof_PerState2 Proof_Landmarks1.
Local Open Scope nat_scope.

Lemma true_at_dec l ss i : true_at l ss i \/ ~ true_at l ss i.
Proof.
  unfold true_at. destruct (nth_error ss i) as [x|].
  - destruct (lm_dec l x); [left; eauto|right]. intros (y & E & Hy). inv E. auto.
  - right. intros (y & E & _). discriminate.
Qed.
Lemma first_exists l ss i : true_at l ss i -> exists j, j <= i /\ first_true l ss j.
Proof.
  revert i. induction i as [i IH] using lt_wf_ind. intros Hi.
  assert (D : (exists j, j < i /\ true_at l ss j) \/ forall j, j < i -> ~ true_at l ss j).
  { clear IH Hi. induction i as [|i [(j & A & B)|N]].
    - right. intros j Hj. lia.
    - left. exists j. split; auto.
    - destruct (true_at_dec l ss i).
      + left. exists i. split; auto.
      + right. intros j Hj. destruct (Nat.eq_dec j i) as [->|]; auto. apply N. lia. }
  destruct D as [(j & Hj & Tj)|N].
  - destruct (IH j Hj Tj) as (k & Hk & F). exists k. split; auto. lia.
  - exists i. split; auto. split; auto.
Qed.
(** False at [i], true at [j > i]: some step in between makes it true. *)
Lemma added_between l ss i j : i < j -> ~ true_at l ss i -> true_at l ss j -> exists k, i <= k < j /\ added_by l ss k.
Proof.
  intros Hij Hi Hj. remember (j - i) as d. revert i j Heqd Hij Hi Hj.
  induction d as [|d IH]; intros i j Hd Hij Hi Hj; [lia|].
  destruct (true_at_dec l ss (S i)) as [H|H].
  - exists i. split; [lia|]. split; auto.
  - destruct (Nat.eq_dec j (S i)) as [->|]; [contradiction|].
    destruct (IH (S i) j) as (k & Hk & A); auto; try lia. exists k. split; auto. lia.
Qed.

Section runs.
Variable t : task.

Lemma run_length s os ss : run t s os ss -> length ss = S (length os).
Proof. induction 1; cbn [length]; auto. Qed.
Lemma run_head s os ss : run t s os ss -> exists r, ss = s :: r.
Proof. inversion 1; eauto. Qed.
Lemma run_nth0 s os ss : run t s os ss -> nth_error ss 0 = Some s.
Proof. inversion 1; auto. Qed.
Lemma last_any {A} (l : list A) d d' : l <> [] -> last l d = last l d'.
Proof. induction l as [|x [|y l] IH]; intros H; try congruence; auto. apply IH. discriminate. Qed.
Lemma run_last_cons s s' os ss d d' : run t s' os ss -> last (s :: ss) d = last ss d'.
Proof. intros H. destruct (run_head _ _ _ H) as (r & ->). change (last (s' :: r) d = last (s' :: r) d'). apply last_any. discriminate. Qed.
Lemma run_snoc s os ss o s' : run t s os ss -> applicable t (last ss s) o -> progress t (last ss s) o s' ->
  run t s (os ++ [o]) (ss ++ [s']).
Proof.
  intros H. induction H as [s|s o1 s1 os ss Ha Hp Hr IH]; intros A P; cbn [app].
  - econstructor; eauto. constructor.
  - rewrite (run_last_cons _ _ _ _ _ s1 Hr) in A, P. econstructor; eauto.
Qed.
Lemma run_app s os ss os' ss' : run t s os ss -> run t (last ss s) os' ss' -> run t s (os ++ os') (ss ++ tl ss').
Proof.
  intros H. induction H as [s|s o1 s1 os ss Ha Hp Hr IH]; intros H'.
  - cbn [app last] in *. inversion H'; subst; cbn [tl]; auto.
  - rewrite (run_last_cons _ _ _ _ _ s1 Hr) in H'. cbn [app]. econstructor; eauto.
Qed.
Lemma last_app {A} (l r : list A) d : r <> [] -> last (l ++ r) d = last r d.
Proof.
  intros H. induction l as [|x l IH]; auto. change ((x :: l) ++ r) with (x :: (l ++ r)).
  destruct (l ++ r) eqn:E. - destruct l, r; try discriminate; congruence.
  - rewrite <- IH. auto.
Qed.
Lemma run_app_last s os ss os' ss' : run t s os ss -> run t (last ss s) os' ss' ->
  last (ss ++ tl ss') s = last ss' (last ss s).
Proof.
  intros H H'. destruct (run_head _ _ _ H') as (r & ->). cbn [tl].
  destruct r as [|y r]; [rewrite app_nil_r; auto|]. rewrite last_app by discriminate.
  change (last (y :: r) s = last (y :: r) (last ss s)). apply last_any. discriminate.
Qed.
Lemma nth_last {A} (l : list A) d k : length l = S k -> nth_error l k = Some (last l d).
Proof.
  revert k. induction l as [|x l IH]; intros k Hk; [discriminate|]. cbn [length] in Hk. destruct l as [|y l].
  - cbn in Hk. assert (k = 0) as -> by lia. auto.
  - destruct k as [|k]; [cbn in Hk; lia|]. change (nth_error (y :: l) k = Some (last (y :: l) d)). apply IH. lia.
Qed.
Lemma run_app_nth s os ss os' ss' j : run t s os ss -> run t (last ss s) os' ss' ->
  nth_error (ss ++ tl ss') (length os + j) = nth_error ss' j.
Proof.
  intros H H'. pose proof (run_length _ _ _ H) as L. destruct (run_head _ _ _ H') as (r & ->). cbn [tl].
  destruct j as [|j].
  - rewrite Nat.add_0_r, nth_error_app1 by lia. cbn [nth_error]. apply nth_last. auto.
  - rewrite nth_error_app2 by lia. replace (length os + S j - length ss) with j by lia. auto.
Qed.
Lemma run_app_nth1 s os ss ss' j : run t s os ss -> j <= length os -> nth_error (ss ++ tl ss') j = nth_error ss j.
Proof. intros H Hj. apply nth_error_app1. rewrite (run_length _ _ _ H). lia. Qed.

Lemma plan_app s os ss os' ss' : run t s os ss -> plan_run t (last ss s) os' ss' -> plan_run t s (os ++ os') (ss ++ tl ss').
Proof.
  intros H [H' G]. split; [eapply run_app; eauto|]. rewrite (run_app_last _ _ _ _ _ H H'). auto.
Qed.
Lemma true_at_app l s os ss os' ss' j : run t s os ss -> run t (last ss s) os' ss' ->
  (true_at l (ss ++ tl ss') (length os + j) <-> true_at l ss' j).
Proof. intros H H'. unfold true_at. rewrite (run_app_nth _ _ _ _ _ j H H'). tauto. Qed.
Lemma true_at_app1 l s os ss ss' j : run t s os ss -> j <= length os -> (true_at l (ss ++ tl ss') j <-> true_at l ss j).
Proof. intros H Hj. unfold true_at. rewrite (run_app_nth1 _ _ _ ss' j H Hj). tauto. Qed.
Lemma added_app l s os ss os' ss' j : run t s os ss -> run t (last ss s) os' ss' ->
  (added_by l (ss ++ tl ss') (length os + j) <-> added_by l ss' j).
Proof.
  intros H H'. unfold added_by. rewrite (true_at_app l _ _ _ _ _ j H H').
  replace (S (length os + j)) with (length os + S j) by lia. rewrite (true_at_app l _ _ _ _ _ (S j) H H'). tauto.
Qed.
Lemma reached_at l ss : reached l ss <-> exists i, true_at l ss i.
Proof.
  split.
  - intros (x & Hx & Tx). apply In_nth_error in Hx as (i & Hi). exists i, x. auto.
  - intros (i & x & Hi & Tx). exists x. split; auto. eapply nth_error_In; eauto.
Qed.

(** Notified paths. *)
Lemma known_run es s os ss : history t es -> known t es s os ss -> run t (t_init t) os ss /\ last ss (t_init t) = s /\ In s ss.
Proof.
  intros Hh H. induction H as [es es'|es es' p o s os ss H IH].
  - splits; auto; [constructor|left; auto].
  - destruct IH as (R & L & I). { intros a b c Hi. apply Hh. apply in_or_app. auto. }
    destruct (Hh p o s) as (_ & A & P). { apply in_or_app. right. left. auto. }
    splits.
    + apply run_snoc; auto; rewrite L; auto.
    + rewrite last_app by discriminate. auto.
    + apply in_or_app. right. left. auto.
Qed.
Lemma known_mono es e s os ss : known t es s os ss -> known t (es ++ [e]) s os ss.
Proof.
  inversion 1; subst.
  - rewrite <- app_assoc. cbn [app]. constructor.
  - rewrite <- app_assoc. cbn [app]. constructor. auto.
Qed.
Lemma known_snoc es e s os ss : known t (es ++ [e]) s os ss ->
  known t es s os ss \/
  (e = Initial /\ s = t_init t /\ os = [] /\ ss = [t_init t]) \/
  (exists p o os' ss', e = Transition p o s /\ known t es p os' ss' /\ os = os' ++ [o] /\ ss = ss' ++ [s]).
Proof.
  intros H. inversion H as [es1 es2 E|es1 es2 p o s' os' ss' K E]; subst.
  - destruct es2 as [|e2 es2 _] using rev_ind.
    + apply app_inj_tail in E as [-> E]. right. left. auto.
    + rewrite app_comm_cons, app_assoc in E. apply app_inj_tail in E as [<- ->]. left. constructor.
  - destruct es2 as [|e2 es2 _] using rev_ind.
    + apply app_inj_tail in E as [-> E]. right. right. exists p, o, os', ss'. auto.
    + rewrite app_comm_cons, app_assoc in E. apply app_inj_tail in E as [<- ->]. left. constructor. auto.
Qed.
Lemma reached_app l ss ss' : reached l (ss ++ ss') <-> reached l ss \/ reached l ss'.
Proof.
  unfold reached. split.
  - intros (x & Hx & Tx). apply in_app_or in Hx as [|]; [left|right]; eauto.
  - intros [(x & Hx & Tx)|(x & Hx & Tx)]; exists x; split; auto; apply in_or_app; auto.
Qed.
Lemma reached_one l s : reached l [s] <-> lm_true l s.
Proof. split. - intros (x & [<-|[]] & H). auto. - intros H. exists s. split; auto. left; auto. Qed.
End runs.

Section graph.
Variable t : task.
Variable g : graph.
Hypothesis Hg : graph_ok t g.
Variable opt : options.
Notation n := (length g).

Definition will_be_added (l : landmark) (s : state) : Prop :=
  forall os ss, plan_run t s os ss -> exists k, added_by l ss k.

Record Inv (es : list event) (st : status) : Prop := {
  inv_len : forall s, length (past st s) = n /\ length (future st s) = n;
  inv_past : forall s i l, nth_error g i = Some l -> bit (past st s) i = true ->
    forall os ss, known t es s os ss -> reached l ss;
  inv_open : forall s i l, nth_error g i = Some l -> bit (past st s) i = false ->
    bit (future st s) i = true /\ exists os ss, known t es s os ss /\ ~ reached l ss;
  inv_future : sound t g -> forall s i l, nth_error g i = Some l -> bit (future st s) i = true -> will_be_added l s
}.

Lemma inv_start : Inv [] (no_information g).
Proof.
  constructor; cbn [no_information past future].
  - intros. rewrite !repeat_length. auto.
  - intros s i l Hi Hb os ss H. inversion H as [es es' E|es es' p o s' os' ss' K E]; destruct es; discriminate.
  - intros s i l Hi Hb. rewrite bit_repeat in Hb by (eapply node_lt; eauto). discriminate.
  - intros _ s i l Hi Hb. rewrite bit_repeat in Hb by (eapply node_lt; eauto). discriminate.
Qed.

(** A landmark that holds in a state is past there. *)
Lemma inv_true es st s i l : Inv es st -> history t es -> nth_error g i = Some l -> T l s = true -> bit (past st s) i = true.
Proof.
  intros HI Hh Hi HT. destruct (bit (past st s) i) eqn:E; auto.
  destruct (inv_open es st HI s i l Hi E) as (_ & os & ss & K & N). exfalso. apply N.
  exists s. split; [eapply known_run; eauto|]. apply T_ok. auto.
Qed.

(** A path on which a landmark was not reached: any continuation to the goal adds it. *)
Lemma open_adds l os ss os' ss' s : sound t g -> In l g -> run t (t_init t) os ss -> last ss (t_init t) = s -> ~ reached l ss ->
  plan_run t s os' ss' -> exists k, first_true l (ss ++ tl ss') (length os + S k) /\ added_by l ss' k.
Proof.
  intros Hs Hl R L N P. rewrite <- L in P. pose proof (plan_app t _ _ _ _ _ R P) as P'.
  destruct (sound_landmark t g Hs l _ _ Hl P') as (i & Hi). destruct (first_exists l _ i Hi) as (j & _ & F).
  assert (Hj : length os < j).
  { destruct (Nat.lt_ge_cases (length os) j) as [|Hle]; auto. exfalso. apply N. apply reached_at. exists j.
    apply (true_at_app1 t l _ _ _ ss' j R); auto. apply F. }
  exists (j - length os - 1). replace (length os + S (j - length os - 1)) with j by lia. split; auto.
  apply (added_app t l _ _ _ _ _ _ R (proj1 P)). destruct F as [F1 F2]. split.
  - apply F2. lia.
  - replace (S (length os + (j - length os - 1))) with j by lia. auto.
Qed.

Lemma initial_ok es st : history t es -> Inv es st -> lengthy t (t_init t) ->
  exists st', progress_initial_state g (t_init t) st = Ok st' /\ Inv (es ++ [Initial]) st'.
Proof.
  intros Hh HI Hl. unfold progress_initial_state. set (s0 := t_init t) in *.
  destruct (inv_len es st HI s0) as [L1 L2].
  destruct (initial_bits t g Hg s0 (past st s0) (future st s0) Hl L1 L2) as (pa & fu & E & Lp & Lf & HB).
  { intros i l Hi HT. eapply inv_true; eauto. }
  rewrite E. cbn [bind fst snd]. eexists. split; [reflexivity|]. unfold set_at.
  assert (KN : forall s os ss, s <> s0 -> known t (es ++ [Initial]) s os ss -> known t es s os ss).
  { intros s os ss Hne K. apply known_snoc in K as [K|[(_ & E1 & _)|(p & o & os' & ss' & E1 & _)]]; auto; [contradiction|discriminate]. }
  constructor; cbn [past future]; intros.
  - destruct (state_eqb s s0); auto. apply (inv_len es st HI).
  - destruct (state_eqb s s0) eqn:Es.
    + apply state_eqb_ok in Es as ->. destruct (HB i l H) as [A _]. rewrite A in H0. apply andb_true_iff in H0 as [H0 HT].
      apply known_snoc in H1 as [K|[(_ & _ & -> & ->)|(p & o & os' & ss' & E1 & _)]]; [|apply reached_one, T_ok; auto|discriminate].
      eapply inv_past; eauto.
    + assert (Hne : s <> s0) by (intros ->; rewrite (proj2 (state_eqb_ok s0 s0)) in Es; congruence).
      eapply inv_past; eauto.
  - destruct (state_eqb s s0) eqn:Es.
    + apply state_eqb_ok in Es as ->. destruct (HB i l H) as [A B]. rewrite A in H0. rewrite B. apply andb_false_iff in H0 as [H0|HT].
      * destruct (inv_open es st HI s0 i l H H0) as (F & os & ss & K & N). rewrite F. split; auto. exists os, ss. split; auto. apply known_mono; auto.
      * rewrite HT. cbn [negb orb]. split; [apply orb_true_r|]. exists [], [s0]. split; [constructor|].
        rewrite reached_one. apply T_false. auto.
    + destruct (inv_open es st HI s i l H H0) as (F & os & ss & K & N). split; auto. exists os, ss. split; auto. apply known_mono; auto.
  - destruct (state_eqb s s0) eqn:Es; [|eapply inv_future; eauto].
    apply state_eqb_ok in Es as ->. destruct (HB i l H0) as [_ B]. rewrite B in H1. apply orb_true_iff in H1 as [H1|H1]; [eapply inv_future; eauto|].
    intros os ss P. pose proof (run_nth0 t _ _ _ (proj1 P)) as H00.
    assert (Hin : In l g) by (eapply node_in; eauto).
    apply orb_true_iff in H1 as [H1|H1].
    + apply negb_true_iff, T_false in H1. destruct (sound_landmark t g H l os ss Hin P) as (j & Hj).
      assert (N0 : ~ true_at l ss 0) by (intros (x & Ex & Tx); congruence).
      destruct j as [|j]; [contradiction|]. destruct (added_between l ss 0 (S j)) as (k & _ & A); eauto. lia.
    + unfold has_false_parent in H1. apply existsb_exists in H1 as ([j ty] & Hj & Ha). cbn [fst] in Ha.
      destruct (nth_error g j) as [a|] eqn:Ea; [|discriminate]. apply negb_true_iff, T_false in Ha.
      assert (HO : ordered g a l ty) by (exists i; split; auto; exists j; auto).
      pose proof (sound_ordering t g H a l ty os ss HO P) as R.
      destruct (lm_dec l s0) as [Tl|Nl].
      2:{ destruct (sound_landmark t g H l os ss Hin P) as (m & Hm).
          assert (N0 : ~ true_at l ss 0) by (intros (x & Ex & Tx); congruence).
          destruct m as [|m]; [contradiction|]. destruct (added_between l ss 0 (S m)) as (k & _ & A); eauto. lia. }
      assert (F0 : first_true l ss 0) by (split; [exists s0; auto|intros; lia]).
      assert (Na : ~ true_at a ss 0) by (intros (x & Ex & Tx); congruence).
      destruct ty; cbn [respects] in R.
      * destruct (sound_landmark t g H a os ss) as (m & Hm); auto. { eapply node_in; eauto. }
        destruct (first_exists a ss m Hm) as ([|q] & _ & F); [destruct F; contradiction|].
        destruct (R q F) as (k & _ & A). eauto.
      * destruct (R 0 F0) as (k & Hk & _). lia.
      * destruct (R 0 F0) as (k & Hk & _). discriminate.
      * destruct (R 0 F0) as (k & Hk & _). discriminate.
Qed.

Lemma transition_ok es st p o s : history t (es ++ [Transition p o s]) -> Inv es st ->
  exists st', progress_status g opt p s st = Ok st' /\ Inv (es ++ [Transition p o s]) st'.
Proof.
  intros Hh' HI. assert (Hh : history t es). { intros a b c Hi. apply Hh'. apply in_or_app. auto. }
  destruct (Hh' p o s) as (Hp & Ha & Hpr). { apply in_or_app. right. left. auto. }
  apply state_lengthy in Hp. pose proof (progress_lengthy t _ _ _ Hp Hpr) as Hs.
  unfold progress_status. destruct (state_eqb s p) eqn:Esp.
  { apply state_eqb_ok in Esp as ->. exists st. split; auto. constructor.
    - apply (inv_len es st HI).
    - intros s i l Hi Hb os ss K. apply known_snoc in K as [K|[(E1 & _)|(q & o' & os' & ss' & E1 & K & -> & ->)]]; [|discriminate|].
      + eapply inv_past; eauto.
      + inv E1. apply reached_app. left. eapply inv_past; eauto.
    - intros s i l Hi Hb. destruct (inv_open es st HI s i l Hi Hb) as (F & os & ss & K & N). split; auto. exists os, ss. split; auto. apply known_mono; auto.
    - apply (inv_future es st HI). }
  assert (Hne : s <> p) by (intros ->; rewrite (proj2 (state_eqb_ok p p)) in Esp; congruence). clear Esp.
  destruct (inv_len es st HI s) as [L1 L2]. destruct (inv_len es st HI p) as [L3 L4].
  destruct (landmark_bits t g Hg (past st p) (future st p) p s (past st s) (future st s) Hp Hs L3 L4 L1 L2) as (pa & fu & E & Lp & Lf & HB).
  { intros i l Hi HT. eapply inv_true; eauto. }
  rewrite E. cbn [bind fst snd].
  destruct (others_bits t g Hg opt s pa fu Hs Lp Lf) as (f1 & f2 & f3 & E1 & E2 & E3 & L5 & HF).
  rewrite E1. cbn [bind]. rewrite E2. cbn [bind]. rewrite E3. cbn [bind]. eexists. split; [reflexivity|].
  set (es' := es ++ [Transition p o s]) in *.
  assert (KN : forall x os ss, x <> s -> known t es' x os ss -> known t es x os ss).
  { intros x os ss Hx K. apply known_snoc in K as [K|[(E4 & _)|(q & o' & os' & ss' & E4 & _)]]; auto; [discriminate|]. inv E4. contradiction. }
  assert (Popen : forall i l, nth_error g i = Some l -> bit pa i = false ->
      bit f3 i = true /\ exists os ss, known t es' s os ss /\ ~ reached l ss).
  { intros i l Hi Hb. destruct (HB i l Hi) as [A B]. rewrite (HF i l Hi), B. rewrite A in Hb. apply andb_false_iff in Hb as [Hb|Hb].
    - destruct (inv_open es st HI s i l Hi Hb) as (F & os & ss & K & N). rewrite F. cbn [orb]. split; auto.
      exists os, ss. split; auto. apply known_mono; auto.
    - apply negb_false_iff, andb_true_iff in Hb as [Hb Q]. apply andb_true_iff in Hb as [PF NT].
      apply negb_true_iff in Q. rewrite PF, NT. cbn [andb orb]. rewrite orb_true_r. cbn [orb]. split; auto.
      destruct (inv_open es st HI p i l Hi Q) as (_ & os & ss & K & N). exists (os ++ [o]), (ss ++ [s]). split.
      + apply known_transition. auto.
      + rewrite reached_app, reached_one. apply negb_true_iff, T_false in NT. tauto. }
  unfold set_at. constructor; cbn [past future].
  - intros x. destruct (state_eqb x s); auto. apply (inv_len es st HI).
  - intros x i l Hi Hb os ss K. destruct (state_eqb x s) eqn:Es.
    + apply state_eqb_ok in Es as ->. destruct (HB i l Hi) as [A _]. rewrite A in Hb. apply andb_true_iff in Hb as [Hb Q].
      apply known_snoc in K as [K|[(E4 & _)|(q & o' & os' & ss' & E4 & K & -> & ->)]]; [|discriminate|].
      * eapply inv_past; eauto.
      * inv E4. apply reached_app. rewrite reached_one, <- T_ok. destruct (T l s); auto. left.
        destruct (bit (past st q) i) eqn:EP; [eapply inv_past; eauto|].
        destruct (inv_open es st HI q i l Hi EP) as (F & _). rewrite F in Q. discriminate.
    + assert (x <> s) by (intros ->; rewrite (proj2 (state_eqb_ok s s)) in Es; congruence). eapply inv_past; eauto.
  - intros x i l Hi Hb. destruct (state_eqb x s) eqn:Es.
    + apply state_eqb_ok in Es as ->. auto.
    + destruct (inv_open es st HI x i l Hi Hb) as (F & os & ss & K & N). split; auto. exists os, ss. split; auto. apply known_mono; auto.
  - intros Hsd x i l Hi Hb. destruct (state_eqb x s) eqn:Es; [|eapply inv_future; eauto].
    apply state_eqb_ok in Es as ->. assert (Hin : In l g) by (eapply node_in; eauto).
    rewrite (HF i l Hi) in Hb. destruct (HB i l Hi) as [_ B]. rewrite B in Hb.
    intros os ss P. pose proof (run_nth0 t _ _ _ (proj1 P)) as H0.
    repeat (apply orb_true_iff in Hb as [Hb|Hb]).
    + eapply inv_future; eauto.
    + apply andb_true_iff in Hb as [PF Q].
      assert (P' : plan_run t p (o :: os) (p :: ss)).
      { destruct P as [R G]. split; [econstructor; eauto|]. rewrite (run_last_cons t p s os ss p s R). auto. }
      destruct (inv_future es st HI Hsd p i l Hi PF _ _ P') as ([|k] & N & Y).
      * exfalso. destruct Y as (y & Ey & Ty). change (nth_error ss 0 = Some y) in Ey. rewrite H0 in Ey. injection Ey as <-. apply T_ok in Ty. rewrite Ty in Q. cbn [negb orb] in Q.
        apply N. exists p. split; auto. apply T_ok. auto.
      * exists k. split; auto.
    + apply andb_true_iff in Hb as [_ Hb]. apply andb_true_iff in Hb as [G NT]. apply negb_true_iff, T_false in NT.
      destruct P as [R Gl]. pose proof (sound_goal t g Hsd l _ Hin G Gl) as TL.
      pose proof (run_length t _ _ _ R) as LN.
      assert (N0 : ~ true_at l ss 0) by (intros (y & Ey & Ty); congruence).
      assert (TE : true_at l ss (length os)) by (exists (last ss s); split; auto; apply nth_last; auto).
      destruct (Nat.eq_dec (length os) 0) as [E0|E0]; [rewrite E0 in TE; contradiction|].
      destruct (added_between l ss 0 (length os)) as (k & _ & A); eauto. lia.
    + apply andb_true_iff in Hb as [_ Hb]. unfold gn_due in Hb. apply existsb_exists in Hb as ([j ty] & Hj & Hb). cbn [fst snd] in Hb.
      apply andb_true_iff in Hb as [Hty Hb]. apply andb_true_iff in Hb as [Q NT].
      apply negb_true_iff in Q. apply negb_true_iff, T_false in NT. destruct ty; try discriminate.
      destruct (graph_ends t g Hg i l Hi j GreedyNecessary) as [HC _]. destruct (HC Hj) as (b & Hbj & Hpar).
      destruct (Popen j b Hbj Q) as (_ & os1 & ss1 & K & N). destruct (known_run t _ _ _ _ Hh' K) as (R1 & La & _).
      destruct (open_adds b os1 ss1 os ss s Hsd (node_in g j b Hbj) R1 La N P) as (k & F & A).
      assert (HO : ordered g l b GreedyNecessary) by (exists j; split; auto; exists i; auto).
      subst s. pose proof (sound_ordering t g Hsd l b GreedyNecessary _ _ HO (plan_app t _ _ _ _ _ R1 P)) as RS.
      cbn [respects] in RS. destruct (RS _ F) as (m & Hm & Tm). assert (m = length os1 + k) as -> by lia.
      apply (true_at_app t l _ _ _ _ _ k R1 (proj1 P)) in Tm.
      assert (N0 : ~ true_at l ss 0) by (intros (y & Ey & Ty); congruence).
      destruct k as [|k]; [contradiction|]. destruct (added_between l ss 0 (S k)) as (q & _ & A'); eauto. lia.
    + apply andb_true_iff in Hb as [_ Hb]. unfold reasonable_due in Hb. apply existsb_exists in Hb as ([j ty] & Hj & Hb). cbn [fst snd] in Hb.
      apply andb_true_iff in Hb as [Hty Q]. apply negb_true_iff in Q. destruct ty; try discriminate.
      destruct (graph_ends t g Hg i l Hi j Reasonable) as [_ HC]. destruct (HC Hj) as (a & Haj & _).
      destruct (Popen j a Haj Q) as (_ & os1 & ss1 & K & N). destruct (known_run t _ _ _ _ Hh' K) as (R1 & La & _).
      destruct (open_adds a os1 ss1 os ss s Hsd (node_in g j a Haj) R1 La N P) as (k & F & A).
      assert (HO : ordered g a l Reasonable) by (exists i; split; auto; exists j; auto).
      subst s. pose proof (sound_ordering t g Hsd a l Reasonable _ _ HO (plan_app t _ _ _ _ _ R1 P)) as RS.
      cbn [respects] in RS. replace (length os1 + S k) with (S (length os1 + k)) in F by lia.
      destruct (RS _ F) as (m & Hm & Am). exists (m - length os1).
      apply (added_app t l _ _ _ _ _ _ R1 (proj1 P)). replace (length os1 + (m - length os1)) with m by lia. auto.
Qed.

Lemma notify_all_ok es : history t es -> state_ok t (t_init t) ->
  exists st, notify_all t g opt es = Ok st /\ Inv es st.
Proof.
  intros Hh Hi. apply state_lengthy in Hi. unfold notify_all. induction es as [|e es IH] using rev_ind.
  - exists (no_information g). split; auto. apply inv_start.
  - destruct IH as (st & E & HI). { intros a b c Hin. apply Hh. apply in_or_app. auto. }
    rewrite fold_outcome_app, E. cbn [bind fold_outcome].
    assert (K : exists st', notify t g opt st e = Ok st' /\ Inv (es ++ [e]) st').
    { destruct e as [|p o s]; cbn [notify].
      - apply initial_ok; auto. intros a b c Hin. apply Hh. apply in_or_app. auto.
      - apply transition_ok; auto. }
    destruct K as (st' & E' & HI'). rewrite E'. cbn [bind]. eauto.
Qed.
End graph.
