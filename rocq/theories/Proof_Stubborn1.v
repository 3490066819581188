(** Strong stubborn sets: moving an operator to the front of a plan. *)
From Coq Require Import Permutation.
From Verif Require Import Outcome Spec_Task Spec_Relaxation Spec_Projection Spec_HM Spec_Stubborn Model_Task Proof_Task Proof_PDB3.

Section S.
Variable t : task.
Hypothesis Ht : stub_task t.

Lemma st_len s : state_ok t s -> length s = length (t_vars t).
Proof. intros H. unfold state_ok in H. induction H; cbn; auto. Qed.
Lemma st_range op s e : state_ok t s -> In op (t_ops t) -> In e (op_effs op) -> fst (eff_fact e) < length s.
Proof.
  intros Hs Ho He. destruct Ht as ((_ & H & _) & _). rewrite Forall_forall in H. destruct (H _ Ho) as [_ H2]. rewrite Forall_forall in H2. destruct (H2 _ He) as (_ & (x & Hx & _) & _).
  rewrite (st_len s Hs). eapply nth_error_Some_lt; eauto.
Qed.
Lemma st_writes s o op s' : state_ok t s -> nth_error (t_ops t) o = Some op -> progress t s o s' <-> writes (op_facts op) s s'.
Proof.
  intros Hs Ho. pose proof (nth_error_In _ _ Ho) as Hin. destruct Ht as (_ & [Hr Hl] & Hop). destruct (Hop _ Hin) as (Hc & _ & Hn).
  apply (progress_writes t s o op s'); auto; [|intros e He; eapply st_range; eauto]. unfold op_facts in Hn. now rewrite map_map in Hn.
Qed.
Lemma st_writes_ok s op s' : state_ok t s -> In op (t_ops t) -> writes (op_facts op) s s' -> state_ok t s'.
Proof.
  intros Hs Hin (Hl & H1 & H2). pose proof (st_len s Hs) as Hlen. unfold state_ok in *. destruct Ht as ((_ & H & _) & _). rewrite Forall_forall in H. destruct (H _ Hin) as [_ HE]. rewrite Forall_forall in HE.
  apply Forall2_intro; [congruence|]. intros i x y Hx Hy. destruct (in_dec Nat.eq_dec i (map fst (op_facts op))) as [Hi|Hi].
  - apply in_map_iff in Hi as ([v d] & Ei & Hf). cbn [fst] in Ei. subst v. pose proof (H1 _ Hf) as Hv. cbn [fst snd] in Hv. rewrite Hx in Hv. inversion Hv; subst x.
    unfold op_facts in Hf. apply in_map_iff in Hf as (e & Ee & He). destruct (HE _ He) as (_ & (z & Hz & Hd) & _). rewrite Ee in Hz, Hd. cbn [fst snd] in *. unfold is_var in Hz. congruence.
  - rewrite H2 in Hx by auto. exact (Forall2_nth _ _ _ i x y Hs Hx Hy).
Qed.
Lemma st_exec s op : state_ok t s -> In op (t_ops t) -> exists s', writes (op_facts op) s s'.
Proof.
  intros Hs Hin. apply In_nth_error in Hin as (o & Ho). exists (apply_effects s (op_effs op)). apply (st_writes s o op); auto. exists op, (apply_effects s (op_effs op)). splits; auto using apply_effects_length.
  - intros v r Hv Hr. now apply apply_effects_value.
  - split; auto. split; auto. intros v x k d Hx Hk. destruct Ht as (_ & [_ Hl] & _). specialize (Hl v). rewrite (layer_of_var _ _ _ Hx) in Hl. congruence.
Qed.

(** Interference *)
Definition clash (F G : list fact) : Prop := exists f g, In f F /\ In g G /\ fst f = fst g /\ snd f <> snd g.
Definition interf (op1 op2 : operator) : Prop :=
  clash (op_facts op1) (op_pre op2) \/ clash (op_facts op1) (op_facts op2) \/ clash (op_facts op2) (op_pre op1).

Lemma noclash_pre F P s s' : ~ clash F P -> writes F s s' -> all_hold s P -> all_hold s' P.
Proof.
  intros Hn (Hl & H1 & H2) HP f Hf. pose proof (HP f Hf) as Hh. unfold holds in *. destruct (in_dec Nat.eq_dec (fst f) (map fst F)) as [Hi|Hi].
  - apply in_map_iff in Hi as (g & Eg & Hg). pose proof (H1 g Hg) as Hv. rewrite Eg in Hv. rewrite Hv. f_equal. destruct (Nat.eq_dec (snd g) (snd f)) as [E|E]; auto. destruct Hn. exists g, f. auto.
  - now rewrite H2.
Qed.
Lemma commute F G s s1 s2 s1' : ~ clash F G -> writes F s s1 -> writes G s1 s2 -> writes G s s1' -> writes F s1' s2.
Proof.
  intros Hn (L1 & A1 & B1) (L2 & A2 & B2) (L3 & A3 & B3). split; [congruence|]. split.
  - intros f Hf. destruct (in_dec Nat.eq_dec (fst f) (map fst G)) as [Hi|Hi]; [|rewrite B2 by auto; auto].
    apply in_map_iff in Hi as (g & Eg & Hg). pose proof (A2 g Hg) as Hv. rewrite Eg in Hv. rewrite Hv. f_equal. destruct (Nat.eq_dec (snd g) (snd f)) as [E|E]; auto. destruct Hn. exists f, g. auto.
  - intros v Hv. destruct (in_dec Nat.eq_dec v (map fst G)) as [Hi|Hi].
    + apply in_map_iff in Hi as (g & <- & Hg). rewrite (A2 g Hg), (A3 g Hg). reflexivity.
    + rewrite B2, B3, B1 by auto. reflexivity.
Qed.
Lemma move_front x opx : nth_error (t_ops t) x = Some opx -> forall os s s1 s2, state_ok t s -> task_path t s os s1 ->
  (forall o op, In o os -> nth_error (t_ops t) o = Some op -> ~ interf opx op) -> all_hold s (op_pre opx) -> progress t s1 x s2 ->
  exists s', progress t s x s' /\ task_path t s' os s2.
Proof.
  intros Hx. induction os as [|o os IH]; intros s s1 s2 Hs Hp Hn Ha Hpr; inversion Hp as [|? ? sa ? ? H2 H3 H5]; subst.
  - exists s2. split; auto. constructor.
  - destruct H2 as (op & Ho & Hpre). pose proof (Hn o op (or_introl eq_refl) Ho) as Hni.
    pose proof (nth_error_In _ _ Ho) as HinO. pose proof (nth_error_In _ _ Hx) as HinX.
    pose proof (proj1 (st_writes s o op sa Hs Ho) H3) as Hw. pose proof (st_writes_ok _ _ _ Hs HinO Hw) as Hsa.
    assert (Ha' : all_hold sa (op_pre opx)) by (eapply noclash_pre; [|exact Hw|exact Ha]; intros C; apply Hni; right; right; exact C).
    destruct (IH sa s1 s2 Hsa H5) as (sa' & Hpx & Hpath); auto.
    { intros o' op' Hin. apply Hn. now right. }
    pose proof (proj1 (st_writes sa x opx sa' Hsa Hx) Hpx) as Hwx.
    destruct (st_exec s opx Hs HinX) as (s' & Hw'). pose proof (st_writes_ok _ _ _ Hs HinX Hw') as Hs'. exists s'. split; [now apply (st_writes s x opx)|].
    econstructor; [| |exact Hpath].
    + exists op. split; auto. eapply noclash_pre; [|exact Hw'|exact Hpre]. intros C. apply Hni. now left.
    + apply (st_writes s' o op sa' Hs' Ho). eapply commute; [|exact Hw|exact Hwx|exact Hw'].
      intros (f & g & A & B & C & D). apply Hni. right. left. exists g, f. splits; auto.
Qed.

(** A fact that becomes true is achieved by some operator. *)
Lemma achieved f : forall os s s', state_ok t s -> task_path t s os s' -> ~ holds s f -> holds s' f ->
  exists o op, In o os /\ nth_error (t_ops t) o = Some op /\ In f (op_facts op).
Proof.
  induction os as [|o os IH]; intros s s' Hs Hp Hn Hh; inversion Hp as [|? ? sa ? ? H2 H3 H5]; subst; [contradiction|].
  destruct H2 as (op & Ho & Hpre). pose proof (proj1 (st_writes s o op sa Hs Ho) H3) as Hw. pose proof (st_writes_ok _ _ _ Hs (nth_error_In _ _ Ho) Hw) as Hsa.
  destruct (holdsb sa f) eqn:E.
  - apply holdsb_spec in E. exists o, op. split; [now left|]. split; auto. destruct Hw as (_ & H1 & H2). destruct (in_dec Nat.eq_dec (fst f) (map fst (op_facts op))) as [Hi|Hi].
    + apply in_map_iff in Hi as (g & Eg & Hg). pose proof (H1 g Hg) as Hv. unfold holds in E. rewrite Eg, E in Hv. inversion Hv. destruct f, g; cbn [fst snd] in *; subst. exact Hg.
    + exfalso. apply Hn. unfold holds in *. now rewrite <- H2.
  - assert (Hn' : ~ holds sa f) by (rewrite <- holdsb_spec; congruence). destruct (IH sa s' Hsa H5 Hn' Hh) as (o' & op' & A & B & C). exists o', op'. split; [now right|]. auto.
Qed.

(** What the pruning algorithms compute.  [E] contains all operators that can occur in plans. *)
Definition envelope (s : state) (E : nat -> Prop) : Prop := forall os s' o, task_path t s os s' -> In o os -> E o.
Definition enabled_by (E : nat -> Prop) (T : nat -> bool) (f : fact) : Prop :=
  forall o op, nth_error (t_ops t) o = Some op -> In f (op_facts op) -> E o -> T o = true.
Definition strong_stubborn (s : state) (E : nat -> Prop) (T : nat -> bool) : Prop :=
  (exists g, In g (t_goal t) /\ ~ holds s g /\ enabled_by E T g) /\
  (forall o op, T o = true -> nth_error (t_ops t) o = Some op -> all_hold s (op_pre op) ->
     forall o2 op2, nth_error (t_ops t) o2 = Some op2 -> o2 <> o -> E o2 -> interf op op2 ->
       T o2 = true \/ exists f, In f (op_pre op2) /\ ~ holds s f /\ enabled_by E T f) /\
  (forall o op, T o = true -> nth_error (t_ops t) o = Some op -> ~ all_hold s (op_pre op) ->
     exists f, In f (op_pre op) /\ ~ holds s f /\ enabled_by E T f).

Lemma first_in (T : nat -> bool) os : (exists o, In o os /\ T o = true) -> exists p x q, os = p ++ x :: q /\ T x = true /\ forall o, In o p -> T o = false.
Proof.
  induction os as [|a os IH]; intros (o & Hin & HT); [destruct Hin|]. destruct (T a) eqn:Ea.
  - exists [], a, os. splits; auto. intros ? [].
  - destruct Hin as [->|Hin]; [congruence|]. destruct IH as (p & x & q & -> & A & B); eauto. exists (a :: p), x, q. splits; auto. intros y [<-|Hy]; auto.
Qed.
Lemma path_split os1 : forall os2 s s', task_path t s (os1 ++ os2) s' -> exists s1, task_path t s os1 s1 /\ task_path t s1 os2 s'.
Proof.
  induction os1 as [|o os1 IH]; intros os2 s s' H; cbn [app] in H; [exists s; split; auto; constructor|]. inversion H as [|? ? ? ? ? ? ? H6]; subst. destruct (IH _ _ _ H6) as (s1 & A & B). exists s1. split; auto. econstructor; eauto.
Qed.
Lemma path_join os1 : forall os2 s s1 s', task_path t s os1 s1 -> task_path t s1 os2 s' -> task_path t s (os1 ++ os2) s'.
Proof. induction os1 as [|o os1 IH]; intros os2 s s1 s' H1 H2; inversion H1; subst; cbn [app]; auto. econstructor; eauto. Qed.
Lemma path_ok os : forall s s', state_ok t s -> task_path t s os s' -> state_ok t s'.
Proof.
  induction os as [|o os IH]; intros s s' Hs H; inversion H as [|? ? sa ? ? H3 H4 H5]; subst; auto. destruct H3 as (op & Ho & _). apply (IH sa); auto. eapply st_writes_ok; [exact Hs|eapply nth_error_In; exact Ho|]. now apply (st_writes s o op).
Qed.

(** Some operator of the stubborn set is applicable and starts a permuted plan. *)
Lemma stubborn_step s E T os s' : state_ok t s -> envelope s E -> strong_stubborn s E T -> task_path t s os s' -> goal_state t s' ->
  exists x s1 os', T x = true /\ applicable t s x /\ progress t s x s1 /\ task_path t s1 os' s' /\ Permutation os (x :: os').
Proof.
  intros Hs HE ((g & Hg & Hng & HA) & HI & HN) Hp Hgoal.
  destruct (achieved g os s s' Hs Hp Hng (Hgoal g Hg)) as (o0 & op0 & A & B & C).
  destruct (first_in T os) as (p & x & q & -> & HTx & Hfirst); [exists o0; split; auto; eapply HA; eauto|].
  destruct (path_split p _ _ _ Hp) as (sp & Hp1 & Hp2). inversion Hp2 as [|? ? sx ? ? H2 H3 H5]; subst. destruct H2 as (opx & Hx & Hpre).
  assert (Hno : forall p1 sp1 f, task_path t s p1 sp1 -> incl p1 p -> holds sp1 f -> ~ holds s f -> enabled_by E T f -> False).
  { intros p1 sp1 f Hq Hincl Hh Hn He. destruct (achieved f p1 s sp1 Hs Hq Hn Hh) as (o1 & op1 & D & E1 & F). pose proof (Hfirst o1 (Hincl _ D)) as G. rewrite (He o1 op1 E1 F) in G; [discriminate|]. exact (HE p1 sp1 o1 Hq D). }
  assert (Happ : all_hold s (op_pre opx)).
  { destruct (all_holdb s (op_pre opx)) eqn:Eh; [now apply all_holdb_spec|]. exfalso. assert (Hna : ~ all_hold s (op_pre opx)) by (rewrite <- all_holdb_spec; congruence).
    destruct (HN x opx HTx Hx Hna) as (f & Hf & Hnf & Hach). exact (Hno p sp f Hp1 (incl_refl _) (Hpre f Hf) Hnf Hach). }
  destruct (move_front x opx Hx p s sp sx Hs Hp1) as (s1 & Hpx & Hp1'); auto.
  { intros o op Hin Ho Hi. pose proof (Hfirst o Hin) as Hf. destruct (HI x opx HTx Hx Happ o op Ho) as [G|(f & F1 & F2 & F3)]; auto.
    - intros ->. congruence.
    - exact (HE p sp o Hp1 Hin).
    - congruence.
    - apply in_split in Hin as (p1 & p2 & ->). destruct (path_split p1 _ _ _ Hp1) as (sa & Ha1 & Ha2). inversion Ha2 as [|? ? ? ? ? (op' & Ho' & Hpre') ? ?]; subst. assert (op' = op) by congruence. subst op'.
      apply (Hno p1 sa f Ha1); auto. intros y Hy. apply in_or_app. now left. }
  exists x, s1, (p ++ q). splits; auto.
  - exists opx. auto.
  - eapply path_join; eauto.
  - apply Permutation_sym, Permutation_middle.
Qed.

(** Hence pruning is safe. *)
Lemma stubborn_safe prune : (forall s, state_ok t s -> ~ goal_state t s -> exists ops E T, prune s (app_ops t s) = Ok ops /\ envelope s E /\ strong_stubborn s E T /\ forall o, In o (app_ops t s) -> T o = true -> In o ops) ->
  forall n os s s', length os <= n -> state_ok t s -> task_path t s os s' -> goal_state t s' -> exists os' rest, pruned_plan t prune s os' /\ Permutation os (os' ++ rest).
Proof.
  intros HP. induction n as [|n IH]; intros os s s' Hn Hs Hp Hg.
  - destruct os; [|cbn in Hn; lia]. inversion Hp; subst. exists [], []. split; [now constructor|constructor].
  - destruct (all_holdb s (t_goal t)) eqn:E.
    + apply all_holdb_spec in E. exists [], os. split; [now constructor|]. apply Permutation_refl.
    + assert (Hng : ~ goal_state t s) by (unfold goal_state; rewrite <- all_holdb_spec; congruence). destruct (HP s Hs Hng) as (ops & Env & T & Hpr & HEnv & HT & Hops).
      destruct (stubborn_step s Env T os s' Hs HEnv HT Hp Hg) as (x & s1 & os1 & A & B & C & D & F).
      assert (Hlen : length os1 <= n) by (apply Permutation_length in F; cbn [length] in F; lia).
      assert (Hs1 : state_ok t s1) by (apply (path_ok [x] s s1 Hs); econstructor; eauto; constructor).
      destruct (IH os1 s1 s' Hlen Hs1 D Hg) as (os' & rest & G & H). exists (x :: os'), rest. split.
      * econstructor; eauto. apply Hops; auto. now apply app_ops_spec.
      * eapply Permutation_trans; [exact F|]. cbn [app]. now constructor.
Qed.
Lemma plan_cost_perm os os' : Permutation os os' -> plan_cost t os = plan_cost t os'.
Proof. intros H. unfold plan_cost. induction H; unfold list_sum in *; simpl in *; [reflexivity|congruence|lia|congruence]. Qed.
Lemma plan_cost_app os os' : plan_cost t (os ++ os') = plan_cost t os + plan_cost t os'.
Proof. unfold plan_cost. now rewrite map_app, list_sum_app. Qed.
Lemma pruned_is_plan prune s os : pruned_plan t prune s os -> exists s', task_path t s os s' /\ goal_state t s'.
Proof. induction 1 as [s Hg|s o s' os ops _ _ _ Ha Hp _ (s2 & A & B)]; [exists s; split; auto; constructor|]. exists s2. split; auto. econstructor; eauto. Qed.
End S.
