(** Flaws of abstract solutions and the splits they offer. *)
From Verif Require Import Outcome Spec_Task Spec_Relaxation Spec_Cartesian Model_Task Model_Cartesian Model_CEGAR Proof_Task Proof_LMCut1 Proof_Cartesian1 Proof_Cartesian2 Proof_Cartesian3 Proof_Cartesian4 Proof_Cartesian5 Proof_Cartesian6 Proof_CEGAR1.

Section FLAWS.
Variable t : task.
Hypothesis Ht : cartesian_task t.
Notation N := (length (t_vars t)).
Notation doms := (doms t).
Notation num A := (length (ab_states A)).

Lemma doms_len : length doms = N.
Proof. unfold Proof_Cartesian2.doms. apply map_length. Qed.
Lemma shape_len c : shape c doms -> length c = N.
Proof. intros [H _]. now rewrite H, doms_len. Qed.
Lemma fact_var f : fact_ok t f -> fst f < N.
Proof. intros (x & Hx & _). eapply nth_error_Some_lt; eauto. Qed.

Lemma fold_single_ok : forall fs c, shape c doms -> (forall f, In f fs -> fact_ok t f) -> NoDup (map fst fs) ->
  exists c', fold_outcome (fun c f => cs_set_single c (fst f) (snd f)) fs c = Ok c' /\ shape c' doms /\
    forall x d, has c' x d <-> In (x, d) fs \/ (~ In x (map fst fs) /\ has c x d).
Proof.
  induction fs as [|f fs IH]; intros c Sc Hok Hn; cbn [fold_outcome].
  - exists c. splits; auto. intros x d. cbn. tauto.
  - cbn [map] in Hn. inversion Hn as [|? ? Hni Hn']; subst. assert (Hf := Hok f (or_introl eq_refl)).
    destruct (set_single_ok c (fst f) (snd f) doms Sc) as (c1 & E1 & S1 & H1); [rewrite shape_len by auto; now apply fact_var|now apply fact_dom|].
    rewrite E1. cbn [bind]. destruct (IH c1 S1 (fun g Hg => Hok g (or_intror Hg)) Hn') as (c2 & E2 & S2 & H2). exists c2. splits; auto.
    intros x d. rewrite H2, H1. cbn [map In]. destruct (Nat.eqb_spec (fst f) x) as [<-|Hx].
    + split.
      * intros [H|[H ->]]; [auto|]. left. left. now destruct f.
      * intros [[E|H]|[H _]]; [right; split; [auto|destruct f; now inversion E]|auto|tauto].
    + split.
      * intros [H|[H H']]; auto. right. split; auto. tauto.
      * intros [[E|H]|[H H']]; [destruct f; inversion E; cbn in Hx; congruence|auto|right; tauto].
Qed.
Lemma get_cartesian_set_ok fs : (forall f, In f fs -> fact_ok t f) -> NoDup (map fst fs) ->
  exists c, get_cartesian_set doms fs = Ok c /\ shape c doms /\ forall x d, has c x d <-> In (x, d) fs \/ (~ In x (map fst fs) /\ d < nth x doms 0).
Proof.
  intros Hf Hn. destruct (fold_single_ok fs (full_cset doms) (full_shape doms) Hf Hn) as (c & E & S & H). exists c. splits; auto. intros x d. rewrite H, full_has. tauto.
Qed.
Lemma fold_addall_ok : forall es c, shape c doms -> (forall e, In e es -> fact_ok t (eff_fact e)) ->
  exists c', fold_outcome (fun c e => cs_add_all c (fst (eff_fact e))) es c = Ok c' /\ shape c' doms /\
    forall x d, has c' x d <-> if in_dec Nat.eq_dec x (map (fun e => fst (eff_fact e)) es) then d < nth x doms 0 else has c x d.
Proof.
  induction es as [|e es IH]; intros c Sc Hok; cbn [fold_outcome].
  - exists c. splits; auto. intros x d. cbn. tauto.
  - assert (He := Hok e (or_introl eq_refl)). destruct (fill_ok true c (fst (eff_fact e)) doms Sc) as (c1 & E1 & S1 & H1); [rewrite shape_len by auto; now apply fact_var|].
    unfold cs_add_all at 1. rewrite E1. cbn [bind]. destruct (IH c1 S1 (fun g Hg => Hok g (or_intror Hg))) as (c2 & E2 & S2 & H2). exists c2. splits; auto.
    intros x d. rewrite H2. cbn [map]. destruct (in_dec Nat.eq_dec x (map (fun e => fst (eff_fact e)) es)) as [Hi|Hi]; destruct (in_dec Nat.eq_dec x (fst (eff_fact e) :: map (fun e => fst (eff_fact e)) es)) as [Hj|Hj].
    + tauto.
    + destruct Hj. now right.
    + destruct Hj as [<-|Hj]; [|contradiction]. rewrite H1, Nat.eqb_refl. tauto.
    + rewrite H1. destruct (Nat.eqb_spec (fst (eff_fact e)) x) as [<-|]; [destruct Hj; now left|tauto].
Qed.
Lemma regress_ok c o op : shape c doms -> nth_error (t_ops t) o = Some op ->
  exists c', regress c op = Ok c' /\ shape c' doms /\
    forall x d, has c' x d <-> In (x, d) (op_pre op) \/ (~ In x (map fst (op_pre op)) /\
       if in_dec Nat.eq_dec x (map (fun e => fst (eff_fact e)) (op_effs op)) then d < nth x doms 0 else has c x d).
Proof.
  intros Sc Hop. destruct (ct_op t Ht o op Hop) as (Hn & _ & Hp & He). unfold regress. destruct (fold_addall_ok (op_effs op) c Sc He) as (c1 & E1 & S1 & H1). rewrite E1. cbn [bind].
  destruct (fold_single_ok (op_pre op) c1 S1 Hp Hn) as (c2 & E2 & S2 & H2). exists c2. splits; auto. intros x d. rewrite H2. now rewrite H1.
Qed.

Lemma last_eff_var es x : last_eff es x None = None <-> ~ In x (map (fun e => fst (eff_fact e)) es).
Proof.
  split.
  - intros H Hi. apply in_map_iff in Hi as (e & E & Hi). destruct (last_eff_Some es x None e Hi E) as (d & Hd). congruence.
  - intros H. destruct (last_eff es x None) as [d|] eqn:E; auto. apply last_eff_In in E as [E|(e & He & E)]; [discriminate|]. destruct H. apply in_map_iff. exists e. rewrite E. auto.
Qed.
Lemma preV_None op x : NoDup (map fst (op_pre op)) -> preV op x = None <-> ~ In x (map fst (op_pre op)).
Proof.
  intros Hn. split.
  - intros H Hi. apply in_map_iff in Hi as ([y d] & E & Hi). cbn in E. subst y. apply (preV_spec op x d Hn) in Hi. congruence.
  - intros H. destruct (preV op x) as [d|] eqn:E; auto. apply (preV_spec op x d Hn) in E. destruct H. change x with (fst (x, d)). now apply in_map.
Qed.

(** What a flaw needs: the state is in the abstract state but not in the desired set, and where it
    differs from the desired set, the abstract state has a desired value. *)
Record fits (c desired : cset) (s : state) : Prop := {
  ft_in : in_cset c s; ft_shape : shape desired doms;
  ft_out : exists x, x < N /\ ~ has desired x (nth x s 0);
  ft_val : forall x, x < N -> ~ has desired x (nth x s 0) -> exists d, has c x d /\ has desired x d }.

Lemma has_dec c x d : {has c x d} + {~ has c x d}.
Proof. unfold has. destruct (nth d (nth x c []) false); [left; auto|right; discriminate]. Qed.

Lemma wanted_ok c desired x : shape c doms -> shape desired doms -> x < N -> forall vs, (forall d, In d vs -> d < nth x doms 0) -> NoDup vs ->
  exists w, wanted_values c desired x vs = Ok w /\ NoDup w /\ forall d, In d w <-> In d vs /\ has c x d /\ has desired x d.
Proof.
  intros Sc Sd Hx. induction vs as [|d vs IH]; intros Hv Hn; cbn [wanted_values].
  - exists []. split; [reflexivity|]. split; [constructor|]. intros d. cbn. tauto.
  - inversion Hn as [|? ? Hni Hn']; subst. assert (Hd := Hv d (or_introl eq_refl)). destruct (IH (fun e He => Hv e (or_intror He)) Hn') as (w & E & Hnw & Hw).
    rewrite test_ok; [|rewrite shape_len by auto; auto|destruct Sc as [_ ->]; auto]. cbn [bind].
    assert (Td : cs_test desired x d = Ok (nth d (nth x desired []) false)) by (apply test_ok; [rewrite shape_len by auto; auto|destruct Sd as [_ ->]; auto]).
    assert (Er : (if nth d (nth x c []) false then cs_test desired x d else Ok false) = Ok (nth d (nth x c []) false && nth d (nth x desired []) false)) by (destruct (nth d (nth x c []) false); auto).
    rewrite Er. cbn [bind]. rewrite E. cbn [bind]. eexists. split; [reflexivity|]. unfold has in *.
    destruct (nth d (nth x c []) false) eqn:E1; [destruct (nth d (nth x desired []) false) eqn:E2|]; cbn [andb].
    + split; [constructor; [rewrite Hw; tauto|auto]|]. intros e. cbn [In]. rewrite Hw. split; [intros [<-|(H1 & H2 & H3)]; auto|intros ([<-|H] & H1 & H2); auto].
    + split; auto. intros e. cbn [In]. rewrite Hw. split; [intros (H1 & H2 & H3); auto|intros ([<-|H] & H1 & H2); [congruence|auto]].
    + split; auto. intros e. cbn [In]. rewrite Hw. split; [intros (H1 & H2 & H3); auto|intros ([<-|H] & H1 & H2); [congruence|auto]].
Qed.

Lemma splits_ok c desired s : shape c doms -> state_ok t s -> fits c desired s -> forall fs, (forall f, In f fs -> holds s f) ->
  exists l, splits_from doms c desired fs = Ok l /\
    (forall x w, In (x, w) l -> x < N /\ ~ has desired x (nth x s 0) /\ w <> [] /\ NoDup w /\ forall d, In d w -> has c x d /\ has desired x d) /\
    forall x, In (x, nth x s 0) fs -> ~ has desired x (nth x s 0) -> l <> [].
Proof.
  intros Sc Hs [Fi Fs Fo Fv]. induction fs as [|[x d] fs IH]; intros Hf; cbn [splits_from fst snd].
  - exists []. split; [reflexivity|]; split; [intros x w []|intros x []].
  - destruct (IH (fun f H => Hf f (or_intror H))) as (l & E & H1 & H2). assert (Hxd := Hf _ (or_introl eq_refl)). destruct (holds_nth t s x d Hs Hxd) as [Hx ->].
    destruct (state_holds t s x Hs Hx) as [_ Hd]. rewrite test_ok; [|rewrite shape_len by auto; auto|destruct Fs as [_ ->]; auto]. cbn [bind].
    destruct (has_dec desired x (nth x s 0)) as [Hh|Hh].
    + unfold has in Hh. rewrite Hh. cbn [bind]. rewrite E. cbn [bind app]. exists l. splits; auto. intros y [Ey|Hy] Hn; [inversion Ey; subst y; now unfold has in Hn|eauto].
    + assert (Hh' : nth (nth x s 0) (nth x desired []) false = false) by (unfold has in Hh; destruct (nth (nth x s 0) (nth x desired []) false); congruence).
      rewrite Hh'. assert (Ed : vget doms x = Ok (nth x doms 0)) by (unfold vget; rewrite (nth_error_nth' doms 0); auto; rewrite doms_len; auto). rewrite Ed. cbn [bind].
      destruct (wanted_ok c desired x Sc Fs Hx (seq 0 (nth x doms 0))) as (w & Ew & Hnw & Hw); [intros e He; apply in_seq in He; lia|apply seq_NoDup|]. rewrite Ew. cbn [bind].
      destruct (Fv x Hx Hh) as (e & He1 & He2). assert (Hin : In e w).
      { apply Hw. splits; auto. apply in_seq. apply has_lt in He1 as [_ He1]. destruct Sc as [_ Sc]. rewrite Sc in He1. lia. }
      assert (Hne : w <> []) by (intros ->; destruct Hin). destruct (Nat.eqb_spec (length w) 0) as [Hl|_]; [destruct w; [congruence|discriminate]|]. cbn [negb guard bind].
      rewrite E. cbn [bind app]. exists ((x, w) :: l). splits; auto; [|discriminate].
      intros y w' [Ey|Hy]; [inversion Ey; subst y w'|auto]. splits; auto. intros d Hd'. apply Hw in Hd'. tauto.
Qed.
Lemma possible_splits_ok c desired s : shape c doms -> state_ok t s -> fits c desired s ->
  exists l, get_possible_splits doms c desired s = Ok l /\ l <> [] /\
    forall x w, In (x, w) l -> x < N /\ w <> [] /\ NoDup w /\ (forall d, In d w -> has c x d) /\ has c x (nth x s 0) /\ ~ In (nth x s 0) w.
Proof.
  intros Sc Hs HF. unfold get_possible_splits. destruct (splits_ok c desired s Sc Hs HF (combine (seq 0 (length s)) s)) as (l & E & H1 & H2); [intros f Hf; now apply state_facts|].
  rewrite E. cbn [bind]. destruct HF as [Fi Fs (x & Hx & Hn) Fv]. assert (Hl : l <> []).
  { apply (H2 x); auto. apply state_facts. apply (state_holds t s x Hs Hx). }
  destruct (Nat.eqb_spec (length l) 0) as [Hz|_]; [destruct l; [congruence|discriminate]|]. cbn [negb guard bind]. exists l. splits; auto.
  intros y w Hy. destruct (H1 y w Hy) as (A1 & A2 & A3 & A4 & A5). splits; auto.
  - intros d Hd. apply (A5 d Hd).
  - apply (Fi (y, nth y s 0)). apply (state_holds t s y Hs A1).
  - intros Hd. apply A5 in Hd. tauto.
Qed.

(** The three kinds of flaws. *)
Lemma fits_pre c c' o op s : state_ok t s -> nth_error (t_ops t) o = Some op -> edge t op c c' -> in_cset c s -> ~ all_hold s (op_pre op) ->
  exists d, get_cartesian_set doms (op_pre op) = Ok d /\ fits c d s.
Proof.
  intros Hs Hop He Hc Hna. destruct (ct_op t Ht o op Hop) as (Hn & _ & Hp & _). destruct (get_cartesian_set_ok (op_pre op) Hp Hn) as (d & E & Sd & Hd). exists d. split; auto. constructor; auto.
  - assert (G : forall fs, incl fs (op_pre op) -> ~ all_hold s fs -> exists x, x < N /\ ~ has d x (nth x s 0)).
    { induction fs as [|[x v] fs IH]; intros Hi Hnh; [destruct Hnh; intros f []|]. assert (Hin : In (x, v) (op_pre op)) by (apply Hi; now left). pose proof (fact_var _ (Hp _ Hin)) as Hx. cbn in Hx.
      destruct (Nat.eq_dec (nth x s 0) v) as [Ev|Ev].
      - apply IH; [intros f Hf; apply Hi; now right|]. intros Ha. apply Hnh. intros f [<-|Hf]; [|auto]. rewrite <- Ev. apply (state_holds t s x Hs Hx).
      - exists x. split; auto. rewrite Hd. intros [H|[H _]]; [|destruct H; change x with (fst (x, v)); now apply in_map]. apply Ev. eapply NoDup_fst_unique; eauto. }
    apply (G (op_pre op)); auto. apply incl_refl.
  - intros x Hx Hnx. destruct (in_dec Nat.eq_dec x (map fst (op_pre op))) as [Hi|Hi].
    + apply in_map_iff in Hi as ([y v] & Ey & Hi). cbn in Ey. subst y. exists v. split; [|apply Hd; auto]. destruct (He x Hx) as [H1 _]. now rewrite (proj2 (preV_spec op x v Hn) Hi) in H1.
    + destruct Hnx. apply Hd. right. split; auto. apply (state_holds t s x Hs Hx).
Qed.
Lemma fits_step c c' o op s : state_ok t s -> nth_error (t_ops t) o = Some op -> shape c doms -> shape c' doms -> edge t op c c' -> in_cset c s -> all_hold s (op_pre op) ->
  ~ in_cset c' (apply_effects s (op_effs op)) -> exists d, regress c' op = Ok d /\ fits c d s.
Proof.
  intros Hs Hop Sc Sc' He Hc Ha Hn'. destruct (ct_op t Ht o op Hop) as (Hn & Hcond & Hp & Hef). destruct (regress_ok c' o op Sc' Hop) as (d & E & Sd & Hd). exists d. split; auto.
  assert (Pre : forall x v, In (x, v) (op_pre op) -> nth x s 0 = v).
  { intros x v Hi. apply Ha in Hi. destruct (holds_nth t s x v Hs Hi) as [_ H]. auto. }
  constructor; auto.
  - (* some variable differs *)
    assert (G : forall k, k <= N -> (forall x, x < k -> has d x (nth x s 0)) \/ exists x, x < N /\ ~ has d x (nth x s 0)).
    { induction k as [|k IH]; intros Hk; [left; intros; lia|]. destruct IH as [IH|IH]; [lia| |auto]. destruct (has_dec d k (nth k s 0)) as [H|H]; [|right; exists k; split; auto].
      left. intros x Hx. destruct (Nat.eq_dec x k) as [->|]; auto. apply IH. lia. }
    destruct (G N (le_n _)) as [H|H]; [|exact H]. exfalso. apply Hn'. intros [x v] Hv. cbn [fst snd]. unfold holds in Hv. cbn [fst snd] in Hv.
    assert (Hx : x < length s) by (rewrite <- (apply_effects_length s (op_effs op)); eapply nth_error_Some_lt; eauto). rewrite (apply_effects_last s _ x Hcond Hx) in Hv.
    assert (HxN : x < N) by (rewrite <- (state_ok_length t s Hs); auto). destruct (He x HxN) as [He1 He2]. rewrite (postV_spec op x Hn), last_eff_none in He2.
    destruct (last_eff (op_effs op) x None) as [q|] eqn:El; [injection Hv as <-; exact He2|]. rewrite (nth_error_nth' s 0 Hx) in Hv. injection Hv as <-.
    destruct (preV op x) as [p|] eqn:Ep.
    + apply (preV_spec op x p Hn) in Ep. now rewrite (Pre x p Ep).
    + specialize (H x HxN). apply Hd in H. apply last_eff_var in El. apply (preV_None op x Hn) in Ep. destruct H as [H|[_ H]].
      * destruct Ep. change x with (fst (x, nth x s 0)). now apply in_map.
      * destruct (in_dec Nat.eq_dec x (map (fun e => fst (eff_fact e)) (op_effs op))); [contradiction|auto].
  - intros x Hx Hnx. destruct (He x Hx) as [He1 He2]. rewrite Hd in Hnx.
    assert (Hp' : ~ In x (map fst (op_pre op))).
    { intros Hi. apply in_map_iff in Hi as ([y v] & Ey & Hi). cbn in Ey. subst y. apply Hnx. left. now rewrite (Pre x v Hi). }
    assert (He' : ~ In x (map (fun e => fst (eff_fact e)) (op_effs op))).
    { intros Hi. apply Hnx. right. split; auto. destruct (in_dec Nat.eq_dec x (map (fun e => fst (eff_fact e)) (op_effs op))); [apply (state_holds t s x Hs Hx)|contradiction]. }
    rewrite (postV_spec op x Hn), last_eff_none in He2. rewrite (proj2 (last_eff_var _ _) He') in He2. rewrite (proj2 (preV_None op x Hn) Hp') in He2. destruct He2 as (v & H1 & H2).
    exists v. split; auto. apply Hd. right. split; auto. destruct (in_dec Nat.eq_dec x (map (fun e => fst (eff_fact e)) (op_effs op))); [contradiction|auto].
Qed.
Lemma fits_goal c s : state_ok t s -> in_cset c s -> (forall f, In f (t_goal t) -> has c (fst f) (snd f)) -> ~ goal_state t s ->
  exists d, get_cartesian_set doms (t_goal t) = Ok d /\ fits c d s.
Proof.
  intros Hs Hc Hg Hng. assert (Hn : NoDup (map fst (t_goal t))) by apply Ht. destruct (get_cartesian_set_ok (t_goal t) (goal_ok t Ht) Hn) as (d & E & Sd & Hd). exists d. split; auto. constructor; auto.
  - assert (G : forall fs, incl fs (t_goal t) -> ~ all_hold s fs -> exists x, x < N /\ ~ has d x (nth x s 0)).
    { induction fs as [|[x v] fs IH]; intros Hi Hnh; [destruct Hnh; intros f []|]. assert (Hin : In (x, v) (t_goal t)) by (apply Hi; now left). pose proof (fact_var _ (goal_ok t Ht _ Hin)) as Hx. cbn in Hx.
      destruct (Nat.eq_dec (nth x s 0) v) as [Ev|Ev].
      - apply IH; [intros f Hf; apply Hi; now right|]. intros Ha. apply Hnh. intros f [<-|Hf]; [|auto]. rewrite <- Ev. apply (state_holds t s x Hs Hx).
      - exists x. split; auto. rewrite Hd. intros [H|[H _]]; [|destruct H; change x with (fst (x, v)); now apply in_map]. apply Ev. eapply NoDup_fst_unique; eauto. }
    apply (G (t_goal t)); auto. apply incl_refl.
  - intros x Hx Hnx. destruct (in_dec Nat.eq_dec x (map fst (t_goal t))) as [Hi|Hi].
    + apply in_map_iff in Hi as ([y v] & Ey & Hi). cbn in Ey. subst y. exists v. split; [apply (Hg _ Hi)|apply Hd; auto].
    + destruct Hnx. apply Hd. right. split; auto. apply (state_holds t s x Hs Hx).
Qed.

(** Which states of an abstraction may be goals without containing the goal facts: those without
    any fact of [R] for some variable; the trace never enters them before reaching a goal. *)
Variable R : fact -> Prop.
Definition inR (c : cset) : Prop := forall x d, has c x d -> R (x, d).
Definition outR (c : cset) : Prop := exists x, x < N /\ forall d, has c x d -> ~ R (x, d).
Definition classes (A : abstraction) : Prop := forall i, i < num A ->
  (inR (csA A i) /\ (In i (ab_goals A) -> forall f, In f (t_goal t) -> has (csA A i) (fst f) (snd f))) \/ (In i (ab_goals A) /\ outR (csA A i)).
Definition good (s : state) : Prop := goal_state t s \/ forall f, holds s f -> R f.
Hypothesis Rinit : forall f, holds (t_init t) f -> R f.
Hypothesis Rstep : forall s o op, state_ok t s -> ~ goal_state t s -> good s -> nth_error (t_ops t) o = Some op -> all_hold s (op_pre op) -> good (apply_effects s (op_effs op)).

Lemma good_in A i s : classes A -> i < num A -> state_ok t s -> in_cset (csA A i) s -> good s -> ~ goal_state t s ->
  inR (csA A i) /\ (In i (ab_goals A) -> forall f, In f (t_goal t) -> has (csA A i) (fst f) (snd f)).
Proof.
  intros HK Hi Hs Hc Hg Hn. destruct (HK i Hi) as [H|(_ & x & Hx & Ho)]; auto. destruct Hg as [Hg|Hg]; [contradiction|]. exfalso.
  destruct (state_holds t s x Hs Hx) as [Hh _]. apply (Ho (nth x s 0)); [apply (Hc _ Hh)|apply (Hg _ Hh)].
Qed.

Section A.
Variables (m : bool) (A : abstraction) (costs : list (option nat)).
Hypothesis HA : AI t m A.
Hypothesis HK : classes A.
Notation T := (c_out (ab_ts A)).
Notation isgoal := (fun x => In x (ab_goals A)).

Lemma out_In u o v : (exists l, nth_error T u = Some l /\ In (o, v) l) <-> u < num A /\ v < num A /\ u <> v /\ op_edge t o (csA A u) (csA A v).
Proof. rewrite nth_list. exact (i_out _ _ _ _ (ai_ts t m A HA) u o v). Qed.
Lemma T_len : length T = num A.
Proof. destruct (i_sized _ _ _ _ (ai_ts t m A HA)) as (_ & _ & S1 & S2 & S3). first [exact S1|exact S2|exact S3]. Qed.
Lemma vstate i : i < num A -> vget (ab_states A) i = Ok (nth i (ab_states A) dflt).
Proof. intros H. unfold vget. now rewrite nth_error_dflt. Qed.

Definition flaw_right (fl : flaw) : Prop := fl_abs fl < num A /\ state_ok t (fl_state fl) /\ fits (csA A (fl_abs fl)) (fl_desired fl) (fl_state fl) /\ good (fl_state fl) /\ ~ goal_state t (fl_state fl).

Lemma make_flaw_ok s a d : a < num A -> state_ok t s -> in_cset (csA A a) s -> make_flaw A s a d = Ok (Some {| fl_state := s; fl_abs := a; fl_desired := d |}).
Proof.
  intros Ha Hs Hc. unfold make_flaw. rewrite vstate by auto. cbn [bind]. destruct (includes_state_ok t (csA A a) s) as (b & E & Hb); auto; [now apply (ai_shape t m A HA)|].
  unfold csA in E. rewrite E. cbn [bind]. rewrite (proj2 Hb Hc). reflexivity.
Qed.

Lemma goal_dec s : {goal_state t s} + {~ goal_state t s}.
Proof. destruct (is_goalb t s) eqn:E; [left|right]; unfold goal_state; rewrite <- all_holdb_spec; unfold is_goalb in E; congruence. Qed.

Lemma find_flaw_from_ok : forall sol a w v s, apath (ed costs T) isgoal a sol w v -> In v (ab_goals A) -> a < num A -> state_ok t s -> in_cset (csA A a) s -> good s ->
  exists r, find_flaw_from t doms A s a sol = Ok r /\
    match r with
    | None => exists s', task_path t s (map fst sol) s' /\ goal_state t s'
    | Some fl => flaw_right fl
    end.
Proof.
  induction sol as [|[o x] sol IH]; intros a w v s Hp Hv Ha Hs Hc Hg; cbn [find_flaw_from].
  - assert (v = a) by (inversion Hp; auto). subst v. rewrite (proj2 (mem_In a (ab_goals A)) Hv). cbn [guard bind]. destruct (is_goalb t s) eqn:Eg.
    + exists None. split; [reflexivity|]. exists s. split; [constructor|]. unfold is_goalb in Eg. now apply all_holdb_spec.
    + assert (Hng : ~ goal_state t s) by (unfold goal_state; rewrite <- all_holdb_spec; unfold is_goalb in Eg; congruence).
      destruct (good_in A a s HK Ha Hs Hc Hg Hng) as [_ Hgf]. destruct (fits_goal (csA A a) s Hs Hc (Hgf Hv) Hng) as (d & Ed & HF). rewrite Ed. cbn [bind].
      rewrite make_flaw_ok by auto. eexists. split; [reflexivity|]. unfold flaw_right. cbn. auto.
  - inversion Hp as [|u o' x' c p w' v' Hna He Hp']; subst. destruct He as [He _]. apply out_In in He as (_ & Hx & Hne & op & Hop & Hed).
    assert (Ev : vget (t_ops t) o = Ok op) by (unfold vget; now rewrite Hop). rewrite Ev. cbn [bind]. rewrite vstate by auto. cbn [bind].
    assert (Hng : ~ goal_state t s). { intros Hgs. apply Hna. apply (ai_gcov t m A HA a Ha). intros f Hf. apply Hc. now apply Hgs. }
    destruct (all_holdb s (op_pre op)) eqn:Eh.
    + apply all_holdb_spec in Eh. assert (Hap : applicable t s o) by (exists op; auto). assert (Hpr : progress t s o (apply_effects s (op_effs op))) by (apply next_state; eauto).
      assert (Hs' : state_ok t (apply_effects s (op_effs op))) by (eapply next_ok; eauto).
      destruct (includes_state_ok t (csA A x) (apply_effects s (op_effs op))) as (b & E & Hb); auto; [now apply (ai_shape t m A HA)|]. unfold csA in E. rewrite E. cbn [bind]. fold (csA A x) in *. destruct b.
      * destruct (IH x w' v (apply_effects s (op_effs op)) Hp' Hv Hx Hs') as (r & Er & Hr); [now apply Hb|eapply Rstep; eauto|]. exists r. split; auto. destruct r as [fl|]; auto.
        destruct Hr as (s' & H1 & H2). exists s'. split; auto. cbn [map fst]. econstructor; eauto.
      * assert (Hn' : ~ in_cset (csA A x) (apply_effects s (op_effs op))) by (rewrite <- Hb; discriminate).
        destruct (fits_step (csA A a) (csA A x) o op s Hs Hop) as (d & Ed & HF); auto; try (now apply (ai_shape t m A HA)). rewrite Ed. cbn [bind].
        rewrite make_flaw_ok by auto. eexists. split; [reflexivity|]. unfold flaw_right. cbn. auto.
    + assert (Hna' : ~ all_hold s (op_pre op)) by (rewrite <- all_holdb_spec; congruence).
      destruct (fits_pre (csA A a) (csA A x) o op s Hs Hop Hed Hc Hna') as (d & Ed & HF). rewrite Ed. cbn [bind]. rewrite make_flaw_ok by auto.
      eexists. split; [reflexivity|]. unfold flaw_right. cbn. auto.
Qed.
Lemma find_flaw_ok sol w v : apath (ed costs T) isgoal (ab_init A) sol w v -> In v (ab_goals A) ->
  exists r, find_flaw t doms A sol = Ok r /\
    match r with
    | None => exists s', task_path t (t_init t) (map fst sol) s' /\ goal_state t s'
    | Some fl => flaw_right fl
    end.
Proof.
  intros Hp Hv. unfold find_flaw. destruct (ai_init t m A HA) as [Hi Hc]. rewrite vstate by auto. cbn [bind].
  destruct (includes_state_ok t (csA A (ab_init A)) (t_init t)) as (b & E & Hb); [now apply (ai_shape t m A HA)|now apply init_ok|]. unfold csA in E. rewrite E. cbn [bind]. rewrite (proj2 Hb Hc). cbn [guard bind].
  eapply find_flaw_from_ok; eauto; [now apply init_ok|]. right. exact Rinit.
Qed.

(** Splitting a flawed state. *)
Lemma split_flaw fl x wanted : flaw_right fl -> x < N -> wanted <> [] -> NoDup wanted -> (forall d, In d wanted -> has (csA A (fl_abs fl)) x d) ->
  has (csA A (fl_abs fl)) x (nth x (fl_state fl) 0) -> ~ In (nth x (fl_state fl) 0) wanted ->
  legal A (fl_abs fl) x wanted /\ forall A', refine A (fl_abs fl) x wanted = Ok A' -> classes A'.
Proof.
  intros (Hv & Hs & HF & Hg & Hng) Hx Hne Hnd Hw Hh Hn. assert (Hl : legal A (fl_abs fl) x wanted).
  { split; [exact Hv|]. split; [exact Hne|]. split; [exact Hnd|]. split; [exact Hw|]. exists (nth x (fl_state fl) 0). auto. }
  split; auto. intros A' E. set (v := fl_abs fl) in *. destruct (refine_ok t Ht m A v x wanted HA Hl) as (A2 & E2 & HA2 & Hnum & P1 & P2 & P3 & P4 & _). assert (A2 = A') by congruence. subst A2.
  destruct (good_in A v (fl_state fl) HK Hv Hs (ft_in _ _ _ HF) Hg Hng) as [Hin _].
  intros i Hi. rewrite Hnum in Hi. destruct (Nat.eq_dec i v) as [->|Hiv]; [|destruct (Nat.eq_dec i (num A)) as [->|Hin']].
  - left. split; [intros y d Hd; apply P1 in Hd; apply Hin; tauto|]. intros Hgl f Hf. apply P4 in Hgl. destruct Hgl as [[H _]|(_ & _ & H)]; [congruence|auto].
  - left. split; [intros y d Hd; apply P2 in Hd; apply Hin; tauto|]. intros Hgl f Hf. apply P4 in Hgl. destruct Hgl as [[_ H]|(_ & _ & H)]; [|auto]. apply (ai_glt t m A HA) in H. lia.
  - assert (Hi' : i < num A) by lia. rewrite (P3 i Hi' Hiv).
    assert (Hgi : In i (ab_goals A') <-> In i (ab_goals A)). { rewrite P4. split; [intros [[_ H]|(_ & [H|H] & _)]; [auto|congruence|lia]|auto]. }
    destruct (HK i Hi') as [[H1 H2]|[H1 H2]]; [left; split; auto; intros H; apply H2; tauto|right; split; [tauto|auto]].
Qed.
End A.
End FLAWS.
