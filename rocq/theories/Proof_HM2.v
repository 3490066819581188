(** h^m: the computed table is the fixpoint; admissibility. *)
From Coq Require Import Sorted.
From Verif Require Import Outcome Spec_Task Spec_Relaxation Spec_Projection Spec_HM Model_Task Proof_Task Model_MAS Proof_MAS1 Model_HM Proof_HM1 Proof_PDB3.

(** *** The specified value *)
Section Spec.
Variables (m : nat) (t : task) (s : state).
Notation hle := (hm_le m t s).
Lemma at_most_sub S S' : incl S' S -> at_most m S -> at_most m S'.
Proof. intros H (L & Hi & Hl). exists L. split; auto. now apply (incl_tran H). Qed.
Lemma hle_mono_c S c c' : c <= c' -> hle S c -> hle S c'.
Proof.
  intros Hc H. revert c' Hc. induction H as [S c H|S R op c c0 Hs Ho Hr HR IH Hle|S c H IH]; intros c' Hc.
  - now apply hm_state.
  - eapply hm_op; eauto. lia.
  - apply hm_split. auto.
Qed.
Lemma consistent_sub S S' : incl S' S -> consistent S -> consistent S'.
Proof. intros H C f g Hf Hg. apply C; auto. Qed.
Lemma hle_mono S c : hle S c -> forall S', incl S' S -> hle S' c.
Proof.
  induction 1 as [S c H|S R op c c0 Hs Ho Hr HR IH Hle|S c H IH]; intros S' Hi.
  - apply hm_state. intros f Hf. auto.
  - destruct (existsb (fun f => mem f (op_facts op)) S') eqn:E.
    + apply existsb_exists in E as (f & Hf & Hm). apply mem_In in Hm. destruct Hr as (H1 & H2 & H3 & H4).
      set (R' := op_pre op ++ filter (fun f => negb (mem f (op_facts op))) S').
      assert (HR' : forall f, In f R' <-> In f (op_pre op) \/ (In f S' /\ ~ In f (op_facts op))).
      { intros g. unfold R'. rewrite in_app_iff, filter_In, negb_true_iff, mem_not. tauto. }
      assert (Hsub : incl R' R) by (intros g Hg; apply HR' in Hg; apply H3; destruct Hg as [|[]]; auto).
      apply (hm_op _ _ _ _ R' op c c0); auto; [eapply at_most_sub; eauto|]. split; [exists f; auto|]. splits; auto. eapply consistent_sub; eauto.
    + apply (hle_mono_c _ c0); [lia|]. apply IH. intros f Hf. destruct Hr as (_ & _ & H3 & _). apply H3. right. split; auto. intros Hin.
      apply mem_In in Hin. rewrite <- not_true_iff_false in E. apply E. apply existsb_exists. eauto.
  - apply hm_split. intros S2 H2 Hm. apply H; auto. now apply (incl_tran H2).
Qed.
End Spec.

(** *** Admissibility *)
Section Adm.
Variables (m : nat) (t : task).
Hypothesis Ht : hm_task t.
Lemma no_layer v : layer_of t v = None.
Proof. destruct Ht as (_ & [_ H] & _). apply H. Qed.
Lemma eff_range op s e : state_ok t s -> In op (t_ops t) -> In e (op_effs op) -> fst (eff_fact e) < length s.
Proof.
  intros Hs Ho He. destruct Ht as ((_ & H & _) & _). rewrite Forall_forall in H. destruct (H _ Ho) as [_ H2]. rewrite Forall_forall in H2. destruct (H2 _ He) as (_ & (x & Hx & _) & _).
  assert (length s = length (t_vars t)) as -> by (clear -Hs; induction Hs; cbn; auto). eapply nth_error_Some_lt; eauto.
Qed.
Lemma step_writes s o op s' : state_ok t s -> nth_error (t_ops t) o = Some op -> progress t s o s' -> writes (op_facts op) s s'.
Proof.
  intros Hs Ho Hp. pose proof (nth_error_In _ _ Ho) as Hin. destruct Ht as (_ & [Hr _] & Hop & _). destruct (Hop _ Hin) as (Hc & _ & Hn).
  apply (progress_writes t s o op s'); auto; [apply no_layer| |intros e He; eapply eff_range; eauto]. unfold op_facts in Hn. now rewrite map_map in Hn.
Qed.
Lemma writes_ok s op s' : state_ok t s -> In op (t_ops t) -> writes (op_facts op) s s' -> state_ok t s'.
Proof.
  intros Hs Hin (Hl & H1 & H2). unfold state_ok in *. destruct Ht as ((_ & H & _) & _). rewrite Forall_forall in H. destruct (H _ Hin) as [_ HE]. rewrite Forall_forall in HE.
  assert (Hlen : length s = length (t_vars t)) by (clear -Hs; induction Hs; cbn; auto).
  assert (G : forall i x, nth_error s' i = Some x -> exists v, nth_error (t_vars t) i = Some v /\ x < vdom v).
  { intros i x Hi. destruct (in_dec Nat.eq_dec i (map fst (op_facts op))) as [Hin'|Hni].
    - apply in_map_iff in Hin' as (f & <- & Hf). pose proof (H1 _ Hf) as E. rewrite Hi in E. inversion E; subst x. unfold op_facts in Hf. apply in_map_iff in Hf as (e & <- & He). destruct (HE _ He) as (_ & (v & Hv & Hd) & _). exists v. auto.
    - rewrite (H2 _ Hni) in Hi. clear -Hs Hi. revert i Hi. induction Hs as [|a v s vs Ha _ IH]; intros [|i] Hi; cbn [nth_error] in *; try discriminate; [inversion Hi; subst; eauto|auto]. }
  clear -G Hlen Hl. assert (Hlen' : length s' = length (t_vars t)) by lia. clear -G Hlen'. revert G Hlen'. generalize (t_vars t) as vs. induction s' as [|a s' IH]; intros [|v vs] G Hl; try discriminate; constructor.
  - destruct (G 0 a) as (w & E & Hw); auto. inversion E; subst; auto.
  - apply IH; [intros i x Hi; apply (G (S i) x Hi)|cbn [length] in Hl; lia].
Qed.
Lemma path_hle s0 s os s' : task_path t s os s' -> state_ok t s -> forall c, (forall S, all_hold s S -> hm_le m t s0 S c) ->
  forall S, all_hold s' S -> hm_le m t s0 S (c + plan_cost t os).
Proof.
  induction 1 as [s|s o s1 os s' Ha Hp Hpath IH]; intros Hs c Hc S HS.
  - apply (hle_mono_c _ _ _ _ c); auto. lia.
  - destruct Ha as (op & Ho & Hpre). pose proof (nth_error_In _ _ Ho) as Hin. pose proof (step_writes _ _ _ _ Hs Ho Hp) as W. pose proof (writes_ok _ _ _ Hs Hin W) as Hs1.
    unfold plan_cost. cbn [map list_sum fold_right]. rewrite Ho. change (fold_right Nat.add 0) with list_sum. rewrite Nat.add_assoc. fold (plan_cost t os). apply IH; auto.
    clear S HS. intros S HS. apply hm_split. intros S' Hi Hm. assert (HS' : all_hold s1 S') by (intros f Hf; apply HS; auto). clear S HS Hi. rename S' into S, HS' into HS.
    destruct W as (_ & W1 & W2). assert (Hk : forall f, In f S -> ~ In f (op_facts op) -> holds s f).
    { intros f Hf Hnf. unfold holds. rewrite <- W2; [apply HS; auto|]. intros Hin'. apply in_map_iff in Hin' as (g & E & Hg). apply Hnf. pose proof (W1 g Hg) as Wg. rewrite E in Wg. pose proof (HS f Hf) as Wf. unfold holds in Wf. rewrite Wf in Wg. inversion Wg. destruct f, g. cbn [fst snd] in *. now subst. }
    destruct (existsb (fun f => mem f (op_facts op)) S) eqn:E.
    + apply existsb_exists in E as (f & Hf & Hmf). apply mem_In in Hmf.
      set (R := op_pre op ++ filter (fun f => negb (mem f (op_facts op))) S).
      assert (HR : forall f, In f R <-> In f (op_pre op) \/ (In f S /\ ~ In f (op_facts op))).
      { intros g. unfold R. rewrite in_app_iff, filter_In, negb_true_iff, mem_not. tauto. }
      assert (HRs : all_hold s R) by (intros g Hg; apply HR in Hg; destruct Hg as [|[]]; auto).
      apply (hm_op _ _ _ _ R op _ c); auto; [|lia]. split; [exists f; auto|]. split; [|split; auto].
      * intros g h Hg Hh Eg. pose proof (HS _ Hg) as X. unfold holds in X. rewrite Eg, (W1 _ Hh) in X. inversion X. destruct g, h. cbn [fst snd] in *. now subst.
      * intros g h Hg Hh Eg. pose proof (HRs _ Hg) as X. pose proof (HRs _ Hh) as Y. unfold holds in *. rewrite Eg in X. rewrite X in Y. inversion Y. destruct g, h. cbn [fst snd] in *. now subst.
    + apply (hle_mono_c _ _ _ _ c); [lia|]. apply Hc. intros f Hf. apply Hk; auto. intros Hin'. rewrite <- not_true_iff_false in E. apply E. apply existsb_exists. exists f. split; auto. now apply mem_In.
Qed.
Lemma plan_hle s os : state_ok t s -> task_plan_from t s os -> hm_le m t s (t_goal t) (plan_cost t os).
Proof.
  intros Hs (s' & Hp & Hg). apply (path_hle s s os s' Hp Hs 0); auto. intros S HS. now apply hm_state.
Qed.
End Adm.

(** *** The table *)
Definition keys (tab : table) : list tuple := map fst tab.
Definition le_entry (tab : table) (x : tuple) (c : nat) : Prop := exists v, lookup tab x = Some (Some v) /\ v <= c.

Lemma lookup_keys tab x : In x (keys tab) <-> exists v, lookup tab x = Some v.
Proof.
  induction tab as [|[k v] r IH]; cbn [keys map lookup fst In]; [split; [intros []|intros [v H]; discriminate]|]. destruct (tuple_eqb k x) eqn:E.
  - apply tuple_eqb_eq in E. split; eauto.
  - fold (keys r). rewrite IH. split; [intros [->|]; auto|auto]. replace (tuple_eqb x x) with true in E by (symmetry; now apply tuple_eqb_eq). discriminate.
Qed.
Lemma store_keys tab x v : keys (store tab x v) = keys tab.
Proof. unfold keys, store. rewrite map_map. apply map_ext. intros [k w]. cbn [fst]. now destruct (tuple_eqb k x). Qed.
Lemma lookup_store tab x v y : lookup (store tab x v) y = if tuple_eqb x y then match lookup tab y with Some _ => Some v | None => None end else lookup tab y.
Proof.
  induction tab as [|[k w] r IH]; [cbn; now destruct (tuple_eqb x y)|]. cbn [store map]. cbn [fst]. fold (store r x v). destruct (tuple_eqb k x) eqn:E.
  - apply tuple_eqb_eq in E. subst k. cbn [lookup]. destruct (tuple_eqb x y) eqn:E2; auto.
  - cbn [lookup]. destruct (tuple_eqb k y) eqn:E2; [|exact IH]. apply tuple_eqb_eq in E2. subst k. destruct (tuple_eqb x y) eqn:E3; auto. apply tuple_eqb_eq in E3. subst. replace (tuple_eqb y y) with true in E by (symmetry; now apply tuple_eqb_eq). discriminate.
Qed.

(** Termination measure: infinite entries, then the sum of the finite ones. *)
Definition ninf (tab : table) : nat := length (filter (fun e => match snd e with None => true | Some _ => false end) tab).
Definition nsum (tab : table) : nat := list_sum (map (fun e => match snd e with None => 0 | Some v => v end) tab).
Definition mlt (a b : table) : Prop := ninf a < ninf b \/ (ninf a = ninf b /\ nsum a < nsum b).
Lemma store_measure (tab : table) x val : NoDup (keys tab) -> forall v, lookup tab x = Some v -> greater v (Some val) = true -> mlt (store tab x (Some val)) tab.
Proof.
  unfold mlt. induction tab as [|[k w] r IH]; intros Hn v Hl Hg; [discriminate|]. cbn [keys map fst] in Hn. apply NoDup_cons_iff in Hn as [Hk Hn].
  cbn [lookup] in Hl. cbn [store map fst]. fold (store r x (Some val)). destruct (tuple_eqb k x) eqn:E.
  - inversion Hl; subst w. apply tuple_eqb_eq in E. subst k.
    assert (Es : store r x (Some val) = r).
    { unfold store. rewrite <- (map_id r) at 2. apply map_ext_in. intros [k w] Hin. cbn [fst]. destruct (tuple_eqb k x) eqn:E; auto. apply tuple_eqb_eq in E. subst k. destruct Hk. change x with (fst (x, w)). now apply in_map. }
    rewrite Es. unfold ninf, nsum. cbn [filter snd map]. destruct v as [v|]; cbn [greater] in Hg.
    + apply Nat.ltb_lt in Hg. right. split; auto. cbn [list_sum fold_right]. lia.
    + left. cbn [length]. lia.
  - specialize (IH Hn v Hl Hg). unfold ninf, nsum in *. cbn [filter snd map]. destruct w as [w|]; cbn [length list_sum fold_right]; change (fold_right Nat.add 0) with list_sum; destruct IH as [IH|[IH1 IH2]]; try (left; lia); right; split; lia.
Qed.

Section Prog.
Variables (m : nat) (t : task) (s : state).
Hypothesis Ht : hm_task t.
Hypothesis Hm : 1 <= m.
Hypothesis Hs : state_ok t s.
Notation hle := (hm_le m t s).

Record inv (tab : table) : Prop := {
  i_nd : NoDup (keys tab);
  i_keys : forall x, In x (keys tab) <-> key t m x;
  i_sound : forall x v, lookup tab x = Some (Some v) -> hle x v;
  i_zero : forall x, key t m x -> all_hold s x -> lookup tab x = Some (Some 0) }.
Definition rel (a b : hm_st) : Prop := b = a \/ (snd b = true /\ mlt (fst b) (fst a)).
Lemma mlt_trans a b c : mlt a b -> mlt b c -> mlt a c.
Proof. unfold mlt. lia. Qed.
Lemma rel_refl a : rel a a. Proof. now left. Qed.
Lemma rel_trans a b c : rel a b -> rel b c -> rel a c.
Proof.
  intros [->|[H1 H2]] [->|[H3 H4]]; unfold rel; auto. right. split; auto. eapply mlt_trans; eauto.
Qed.
Lemma rel_false a b : rel a b -> snd b = false -> b = a.
Proof. intros [->|[H _]] E; auto. congruence. Qed.

Lemma fold_rel {X} (f : hm_st -> X -> outcome hm_st) (Q : X -> hm_st -> Prop) l :
  (forall x a, In x l -> inv (fst a) -> exists b, f a x = Ok b /\ inv (fst b) /\ rel a b /\ (snd b = false -> Q x a)) ->
  forall a, inv (fst a) -> exists b, fold_outcome f l a = Ok b /\ inv (fst b) /\ rel a b /\ (snd b = false -> forall x, In x l -> Q x a).
Proof.
  induction l as [|x l IH]; intros Hf a Ha.
  - exists a. cbn [fold_outcome]. splits; auto using rel_refl. intros _ x [].
  - destruct (Hf x a) as (b & E & Hb & Hr & HQ); auto; [now left|]. destruct (IH (fun y a Hy => Hf y a (or_intror Hy)) b Hb) as (c & E2 & Hc & Hr2 & HQ2).
    exists c. cbn [fold_outcome]. rewrite E. cbn [bind]. splits; auto; [eapply rel_trans; eauto|].
    intros Hfl. pose proof (rel_false _ _ Hr2 Hfl) as <-. pose proof (rel_false _ _ Hr Hfl) as Eb. intros y [<-|Hy]; auto. rewrite <- Eb. auto.
Qed.

(** eval *)
Lemma eval_spec tab l : inv tab -> ssorted l -> Forall (fact_ok t) l ->
  exists v, eval m tab l = Ok v /\
    (forall c, v = Some c -> hle l c) /\
    (forall c, (forall x, key t m x -> incl x l -> le_entry tab x c) -> exists c', v = Some c' /\ c' <= c).
Proof.
  intros I Hss Hok.
  assert (G : forall ps mx, (forall x, In x ps -> key t m x) ->
    exists v, fold_outcome (fun mx x => match lookup tab x with Some h => Ok (if greater h mx then h else mx) | None => Exit (-6) end) ps mx = Ok v /\
     (forall c, v = Some c -> (exists c0, mx = Some c0 /\ c0 <= c) /\ forall x, In x ps -> le_entry tab x c) /\
     (forall c, (exists c0, mx = Some c0 /\ c0 <= c) -> (forall x, In x ps -> le_entry tab x c) -> exists c', v = Some c' /\ c' <= c)).
  { induction ps as [|x ps IH]; intros mx Hk; cbn [fold_outcome].
    - exists mx. splits; auto. intros c ->. split; [eauto|intros x []].
    - destruct (proj1 (lookup_keys tab x)) as [h Hh]; [apply (i_keys _ I); apply Hk; now left|]. rewrite Hh. cbn [bind].
      destruct (IH (if greater h mx then h else mx)) as (v & E & H1 & H2); [intros y Hy; apply Hk; now right|]. exists v. splits; auto.
      + intros c Hc. destruct (H1 c Hc) as ((c0 & E0 & Hc0) & H3).
        assert (Hb : (exists c0, mx = Some c0 /\ c0 <= c) /\ exists c1, h = Some c1 /\ c1 <= c).
        { destruct h as [h|], mx as [mx|]; cbn [greater] in E0; try discriminate.
          - destruct (mx <? h) eqn:El; inversion E0; subst; [apply Nat.ltb_lt in El|apply Nat.ltb_ge in El]; split; eexists; split; eauto; lia. }
        destruct Hb as [Hb1 (c1 & -> & Hc1)]. split; auto. intros y [<-|Hy]; auto. exists c1. auto.
      + intros c (c0 & -> & Hc0) Hall. apply H2; [|intros y Hy; apply Hall; now right]. destruct (Hall x (or_introl eq_refl)) as (w & Hw & Hwc). rewrite Hh in Hw. inversion Hw; subst h. cbn [greater]. destruct (c0 <? w); eauto. }
  destruct (G (partial_tuples m l) (Some 0)) as (v & E & H1 & H2); [intros x Hx; now apply (partial_key t m l x)|]. exists v. splits; [exact E| |].
  - intros c ->. destruct (H1 c eq_refl) as [_ H3]. apply hm_split. intros S' Hi (L & HL & Hlen).
    set (x := filter (fun f => mem f S') l).
    assert (Hx : forall f, In f S' <-> In f x) by (intros f; unfold x; rewrite filter_In, mem_In; split; [intros; split; auto|tauto]).
    assert (Hxs : ssorted x) by now apply ss_filter.
    destruct x as [|f0 x0] eqn:Ex; [apply hm_state; intros f Hf; apply Hx in Hf; destruct Hf|]. rewrite <- Ex in *.
    assert (Hxl : length x <= m).
    { assert (Hnd : NoDup x) by (apply ss_nd in Hxs; apply NoDup_map_inv in Hxs; auto). pose proof (NoDup_incl_length Hnd (l' := L)) as Q. assert (incl x L) by (intros f Hf; apply HL; now apply Hx). specialize (Q H). lia. }
    destruct (H3 x) as (w & Hw & Hwc); [apply partial_tuples_In; auto; splits; auto; [apply subseq_filter|rewrite Ex; discriminate]|].
    apply (hle_mono _ _ _ x); [|intros f Hf; now apply Hx]. apply (hle_mono_c _ _ _ _ w); auto. exact (i_sound _ I x w Hw).
  - intros c Hc. apply H2; [exists 0; split; auto; lia|]. intros x Hx. apply (partial_key t m l x) in Hx as [Hk Hi]; auto.
Qed.

(** update_entry *)
Lemma update_spec st x val : inv (fst st) -> key t m x -> hle x val ->
  exists st', update_entry st x val = Ok st' /\ inv (fst st') /\ rel st st' /\ (snd st' = false -> le_entry (fst st) x val).
Proof.
  intros I Hk Hv. unfold update_entry. destruct (proj1 (lookup_keys (fst st) x)) as [h Hh]; [now apply (i_keys _ I)|]. rewrite Hh.
  destruct (greater h (Some val)) eqn:E.
  - eexists. splits; [reflexivity| | |]; cbn [fst snd].
    + constructor.
      * rewrite store_keys. apply (i_nd _ I).
      * intros y. rewrite store_keys. apply (i_keys _ I).
      * intros y v. rewrite lookup_store. destruct (tuple_eqb x y) eqn:E2; [|apply (i_sound _ I)]. apply tuple_eqb_eq in E2. subst y. rewrite Hh. intros H. inversion H; subst; auto.
      * intros y Hy Hys. rewrite lookup_store. pose proof (i_zero _ I y Hy Hys) as Hz. destruct (tuple_eqb x y) eqn:E2; auto. apply tuple_eqb_eq in E2. subst y. rewrite Hz in Hh. inversion Hh; subst h. cbn in E. discriminate.
    + right. cbn [fst snd]. split; auto. eapply store_measure; eauto. apply (i_nd _ I).
    + discriminate.
  - exists st. splits; auto using rel_refl. intros _. destruct h as [h|]; cbn [greater] in E; [|discriminate]. apply Nat.ltb_ge in E. exists h. auto.
Qed.

(** One operator. *)
Section Op.
Variable op : operator.
Hypothesis Ho : In op (t_ops t).
Notation pre := (operator_pre op).
Notation eff := (operator_eff op).

Lemma pre_In f : In f pre <-> In f (op_pre op).
Proof. apply sort_In. Qed.
Lemma eff_In f : In f eff <-> In f (op_facts op).
Proof. apply sort_In. Qed.
Lemma pre_ss : ssorted pre.
Proof. apply sort_ss. destruct Ht as (_ & _ & H & _). apply (H _ Ho). Qed.
Lemma eff_ss : ssorted eff.
Proof. apply sort_ss. destruct Ht as (_ & _ & H & _). apply (H _ Ho). Qed.
Lemma pre_ok : Forall (fact_ok t) pre.
Proof. apply Forall_forall. intros f Hf. apply pre_In in Hf. destruct Ht as ((_ & H & _) & _). rewrite Forall_forall in H. destruct (H _ Ho) as [H1 _]. rewrite Forall_forall in H1. auto. Qed.
Lemma eff_ok : Forall (fact_ok t) eff.
Proof. apply Forall_forall. intros f Hf. apply eff_In in Hf. destruct Ht as ((_ & H & _) & _). rewrite Forall_forall in H. destruct (H _ Ho) as [_ H1]. rewrite Forall_forall in H1. unfold op_facts in Hf. apply in_map_iff in Hf as (e & <- & He). apply (H1 _ He). Qed.

Lemma contradict_spec x : existsb (contradict_effect_of op) x = false <-> forall f g, In f x -> In g (op_facts op) -> fst f = fst g -> f = g.
Proof.
  rewrite <- not_true_iff_false, existsb_exists. split.
  - intros H f g Hf Hg E. destruct (Nat.eq_dec (snd g) (snd f)) as [Es|Es]; [destruct f, g; cbn [fst snd] in *; now subst|]. exfalso. apply H. exists f. split; auto.
    unfold op_facts in Hg. apply in_map_iff in Hg as (e & <- & He). unfold contradict_effect_of. apply existsb_exists. exists e. split; auto. rewrite E, Nat.eqb_refl. cbn [andb]. apply negb_true_iff, Nat.eqb_neq. auto.
  - intros H (f & Hf & Hc). unfold contradict_effect_of in Hc. apply existsb_exists in Hc as (e & He & Hc). apply andb_true_iff in Hc as [H1 H2]. apply Nat.eqb_eq in H1. apply negb_true_iff, Nat.eqb_neq in H2. apply H2. rewrite (H f (eff_fact e)); auto. unfold op_facts. now apply in_map.
Qed.
Lemma extend_pre_In x0 t0 : forall p f, In f (extend_pre x0 t0 p) <-> In f p \/ (In f x0 /\ ~ In f t0).
Proof.
  induction x0 as [|g x0 IH]; intros p f; cbn [extend_pre In]; [tauto|]. rewrite IH. destruct (mem g t0) eqn:E1.
  - apply mem_In in E1. split; [tauto|]. intros [|[[<-|] ?]]; tauto.
  - apply mem_not in E1. destruct (mem g p) eqn:E2.
    + apply mem_In in E2. split; [tauto|]. intros [|[[<-|] ?]]; tauto.
    + rewrite in_app_iff. cbn [In]. split; [intros [[|[<-|[]]]|[]]; tauto|]. intros [|[[<-|] ?]]; tauto.
Qed.
Lemma extend_pre_nd x0 t0 : forall p, NoDup p -> NoDup (extend_pre x0 t0 p).
Proof.
  induction x0 as [|g x0 IH]; intros p Hp; cbn [extend_pre]; auto. apply IH. destruct (mem g t0); auto. destruct (mem g p) eqn:E; auto. apply mem_not in E.
  apply (Permutation.Permutation_NoDup (Permutation.Permutation_cons_append p g)). now constructor.
Qed.
Lemma is_valid_spec l : forall vs, is_valid vs l = true <-> NoDup (map fst l) /\ forall f, In f l -> ~ In (fst f) vs.
Proof.
  induction l as [|f l IH]; intros vs; cbn [is_valid map]; [split; auto; intros _; split; [constructor|intros f []]|].
  destruct (existsb (Nat.eqb (fst f)) vs) eqn:E.
  - apply existsb_exists in E as (v & Hv & E). apply Nat.eqb_eq in E. subst v. split; [discriminate|]. intros [_ H]. exfalso. apply (H f); auto. now left.
  - assert (Hf : ~ In (fst f) vs) by (intros Hin; rewrite <- not_true_iff_false in E; apply E; apply existsb_exists; exists (fst f); split; auto; apply Nat.eqb_refl).
    rewrite IH. rewrite NoDup_cons_iff. split.
    + intros [H1 H2]. split; [split; auto|].
      * intros Hin. apply in_map_iff in Hin as (g & Eg & Hg). apply (H2 g Hg). left. auto.
      * intros g [<-|Hg]; auto. intros Hin. apply (H2 g Hg). now right.
    + intros [[H1 H2] H3]. split; auto. intros g Hg [Eq|Hin]; [apply H1; rewrite Eq; now apply in_map|]. apply (H3 g); auto. now right.
Qed.

(** What a pass without updates guarantees. *)
Definition closed_for (x : tuple) (tab : table) : Prop :=
  forall c, existsb (contradict_effect_of op) x = false ->
    (exists f, In f x /\ In f (op_facts op)) ->
    (forall R, (forall f, In f R <-> In f (op_pre op) \/ (In f x /\ ~ In f (op_facts op))) -> consistent R) ->
    (forall y, key t m y -> (forall f, In f y -> In f (op_pre op) \/ (In f x /\ ~ In f (op_facts op))) -> le_entry tab y c) ->
    le_entry tab x (c + op_cost op).

Lemma consistent_nd (l : tuple) : NoDup l -> consistent l -> NoDup (map fst l).
Proof.
  induction l as [|f l IH]; intros Hn Hc; cbn [map]; [constructor|]. apply NoDup_cons_iff in Hn as [Hf Hn]. constructor.
  - intros Hin. apply in_map_iff in Hin as (g & E & Hg). apply Hf. rewrite (Hc f g); auto; [now left|now right].
  - apply IH; auto. intros g h Hg Hh. apply Hc; now right.
Qed.

Lemma extend_one_spec t0 st x : inv (fst st) -> key t m x -> t0 <> [] -> incl t0 (op_facts op) ->
  exists st', extend_one m op t0 st x = Ok st' /\ inv (fst st') /\ rel st st' /\
    (snd st' = false -> length t0 < length x -> (forall f, In f t0 <-> In f x /\ In f (op_facts op)) -> closed_for x (fst st)).
Proof.
  intros I Hk Ht0 Hi0. unfold extend_one.
  destruct (negb (existsb (contradict_effect_of op) x) && (length t0 <? length x) && tuple_in_tuple t0 x) eqn:E.
  2:{ exists st. splits; auto using rel_refl. intros _ Hl Heq c Hc _ _ _. exfalso. rewrite Hc in E. cbn [negb andb] in E. replace (length t0 <? length x) with true in E by (symmetry; now apply Nat.ltb_lt). cbn [andb] in E.
      apply not_true_iff_false in E. apply E. apply tuple_in. intros f Hf. now apply Heq. }
  apply andb_true_iff in E as [E E3]. apply andb_true_iff in E as [E1 E2]. apply negb_true_iff in E1. apply tuple_in in E3.
  set (p := sort trans_le (extend_pre x t0 pre)). 
  assert (HpIn : forall f, In f p <-> In f (op_pre op) \/ (In f x /\ ~ In f t0)) by (intros f; unfold p; rewrite sort_In, extend_pre_In, pre_In; tauto).
  assert (Hndp : NoDup (extend_pre x t0 pre)) by (apply extend_pre_nd; apply (NoDup_map_inv fst); apply ss_nd, pre_ss).
  destruct (is_valid [] p) eqn:Ev.
  - apply is_valid_spec in Ev as [Ev _]. 
    assert (Hpss : ssorted p) by (apply sort_ss; now apply sort_nd).
    assert (Hpok : Forall (fact_ok t) p).
    { apply Forall_forall. intros f Hf. apply HpIn in Hf. destruct Hf as [Hf|[Hf _]]; [pose proof pre_ok as P; rewrite Forall_forall in P; apply P; now apply pre_In|]. destruct Hk as (_ & Hk & _). rewrite Forall_forall in Hk. auto. }
    destruct (eval_spec (fst st) p I Hpss Hpok) as (v & Ee & H1 & H2). rewrite Ee. cbn [bind]. destruct v as [c2|].
    + assert (Hhx : hle x (c2 + op_cost op)).
      { set (R := op_pre op ++ filter (fun f => negb (mem f (op_facts op))) x).
        assert (HR : forall f, In f R <-> In f (op_pre op) \/ (In f x /\ ~ In f (op_facts op))) by (intros g; unfold R; rewrite in_app_iff, filter_In, negb_true_iff, mem_not; tauto).
        assert (Hsub : incl R p) by (intros f Hf; apply HR in Hf; apply HpIn; destruct Hf as [|[Hf Hn]]; [auto|right; split; auto]).
        apply (hm_op _ _ _ _ R op _ c2); auto; [exists x; split; [apply incl_refl|apply Hk]| | |lia].
        - split; [|split; [now apply contradict_spec|split; auto]].
          + destruct t0 as [|f t0]; [now destruct Ht0|]. exists f. split; [apply E3; now left|apply Hi0; now left].
          + eapply consistent_sub; [exact Hsub|]. now apply ss_consistent.
        - eapply hle_mono; eauto. }
      destruct (update_spec st x (c2 + op_cost op) I Hk Hhx) as (st' & Eu & I' & Hr & Hq). exists st'. splits; auto.
      intros Hfl _ Heq c _ _ _ Hall. destruct (Hq Hfl) as (w & Hw & Hle). destruct (H2 c) as (c' & Ec & Hc').
      { intros y Hy Hyi. apply Hall; auto. intros f Hf. apply Hyi, HpIn in Hf. destruct Hf as [|[Hf Hn]]; auto. right. split; auto. intros Hin. apply Hn. now apply Heq. }
      inversion Ec; subst c'. exists w. split; auto. lia.
    + exists st. splits; auto using rel_refl. intros _ _ Heq c _ _ _ Hall. exfalso. destruct (H2 c) as (c' & Ec & _); [|discriminate].
      intros y Hy Hyi. apply Hall; auto. intros f Hf. apply Hyi, HpIn in Hf. destruct Hf as [|[Hf Hn]]; auto. right. split; auto. intros Hin. apply Hn. now apply Heq.
  - exists st. splits; auto using rel_refl. intros _ _ Heq c _ _ Hcons _. exfalso. apply not_true_iff_false in Ev. apply Ev. apply is_valid_spec. split; [|intros f _ []].
    unfold p. apply (proj1 (sort_nd _)). apply consistent_nd; auto. apply Hcons. intros f. rewrite extend_pre_In, pre_In, Heq. split; [intros [|[H N]]; auto|intros [|[H N]]; auto]. right. split; auto. tauto.
Qed.

Lemma partial_eff_spec c1 st pe : inv (fst st) -> hle pre c1 -> (forall c, (forall y, key t m y -> incl y (op_pre op) -> le_entry (fst st) y c) -> c1 <= c) \/ True ->
  In pe (partial_tuples m eff) ->
  exists st', handle_partial_eff m op c1 st pe = Ok st' /\ inv (fst st') /\ rel st st' /\
    (snd st' = false -> le_entry (fst st) pe (c1 + op_cost op) /\
       forall x, key t m x -> length pe < length x -> (forall f, In f pe <-> In f x /\ In f (op_facts op)) -> closed_for x (fst st)).
Proof.
  intros I Hc1 _ Hpe. destruct (partial_key t m eff pe Hm eff_ss eff_ok Hpe) as [Hk Hi]. unfold handle_partial_eff.
  assert (Hif : incl pe (op_facts op)) by (intros f Hf; apply eff_In; auto).
  assert (Hh : hle pe (c1 + op_cost op)).
  { apply (hm_op _ _ _ _ pre op _ c1); auto; [exists pe; split; [apply incl_refl|apply Hk]| |lia]. split; [|split; [|split]].
    - destruct Hk as (_ & _ & Hn & _). destruct pe as [|f pe]; [now destruct Hn|]. exists f. split; [now left|apply Hif; now left].
    - intros f g Hf Hg. apply (ss_consistent _ eff_ss); apply eff_In; auto.
    - intros f. rewrite pre_In. split; auto. intros [|[Hf Hn]]; auto. destruct Hn. auto.
    - apply ss_consistent, pre_ss. }
  destruct (update_spec st pe (c1 + op_cost op) I Hk Hh) as (st1 & Eu & I1 & R1 & Q1). rewrite Eu. cbn [bind].
  destruct (length pe <? m) eqn:El.
  - unfold extend_tuple. destruct (fold_rel (extend_one m op pe) (fun x a => length pe < length x -> (forall f, In f pe <-> In f x /\ In f (op_facts op)) -> closed_for x (fst a)) (map fst (fst st1))) with (a := st1) as (st2 & Ef & I2 & R2 & Q2); auto.
    + intros x a Hx Ia. apply (extend_one_spec pe a x); auto; [now apply (i_keys _ I1)|apply Hk].
    + exists st2. splits; auto; [eapply rel_trans; eauto|]. intros Hfl. pose proof (rel_false _ _ R2 Hfl) as Es. rewrite Es in *. pose proof (rel_false _ _ R1 Hfl) as Es1. rewrite Es1 in *. split; [apply Q1; auto|].
      intros x Hx Hl Heq. apply Q2; auto. now apply (i_keys _ I1).
  - exists st1. splits; auto. intros Hfl. split; [auto|]. intros x Hx Hl _. exfalso. apply Nat.ltb_ge in El. destruct Hx as (_ & _ & _ & Hx). lia.
Qed.

Lemma op_spec st : inv (fst st) ->
  exists st', handle_op m st op = Ok st' /\ inv (fst st') /\ rel st st' /\
    (snd st' = false -> forall x, key t m x -> closed_for x (fst st)).
Proof.
  intros I. unfold handle_op. destruct (eval_spec (fst st) pre I pre_ss pre_ok) as (v & Ee & H1 & H2). rewrite Ee. cbn [bind].
  assert (Hup : forall x c, (forall y, key t m y -> (forall f, In f y -> In f (op_pre op) \/ (In f x /\ ~ In f (op_facts op))) -> le_entry (fst st) y c) -> exists c', v = Some c' /\ c' <= c).
  { intros x c Hall. apply H2. intros y Hy Hyi. apply Hall; auto. intros f Hf. left. apply pre_In. auto. }
  destruct v as [c1|].
  - destruct (fold_rel (handle_partial_eff m op c1) (fun pe a => le_entry (fst a) pe (c1 + op_cost op) /\
       forall x, key t m x -> length pe < length x -> (forall f, In f pe <-> In f x /\ In f (op_facts op)) -> closed_for x (fst a)) (partial_tuples m eff)) with (a := st) as (st' & Ef & I' & R' & Q'); auto.
    + intros pe a Hpe Ia. apply partial_eff_spec; auto.
    + exists st'. splits; auto. intros Hfl x Hx c Hcon Hex Hcons Hall. destruct (Hup x c Hall) as (c' & Ec & Hc'). inversion Ec; subst c'.
      set (pe := filter (fun f => mem f x) eff).
      assert (Hpe : forall f, In f pe <-> In f x /\ In f (op_facts op)) by (intros f; unfold pe; rewrite filter_In, mem_In, eff_In; tauto).
      assert (Hpss : ssorted pe) by (apply ss_filter, eff_ss).
      assert (Hpn : pe <> []) by (destruct Hex as (f & Hf1 & Hf2); intros E; assert (Hin : In f pe) by (apply Hpe; auto); rewrite E in Hin; destruct Hin).
      destruct Hx as (Hxs & Hxo & Hxn & Hxl).
      assert (Hlen : length pe <= length x).
      { apply NoDup_incl_length; [apply (NoDup_map_inv fst); now apply ss_nd|]. intros f Hf. now apply Hpe. }
      assert (Hin : In pe (partial_tuples m eff)) by (apply partial_tuples_In; auto; splits; auto; [apply subseq_filter|lia]).
      destruct (Q' Hfl pe Hin) as [Q1 Q2]. destruct (Nat.eq_dec (length pe) (length x)) as [El|El].
      * assert (Ex : pe = x).
        { apply ss_same; auto. intros f. split; [intros Hf; now apply Hpe|]. apply NoDup_length_incl; [apply (NoDup_map_inv fst); now apply ss_nd|lia|]. intros g Hg. now apply Hpe. }
        rewrite Ex in Q1. destruct Q1 as (w & Hw & Hle). exists w. split; auto. lia.
      * apply (Q2 x); auto; [split; auto|lia].
  - exists st. splits; auto using rel_refl. intros _ x Hx c _ _ _ Hall. destruct (Hup x c Hall) as (c' & Ec & _). discriminate.
Qed.
End Op.

Lemma pass_spec tab : inv tab ->
  exists st', fold_outcome (handle_op m) (t_ops t) (tab, false) = Ok st' /\ inv (fst st') /\
    ((snd st' = true /\ mlt (fst st') tab) \/
     (st' = (tab, false) /\ forall op, In op (t_ops t) -> forall x, key t m x -> closed_for op x tab)).
Proof.
  intros I. destruct (fold_rel (handle_op m) (fun op a => forall x, key t m x -> closed_for op x (fst a)) (t_ops t)) with (a := (tab, false)) as (st' & E & I' & R & Q); auto.
  - intros op a Hop Ia. now apply op_spec.
  - exists st'. splits; auto. destruct R as [->|[R1 R2]]; auto.
Qed.

Lemma closed_lower tab : inv tab -> (forall op, In op (t_ops t) -> forall x, key t m x -> closed_for op x tab) ->
  forall S c, hle S c -> forall x, key t m x -> incl x S -> le_entry tab x c.
Proof.
  intros I Hc S c H. induction H as [S c H|S R op c c0 Hsm Ho Hr HR IH Hle|S c H IH]; intros x Hx Hi.
  - exists 0. split; [|lia]. apply (i_zero _ I); auto. intros f Hf. auto.
  - destruct Hr as (_ & H2 & H3 & H4). destruct (existsb (fun f => mem f (op_facts op)) x) eqn:E.
    + apply existsb_exists in E as (f & Hf & Hmf). apply mem_In in Hmf.
      assert (Hsub : forall f, In f (op_pre op) \/ (In f x /\ ~ In f (op_facts op)) -> In f R) by (intros g Hg; apply H3; destruct Hg as [|[]]; auto).
      destruct (Hc op Ho x Hx c0) as (w & Hw & Hwl); eauto.
      * apply contradict_spec. auto.
      * intros R' HR'. eapply consistent_sub; [|exact H4]. intros g Hg. apply Hsub. now apply HR'.
      * intros y Hy Hyi. apply IH; auto. intros g Hg. auto.
      * exists w. split; auto. lia.
    + destruct (IH x Hx) as (w & Hw & Hwl).
      * intros f Hf. apply H3. right. split; auto. intros Hin. rewrite <- not_true_iff_false in E. apply E. apply existsb_exists. exists f. split; auto. now apply mem_In.
      * exists w. split; auto. lia.
  - apply (IH x); auto; [|apply incl_refl]. exists x. split; [apply incl_refl|apply Hx].
Qed.

(** The loop *)
Lemma loop_spec : forall n k tab, ninf tab <= n -> nsum tab <= k -> inv tab ->
  exists f0 tab', (forall fuel, f0 <= fuel -> update_table fuel t m tab = Ok tab') /\ inv tab' /\
    (forall op, In op (t_ops t) -> forall x, key t m x -> closed_for op x tab').
Proof.
  assert (G : forall n, (forall tab, ninf tab < n -> inv tab -> exists f0 tab', (forall fuel, f0 <= fuel -> update_table fuel t m tab = Ok tab') /\ inv tab' /\
    (forall op, In op (t_ops t) -> forall x, key t m x -> closed_for op x tab'))).
  { induction n as [|n IHn]; intros tab Hn; [lia|].
    remember (nsum tab) as k eqn:Ek. revert tab Hn Ek. induction k as [k IHk] using lt_wf_ind. intros tab Hn -> I.
    destruct (pass_spec tab I) as (st' & E & I' & [[Hfl Hlt]|[-> Hcl]]).
    - assert (X : exists f0 tab', (forall fuel, f0 <= fuel -> update_table fuel t m (fst st') = Ok tab') /\ inv tab' /\ (forall op, In op (t_ops t) -> forall x, key t m x -> closed_for op x tab')).
      { destruct Hlt as [Hlt|[He Hlt]]; [apply IHn; auto; lia|]. eapply IHk; eauto. lia. }
      destruct X as (f0 & tab' & Hf & I2 & Hc). exists (S f0), tab'. splits; auto. intros fuel Hfu. destruct fuel as [|fuel]; [lia|]. cbn [update_table]. rewrite E. cbn [bind]. rewrite Hfl. apply Hf. lia.
    - exists 1, tab. splits; auto. intros fuel Hfu. destruct fuel as [|fuel]; [lia|]. cbn [update_table]. rewrite E. cbn [bind snd fst]. auto. }
  intros n k tab _ _ I. apply (G (S (ninf tab)) tab); auto.
Qed.

(** The initial table *)
Lemma init_lookup ks x : lookup (init_table ks s) x = if existsb (fun k => tuple_eqb k x) ks then Some (if tuple_in_tuple x (state_facts s) then Some 0 else None) else None.
Proof.
  induction ks as [|k ks IH]; cbn [init_table map lookup existsb]; auto. destruct (tuple_eqb k x) eqn:E; cbn [orb]; [|exact IH]. apply tuple_eqb_eq in E. now subst.
Qed.
Lemma state_facts_In f : In f (state_facts s) <-> holds s f.
Proof.
  unfold state_facts, holds. destruct f as [v d]. cbn [fst snd].
  assert (G : forall l i, In (v, d) (combine (seq i (length l)) l) <-> i <= v /\ nth_error l (v - i) = Some d).
  { induction l as [|a l IH]; intros i; cbn [length seq combine In].
    - split; [intros []|]. intros [_ H]. destruct (v - i); discriminate.
    - rewrite IH. split.
      + intros [H|[H1 H2]]; [inversion H; subst; rewrite Nat.sub_diag; auto|]. split; [lia|]. replace (v - i) with (S (v - S i)) by lia. auto.
      + intros [H1 H2]. destruct (Nat.eq_dec i v) as [->|Hne]; [left; rewrite Nat.sub_diag in H2; inversion H2; auto|]. right. split; [lia|]. replace (v - i) with (S (v - S i)) in H2 by lia. auto. }
  rewrite G, Nat.sub_0_r. split; [tauto|]. intros H. split; [lia|auto].
Qed.
Lemma init_inv : NoDup (all_tuples t m) -> inv (init_table (all_tuples t m) s).
Proof.
  intros Hnd. assert (Ek : keys (init_table (all_tuples t m) s) = all_tuples t m) by (unfold keys, init_table; rewrite map_map; cbn [fst]; apply map_id).
  constructor.
  - now rewrite Ek.
  - intros x. rewrite Ek. now apply all_tuples_In.
  - intros x v. rewrite init_lookup. destruct (existsb _ _); [|discriminate]. destruct (tuple_in_tuple x (state_facts s)) eqn:E; [|discriminate]. intros H; inversion H; subst. apply hm_state. intros f Hf. apply tuple_in in E. apply state_facts_In. auto.
  - intros x Hx Hxs. rewrite init_lookup. replace (existsb (fun k => tuple_eqb k x) (all_tuples t m)) with true.
    + replace (tuple_in_tuple x (state_facts s)) with true; auto. symmetry. apply tuple_in. intros f Hf. apply state_facts_In. auto.
    + symmetry. apply existsb_exists. exists x. split; [now apply all_tuples_In|now apply tuple_eqb_eq].
Qed.
End Prog.

(** No tuple is generated twice. *)
Lemma NoDup_app' {A} (a b : list A) : NoDup a -> NoDup b -> (forall x, In x a -> ~ In x b) -> NoDup (a ++ b).
Proof. induction a as [|x a IH]; cbn; auto. intros Ha Hb H. apply NoDup_cons_iff in Ha as [H1 H2]. constructor; [rewrite in_app_iff; intros [|Hx]; auto; apply (H x); auto|]. apply IH; auto. Qed.
Lemma NoDup_flat_map {A B} (f : A -> list B) l : NoDup l -> (forall x, In x l -> NoDup (f x)) -> (forall x y z, In x l -> In y l -> In z (f x) -> In z (f y) -> x = y) -> NoDup (flat_map f l).
Proof.
  induction l as [|a l IH]; cbn [flat_map]; intros Hn Hf Hd; [constructor|]. apply NoDup_cons_iff in Hn as [Ha Hn]. apply NoDup_app'; [apply Hf; now left| |].
  - apply IH; auto; [intros; apply Hf; now right|]. intros x y z Hx Hy. apply Hd; now right.
  - intros z Hz Hz'. apply in_flat_map in Hz' as (y & Hy & Hz'). apply Ha. rewrite (Hd a y z); auto; [now left|now right].
Qed.
Lemma all_tuples_nd vars : forall i sz base, 1 <= sz -> NoDup (all_tuples_aux vars i sz base).
Proof.
  induction vars as [|v r IH]; intros i sz base Hs; cbn [all_tuples_aux]; [constructor|].
  assert (H1 : forall j x, In x (let tup := base ++ [(i, j)] in tup :: (if 1 <? sz then all_tuples_aux r (S i) (sz - 1) tup else [])) -> exists y, x = base ++ (i, j) :: y).
  { intros j x Hx. cbv zeta in Hx. destruct Hx as [<-|Hx]; [now exists []|]. destruct (1 <? sz) eqn:E; [|destruct Hx]. apply Nat.ltb_lt in E. apply all_tuples_aux_In in Hx; [|lia]. destruct Hx as (y & -> & _). exists y. now rewrite <- app_assoc. }
  apply NoDup_app'; auto.
  - apply NoDup_flat_map; [apply seq_NoDup| |].
    + intros j _. cbv zeta. constructor; [|destruct (1 <? sz) eqn:E; [apply IH; apply Nat.ltb_lt in E; lia|constructor]].
      destruct (1 <? sz) eqn:E; [|intros []]. apply Nat.ltb_lt in E. intros Hin. apply all_tuples_aux_In in Hin; [|lia]. destruct Hin as (y & Ey & Hn & _). rewrite <- (app_nil_r (base ++ [(i, j)])) in Ey at 1. apply app_inv_head in Ey. now subst y.
    + intros j j' x _ _ Hx Hx'. destruct (H1 _ _ Hx) as (y & ->). destruct (H1 _ _ Hx') as (y' & E). apply app_inv_head in E. now inversion E.
  - intros x Hx Hx'. apply in_flat_map in Hx as (j & _ & Hx). destruct (H1 _ _ Hx) as (y & ->). apply all_tuples_aux_In in Hx'; auto. destruct Hx' as (y' & E & _ & _ & _ & Hy'). apply app_inv_head in E. subst y'. inversion_clear Hy'. cbn [fst] in *. lia.
Qed.

(** *** The heuristic *)
Lemma ss_map l : StronglySorted lt (map fst l) -> ssorted l.
Proof.
  induction l as [|f l IH]; cbn [map]; intros H; [constructor|]. inversion_clear H. constructor; auto. rewrite Forall_forall in *. intros g Hg. apply H1. now apply in_map.
Qed.
Lemma hm_exact m t s : hm_task t -> 1 <= m -> state_ok t s ->
  exists f0 v, (forall fuel, f0 <= fuel -> hm_heuristic fuel t m s = Ok v) /\ hm_value m t s (t_goal t) v.
Proof.
  intros Ht Hm Hs. unfold hm_heuristic. destruct (is_goalb t s) eqn:Eg.
  - exists 0, (Some 0). split; auto. cbn [hm_value]. split; [|intros; lia]. apply hm_state. intros f Hf. unfold is_goalb, all_holdb in Eg. rewrite forallb_forall in Eg. specialize (Eg f Hf). unfold holdsb in Eg. unfold holds. destruct (nth_error s (fst f)); [|discriminate]. apply Nat.eqb_eq in Eg. now subst.
  - pose proof (init_inv m t s Hm (all_tuples_nd (t_vars t) 0 m [] Hm)) as I.
    destruct (loop_spec m t s Ht Hm _ _ _ (le_n _) (le_n _) I) as (f0 & tab & Hf & I' & Hc).
    assert (Hgs : ssorted (t_goal t)) by (apply ss_map; apply Ht).
    assert (Hgo : Forall (fact_ok t) (t_goal t)) by apply Ht.
    destruct (eval_spec m t s Hm tab (t_goal t) I' Hgs Hgo) as (v & Ev & H1 & H2).
    exists f0, v. split; [intros fuel Hfu; rewrite (Hf fuel Hfu); cbn [bind]; exact Ev|].
    assert (H3 : forall c, hm_le m t s (t_goal t) c -> exists c', v = Some c' /\ c' <= c).
    { intros c Hle. apply H2. intros x Hx Hi. eapply closed_lower; eauto. }
    destruct v as [c|]; cbn [hm_value].
    + split; [now apply H1|]. intros c' Hc'. destruct (H3 c' Hc') as (c2 & E & Hl). now inversion E; subst.
    + intros c Hle. destruct (H3 c Hle) as (c' & E & _). discriminate.
Qed.

(** *** Larger m, and consistency *)
Lemma hle_m m m' t s S c : m <= m' -> hm_le m' t s S c -> hm_le m t s S c.
Proof.
  intros Hm H. assert (G : forall S2, incl S2 S -> at_most m S2 -> hm_le m t s S2 c); [|now apply hm_split].
  induction H as [S c H|S R op c c0 Hs Ho Hr HR IH Hle|S c H IH]; intros S2 Hi H2.
  - apply hm_state. intros f Hf. auto.
  - assert (IHR : hm_le m t s R c0) by (now apply hm_split). destruct (existsb (fun f => mem f (op_facts op)) S2) eqn:E.
    + apply existsb_exists in E as (f & Hf & Hmf). apply mem_In in Hmf. destruct Hr as (H1 & H3 & H4 & H5).
      set (R' := op_pre op ++ filter (fun f => negb (mem f (op_facts op))) S2).
      assert (HR' : forall f, In f R' <-> In f (op_pre op) \/ (In f S2 /\ ~ In f (op_facts op))).
      { intros g. unfold R'. rewrite in_app_iff, filter_In, negb_true_iff, mem_not. tauto. }
      assert (Hsub : incl R' R) by (intros g Hg; apply HR' in Hg; apply H4; destruct Hg as [|[]]; auto).
      apply (hm_op _ _ _ _ R' op c c0); auto; [|eapply hle_mono; eauto]. split; [exists f; auto|]. splits; auto. eapply consistent_sub; eauto.
    + apply (hle_mono_c _ _ _ _ c0); [lia|]. eapply hle_mono; [exact IHR|]. intros f Hf. destruct Hr as (_ & _ & H3 & _). apply H3. right. split; auto. intros Hin.
      apply mem_In in Hin. rewrite <- not_true_iff_false in E. apply E. apply existsb_exists. eauto.
  - destruct H2 as (L & HL & Hlen). apply (IH S2); auto; [exists L; split; auto; lia|apply incl_refl|exists L; auto].
Qed.
Lemma hle_step m t s o op s' S c : hm_task t -> state_ok t s -> applicable t s o -> nth_error (t_ops t) o = Some op -> progress t s o s' ->
  hm_le m t s' S c -> hm_le m t s S (op_cost op + c).
Proof.
  intros Ht Hs Ha Ho Hp H. induction H as [S c H|S R op' c c0 Hsm Ho' Hr HR IH Hle|S c H IH].
  - assert (Hpath : task_path t s [o] s') by (econstructor; eauto; constructor).
    pose proof (path_hle m t Ht s s [o] s' Hpath Hs 0) as Q. apply (hle_mono_c _ _ _ _ (0 + plan_cost t [o])).
    + unfold plan_cost. cbn [map list_sum fold_right]. rewrite Ho. lia.
    + apply Q; auto. intros S' HS'. now apply hm_state.
  - eapply hm_op; eauto. lia.
  - apply hm_split. auto.
Qed.
