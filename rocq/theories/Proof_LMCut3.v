(** LM-cut on a planning task. *)
From Coq Require Import Permutation.
From Verif Require Import Outcome Spec_Task Spec_Relaxation Model_Task Proof_Task Model_PQ Model_Relaxation Model_LMCut
  Proof_Dijkstra Proof_Relaxation Proof_RelaxHeur Proof_LMCut1 Proof_LMCut2.

Lemma rreach_step t (O : nat -> Prop) s o s' : no_derived t -> applicable t s o -> progress t s o s' -> O o ->
  forall f, rreach t O s' f -> rreach t O s f.
Proof.
  intros Hnd (op1 & Hop1 & Hpre) Hpr Ho f Hf.
  destruct (progress_facts t s o s' Hnd Hpr) as (op & Hop & Hfacts). rewrite Hop in Hop1; inversion Hop1; subst op1.
  induction Hf as [f Hh|o1 op1 e Ho1 Hn He Hg IH|r Hr Hg IH].
  - destruct (Hfacts f Hh) as [H|(e & He & Hc & <-)]; [now apply rr_state|].
    apply rr_op with o op; auto. intros g Hg. apply rr_state. apply in_app_iff in Hg. destruct Hg; auto.
  - eapply rr_op; eauto.
  - now apply rr_rule.
Qed.
Lemma rreach_plan t s os : no_derived t -> task_plan_from t s os ->
  forall f, In f (t_goal t) -> rreach t (fun o => In o os) s f.
Proof.
  intros Hnd (s' & Hp & Hg) f Hf.
  assert (G : forall (O : nat -> Prop), (forall o, In o os -> O o) -> rreach t O s f).
  { specialize (Hg f Hf). clear Hf. induction Hp as [s|s o s1 os s2 Happ Hpr Hp IH]; intros O HO; [now apply rr_state|].
    apply rreach_step with o s1; auto; [apply HO; now left|]. apply IH; auto. intros; apply HO; now right. }
  apply G. auto.
Qed.

Lemma lops_nth t os : forall o i, nth_error (lops_of t o os) i =
  option_map (fun op => mk_lop (S (num_props t)) (map (prop_id t) (op_pre op)) (map (fun e => prop_id t (eff_fact e)) (op_effs op))
                 (Some (o + i)) (op_cost op)) (nth_error os i).
Proof.
  induction os as [|op r IH]; intros o [|i]; cbn [lops_of nth_error option_map]; auto.
  - now rewrite Nat.add_0_r.
  - rewrite IH. now rewrite Nat.add_succ_r.
Qed.
Lemma lops_len t os : forall o, length (lops_of t o os) = length os.
Proof. induction os as [|op r IH]; intros o; cbn; auto. Qed.

(** The part of the cost of operator [o] used by the landmarks that contain it. *)
Definition used (lms : list (list (option nat) * nat)) (o : nat) : nat :=
  list_sum (map (fun x : list (option nat) * nat =>
    if existsb (fun y => match y with Some o' => o' =? o | None => false end) (fst x) then snd x else 0) lms).

Section LMC3.
Variable t : task.
Hypothesis Ht : relax_ok t.
Hypothesis Hnr : t_rules t = [].
Hypothesis Hnc : forall op e, In op (t_ops t) -> In e (op_effs op) -> eff_cond e = [].
Hypothesis Hpnd : forall op, In op (t_ops t) -> NoDup (op_pre op).
Hypothesis Hgnd : NoDup (t_goal t).
Variable s : state.
Hypothesis Hs : state_ok t s.

Notation n := (num_props t).
Notation ops := (lmcut_ops t).
Notation I := (state_props t s).
Notation gi := (length (t_ops t)).

Lemma lmcut_supported_true : lmcut_supported t = true.
Proof.
  unfold lmcut_supported. rewrite Hnr. cbn [andb]. apply forallb_forall. intros op Hop. apply forallb_forall. intros e He.
  now rewrite (Hnc op e Hop He).
Qed.

Lemma lmcut_nth i u : nth_error ops i = Some u ->
  (exists op, nth_error (t_ops t) i = Some op /\
    u = mk_lop (S n) (map (prop_id t) (op_pre op)) (map (fun e => prop_id t (eff_fact e)) (op_effs op)) (Some i) (op_cost op)) \/
  (i = gi /\ u = mk_lop (S n) (map (prop_id t) (t_goal t)) [n] None 0).
Proof.
  intros Hu. unfold lmcut_ops in Hu. destruct (Nat.lt_ge_cases i gi) as [Hi|Hi].
  - rewrite nth_error_app1 in Hu by (now rewrite lops_len). rewrite lops_nth in Hu. destruct (nth_error (t_ops t) i) as [op|]; [|discriminate].
    cbn in Hu. inversion Hu; subst. left. eauto.
  - rewrite nth_error_app2 in Hu by (now rewrite lops_len). rewrite lops_len in Hu. destruct (i - gi) as [|k] eqn:E; [|destruct k; discriminate].
    inversion Hu; subst. right. split; auto. lia.
Qed.
Lemma lmcut_nth_op i op : nth_error (t_ops t) i = Some op ->
  nth_error ops i = Some (mk_lop (S n) (map (prop_id t) (op_pre op)) (map (fun e => prop_id t (eff_fact e)) (op_effs op)) (Some i) (op_cost op)).
Proof.
  intros Hop. unfold lmcut_ops. rewrite nth_error_app1 by (rewrite lops_len; apply nth_error_Some; congruence). rewrite lops_nth, Hop. reflexivity.
Qed.
Lemma lmcut_nth_goal : nth_error ops gi = Some (mk_lop (S n) (map (prop_id t) (t_goal t)) [n] None 0).
Proof. unfold lmcut_ops. rewrite nth_error_app2; rewrite lops_len; auto. now rewrite Nat.sub_diag. Qed.

Lemma map_prop_nodup fs : NoDup fs -> Forall (fact_ok t) fs -> NoDup (map (prop_id t) fs).
Proof. intros Hn Hf. rewrite Forall_forall in Hf. apply NoDup_map_in; auto. intros x y Hx Hy. apply prop_id_inj; auto. Qed.

Lemma mk_ok fs eff id b : NoDup fs -> Forall (fact_ok t) fs -> (forall e, In e eff -> e < n + 2) ->
  let u := mk_lop (S n) (map (prop_id t) fs) eff id b in
  NoDup (l_pre u) /\ l_pre u <> [] /\ (forall q, In q (l_pre u) -> q < n + 2) /\ (forall e, In e (l_eff u) -> e < n + 2).
Proof.
  intros Hn Hf He. pose proof (map_prop_nodup fs Hn Hf) as Hm. rewrite Forall_forall in Hf. cbn zeta. unfold mk_lop.
  destruct fs as [|f r]; cbn [map l_pre l_eff].
  - splits; auto; [repeat constructor; auto|discriminate|]. intros q [<-|[]]. lia.
  - splits; auto; [discriminate|]. intros q Hq. change (In q (map (prop_id t) (f :: r))) in Hq. apply in_map_iff in Hq.
    destruct Hq as (g & <- & Hg). pose proof (prop_id_lt t g (Hf g Hg)). lia.
Qed.

Lemma lmcut_ops_ok : forall u, In u ops -> NoDup (l_pre u) /\ l_pre u <> [] /\
  (forall q, In q (l_pre u) -> q < n + 2) /\ (forall e, In e (l_eff u) -> e < n + 2).
Proof.
  intros u Hu. apply In_nth_error in Hu. destruct Hu as (i & Hu). destruct Ht as (Hto & _ & Htg).
  destruct (lmcut_nth i u Hu) as [(op & Hop & ->)|[_ ->]].
  - assert (Hin : In op (t_ops t)) by (now apply nth_error_In with i). destruct (Hto op Hin) as [Hp He].
    apply mk_ok; auto. intros e Hin'. apply in_map_iff in Hin'. destruct Hin' as (x & <- & Hx). destruct (He x Hx) as [_ Hf].
    pose proof (prop_id_lt t _ Hf). lia.
  - apply mk_ok; auto. intros e [<-|[]]. lia.
Qed.

Lemma state_facts_nodup : forall (l : state) v, NoDup (state_facts l v).
Proof.
  induction l as [|d r IH]; intros v; cbn [state_facts]; constructor; auto.
  assert (G : forall (l : state) v v' d, In (v', d) (state_facts l v) -> v <= v').
  { clear. induction l as [|d r IH]; intros v v' d' H; cbn in H; [destruct H|]. destruct H as [H|H]; [inversion H; auto|]. apply IH in H. lia. }
  intros H. apply G in H. lia.
Qed.
Lemma init_nodup : NoDup (S n :: I).
Proof.
  constructor.
  - intros H. apply (state_props_lt t s Hs) in H. lia.
  - unfold state_props. apply map_prop_nodup; [apply state_facts_nodup|]. rewrite Forall_forall. intros f Hf.
    apply (holds_ok t s); auto. now apply state_facts_holds.
Qed.

Lemma mk_pre_in fs eff id b q : In q (l_pre (mk_lop (S n) (map (prop_id t) fs) eff id b)) ->
  q = S n \/ exists f, In f fs /\ q = prop_id t f.
Proof.
  unfold mk_lop. destruct fs as [|f r]; cbn [map l_pre].
  - intros [<-|[]]; auto.
  - intros Hq. change (In q (map (prop_id t) (f :: r))) in Hq. apply in_map_iff in Hq. destruct Hq as (g & <- & Hg). right. eauto.
Qed.

Lemma lreach_fact (O O' : nat -> Prop) f : (forall o, O o -> o < gi -> O' o) -> rreach t O s f -> lreach ops O' (S n :: I) (prop_id t f).
Proof.
  intros HO Hf. induction Hf as [f Hh|o op e Ho Hop He Hg IH|r Hr].
  - apply lr_init. right. apply (holds_prop_in t s f Hh).
  - eapply (lr_op _ _ _ o); [| apply lmcut_nth_op; exact Hop| |].
    + apply HO; auto. apply nth_error_Some. congruence.
    + unfold mk_lop; cbn [l_eff]. apply in_map_iff. eauto.
    + intros q Hq. apply mk_pre_in in Hq. destruct Hq as [->|(g & Hgi & ->)]; [apply lr_init; now left|]. apply IH. apply in_or_app; auto.
  - rewrite Hnr in Hr. destruct Hr.
Qed.
Lemma lreach_goal (O O' : nat -> Prop) : (forall o, O o -> o < gi -> O' o) -> O' gi -> (forall f, In f (t_goal t) -> rreach t O s f) ->
  lreach ops O' (S n :: I) n.
Proof.
  intros HO Hg Hf. eapply lr_op; [exact Hg|apply lmcut_nth_goal|cbn; auto|].
  intros q Hq. apply mk_pre_in in Hq. destruct Hq as [->|(g & Hgi & ->)]; [apply lr_init; now left|]. apply lreach_fact with O; auto.
Qed.

Lemma lreach_inv (O O' : nat -> Prop) p : (forall i, O' i -> i < gi -> O i) -> lreach ops O' (S n :: I) p ->
  p = S n \/ (p = n /\ forall f, In f (t_goal t) -> rreach t O s f) \/
  (p < n /\ forall f, fact_ok t f -> prop_id t f = p -> rreach t O s f).
Proof.
  intros HO. destruct Ht as (Hto & _ & Htg). induction 1 as [p Hp|i u e Hi Hu He Hq IH].
  - destruct Hp as [<-|Hp]; auto. right; right. split; [now apply (state_props_lt t s Hs)|]. intros f Hf <-.
    apply rr_state. now apply (state_prop_in t s Hs).
  - assert (HP : forall fs eff id b, u = mk_lop (S n) (map (prop_id t) fs) eff id b -> Forall (fact_ok t) fs ->
                forall f, In f fs -> rreach t O s f).
    { intros fs eff id b -> Hfs f Hf. rewrite Forall_forall in Hfs. pose proof (prop_id_lt t f (Hfs f Hf)).
      destruct (IH (prop_id t f)) as [Hx|[[Hx _]|[_ Hx]]]; auto; try lia.
      unfold mk_lop. destruct fs as [|g r]; [destruct Hf|]. cbn [map l_pre]. change (In (prop_id t f) (map (prop_id t) (g :: r))). now apply in_map. }
    destruct (lmcut_nth i u Hu) as [(op & Hop & Eu)|[-> Eu]].
    + assert (Hin : In op (t_ops t)) by (now apply nth_error_In with i). destruct (Hto op Hin) as [Hfp Hfe].
      specialize (HP _ _ _ _ Eu Hfp). rewrite Eu in He. unfold mk_lop in He; cbn [l_eff] in He. apply in_map_iff in He.
      destruct He as (x & <- & Hx). destruct (Hfe x Hx) as [_ Hfx]. right; right. split; [now apply prop_id_lt|]. intros f Hf Ef.
      assert (f = eff_fact x) by (apply (prop_id_inj t); auto). subst f. apply rr_op with i op; auto.
      * apply HO; auto. apply nth_error_Some. congruence.
      * intros g Hg. rewrite (Hnc op x Hin Hx), app_nil_r in Hg. auto.
    + specialize (HP _ _ _ _ Eu Htg). rewrite Eu in He. cbn in He. destruct He as [<-|[]]. auto.
Qed.

Lemma used_cutsum cuts o : o < gi -> used (map (fun x => (ids_of ops (fst x), snd x)) cuts) o = cutsum cuts o.
Proof.
  intros Ho. unfold used, cutsum. rewrite map_map. f_equal. apply map_ext. intros [cut c]. cbn [fst snd].
  replace (existsb (fun y => match y with Some o' => o' =? o | None => false end) (ids_of ops cut)) with (inb cut o); auto.
  destruct (inb cut o) eqn:Ei; symmetry.
  - apply inb_spec in Ei. apply existsb_exists. exists (Some o). split; [|apply Nat.eqb_refl]. unfold ids_of. apply in_map_iff. exists o. split; auto.
    destruct (nth_error (t_ops t) o) as [op|] eqn:Hop; [|apply nth_error_None in Hop; lia]. now rewrite (lmcut_nth_op _ _ Hop).
  - apply inb_false in Ei. apply not_true_is_false. intros Hx. apply existsb_exists in Hx. destruct Hx as ([o'|] & Hin & E); [|discriminate].
    apply Nat.eqb_eq in E. subst o'. unfold ids_of in Hin. apply in_map_iff in Hin. destruct Hin as (i & E & Hi).
    destruct (nth_error ops i) as [u|] eqn:Hu; [|discriminate]. destruct (lmcut_nth i u Hu) as [(op & _ & ->)|[_ ->]]; [|discriminate].
    cbn in E. inversion E; subst. contradiction.
Qed.

Lemma oc_bases o : oc (map l_base ops) o = match nth_error (t_ops t) o with Some op => op_cost op | None => 0 end.
Proof.
  unfold oc. destruct (nth_error (t_ops t) o) as [op|] eqn:Hop.
  - erewrite nth_error_nth by (rewrite nth_error_map, (lmcut_nth_op _ _ Hop); reflexivity). reflexivity.
  - destruct (nth_error (map l_base ops) o) as [b|] eqn:Hb.
    + erewrite nth_error_nth by exact Hb. rewrite nth_error_map in Hb. destruct (nth_error ops o) as [u|] eqn:Hu; [|discriminate].
      destruct (lmcut_nth o u Hu) as [(op & Ho & _)|[_ ->]]; [congruence|]. now inversion Hb.
    + apply nth_overflow. now apply nth_error_None.
Qed.
Lemma sum_bases os : list_sum (map (oc (map l_base ops)) (os ++ [gi])) = plan_cost t os.
Proof.
  unfold plan_cost. rewrite map_app, list_sum_app. cbn [map]. rewrite oc_bases, (proj2 (nth_error_None _ _) (le_n gi)).
  cbn [list_sum fold_right]. rewrite !Nat.add_0_r. f_equal. apply map_ext. intros o. apply oc_bases.
Qed.

Theorem lmcut_spec P bag q0 h0 : pq_contract P bag -> length h0 = n + 2 ->
  exists r, lmcut_landmarks P t q0 h0 s = Ok r /\
    match r with
    | None => ~ forall f, In f (t_goal t) -> rreach t (fun _ => True) s f
    | Some lms =>
        (forall f, In f (t_goal t) -> rreach t (fun _ => True) s f) /\
        (forall lm c, In (lm, c) lms -> 0 < c /\ exists L, lm = map Some L /\ L <> [] /\ NoDup L /\
           (forall o, In o L -> exists op, nth_error (t_ops t) o = Some op /\ c <= op_cost op) /\
           forall O, (forall f, In f (t_goal t) -> rreach t O s f) -> exists o, In o L /\ O o) /\
        (forall o op, nth_error (t_ops t) o = Some op -> used lms o <= op_cost op) /\
        (forall f, In f (t_goal t) ->
           rreach t (fun o => exists op, nth_error (t_ops t) o = Some op /\ used lms o = op_cost op) s f) /\
        (forall os, (forall f, In f (t_goal t) -> rreach t (fun o => In o os) s f) ->
           list_sum (map snd lms) <= plan_cost t os)
    end.
Proof.
  intros HP Hh. unfold lmcut_landmarks. rewrite lmcut_supported_true.
  assert (HIl : forall p, In p I -> p < n + 2) by (intros p Hp; pose proof (state_props_lt t s Hs p Hp); lia).
  destruct (landmarks_spec P bag HP ops (n + 2) n (S n) I lmcut_ops_ok ltac:(lia) ltac:(lia)
              HIl init_nodup q0 h0 Hh) as (r & E & Hr).
  exists r. split; [exact E|]. destruct r as [lms|].
  - destruct Hr as (Hreach & Hgood & (cuts & Ecs & Hcs & Hcr) & Hsum). splits.
    + destruct (lreach_inv (fun _ => True) _ n (fun _ _ _ => Logic.I) Hreach) as [Hx|[[_ Hx]|[Hx _]]]; auto; lia.
    + intros lm c Hin. destruct (Hgood _ Hin) as (cut & Elm & Hc & Hne & Hcnd & Hops & Hlm). cbn [fst snd] in *. split; auto.
      assert (Hop : forall i, In i cut -> exists op, nth_error (t_ops t) i = Some op /\ c <= op_cost op).
      { intros i Hi. destruct (Hops i Hi) as (u & Hu & Hb). destruct (lmcut_nth i u Hu) as [(op & Ho & ->)|[_ ->]]; [eauto|cbn in Hb; lia]. }
      exists cut. splits; auto.
      * rewrite Elm. unfold ids_of. apply map_ext_in. intros i Hi. destruct (Hop i Hi) as (op & Ho & _).
        rewrite (lmcut_nth_op _ _ Ho). reflexivity.
      * intros O HO. destruct (Hlm (fun i => O i \/ i = gi)) as (i & Hi & [Ho|Ho]); eauto.
        -- apply lreach_goal with O; auto.
        -- destruct (Hop i Hi) as (op & Hx & _). assert (i < gi) by (apply nth_error_Some; congruence). lia.
    + intros o op Ho. rewrite Ecs, used_cutsum by (apply nth_error_Some; congruence). specialize (Hcs o). rewrite oc_bases, Ho in Hcs. exact Hcs.
    + destruct (lreach_inv (fun o => exists op, nth_error (t_ops t) o = Some op /\ used lms o = op_cost op)
                 (fun i => oc (map l_base ops) i = cutsum cuts i) n) as [Hx|[[_ Hx]|[Hx _]]]; auto; try lia.
      intros i Hi Hlt. rewrite oc_bases in Hi. destruct (nth_error (t_ops t) i) as [op|] eqn:Hop; [|apply nth_error_None in Hop; lia].
      exists op. split; auto. rewrite Ecs, used_cutsum; auto.
    + intros os Hos. rewrite <- sum_bases. apply Hsum. apply lreach_goal with (fun o => In o os); auto.
      * intros o Ho _. apply in_or_app; auto.
      * apply in_or_app; right; now left.
  - intros Hall. apply Hr. apply lreach_goal with (fun _ => True); auto.
Qed.
End LMC3.
