(** The relaxed plan and the preferred operators of h^add and h^FF. *)
From Coq Require Import Permutation.
From Verif Require Import Outcome Spec_Task Spec_Relaxation Model_Task Proof_Task Model_PQ Model_Relaxation
  Proof_Dijkstra Proof_Relaxation Proof_RelaxHeur.

Section MARK.
Variable P : pqueue.
Variable M : rmode.
Variable H : rheur.
Variable I : list nat.
Variable st : xstate P.
Variable D : list nat.
Hypothesis HF : Final P M H I st D.
Hypothesis HD : forall p, In p D -> p < r_n H.
Variable nops : nat.
Hypothesis Hno : forall u o, In u (r_ops H) -> u_no u = Some o -> o < nops.

Definition marked (ms : mstate) (p : nat) : Prop := nth_error (k_marked ms) p = Some true.
Definition planned (ms : mstate) (o : nat) : Prop := nth_error (k_plan ms) o = Some true.
Definition closedp (ms : mstate) (p : nat) : Prop :=
  forall i u, nth_error (x_by st) p = Some (Some i) -> nth_error (r_ops H) i = Some u ->
    (forall q, In q (u_pre u) -> marked ms q) /\ (forall o, u_no u = Some o -> planned ms o).
Definition good_pref (o : nat) : Prop :=
  exists u, In u (r_ops H) /\ u_no u = Some o /\ forall q, In q (u_pre u) -> In q I.
Definition cnt (ms : mstate) : nat := length (filter negb (k_marked ms)).
Definition wf (ms : mstate) : Prop := length (k_marked ms) = r_n H /\ length (k_plan ms) = nops.

Record step (ms ms' : mstate) : Prop := {
  s_wf : wf ms';
  s_marked : forall p, marked ms p -> marked ms' p;
  s_plan : forall o, planned ms o -> planned ms' o;
  s_closed : forall p, marked ms' p -> marked ms p \/ closedp ms' p;
  s_pref : forall o, In o (k_pref ms') -> In o (k_pref ms) \/ good_pref o;
  s_cnt : cnt ms' <= cnt ms
}.

Lemma closedp_mono ms ms' p : (forall p, marked ms p -> marked ms' p) -> (forall o, planned ms o -> planned ms' o) ->
  closedp ms p -> closedp ms' p.
Proof. intros H1 H2 Hc i u Hi Hu. destruct (Hc i u Hi Hu) as [Ha Hb]. split; auto. Qed.

Lemma step_refl ms : wf ms -> step ms ms.
Proof. intros Hw. constructor; auto. Qed.
Lemma step_trans a b c : step a b -> step b c -> step a c.
Proof.
  intros [A1 A2 A3 A4 A5 A6] [B1 B2 B3 B4 B5 B6]. constructor; auto.
  - intros p Hp. destruct (B4 p Hp) as [Hb|Hb]; auto. destruct (A4 p Hb) as [Ha|Ha]; auto. right. eapply closedp_mono; eauto.
  - intros o Ho. destruct (B5 o Ho) as [Hb|Hb]; auto.
  - lia.
Qed.

Lemma cnt_upd (l : list bool) g : nth_error l g = Some false -> S (length (filter negb (upd l g true))) = length (filter negb l).
Proof.
  revert g; induction l as [|a r IH]; intros [|g] Hg; cbn in Hg; try discriminate.
  - inversion Hg; subst. reflexivity.
  - cbn [upd filter]. specialize (IH g Hg). destruct (negb a); cbn [length]; lia.
Qed.

Lemma set_preferred_in l o x : In x (set_preferred l o) -> x = o \/ In x l.
Proof. unfold set_preferred. destruct (existsb (Nat.eqb o) l); auto. rewrite in_app_iff. cbn. intuition. Qed.

Lemma mark_step fuel : forall ms g, In g D -> wf ms -> cnt ms < fuel ->
  exists ms', mark P H fuel st ms g = Ok ms' /\ step ms ms' /\ marked ms' g.
Proof.
  induction fuel as [|fuel IH]; intros ms g Hg [Hw1 Hw2] Hc; [lia|]. cbn [mark].
  assert (Hgl : g < length (k_marked ms)) by (rewrite Hw1; auto).
  unfold vget at 1. destruct (nth_error (k_marked ms) g) as [b|] eqn:Eb; [|apply nth_error_None in Eb; lia].
  cbn [bind]. destruct b.
  - exists ms. splits; auto. apply step_refl. split; auto.
  - set (ms1 := {| k_marked := upd (k_marked ms) g true; k_plan := k_plan ms; k_pref := k_pref ms |}).
    assert (Hm1 : marked ms1 g) by (unfold marked; cbn; now apply upd_nth_eq).
    assert (Hmono1 : forall p, marked ms p -> marked ms1 p).
    { intros p Hp. unfold marked in *; cbn. destruct (Nat.eq_dec g p) as [<-|Hne]; [now apply upd_nth_eq|now rewrite upd_nth_neq]. }
    assert (Hnew1 : forall p, marked ms1 p -> marked ms p \/ p = g).
    { intros p Hp. unfold marked in *; cbn in Hp. destruct (Nat.eq_dec g p) as [<-|Hne]; auto. rewrite upd_nth_neq in Hp; auto. }
    assert (Hc1 : S (cnt ms1) = cnt ms) by (apply cnt_upd; auto).
    assert (Hwf1 : wf ms1) by (split; cbn; rewrite ?upd_length; auto).
    destruct (f_by _ _ _ _ _ _ HF g Hg) as [[Hby HgI]|(i & u & Hby & Hu & He & Hpre)].
    + unfold vget at 1. rewrite Hby. cbn [bind]. exists ms1. splits; auto. constructor; auto; [|lia].
      intros p Hp. destruct (Hnew1 p Hp) as [Hq| ->]; auto. right. intros i u Hi. congruence.
    + unfold vget at 1. rewrite Hby. cbn [bind]. unfold vget at 1. rewrite Hu. cbn [bind].
      assert (HpreD : forall q, In q (u_pre u) -> In q D) by (intros q Hq; apply Hpre; auto).
      (* the loop over the preconditions *)
      assert (G : forall l a b, (forall q, In q l -> In q D) -> wf a -> cnt a < fuel ->
        exists a' b', fold_outcome (fun (x : mstate * bool) p =>
            let* ms' := mark P H fuel st (fst x) p in
            let* bp := vget (x_by st) p in
            Ok (ms', snd x && match bp with None => true | Some _ => false end)) l (a, b) = Ok (a', b') /\
          step a a' /\ (forall q, In q l -> marked a' q) /\
          (b' = true -> forall q, In q l -> In q I)).
      { induction l as [|q r IHl]; intros a b Hl Hwa Hca; cbn [fold_outcome].
        - exists a, b. splits; auto; [now apply step_refl|intros q []|intros _ q []].
        - cbn [fst snd]. destruct (IH a q (Hl q (or_introl eq_refl)) Hwa Hca) as (a1 & Ea & Hs1 & Hq1).
          rewrite Ea. cbn [bind].
          assert (Hqb : exists bq, nth_error (x_by st) q = Some bq /\ (bq = None -> In q I)).
          { destruct (f_by _ _ _ _ _ _ HF q (Hl q (or_introl eq_refl))) as [[Hb HI']|(j & u' & Hb & _)].
            - exists None; auto.
            - exists (Some j); split; [auto|discriminate]. }
          destruct Hqb as (bq & Hbq & HqI). unfold vget at 1. rewrite Hbq. cbn [bind].
          destruct (IHl a1 (b && match bq with None => true | Some _ => false end)) as (a2 & b2 & E2 & Hs2 & Hm2 & Hb2).
          + intros x Hx. apply Hl. now right.
          + apply Hs1.
          + pose proof (s_cnt _ _ Hs1). lia.
          + exists a2, b2. split; [exact E2|]. split; [eapply step_trans; eauto|]. split.
            * intros x [<-|Hx]; auto. now apply (s_marked _ _ Hs2).
            * intros Hb x [<-|Hx]; [|now apply Hb2]. 
              assert (Hbb : forall l x b b', fold_outcome (fun (x : mstate * bool) p =>
                  let* ms' := mark P H fuel st (fst x) p in
                  let* bp := vget (x_by st) p in
                  Ok (ms', snd x && match bp with None => true | Some _ => false end)) l (x, b) = Ok b' -> snd b' = true -> b = true).
              { clear. induction l as [|y l IHl]; intros x b b' E Hb; cbn [fold_outcome] in E; [inversion E; subst; auto|].
                cbn [fst snd] in E. destruct (mark P H fuel st x y); try discriminate. cbn [bind] in E.
                destruct (vget (x_by st) y); try discriminate. cbn [bind] in E.
                specialize (IHl _ _ _ E Hb). apply andb_true_iff in IHl. tauto. }
              specialize (Hbb _ _ _ _ E2 Hb). apply andb_true_iff in Hbb. destruct bq; [destruct Hbb; discriminate|auto]. }
      destruct (G (u_pre u) ms1 true HpreD Hwf1 ltac:(lia)) as (ms2 & pref & E2 & Hs2 & Hm2 & Hpref2).
      rewrite E2. cbn [bind].
      assert (Hcl2 : forall ms3, wf ms3 -> (forall p, marked ms3 p <-> marked ms2 p) -> (forall o, planned ms2 o -> planned ms3 o) ->
          (forall o, u_no u = Some o -> planned ms3 o) -> (forall o, In o (k_pref ms3) -> In o (k_pref ms2) \/ good_pref o) ->
          cnt ms3 = cnt ms2 -> step ms ms3 /\ marked ms3 g).
      { intros ms3 Hw3 Hm3 Hp3 Ho3 Hk3 Hc3. split.
        - constructor; auto.
          + intros p Hp. apply Hm3. apply (s_marked _ _ Hs2). auto.
          + intros o Ho. apply Hp3. apply (s_plan _ _ Hs2). exact Ho.
          + intros p Hp. apply Hm3 in Hp. destruct (s_closed _ _ Hs2 p Hp) as [Hq|Hq].
            * destruct (Hnew1 p Hq) as [Hr| ->]; auto. right. intros i' u' Hi' Hu'.
              rewrite Hby in Hi'; inversion Hi'; subst i'. rewrite Hu in Hu'; inversion Hu'; subst u'.
              split; auto. intros q Hq'. apply Hm3. auto.
            * right. eapply closedp_mono; [| |exact Hq]; auto. intros; now apply Hm3.
          + intros o Ho. destruct (Hk3 o Ho) as [Hx|Hx]; auto. exact (s_pref _ _ Hs2 o Hx).
          + pose proof (s_cnt _ _ Hs2). lia.
        - apply Hm3. now apply (s_marked _ _ Hs2). }
      pose proof (s_wf _ _ Hs2) as [Hw21 Hw22].
      destruct (u_no u) as [o|] eqn:Eo.
      * assert (Hol : o < length (k_plan ms2)) by (rewrite Hw22; eapply Hno; eauto; now apply nth_error_In with i).
        unfold vset. rewrite (proj2 (Nat.ltb_lt _ _) Hol). cbn [bind]. eexists. split; [reflexivity|]. apply Hcl2; cbn [k_marked k_plan k_pref].
        -- split; cbn; rewrite ?upd_length; auto.
        -- intros p. reflexivity.
        -- intros o' Ho'. unfold planned in *; cbn. destruct (Nat.eq_dec o o') as [<-|Hne]; [now apply upd_nth_eq|now rewrite upd_nth_neq].
        -- intros o' Ho'. inversion Ho'; subst. unfold planned; cbn. now apply upd_nth_eq.
        -- intros o' Ho'. destruct pref; auto. apply set_preferred_in in Ho'. destruct Ho' as [->|Ho']; auto.
           right. exists u. splits; auto. now apply nth_error_In with i.
        -- reflexivity.
      * exists ms2. split; auto. apply Hcl2; auto; [split; auto|reflexivity|discriminate].
Qed.

Lemma filter_negb_repeat m : length (filter negb (repeat false m)) = m.
Proof. induction m as [|m IH]; cbn; auto. Qed.

Lemma mark_list gs : forall ms, (forall g, In g gs -> In g D) -> wf ms -> cnt ms <= r_n H ->
  exists ms', fold_outcome (mark P H (S (r_n H)) st) gs ms = Ok ms' /\ step ms ms' /\ forall g, In g gs -> marked ms' g.
Proof.
  induction gs as [|g r IH]; intros ms Hgs Hw Hc; cbn [fold_outcome].
  - exists ms. splits; auto; [now apply step_refl|intros g []].
  - destruct (mark_step (S (r_n H)) ms g) as (ms1 & E & Hs1 & Hm1); auto; [apply Hgs; now left|lia|].
    rewrite E. cbn [bind]. destruct (IH ms1) as (ms2 & E2 & Hs2 & Hm2); [intros; apply Hgs; now right|apply Hs1|pose proof (s_cnt _ _ Hs1); lia|].
    exists ms2. split; auto. split; [eapply step_trans; eauto|]. intros x [<-|Hx]; auto. now apply (s_marked _ _ Hs2).
Qed.
End MARK.

Section FF.
Variable P : pqueue.
Variable bag : PQ P -> list (nat * nat).
Hypothesis HP : pq_contract P bag.
Variable mx : nat.
Variable t : task.
Hypothesis Ht : relax_ok t.
Hypothesis Hc : forall op, In op (t_ops t) -> op_cost op <= mx.
Variable s : state.
Hypothesis Hs : state_ok t s.

Notation H := (make_rheur t).
Notation I := (state_props t s).

Lemma unary_no u o : In u (r_ops H) -> u_no u = Some o -> o < length (t_ops t) /\
  exists op e, nth_error (t_ops t) o = Some op /\ In e (op_effs op) /\ u_eff u = prop_id t (eff_fact e) /\
    forall f, In f (op_pre op ++ eff_cond e) -> In (prop_id t f) (u_pre u).
Proof.
  intros Hu Ho. cbn [make_rheur r_ops] in Hu. apply simplify_sub in Hu. apply in_app_iff in Hu. destruct Hu as [Hu|Hu].
  - apply unary_of_ops_in in Hu. destruct Hu as (i & op & e & Hn & He & ->). cbn [u_no] in Ho. inversion Ho; subst. cbn [Nat.add].
    split; [apply nth_error_Some; congruence|]. exists op, e. splits; auto. intros f Hf. cbn [u_pre].
    rewrite sort_unique_in, <- map_app. now apply in_map.
  - apply in_map_iff in Hu. destruct Hu as (r & <- & Hr). discriminate.
Qed.
Lemma unary_none u : In u (r_ops H) -> u_no u = None ->
  exists r, In r (t_rules t) /\ u_eff u = prop_id t (r_head r) /\ forall f, In f (r_body r) -> In (prop_id t f) (u_pre u).
Proof.
  intros Hu Ho. cbn [make_rheur r_ops] in Hu. apply simplify_sub in Hu. apply in_app_iff in Hu. destruct Hu as [Hu|Hu].
  - apply unary_of_ops_in in Hu. destruct Hu as (i & op & e & Hn & He & ->). discriminate.
  - apply in_map_iff in Hu. destruct Hu as (r & <- & Hr). exists r. splits; auto. intros f Hf.
    cbn [u_pre unary_of_rule]. rewrite sort_unique_in. right. now apply in_map.
Qed.

Lemma good_pref_app o : good_pref H I o -> applicable t s o.
Proof.
  intros (u & Hu & Ho & Hq). destruct (unary_no u o Hu Ho) as (_ & op & e & Hn & He & _ & Hsub).
  exists op. split; auto. intros f Hf. destruct Ht as (Hops & _). destruct (Hops op (nth_error_In _ _ Hn)) as [Hp1 _].
  rewrite Forall_forall in Hp1. apply (state_prop_in t s Hs); auto. apply Hq. apply Hsub. apply in_or_app; now left.
Qed.

Lemma marked_reach st D ms : Final P (hadd_mode mx) H I st D ->
  (forall p, marked ms p -> closedp P H st ms p) ->
  forall p, In p D -> marked ms p -> forall f, fact_ok t f -> prop_id t f = p -> rreach t (planned ms) s f.
Proof.
  intros HF Hcl p HpD.
  apply in_split in HpD as HpD'. destruct HpD' as (l1 & l2 & El). remember (length l2) as L eqn:EL. revert p HpD l1 l2 El EL.
  induction L as [L IH] using lt_wf_ind. intros p HpD l1 l2 El EL Hm f Hf Hpf.
  destruct (f_by _ _ _ _ _ _ HF p HpD) as [[_ HpI]|(i & u & Hby & Hu & He & Hpre)].
  - apply rr_state. subst p. now apply (state_prop_in t s Hs).
  - destruct (Hcl p Hm i u Hby Hu) as [Hmq Hpl].
    assert (G : forall g, fact_ok t g -> In (prop_id t g) (u_pre u) -> rreach t (planned ms) s g).
    { intros g Hg Hin. destruct (Hpre _ Hin) as [HqD Hbef]. destruct (Hbef HpD) as (m1 & m2 & Em & Hq2).
      assert (Hlen : length m2 = length l2).
      { pose proof (f_nodup _ _ _ _ _ _ HF) as HnD. rewrite El in Em, HnD.
        assert (Heq : l1 = m1 /\ l2 = m2).
        { clear -Em HnD. revert m1 Em. induction l1 as [|a l1 IHl]; intros [|b m1] Em; cbn in *.
          - inversion Em; auto.
          - inversion Em; subst. inversion HnD; subst. exfalso. apply H1. apply in_or_app. right. now left.
          - inversion Em; subst. inversion HnD; subst. exfalso. apply H1. apply in_or_app. right. now left.
          - inversion Em; subst. inversion HnD; subst. destruct (IHl H3 m1 H1) as [-> ->]. auto. }
        destruct Heq as [_ ->]. reflexivity. }
      apply in_split in Hq2. destruct Hq2 as (a & b & Eab).
      apply (IH (length b)) with (p := prop_id t g) (l1 := m1 ++ p :: a) (l2 := b); auto.
      - rewrite EL, <- Hlen, Eab, app_length. cbn. lia.
      - rewrite Em, Eab. now rewrite <- app_assoc. }
    destruct Ht as (Hops & Hrules & _). pose proof (nth_error_In _ _ Hu) as Huin.
    destruct (u_no u) as [o|] eqn:Eo.
    + destruct (unary_no u o Huin Eo) as (_ & op & e & Hn & Hee & Hue & Hsub).
      destruct (Hops op (nth_error_In _ _ Hn)) as [Hp1 Hp2]. destruct (Hp2 e Hee) as [Hc1 Hc2].
      assert (f = eff_fact e) by (apply (prop_id_inj t); auto; congruence). subst f.
      apply rr_op with o op; auto. intros g Hg. apply G; auto.
      rewrite Forall_forall in Hp1, Hc1. apply in_app_iff in Hg. destruct Hg; auto.
    + destruct (unary_none u Huin Eo) as (r & Hr & Hue & Hsub).
      destruct (Hrules r Hr) as (Hb & Hh & _).
      assert (f = r_head r) by (apply (prop_id_inj t); auto; congruence). subst f.
      apply rr_rule; auto. intros g Hg. apply G; auto. rewrite Forall_forall in Hb. auto.
Qed.

Lemma D_lt st D : Final P (hadd_mode mx) H I st D -> forall p, In p D -> p < r_n H.
Proof.
  intros HF p Hp. destruct (f_least _ _ _ _ _ _ HF p Hp) as (c & Hcc & _). unfold cst in Hcc.
  rewrite <- (f_len1 _ _ _ _ _ _ HF). destruct (Nat.lt_ge_cases p (length (x_cost st))) as [Hl|Hl]; auto.
  rewrite nth_overflow in Hcc by auto. discriminate.
Qed.

(** What a run of the additive exploration followed by marking gives. *)
Theorem add_run q0 by0 : length by0 = num_props t ->
  exists st h v, compute P (hadd_mode mx) H q0 by0 I = Ok (st, h) /\ hadd_value t s (t_goal t) v /\ h = option_map (Nat.min mx) v /\
    (h <> None -> exists ms,
       mark_goals P H st {| k_marked := repeat false (r_n H); k_plan := repeat false (length (t_ops t)); k_pref := [] |} = Ok ms /\
       length (k_plan ms) = length (t_ops t) /\
       (forall o, In o (k_pref ms) -> applicable t s o) /\
       (forall f, In f (t_goal t) -> rreach t (planned ms) s f)).
Proof.
  intros Hby. destruct (hadd_compute P bag HP mx t s q0 by0 Ht Hs Hby Hc) as (st & D & h & v & E & HF & Hv & Hh).
  exists st, h, v. splits; auto. intros Hne.
  assert (HgD : forall g, In g (r_goals H) -> In g D).
  { destruct (f_done _ _ _ _ _ _ HF) as [Hd|Hd]; auto.
    destruct v as [x|]; [|subst h; cbn in Hne; congruence]. destruct Hv as (cs & HF2 & _).
    intros g Hg. cbn [make_rheur r_goals] in Hg. apply in_map_iff in Hg. destruct Hg as (f & <- & Hf).
    assert (Hr : exists c, rcost list_sum t s f c).
    { clear -HF2 Hf. induction HF2 as [|a c l cs [Hl _] HF IH]; [destruct Hf|]. destruct Hf as [->|Hf]; eauto. }
    destruct Hr as [c Hr].
    destruct (rcost_der (hadd_mode mx) _ (hadd_mode_ok mx) list_sum (Nat.min mx) (hadd_HR mx) (Nat.min_0_r mx) (hadd_HZ mx) t Ht Hc s Hs f c Hr)
      as (_ & c' & Hd' & _).
    destruct (der_simplify (hadd_mode mx) _ (hadd_mode_ok mx) _ _ _ _ (ops_ok_unary (hadd_mode mx) _ (hadd_mode_ok mx) t Hc) Hd') as (c2 & Hd2 & _).
    apply (Hd _ c2). exact Hd2. }
  set (ms0 := {| k_marked := repeat false (r_n H); k_plan := repeat false (length (t_ops t)); k_pref := [] |}).
  assert (Hno : forall u o, In u (r_ops H) -> u_no u = Some o -> o < length (t_ops t)) by (intros u o Hu Ho; now apply (unary_no u o)).
  destruct (mark_list P (hadd_mode mx) H I st D HF (D_lt st D HF) (length (t_ops t)) Hno (r_goals H) ms0 HgD) as (ms & Em & Hst & Hm).
  - split; cbn; apply repeat_length.
  - unfold cnt, ms0; cbn [k_marked]. rewrite filter_negb_repeat. lia.
  - exists ms. split; [exact Em|]. split; [apply (s_wf _ _ _ _ _ _ _ Hst)|]. split.
    + intros o Ho. destruct (s_pref _ _ _ _ _ _ _ Hst o Ho) as [[]|Hg]. now apply good_pref_app.
    + assert (Hcl : forall p, marked ms p -> closedp P H st ms p).
      { intros p Hp. destruct (s_closed _ _ _ _ _ _ _ Hst p Hp) as [Hx|Hx]; auto. exfalso. unfold marked, ms0 in Hx; cbn [k_marked] in Hx.
        apply nth_error_In, repeat_spec in Hx. discriminate. }
      intros f Hf. destruct Ht as (Ht1 & Ht2 & Hg). rewrite Forall_forall in Hg.
      assert (Hin : In (prop_id t f) (r_goals H)) by (cbn [make_rheur r_goals]; now apply in_map).
      eapply marked_reach; eauto.
Qed.
End FF.

Lemma rreach_mono t (O O' : nat -> Prop) s f : (forall o, O o -> O' o) -> rreach t O s f -> rreach t O' s f.
Proof. intros Hi. induction 1; [now apply rr_state|eapply rr_op; eauto|now apply rr_rule]. Qed.

(** The operators of the relaxed plan, as a list. *)
Lemma ff_cost_list ops plan : length plan = length ops -> forall off,
  ff_cost ops plan = list_sum (map (fun o => match nth_error ops (o - off) with Some op => op_cost op | None => 0 end)
                                   (filter (fun o => nth (o - off) plan false) (seq off (length ops)))).
Proof.
  revert plan. induction ops as [|op r IH]; intros [|b plan] Hl off; cbn [length] in Hl; try discriminate; [reflexivity|].
  cbn [ff_cost length seq filter]. rewrite Nat.sub_diag. cbn [nth].
  assert (E : list_sum (map (fun o => match nth_error (op :: r) (o - off) with Some op => op_cost op | None => 0 end)
                (filter (fun o => nth (o - off) (b :: plan) false) (seq (S off) (length r)))) = ff_cost r plan).
  { rewrite (IH plan ltac:(lia) (S off)). f_equal.
    assert (Hf : filter (fun o => nth (o - off) (b :: plan) false) (seq (S off) (length r)) =
                 filter (fun o => nth (o - S off) plan false) (seq (S off) (length r))).
    { apply filter_ext_in. intros o Ho. apply in_seq in Ho. replace (o - off) with (S (o - S off)) by lia. reflexivity. }
    rewrite Hf. apply map_ext_in. intros o Ho. apply filter_In in Ho. destruct Ho as [Ho _]. apply in_seq in Ho.
    replace (o - off) with (S (o - S off)) by lia. reflexivity. }
  destruct b; cbn [map list_sum fold_right].
  - rewrite Nat.sub_diag. cbn [nth_error]. f_equal. exact (eq_sym E).
  - exact (eq_sym E).
Qed.

Theorem hff_spec P bag mx t s q0 by0 : pq_contract P bag -> relax_ok t -> state_ok t s -> length by0 = num_props t ->
  (forall op, In op (t_ops t) -> op_cost op <= mx) ->
  exists h pref plan, hff P mx t q0 by0 s = Ok (h, pref, plan) /\
    match h with
    | Some v => (exists RP, NoDup RP /\ v = plan_cost t RP /\ (forall o, In o RP -> o < length (t_ops t)) /\
                   forall f, In f (t_goal t) -> rreach t (fun o => In o RP) s f) /\
                (forall o, In o pref -> applicable t s o)
    | None => hadd_value t s (t_goal t) None
    end.
Proof.
  intros HP Ht Hs Hby Hc. destruct (add_run P bag HP mx t Ht Hc s Hs q0 by0 Hby) as (st & h & v & E & Hv & Hh & Hms).
  unfold hff. rewrite E. cbn [bind]. destruct h as [x|].
  - destruct (Hms ltac:(discriminate)) as (ms & Em & Hl & Hpref & Hreach). rewrite Em. cbn [bind].
    exists (Some (ff_cost (t_ops t) (k_plan ms))), (k_pref ms), (k_plan ms). split; [reflexivity|]. split; auto.
    exists (filter (fun o => nth o (k_plan ms) false) (seq 0 (length (t_ops t)))). split; [apply NoDup_filter, seq_NoDup|].
    split; [|split].
    + rewrite (ff_cost_list _ _ Hl 0). unfold plan_cost. f_equal.
      rewrite (filter_ext_in (fun o => nth (o - 0) (k_plan ms) false) (fun o => nth o (k_plan ms) false)) by (intros o _; now rewrite Nat.sub_0_r).
      apply map_ext. intros o. now rewrite Nat.sub_0_r.
    + intros o Ho. apply filter_In in Ho. destruct Ho as [Ho _]. apply in_seq in Ho. lia.
    + intros f Hf. eapply rreach_mono; [|apply Hreach; auto]. intros o Ho. unfold planned in Ho. apply filter_In. split.
      * apply in_seq. split; [lia|]. cbn. rewrite <- Hl. apply nth_error_Some. congruence.
      * apply nth_error_nth with (d := false) in Ho. exact Ho.
  - exists None, [], (repeat false (length (t_ops t))). split; [reflexivity|]. destruct v; [discriminate|exact Hv].
Qed.

Theorem hadd_spec P bag mx t s q0 by0 : pq_contract P bag -> relax_ok t -> state_ok t s -> length by0 = num_props t ->
  (forall op, In op (t_ops t) -> op_cost op <= mx) ->
  exists h pref v, hadd P mx t q0 by0 s = Ok (h, pref) /\ hadd_value t s (t_goal t) v /\ h = option_map (Nat.min mx) v /\
    forall o, In o pref -> applicable t s o.
Proof.
  intros HP Ht Hs Hby Hc. destruct (add_run P bag HP mx t Ht Hc s Hs q0 by0 Hby) as (st & h & v & E & Hv & Hh & Hms).
  unfold hadd. rewrite E. cbn [bind]. destruct h as [x|].
  - destruct (Hms ltac:(discriminate)) as (ms & Em & Hl & Hpref & Hreach). rewrite Em. cbn [bind].
    exists (Some x), (k_pref ms), v. splits; auto.
  - exists None, [], v. splits; auto. intros o [].
Qed.

(** Derivable with some cost = relaxed reachable. *)
Lemma rcost_rreach comb t s f c : rcost comb t s f c -> rreach t (fun _ => True) s f.
Proof.
  induction 1 as [f Hh|pre f c fs k Hop Hnd Hfs Hk IH]; [now apply rr_state|].
  inversion Hop as [op e Hin He|r Hr]; subst.
  - apply In_nth_error in Hin. destruct Hin as [o Ho]. apply rr_op with o op; auto. intros g Hg. apply IH. now apply Hfs.
  - apply rr_rule; auto. intros g Hg. apply IH. now apply Hfs.
Qed.
Lemma rreach_rcost comb t O s f : rreach t O s f -> exists c, rcost comb t s f c.
Proof.
  assert (G : forall pre f c, relaxed_op t pre f c -> (forall g, In g pre -> exists c, rcost comb t s g c) -> exists c, rcost comb t s f c).
  { intros pre f0 c Hop Hg. destruct (list_choice fact_dec (fun g c => rcost comb t s g c) (nodup fact_dec pre)) as [k Hk].
    - intros g Hg'. apply nodup_In in Hg'. auto.
    - exists (c + comb (map k (nodup fact_dec pre))). apply rc_op with pre; auto; [apply NoDup_nodup|intros; apply nodup_In]. }
  induction 1 as [f Hh|o op e Ho Hn He Hg IH|r Hr Hg IH].
  - exists 0. now apply rc_state.
  - eapply G; [|exact IH]. apply ro_effect; auto. now apply nth_error_In with o.
  - eapply G; [|exact IH]. now apply ro_rule.
Qed.
Lemma rvalue_none comb t s fs : rvalue comb t s fs None <-> exists f, In f fs /\ ~ rreach t (fun _ => True) s f.
Proof.
  split; intros (f & Hf & Hn); exists f; split; auto.
  - intros Hr. destruct (rreach_rcost comb _ _ _ _ Hr) as [c Hc]. now apply (Hn c).
  - intros c Hc. apply Hn. eapply rcost_rreach; eauto.
Qed.
