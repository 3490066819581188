(** Dominance pruning keeps the canonical value. *)
From Coq Require Import Sorted Permutation.
From Verif Require Import Outcome Spec_Task Spec_Relaxation Spec_Projection Model_Task Model_PDB
  Proof_PDB1 Proof_Additive Proof_Collections Proof_Cliques Model_PatternCollections.

Lemma F2_nth_none {A B} (R : A -> B -> Prop) l l' : Forall2 R l l' -> forall i, nth_error l i = None <-> nth_error l' i = None.
Proof. intros H i. rewrite !nth_error_None. now rewrite (F2_len _ _ _ H). Qed.

Definition subpattern (pats : list (list nat)) (i j : nat) : Prop :=
  exists p q, nth_error pats i = Some p /\ nth_error pats j = Some q /\ incl p q.
Definition domby (pats : list (list nat)) (K1 K2 : list nat) : Prop := forall i, In i K2 -> exists j, In j K1 /\ subpattern pats i j.
Lemma domby_trans pats A B C : domby pats A B -> domby pats B C -> domby pats A C.
Proof.
  intros H1 H2 i Hi. destruct (H2 i Hi) as (j & Hj & p & q & Hp & Hq & Hpq). destruct (H1 j Hj) as (k & Hk & q' & r & Hq' & Hr & Hqr).
  exists k. split; auto. exists p, r. splits; auto. rewrite Hq in Hq'; inversion Hq'; subst. eapply incl_tran; eauto.
Qed.
Lemma domby_refl pats K : (forall i, In i K -> i < length pats) -> domby pats K K.
Proof. intros HK i Hi. exists i. split; auto. destruct (nth_error pats i) as [p|] eqn:E; [exists p, p; splits; auto; apply incl_refl|]. apply nth_error_None in E. specialize (HK i Hi). lia. Qed.

Section S.
Variable t : task.
Hypothesis Ht : plain_task t.
Variable pats : list (list nat).
Hypothesis Hpats : Forall (pattern_ok t) pats.
Variable s : nat -> nat.
Variable hs : list (option nat).
Hypothesis HF : Forall2 (fun p h => perfect_value (project t p (task_costs t)) (map s p) h) pats hs.

Lemma dom_none i j : subpattern pats i j -> nth_error hs i = Some None -> nth_error hs j = Some None.
Proof.
  intros (p & q & Hp & Hq & Hincl) Hi. rewrite Forall_forall in Hpats.
  destruct (F2_nth _ _ _ HF i p Hp) as (h & Eh & Hh). rewrite Hi in Eh; inversion Eh; subst h. destruct (F2_nth _ _ _ HF j q Hq) as (h' & Eh' & Hh'). rewrite Eh'. destruct h' as [c|]; auto. exfalso.
  cbn [perfect_value] in *. destruct Hh' as [(os & Hos & _) _]. apply (mplan_proj t Ht q) in Hos; [|apply Hpats; eapply nth_error_In; eauto|apply task_costs_len].
  eapply Hh. apply (proj_mplan t Ht p); [apply Hpats; eapply nth_error_In; eauto|apply task_costs_len|]. eapply mplan_restrict; [exact Hincl|exact Hos].
Qed.

Lemma ksum_filter ns (f : nat -> bool) K : ksum ns K = ksum ns (filter f K) + ksum ns (filter (fun i => negb (f i)) K).
Proof. unfold ksum. induction K as [|x K IH]; cbn [filter map list_sum fold_right]; auto. destruct (f x); cbn [negb map list_sum fold_right]; change (fold_right Nat.add 0) with list_sum in *; lia. Qed.

Lemma sub_sum ns j q L : hs = map Some ns -> nth_error pats j = Some q -> additive_set t pats L -> (forall i, In i L -> subpattern pats i j) -> ksum ns L <= nth j ns 0.
Proof.
  intros Ens Hq HL Hsub. rewrite Forall_forall in Hpats. destruct (F2_nth _ _ _ HF j q Hq) as (h & Eh & Hh).
  rewrite Ens, nth_error_map in Eh. destruct (nth_error ns j) as [c|] eqn:Ej; [|discriminate]. cbn in Eh. inversion Eh; subst h. rewrite (nth_error_nth ns j 0 Ej).
  destruct Hh as [(os & Hos & Hc) _]. pose proof (Hpats q (nth_error_In _ _ Hq)) as Hqo. apply (mplan_proj t Ht q) in Hos; [|exact Hqo|apply task_costs_len].
  destruct HL as (Hn & Hr & Ha).
  destruct (additive_bound t Ht (fun v => In v q) (fun o => nth o (task_costs t) 0) (map (fun i => (nth i pats [], task_costs t)) L) (map (fun i => nth i hs None) L) s os Hos) as (ms & Ems & Hle).
  - apply Forall_forall. intros pc Hpc. apply in_map_iff in Hpc. destruct Hpc as (i & <- & Hi). cbn [fst snd]. destruct (Hsub i Hi) as (p & q' & Hp & Hq' & Hincl). rewrite Hq in Hq'; inversion Hq'; subst q'.
    rewrite (nth_error_nth pats i [] Hp). split; [apply Hpats; eapply nth_error_In; eauto|]. split; [apply task_costs_len|exact Hincl].
  - intros o. rewrite map_map. cbn [fst snd]. rewrite <- (map_map (fun i => nth i pats []) (fun p => if touches t p o then nth o (task_costs t) 0 else 0)).
    apply (clique_costs t (map (fun i => nth i pats []) L) (fun o => nth o (task_costs t) 0)).
    clear -Hn Hr Ha. induction Hn as [|x L Hx Hn IH]; cbn [map]; constructor.
    + apply Forall_forall. intros p Hp. apply in_map_iff in Hp. destruct Hp as (i & <- & Hi). apply (Ha x i); [now left|now right|congruence| |].
      * apply nth_error_nth'. apply Hr. now left.
      * apply nth_error_nth'. apply Hr. now right.
    + apply IH; [intros; apply Hr; now right|]. intros i k p q Hi Hk. apply Ha; now right.
  - assert (Hin : forall i, In i L -> i < length pats) by auto. clear -HF Hin. induction L as [|i L IH]; cbn [map]; constructor.
    + cbn [fst snd]. destruct (F2_nth _ _ _ HF i (nth i pats [])) as (h & Eh & Hh); [apply nth_error_nth', Hin; now left|]. now rewrite (nth_error_nth hs i None Eh).
    + apply IH. intros; apply Hin; now right.
  - assert (E : ms = map (fun i => nth i ns 0) L).
    { assert (Hin : forall i, In i L -> i < length ns) by (intros i Hi; rewrite <- (map_length Some ns), <- Ens, <- (F2_len _ _ _ HF); auto). clear -Ems Ens Hin. revert ms Ems. induction L as [|i L IH]; intros [|m ms] E; cbn [map] in *; try discriminate; auto.
      inversion E as [[E1 E2]]. f_equal; [|apply IH; auto; intros; apply Hin; now right]. rewrite Ens in E1. rewrite (nth_error_nth (map Some ns) i None (x := Some (nth i ns 0))) in E1; [congruence|].
      apply map_nth_error. apply nth_error_nth'. apply Hin. now left. }
    unfold ksum. rewrite <- E. eapply Nat.le_trans; [exact Hle|]. rewrite proj_plan_cost in Hc by apply task_costs_len. lia.
Qed.

Lemma additive_set_filter (f : nat -> bool) K : additive_set t pats K -> additive_set t pats (filter f K).
Proof.
  intros (Hn & Hr & Ha). unfold additive_set. splits.
  - now apply NoDup_filter.
  - intros i Hi. apply filter_In in Hi. apply Hr. tauto.
  - intros i j p q Hi Hj. apply filter_In in Hi, Hj. apply Ha; tauto.
Qed.
Definition subb (p q : list nat) : bool := forallb (fun v => if in_dec Nat.eq_dec v q then true else false) p.
Lemma subb_spec p q : subb p q = true <-> incl p q.
Proof. unfold subb. rewrite forallb_forall. split; intros H v Hv; specialize (H v Hv); destruct (in_dec Nat.eq_dec v q); auto; discriminate. Qed.

Lemma dom_sum ns : hs = map Some ns -> forall K1 K2, (forall i, In i K1 -> i < length pats) -> additive_set t pats K2 -> domby pats K1 K2 -> ksum ns K2 <= ksum ns K1.
Proof.
  intros Ens. induction K1 as [|j K1 IH]; intros K2 Hr1 HK2 Hd.
  - destruct K2 as [|i K2]; [unfold ksum; cbn; lia|]. destruct (Hd i (or_introl eq_refl)) as (j & [] & _).
  - destruct (nth_error pats j) as [q|] eqn:Ej; [|apply nth_error_None in Ej; specialize (Hr1 j (or_introl eq_refl)); lia].
    rewrite (ksum_filter ns (fun i => subb (nth i pats []) q) K2). replace (ksum ns (j :: K1)) with (nth j ns 0 + ksum ns K1) by reflexivity. apply Nat.add_le_mono.
    + eapply sub_sum; eauto; [now apply additive_set_filter|]. intros i Hi. apply filter_In in Hi. destruct Hi as [Hi Hs]. apply subb_spec in Hs. exists (nth i pats []), q. splits; auto. apply nth_error_nth'. now apply HK2.
    + apply IH; [intros; apply Hr1; now right|now apply additive_set_filter|]. intros i Hi. apply filter_In in Hi. destruct Hi as [Hi Hs]. destruct (Hd i Hi) as (k & [<-|Hk] & Hsub); eauto.
      destruct Hsub as (p & q' & Hp & Hq' & Hincl). rewrite Ej in Hq'; inversion Hq'; subst q'. apply negb_true_iff in Hs. apply subb_spec in Hincl. rewrite (nth_error_nth pats i [] Hp) in Hs. congruence.
Qed.
End S.

(* ---- the pruning algorithm ---- *)
Section PR.
Variable nvars : nat.
Variable pats : list (list nat).
Hypothesis Hne : forall p, In p pats -> p <> [].
Hypothesis Hlt : forall p v, In p pats -> In v p -> v < nvars.
Notation np := (length pats).

Lemma v2p_ok K : (forall i, In i K -> i < np) -> exists m, variable_to_pattern_id nvars pats K = Ok m /\ length m = nvars /\
  forall v id, nth_error m v = Some (Some id) -> In id K /\ exists p, nth_error pats id = Some p /\ In v p.
Proof.
  unfold variable_to_pattern_id. set (I := fun (K' : list nat) (m : list (option nat)) => length m = nvars /\ forall v id, nth_error m v = Some (Some id) -> In id K' /\ exists p, nth_error pats id = Some p /\ In v p).
  assert (G : forall L m, (forall i, In i L -> i < np /\ In i K) -> I K m -> exists m', fold_outcome (fun m id => let* pat := vget pats id in fold_outcome (fun m v => vset m v (Some id)) pat m) L m = Ok m' /\ I K m').
  { induction L as [|id L IH]; intros m HL Hm; cbn [fold_outcome]; [eauto|]. destruct (HL id (or_introl eq_refl)) as [Hid HidK]. unfold vget at 1. destruct (nth_error pats id) as [p|] eqn:Ep; [|apply nth_error_None in Ep; lia]. cbn [bind].
    assert (G2 : forall l m, incl l p -> I K m -> exists m', fold_outcome (fun m v => vset m v (Some id)) l m = Ok m' /\ I K m').
    { induction l as [|v l IHl]; intros m1 Hl [Hm1 Hm2]; cbn [fold_outcome]; [exists m1; split; auto; split; auto|]. unfold vset at 1. rewrite Hm1.
      rewrite (proj2 (Nat.ltb_lt v nvars)) by (apply (Hlt p); [eapply nth_error_In; eauto|apply Hl; now left]). cbn [bind]. apply IHl; [intros x Hx; apply Hl; now right|]. split; [now rewrite upd_length|].
      intros u id' Hu. destruct (Nat.eq_dec u v) as [->|Huv].
      - rewrite upd_nth_eq in Hu by (rewrite Hm1; apply (Hlt p); [eapply nth_error_In; eauto|apply Hl; now left]). inversion Hu; subst id'. split; auto. exists p. split; auto. apply Hl. now left.
      - rewrite upd_nth_neq in Hu by auto. auto. }
    destruct (G2 p m (incl_refl _) Hm) as (m1 & E1 & Hm1). rewrite E1. cbn [bind]. apply IH; auto. intros; apply HL; now right. }
  intros HK. destruct (G K (repeat None nvars)) as (m & E & Hm1 & Hm2); [auto| |eauto].
  split; [apply repeat_length|]. intros v id Hv. exfalso. destruct (lt_dec v nvars); [rewrite nth_error_repeat in Hv by auto; discriminate|].
  rewrite (proj2 (nth_error_None _ v)) in Hv by (rewrite repeat_length; lia). discriminate.
Qed.

Lemma pattern_dominated_ok K m p : length m = nvars -> (forall v id, nth_error m v = Some (Some id) -> In id K /\ exists p, nth_error pats id = Some p /\ In v p) ->
  In p pats -> exists b, is_pattern_dominated m p = Ok b /\ (b = true -> exists id q, In id K /\ nth_error pats id = Some q /\ incl p q).
Proof.
  intros Hl Hm Hp. pose proof (Hne p Hp) as Hn. assert (Hv : forall v, In v p -> v < nvars) by (intros; eapply Hlt; eauto). destruct p as [|v r]; [congruence|]. cbn [is_pattern_dominated].
  unfold vget. destruct (nth_error m v) as [[id|]|] eqn:Ev; cbn [bind]; [| |apply nth_error_None in Ev; specialize (Hv v (or_introl eq_refl)); lia].
  2:{ exists false. split; auto. discriminate. }
  destruct (Hm v id Ev) as (HK & q & Hq & Hvq).
  assert (G : forall l, (forall x, In x l -> x < nvars) -> exists b, all_entries m id l = Ok b /\ (b = true -> incl l q)).
  { induction l as [|x l IH]; intros Hlx; cbn [all_entries]; [exists true; split; auto; intros _ y []|]. unfold vget. destruct (nth_error m x) as [[id'|]|] eqn:Ex; cbn [bind]; [| |apply nth_error_None in Ex; specialize (Hlx x (or_introl eq_refl)); lia].
    - destruct (Nat.eqb_spec id' id) as [->|]; [|exists false; split; auto; discriminate]. destruct IH as (b & Eb & Hb); [intros; apply Hlx; now right|]. exists b. split; auto. intros Hbt y [<-|Hy]; [|now apply Hb].
      destruct (Hm x id Ex) as (_ & q' & Hq' & Hx'). congruence.
    - exists false. split; auto. discriminate. }
  destruct (G r) as (b & Eb & Hb); [intros; apply Hv; now right|]. exists b. split; auto. intros Hbt. exists id, q. splits; auto. intros y [<-|Hy]; auto. now apply Hb.
Qed.

Lemma dominated_patterns_ok K m : length m = nvars -> (forall v id, nth_error m v = Some (Some id) -> In id K /\ exists p, nth_error pats id = Some p /\ In v p) ->
  exists dom, dominated_patterns m pats = Ok dom /\ length dom = np /\ forall i, nth_error dom i = Some true -> exists j, In j K /\ subpattern pats i j.
Proof.
  intros Hl Hm. unfold dominated_patterns.
  assert (G : forall l acc, incl l pats -> exists dom, fold_outcome (fun l pat => let* b := is_pattern_dominated m pat in Ok (l ++ [b])) l acc = Ok (acc ++ dom) /\ length dom = length l /\
    forall i p, nth_error l i = Some p -> nth_error dom i = Some true -> exists id q, In id K /\ nth_error pats id = Some q /\ incl p q).
  { induction l as [|p l IH]; intros acc Hin; cbn [fold_outcome].
    - exists []. rewrite app_nil_r. splits; auto. intros [|i]; discriminate.
    - destruct (pattern_dominated_ok K m p Hl Hm (Hin p (or_introl eq_refl))) as (b & Eb & Hb). rewrite Eb. cbn [bind]. destruct (IH (acc ++ [b])) as (dom & E & Hld & Hd); [intros x Hx; apply Hin; now right|].
      exists (b :: dom). rewrite E, <- app_assoc. splits; auto; [cbn [length]; lia|]. intros [|i] p' Hp' Hb'; cbn [nth_error] in *; [inversion Hp'; inversion Hb'; subst; auto|eauto]. }
  destruct (G pats [] (incl_refl _)) as (dom & E & Hld & Hd). exists dom. splits; auto. intros i Hi. destruct (nth_error pats i) as [p|] eqn:Ep; [|apply nth_error_None in Ep; apply nth_error_Some_lt in Hi; lia].
  destruct (Hd i p Ep Hi) as (id & q & HK & Hq & Hincl). exists id. split; auto. exists p, q. auto.
Qed.
Lemma clique_dominated_ok K1 K2 dom : length dom = np -> (forall i, nth_error dom i = Some true -> exists j, In j K1 /\ subpattern pats i j) -> (forall i, In i K2 -> i < np) ->
  exists b, is_clique_dominated dom K2 = Ok b /\ (b = true -> domby pats K1 K2).
Proof.
  intros Hl Hd. induction K2 as [|i K2 IH]; intros HK; cbn [is_clique_dominated]; [exists true; split; auto; intros _ i []|].
  unfold vget. destruct (nth_error dom i) as [b|] eqn:Ei; [|apply nth_error_None in Ei; specialize (HK i (or_introl eq_refl)); lia]. cbn [bind]. destruct b; [|exists false; split; auto; discriminate].
  destruct IH as (b & Eb & Hb); [intros; apply HK; now right|]. exists b. split; auto. intros Hbt k [<-|Hk]; [auto|now apply Hb].
Qed.

Variable cliques : list (list nat).
Hypothesis Hcl : forall K i, In K cliques -> In i K -> i < np.
Notation nc := (length cliques).
Definition pinv (pruned : list bool) : Prop := length pruned = nc /\
  forall c2 K2, nth_error cliques c2 = Some K2 -> exists c1 K1, nth_error pruned c1 = Some false /\ nth_error cliques c1 = Some K1 /\ domby pats K1 K2.

Lemma pruned_ok limit : exists pruned, pruned_cliques limit nvars pats cliques = Ok pruned /\ pinv pruned.
Proof.
  unfold pruned_cliques. set (body := fun (pruned : list bool) (c1 : nat) => _).
  assert (G : forall l pruned, (forall c, In c l -> c < nc) -> pinv pruned -> exists pruned', fold_outcome body l pruned = Ok pruned' /\ pinv pruned').
  { induction l as [|c1 l IH]; intros pruned Hl HI; cbn [fold_outcome]; [eauto|]. pose proof (Hl c1 (or_introl eq_refl)) as Hc1. 
    assert (Hs : exists pruned1, body pruned c1 = Ok pruned1 /\ pinv pruned1).
    { unfold body. unfold vget at 1. destruct (nth_error pruned c1) as [p1|] eqn:E1; [|apply nth_error_None in E1; destruct HI; lia]. cbn [bind]. destruct p1; [eauto|].
      unfold vget at 1. destruct (nth_error cliques c1) as [K1|] eqn:EK1; [|apply nth_error_None in EK1; lia]. cbn [bind].
      pose proof (nth_error_In _ _ EK1) as HK1. destruct (v2p_ok K1 (fun i => Hcl K1 i HK1)) as (m & Em & Hml & Hm). rewrite Em. cbn [bind].
      destruct (dominated_patterns_ok K1 m Hml Hm) as (dom & Ed & Hdl & Hd). rewrite Ed. cbn [bind].
      assert (G2 : forall l2 pr, (forall c, In c l2 -> c < nc) -> pinv pr -> nth_error pr c1 = Some false ->
        exists pr', fold_outcome (fun pruned c2 => let* p2 := vget pruned c2 in
          if negb (c1 =? c2) && negb p2 then let* clique2 := vget cliques c2 in let* b := is_clique_dominated dom clique2 in if (b : bool) then vset pruned c2 true else Ok pruned else Ok pruned) l2 pr = Ok pr' /\ pinv pr').
      { induction l2 as [|c2 l2 IH2]; intros pr Hl2 [HIl HIp] Hf; cbn [fold_outcome]; [exists pr; split; auto; split; auto|]. pose proof (Hl2 c2 (or_introl eq_refl)) as Hc2.
        assert (Hl2' : forall c, In c l2 -> c < nc) by (intros; apply Hl2; now right).
        unfold vget at 1. destruct (nth_error pr c2) as [p2|] eqn:E2; [|apply nth_error_None in E2; lia]. cbn [bind]. destruct (Nat.eqb_spec c1 c2) as [->|Hcc]; cbn [negb andb bind]; [apply IH2; auto; split; auto|].
        destruct p2; cbn [negb bind]; [apply IH2; auto; split; auto|]. unfold vget at 1. destruct (nth_error cliques c2) as [K2|] eqn:EK2; [|apply nth_error_None in EK2; lia]. cbn [bind].
        destruct (clique_dominated_ok K1 K2 dom Hdl Hd (fun i => Hcl K2 i (nth_error_In _ _ EK2))) as (b & Eb & Hb). rewrite Eb. cbn [bind]. destruct b; [|cbn [bind]; apply IH2; auto; split; auto].
        unfold vset. rewrite HIl, (proj2 (Nat.ltb_lt c2 nc) Hc2). cbn [bind]. apply IH2; auto; [|now rewrite upd_nth_neq by auto]. split; [now rewrite upd_length|].
        intros c K EK. destruct (HIp c K EK) as (cw & Kw & Hw & HKw & Hdw). destruct (Nat.eq_dec cw c2) as [->|Hne2].
        - rewrite EK2 in HKw; inversion HKw; subst Kw. exists c1, K1. splits; auto; [now rewrite upd_nth_neq by auto|]. eapply domby_trans; eauto.
        - exists cw, Kw. splits; auto. now rewrite upd_nth_neq by auto. }
      apply G2; auto. intros c Hc. apply in_seq in Hc. lia. }
    destruct Hs as (pr1 & Epr & HI1). rewrite Epr. cbn [bind]. apply IH; auto. intros; apply Hl; now right. }
  apply G.
  - intros c Hc. apply in_seq in Hc. destruct limit; lia.
  - split; [apply repeat_length|]. intros c2 K2 E. exists c2, K2. splits; auto; [apply nth_error_repeat; eapply nth_error_Some_lt; eauto|]. apply domby_refl. intros i Hi. eapply Hcl; [eapply nth_error_In; eauto|exact Hi].
Qed.

Lemma fold_setall (K : list nat) : forall used, (forall i, In i K -> i < length used) -> exists used', fold_outcome (fun used id => vset used id true) K used = Ok used' /\ length used' = length used /\
  forall i, nth_error used' i = Some true <-> nth_error used i = Some true \/ In i K.
Proof.
  induction K as [|k K IH]; intros used HK; cbn [fold_outcome].
  - exists used. splits; auto. intros i. cbn [In]. tauto.
  - pose proof (HK k (or_introl eq_refl)) as Hk. unfold vset at 1. rewrite (proj2 (Nat.ltb_lt k (length used)) Hk). cbn [bind]. destruct (IH (upd used k true)) as (u & E & Hl & Hu); [intros; rewrite upd_length; apply HK; now right|].
    exists u. rewrite upd_length in Hl. splits; auto. intros i. rewrite Hu. cbn [In]. destruct (Nat.eq_dec i k) as [->|Hik]; [rewrite upd_nth_eq by auto; tauto|rewrite upd_nth_neq by auto; intuition congruence].
Qed.

Lemma nth_combine_seq {A} (l : list A) : forall k i x, In (i, x) (combine (seq k (length l)) l) -> k <= i /\ nth_error l (i - k) = Some x.
Proof.
  induction l as [|y l IH]; intros k i x H; cbn [length seq combine In] in H; [destruct H|]. destruct H as [H|H]; [inversion H; subst; rewrite Nat.sub_diag; auto|].
  destruct (IH (S k) i x H) as [H1 H2]. split; [lia|]. replace (i - k) with (S (i - S k)) by lia. exact H2.
Qed.

(** What pruning returns: some of the cliques, renumbered for the patterns they contain. *)
Theorem prune_ok {D} (dbs : list D) limit : length dbs = np ->
  exists rpats rdbs rcl ids rem, prune_dominated_cliques limit nvars pats dbs cliques = Ok (rpats, rdbs, rcl) /\
    (forall K, In K rem -> In K cliques) /\ (forall K, In K cliques -> exists K1, In K1 rem /\ domby pats K1 K) /\
    (forall i, In i ids -> i < np) /\ Forall2 (fun i p => nth_error pats i = Some p) ids rpats /\ Forall2 (fun i db => nth_error dbs i = Some db) ids rdbs /\
    Forall2 (fun K K' => Forall2 (fun i i' => nth_error ids i' = Some i) K K') rem rcl.
Proof.
  intros Hdb. unfold prune_dominated_cliques. destruct (pruned_ok limit) as (pruned & Ep & Hpl & Hpd). rewrite Ep. cbn [bind].
  (* remaining cliques *)
  assert (G1 : forall l rem used, (forall ci, In ci l -> nth_error cliques (fst ci) = Some (snd ci)) -> length used = np ->
    exists rem' used', fold_outcome (fun st ci => let '(rem, used) := st in let* p := vget pruned (fst ci) in if (p : bool) then Ok (rem, used)
      else let* used := fold_outcome (fun used id => vset used id true) (snd ci) used in Ok (rem ++ [snd ci], used)) l (rem, used) = Ok (rem', used') /\ length used' = np /\
      (forall K, In K rem' <-> In K rem \/ exists c, In (c, K) l /\ nth_error pruned c = Some false) /\
      (forall i, nth_error used' i = Some true <-> nth_error used i = Some true \/ exists c K, In (c, K) l /\ nth_error pruned c = Some false /\ In i K)).
  { induction l as [|[c K] l IH]; intros rem used Hl Hu; cbn [fold_outcome].
    - exists rem, used. splits; auto; [intros K; split; auto; intros [?|(c & [] & _)]; auto|intros i; split; auto; intros [?|(c & K & [] & _)]; auto].
    - pose proof (Hl (c, K) (or_introl eq_refl)) as HcK. cbn [fst snd] in HcK. cbn [fst snd]. unfold vget at 1. destruct (nth_error pruned c) as [p|] eqn:Epc; [|apply nth_error_None in Epc; apply nth_error_Some_lt in HcK; lia]. cbn [bind]. destruct p.
      + cbn [bind]. destruct (IH rem used) as (rem' & used' & E & Hu' & Hr & Hus); auto; [intros; apply Hl; now right|]. exists rem', used'. splits; auto.
        * intros K'. rewrite Hr. split; [intros [?|(c' & Hc' & Hf)]; auto; right; exists c'; split; [now right|auto]|intros [?|(c' & [Hc'|Hc'] & Hf)]; auto; [inversion Hc'; subst; congruence|right; eauto]].
        * intros i. rewrite Hus. split; [intros [?|(c' & K' & Hc' & Hf)]; auto; right; exists c', K'; split; [now right|auto]|intros [?|(c' & K' & [Hc'|Hc'] & Hf & Hi)]; auto; [inversion Hc'; subst; congruence|right; eauto]].
      + destruct (fold_setall K used) as (u1 & Eu & Hlu & Hus1); [intros i Hi; rewrite Hu; eapply Hcl; [eapply nth_error_In; eauto|exact Hi]|]. rewrite Eu. cbn [bind].
        destruct (IH (rem ++ [K]) u1) as (rem' & used' & E & Hu' & Hr & Hus); auto; [intros; apply Hl; now right|lia|]. exists rem', used'. splits; auto.
        * intros K'. rewrite Hr, in_app_iff. cbn [In]. split.
          -- intros [[?|[<-|[]]]|(c' & Hc' & Hf)]; auto; [right; exists c; auto|right; exists c'; auto].
          -- intros [?|(c' & [Hc'|Hc'] & Hf)]; auto; [inversion Hc'; subst; auto|right; eauto].
        * intros i. rewrite Hus, Hus1. split.
          -- intros [[?|Hi]|(c' & K' & Hc' & Hf)]; auto; [right; exists c, K; split; [now left|auto]|right; exists c', K'; split; [now right|auto]].
          -- intros [?|(c' & K' & [Hc'|Hc'] & Hf & Hi)]; auto; [inversion Hc'; subst; auto|right; eauto]. }
  destruct (G1 (combine (seq 0 nc) cliques) [] (repeat false np)) as (rem & used & Er & Hul & Hrem & Hused).
  { intros [c K] Hc. cbn [fst snd]. apply nth_combine_seq in Hc. destruct Hc as [_ Hc]. now rewrite Nat.sub_0_r in Hc. } { apply repeat_length. }
  rewrite Er. cbn [bind].
  assert (Hrem2 : forall K, In K rem <-> exists c, nth_error cliques c = Some K /\ nth_error pruned c = Some false).
  { intros K. rewrite Hrem. split.
    - intros [[]|(c & Hc & Hf)]. apply nth_combine_seq in Hc. destruct Hc as [_ Hc]. rewrite Nat.sub_0_r in Hc. eauto.
    - intros (c & Hc & Hf). right. exists c. split; auto.
      assert (G : forall (l : list (list nat)) k j x, nth_error l j = Some x -> In (k + j, x) (combine (seq k (length l)) l)).
      { clear. induction l as [|y l IH]; intros k [|j] x Hj; cbn [length seq combine nth_error In] in *; try discriminate; [left; inversion Hj; f_equal; lia|]. right. replace (k + S j) with (S k + j) by lia. auto. }
      exact (G cliques 0 c K Hc). }
  assert (Hused2 : forall K i, In K rem -> In i K -> nth_error used i = Some true).
  { intros K i HK Hi. apply Hused. right. apply Hrem in HK. destruct HK as [[]|(c & Hc & Hf)]. eauto 6. }
  (* remaining patterns *)
  assert (G3 : forall l rp rd m ids, (forall i, In i l -> i < np) -> NoDup l -> length m = np ->
    Forall2 (fun i p => nth_error pats i = Some p) ids rp -> Forall2 (fun i db => nth_error dbs i = Some db) ids rd -> (forall i, In i ids -> i < np) ->
    (forall i, ~ In i l -> nth_error used i = Some true -> exists k, nth_error m i = Some (Some k) /\ nth_error ids k = Some i) ->
    exists rp' rd' m' ids', fold_outcome (fun st id => let '((rpats, rdbs), m) := st in let* u := vget used id in
      if (u : bool) then let* m := vset m id (Some (length rpats)) in let* pat := vget pats id in let* db := vget dbs id in Ok ((rpats ++ [pat], rdbs ++ [db]), m) else Ok st) l ((rp, rd), m) = Ok ((rp', rd'), m') /\
      Forall2 (fun i p => nth_error pats i = Some p) ids' rp' /\ Forall2 (fun i db => nth_error dbs i = Some db) ids' rd' /\ (forall i, In i ids' -> i < np) /\
      (forall i, nth_error used i = Some true -> exists k, nth_error m' i = Some (Some k) /\ nth_error ids' k = Some i)).
  { induction l as [|id l IH]; intros rp rd m ids Hl Hnd Hm H1 H2 H3 H4; cbn [fold_outcome].
    - exists rp, rd, m, ids. splits; auto.
    - pose proof (Hl id (or_introl eq_refl)) as Hid. inversion Hnd as [|? ? Hidl Hnd']; subst. unfold vget at 1. destruct (nth_error used id) as [u|] eqn:Eu; [|apply nth_error_None in Eu; lia]. cbn [bind]. destruct u.
      + unfold vset at 1. rewrite Hm, (proj2 (Nat.ltb_lt id np) Hid). cbn [bind]. unfold vget at 1. destruct (nth_error pats id) as [p|] eqn:Epi; [|apply nth_error_None in Epi; lia]. cbn [bind].
        unfold vget at 1. destruct (nth_error dbs id) as [db|] eqn:Edi; [|apply nth_error_None in Edi; lia]. cbn [bind].
        destruct (IH (rp ++ [p]) (rd ++ [db]) (upd m id (Some (length rp))) (ids ++ [id])) as (rp' & rd' & m' & ids' & E & R1 & R2 & R3 & R4); auto.
        * intros; apply Hl; now right.
        * now rewrite upd_length.
        * apply Forall2_app; auto.
        * apply Forall2_app; auto.
        * intros i Hi. apply in_app_iff in Hi. destruct Hi as [Hi|[<-|[]]]; auto.
        * intros i Hi Hui. destruct (Nat.eq_dec i id) as [->|Hne2].
          -- exists (length rp). rewrite upd_nth_eq by lia. split; auto. rewrite <- (F2_len _ _ _ H1). rewrite nth_error_app2, Nat.sub_diag by lia. reflexivity.
          -- destruct (H4 i) as (k & Hk1 & Hk2); auto; [intros [->|?]; auto|]. exists k. rewrite upd_nth_neq by auto. split; auto. rewrite nth_error_app1; auto. eapply nth_error_Some_lt; eauto.
        * exists rp', rd', m', ids'. splits; auto.
      + destruct (IH rp rd m ids) as (rp' & rd' & m' & ids' & E & R1 & R2 & R3 & R4); auto; [intros; apply Hl; now right| |exists rp', rd', m', ids'; splits; auto].
        intros i Hi Hui. apply H4; auto. intros [->|?]; auto. congruence. }
  destruct (G3 (seq 0 np) [] [] (repeat None np) []) as (rp & rd & m & ids & E3 & R1 & R2 & R3 & R4); auto.
  { intros i Hi. apply in_seq in Hi. lia. } { apply seq_NoDup. } { apply repeat_length. } { intros i []. }
  { intros i Hi Hu. exfalso. apply Hi. apply in_seq. apply nth_error_Some_lt in Hu. lia. }
  rewrite E3. cbn [bind fst snd].
  (* renumbering *)
  assert (G4 : forall L acc, (forall K, In K L -> In K rem) -> exists rcl, fold_outcome (fun l c => let* c := renumber m c in Ok (l ++ [c])) L acc = Ok (acc ++ rcl) /\ Forall2 (fun K K' => Forall2 (fun i i' => nth_error ids i' = Some i) K K') L rcl).
  { induction L as [|K L IH]; intros acc HL; cbn [fold_outcome]; [exists []; rewrite app_nil_r; split; [auto|constructor]|].
    assert (HK : exists K', renumber m K = Ok K' /\ Forall2 (fun i i' => nth_error ids i' = Some i) K K').
    { unfold renumber. assert (G5 : forall l acc, (forall i, In i l -> In i K) -> exists l', fold_outcome (fun l id => let* e := vget m id in match e with Some id' => Ok (l ++ [id']) | None => UB end) l acc = Ok (acc ++ l') /\ Forall2 (fun i i' => nth_error ids i' = Some i) l l').
      { induction l as [|i l IHl]; intros acc' Hin; cbn [fold_outcome]; [exists []; rewrite app_nil_r; split; [auto|constructor]|].
        destruct (R4 i) as (k & Hk1 & Hk2); [apply (Hused2 K); [apply HL; now left|apply Hin; now left]|]. unfold vget at 1. rewrite Hk1. cbn [bind]. destruct (IHl (acc' ++ [k])) as (l' & El & Hl'); [intros; apply Hin; now right|].
        exists (k :: l'). rewrite El, <- app_assoc. split; [reflexivity|constructor; auto]. }
      apply (G5 K []). auto. }
    destruct HK as (K' & EK & HK'). rewrite EK. cbn [bind]. destruct (IH (acc ++ [K'])) as (rcl & E & Hr); [intros; apply HL; now right|]. exists (K' :: rcl). rewrite E, <- app_assoc. split; [reflexivity|constructor; auto]. }
  destruct (G4 rem [] (fun K H => H)) as (rcl & E4 & Hrcl). rewrite E4. cbn [bind app].
  exists rp, rd, rcl, ids, rem. splits; auto.
  - intros K HK. apply Hrem2 in HK. destruct HK as (c & Hc & _). eapply nth_error_In; eauto.
  - intros K HK. apply In_nth_error in HK. destruct HK as [c2 Hc2]. destruct (Hpd c2 K Hc2) as (c1 & K1 & Hf & HK1 & Hd). exists K1. split; auto. apply Hrem2. eauto.
Qed.
End PR.

(* ---- the value is kept ---- *)
Section V2.
Variable t : task.
Hypothesis Ht : plain_task t.

Lemma db_values pats dbs s : Forall2 (fun db p => db_good t db (p, task_costs t)) dbs pats -> state_ok t s ->
  exists hs, Forall2 (fun p h => perfect_value (project t p (task_costs t)) (proj_state p s) h) pats hs /\ Forall2 (fun db h => pdb_value db s = Ok h) dbs hs.
Proof.
  intros HF Hs. induction HF as [|db p l l' Hd _ IH]; [exists []; split; constructor|]. destruct (Hd s Hs) as (v & Ev & Hv). destruct IH as (hs & H1 & H2).
  exists (v :: hs). split; constructor; auto.
Qed.

Theorem prune_value pats cliques dbs limit :
  Forall (pattern_ok t) pats -> (forall p, In p pats -> p <> []) -> (forall K, In K cliques -> additive_set t pats K) ->
  (forall i, i < length pats -> exists K, In K cliques /\ In i K) -> Forall2 (fun db p => db_good t db (p, task_costs t)) dbs pats ->
  exists rpats rdbs rcl, prune_dominated_cliques limit (length (t_vars t)) pats dbs cliques = Ok (rpats, rdbs, rcl) /\
    Forall2 (fun db p => db_good t db (p, task_costs t)) rdbs rpats /\
    forall s, state_ok t s -> exists v, canonical_value dbs cliques s = Ok v /\ canonical_value rdbs rcl s = Ok v.
Proof.
  intros Hpats Hne Hcl Hcover Hdbs. pose proof (F2_len _ _ _ Hdbs) as Hlen.
  assert (Hcr : forall K i, In K cliques -> In i K -> i < length pats) by (intros K i HK Hi; exact (proj1 (proj2 (Hcl K HK)) i Hi)).
  assert (Hlt : forall p v, In p pats -> In v p -> v < length (t_vars t)) by (intros p v Hp Hv; rewrite Forall_forall in Hpats; exact (proj2 (Hpats p Hp) v Hv)).
  destruct (prune_ok (length (t_vars t)) pats Hne Hlt cliques Hcr dbs limit Hlen) as (rpats & rdbs & rcl & ids & rem & E & Hrem & Hdom & Hids & Hrp & Hrd & Hrcl).
  exists rpats, rdbs, rcl. splits; auto.
  - clear -Hrp Hrd Hdbs. revert rpats Hrp. induction Hrd as [|i db ids rdbs Hdb _ IH]; intros rpats Hrp; inversion Hrp as [|? p ? rp Hp Hrp']; subst; constructor; auto.
    destruct (F2_nth _ _ _ Hdbs i db Hdb) as (p' & Hp' & Hg). rewrite Hp in Hp'. inversion Hp'; subst. exact Hg.
  - intros s Hs. destruct (db_values pats dbs s Hdbs Hs) as (hs & Hper & Hval).
    assert (Hval' : exists hs', Forall2 (fun db h => pdb_value db s = Ok h) rdbs hs' /\ Forall2 (fun i h => nth_error hs i = Some h) ids hs').
    { clear -Hrd Hval. induction Hrd as [|i db ids rdbs Hdb _ IH]; [exists []; split; constructor|]. destruct IH as (hs' & H1 & H2). destruct (F2_nth _ _ _ Hval i db Hdb) as (h & Hh & Hv). exists (h :: hs'). split; constructor; auto. }
    destruct Hval' as (hs' & Hval' & Hsel). unfold canonical_value. rewrite (pdb_values_ok dbs s hs Hval), (pdb_values_ok rdbs s hs' Hval'). cbn [bind].
    pose proof (F2_len _ _ _ Hper) as Hlh.
    destruct (all_some hs) as [ns|] eqn:Eh.
    + apply all_some_some in Eh.
      assert (Eh' : hs' = map Some (map (fun i => nth i ns 0) ids)).
      { clear -Eh Hsel. induction Hsel as [|i h ids hs' H _ IH]; cbn [map]; auto. f_equal; auto. rewrite Eh, nth_error_map in H. destruct (nth_error ns i) as [x|] eqn:Ei; [|discriminate]. cbn in H. rewrite (nth_error_nth ns i 0 Ei). congruence. }
      rewrite (proj2 (all_some_some hs' _) Eh').
      assert (Hns : length ns = length pats) by (rewrite Hlh, Eh, map_length; reflexivity).
      destruct (max_cliques_value ns cliques) as (m & Em & Hm1 & Hm2); [intros K i HK Hi; rewrite Hns; eapply Hcr; eauto|].
      set (ns' := map (fun i => nth i ns 0) ids).
      assert (Hks : forall K K', Forall2 (fun i i' => nth_error ids i' = Some i) K K' -> ksum ns' K' = ksum ns K /\ forall i', In i' K' -> i' < length ns').
      { intros K K' HF. unfold ksum. induction HF as [|i i' K K' Hi _ [IH1 IH2]]; cbn [map list_sum fold_right]; [split; auto; intros i' []|]. change (fold_right Nat.add 0) with list_sum. rewrite IH1. split.
        - f_equal. unfold ns'. apply nth_error_nth. exact (map_nth_error (fun i => nth i ns 0) i' ids Hi).
        - intros j [<-|Hj]; auto. unfold ns'. rewrite map_length. eapply nth_error_Some_lt; eauto. }
      assert (Hrcl1 : forall K', In K' rcl -> exists K, In K rem /\ ksum ns' K' = ksum ns K /\ forall i', In i' K' -> i' < length ns').
      { clear -Hrcl Hks. induction Hrcl as [|K K' rem rcl HK _ IH]; intros K0 HK0; [destruct HK0|]. destruct HK0 as [<-|HK0]; [exists K; destruct (Hks K K' HK); splits; auto; now left|]. destruct (IH K0 HK0) as (K1 & H1 & H2). exists K1. split; [now right|auto]. }
      assert (Hrcl2 : forall K, In K rem -> exists K', In K' rcl /\ ksum ns' K' = ksum ns K).
      { clear -Hrcl Hks. induction Hrcl as [|K K' rem rcl HK _ IH]; intros K0 HK0; [destruct HK0|]. destruct HK0 as [<-|HK0]; [exists K'; destruct (Hks K K' HK); split; auto; now left|]. destruct (IH K0 HK0) as (K1 & H1 & H2). exists K1. split; [now right|auto]. }
      destruct (max_cliques_value ns' rcl) as (m' & Em' & Hm1' & Hm2'); [intros K' i' HK' Hi'; destruct (Hrcl1 K' HK') as (_ & _ & _ & H); auto|].
      rewrite Em, Em'. cbn [bind]. exists (Some m). split; auto. do 2 f_equal. apply Nat.le_antisymm.
      * destruct Hm2' as [->|(K' & HK' & ->)]; [lia|]. destruct (Hrcl1 K' HK') as (K & HK & Es & _). rewrite Es. apply Hm1. auto.
      * destruct Hm2 as [->|(K & HK & ->)]; [lia|]. destruct (Hdom K HK) as (K1 & HK1 & Hd). destruct (Hrcl2 K1 HK1) as (K' & HK' & Es). specialize (Hm1' K' HK'). rewrite Es in Hm1'.
        eapply Nat.le_trans; [|exact Hm1']. eapply (dom_sum t Ht pats Hpats (fun v => nth v s 0) hs Hper ns Eh); auto. intros i Hi. eapply Hcr; [apply Hrem; exact HK1|exact Hi].
    + assert (Eh' : all_some hs' = None).
      { apply all_some_none in Eh. apply In_nth_error in Eh. destruct Eh as [i Hi].
        assert (Hip : i < length pats) by (rewrite Hlh; eapply nth_error_Some_lt; eauto). destruct (Hcover i Hip) as (K & HK & HiK). destruct (Hdom K HK) as (K1 & HK1 & Hd). destruct (Hd i HiK) as (j & Hj & Hsub).
        pose proof (dom_none t Ht pats Hpats (fun v => nth v s 0) hs Hper i j Hsub Hi) as Hnj.
        assert (Hjid : In j ids).
        { clear -Hrcl HK1 Hj. induction Hrcl as [|K K' rem rcl HF _ IH]; [destruct HK1|]. destruct HK1 as [->|HK1]; auto. clear IH. induction HF as [|i i' K K' Hi _ IHF]; [destruct Hj|]. destruct Hj as [->|Hj]; auto. eapply nth_error_In; eauto. }
        apply all_some_none. apply In_nth_error in Hjid. destruct Hjid as [k Hk]. destruct (F2_nth _ _ _ Hsel k j Hk) as (h & Hh & Hhj). rewrite Hnj in Hhj. inversion Hhj; subst h. eapply nth_error_In; eauto. }
      rewrite Eh'. eauto.
Qed.
End V2.
