(** Proofs about operator-counting constraints, part 9: relaxed reachability satisfies the delete-relaxation
    constraints, and the integer programs describe nothing else. *)
From Coq Require Import QArith Lqa Permutation.
From Verif Require Import Outcome Spec_Task Spec_Relaxation Spec_Projection Spec_LP Spec_OperatorCounting Model_LPSolver Model_LMCut Model_OperatorCounting
  Proof_Task Proof_OC1 Proof_OC2 Proof_OC4 Proof_OC5 Proof_OC7.
Local Open Scope nat_scope.

(** ** Sums and counts *)
Lemma opsum_single t o op (h : nat -> operator -> Q) : is_op t o op -> (opsum t (fun o' op' => ind (o' =? o) * h o' op') == h o op)%Q.
Proof.
  unfold opsum, is_op. intros Ho.
  assert (G : forall l k o, nth_error l (o - k) = Some op -> k <= o -> (qsum (fun io : nat * operator => ind (fst io =? o) * h (fst io) (snd io)) (combine (seq k (length l)) l) == h o op)%Q).
  { clear. induction l as [|x r IH]; intros k o Ho Hk; [destruct (o - k); discriminate|]. cbn [length seq combine qsum fst snd]. destruct (Nat.eqb_spec k o) as [->|Hne].
    - rewrite Nat.sub_diag in Ho. inv Ho. cbn [ind]. rewrite qsum_zero; [ring|]. intros [j b] Hj. cbn [fst snd]. apply numbered_in_from in Hj. destruct Hj as [Hj _]. destruct (Nat.eqb_spec j o); [lia|]. cbn [ind]. ring.
    - cbn [ind]. rewrite (IH (S k) o); [ring| |lia]. replace (o - k) with (S (o - S k)) in Ho by lia. exact Ho. }
  apply G; [|lia]. now rewrite Nat.sub_0_r.
Qed.
Lemma opsum_zero t h : (forall o op, is_op t o op -> (h o op == 0)%Q) -> (opsum t h == 0)%Q.
Proof. intros H. unfold opsum. apply qsum_zero. intros [o op] Hi. cbn [fst snd]. apply H. now apply numbered_in. Qed.
Lemma opsum_pos t h : (0 < opsum t h)%Q -> exists o op, is_op t o op /\ (0 < h o op)%Q.
Proof.
  unfold opsum. intros H. assert (G : forall l : list (nat * operator), (0 < qsum (fun io => h (fst io) (snd io)) l)%Q -> exists io, In io l /\ (0 < h (fst io) (snd io))%Q).
  { clear. induction l as [|io r IH]; cbn [qsum]; intros H; [lra|]. destruct (Qlt_le_dec 0 (h (fst io) (snd io))) as [L|L]; [exists io; split; auto; now left|]. destruct IH as (x & Hx & Hp); [lra|]. exists x. split; auto. now right. }
  destruct (G _ H) as ([o op] & Hi & Hp). exists o, op. split; auto. now apply numbered_in.
Qed.
Lemma opsum_term t h o op : (forall o op, is_op t o op -> (0 <= h o op)%Q) -> is_op t o op -> (h o op <= opsum t h)%Q.
Proof.
  intros H Ho. rewrite <- (opsum_single t o op h Ho). apply opsum_le. intros o' op' Ho'. specialize (H o' op' Ho'). destruct (o' =? o); cbn [ind]; lra.
Qed.
Lemma integral_pos q : integral q -> (0 < q)%Q -> (1 <= q)%Q.
Proof. intros [z Hz] H. rewrite Hz in *. change 1%Q with (inject_Z 1). change 0%Q with (inject_Z 0) in H. rewrite <- Zlt_Qlt in H. rewrite <- Zle_Qle. lia. Qed.
Lemma integral_nat n : integral (inject_Z (Z.of_nat n)). Proof. exists (Z.of_nat n). reflexivity. Qed.
Lemma ranges_ind int b : ranges int 0 1 (ind b).
Proof. unfold ranges. destruct b; cbn [ind]; splits; try lra; intros _; [exists 1%Z|exists 0%Z]; reflexivity. Qed.
Lemma ind_le (a b : bool) : (a = true -> b = true) -> (ind a <= ind b)%Q.
Proof. destruct a, b; cbn [ind]; intros H; try lra; try discriminate (H eq_refl). Qed.
Lemma filter_le {A} (f g : A -> bool) l : (forall x, In x l -> f x = true -> g x = true) -> length (filter f l) <= length (filter g l).
Proof.
  induction l as [|x r IH]; intros H; cbn [filter length]; auto. assert (length (filter f r) <= length (filter g r)) by (apply IH; intros; apply H; auto; now right).
  pose proof (H x (or_introl eq_refl)) as Hx. destruct (f x), (g x); cbn [length]; try lia; try discriminate (Hx eq_refl).
Qed.
Lemma filter_lt {A} (f g : A -> bool) l a : In a l -> f a = false -> g a = true -> (forall x, In x l -> f x = true -> g x = true) -> length (filter f l) < length (filter g l).
Proof.
  induction l as [|x r IH]; intros Ha Hf Hg H; [destruct Ha|]. cbn [filter]. destruct Ha as [->|Ha].
  - rewrite Hf, Hg. cbn [length]. assert (length (filter f r) <= length (filter g r)) by (apply filter_le; intros; apply H; auto; now right). lia.
  - assert (length (filter f r) < length (filter g r)) by (apply IH; auto; intros; apply H; auto; now right). pose proof (H x (or_introl eq_refl)) as Hx. destruct (f x), (g x); cbn [length]; try lia; try discriminate (Hx eq_refl).
Qed.
Lemma filter_all {A} (f : A -> bool) l : length (filter f l) <= length l.
Proof. induction l as [|x r IH]; cbn [filter length]; auto. destruct (f x); cbn [length]; lia. Qed.
Lemma in_state_holds s f : in_state s f = true <-> holds s f.
Proof. unfold in_state, holds. destruct (nth_error s (fst f)) as [d|]; [|split; discriminate]. rewrite Nat.eqb_eq. split; [intros ->; auto|intros E; now inv E]. Qed.

Section R.
Variable t : task.
Hypothesis Ht : plain_task t.
Variable s : state.

(** ** Relaxed operator sequences *)
Definition rch (os : list nat) (f : fact) : Prop := in_state s f = true \/ exists o op, In o os /\ is_op t o op /\ adds op f = true.
Definition rseq (os : list nat) : Prop := forall k o, nth_error os k = Some o -> exists op, is_op t o op /\ forall q, In q (op_pre op) -> rch (firstn k os) q.
Lemma rch_app os l f : rch os f -> rch (os ++ l) f.
Proof. intros [H|(o & op & Hi & H)]; [now left|]. right. exists o, op. split; auto. apply in_or_app. auto. Qed.
Lemma rseq_snoc os o op : rseq os -> is_op t o op -> (forall q, In q (op_pre op) -> rch os q) -> rseq (os ++ [o]).
Proof.
  intros Hs Ho Hp k o' Hk. destruct (Nat.lt_ge_cases k (length os)) as [L|L].
  - rewrite nth_error_app1 in Hk by auto. destruct (Hs k o' Hk) as (op' & Ho' & Hq). exists op'. split; auto. intros q Hi. rewrite firstn_app. apply rch_app. auto.
  - rewrite nth_error_app2 in Hk by auto. destruct (k - length os) as [|m] eqn:E; [|destruct m; discriminate]. cbn in Hk. inv Hk. exists op. split; auto. intros q Hi. assert (k = length os) by lia. subst k. rewrite firstn_app, Nat.sub_diag, firstn_all. cbn [firstn]. rewrite app_nil_r. auto.
Qed.
Lemma rules_nil : t_rules t = []. Proof. now destruct Ht as (_ & H & _). Qed.
Lemma cond_nil op e : In op (t_ops t) -> In e (op_effs op) -> eff_cond e = [].
Proof. intros Hop He. destruct Ht as (_ & _ & _ & H). destruct (H op Hop) as (H1 & _). auto. Qed.
Lemma rreach_seq (O : nat -> Prop) f : rreach t O s f -> forall os, rseq os -> (forall o, In o os -> O o) -> exists l, rseq (os ++ l) /\ (forall o, In o (os ++ l) -> O o) /\ rch (os ++ l) f.
Proof.
  induction 1 as [f Hf|o op e HO Ho He Hg IH|r Hr Hg IH]; intros os Hs Hos.
  - exists []. rewrite app_nil_r. splits; auto. left. now apply in_state_holds.
  - assert (G : forall fs, (forall g, In g fs -> In g (op_pre op ++ eff_cond e)) -> exists l, rseq (os ++ l) /\ (forall o, In o (os ++ l) -> O o) /\ forall g, In g fs -> rch (os ++ l) g).
    { induction fs as [|g fs IHf]; intros Hfs; [exists []; rewrite app_nil_r; splits; auto; intros g []|]. destruct IHf as (l & H1 & H2 & H3); [intros; apply Hfs; now right|].
      destruct (IH g (Hfs g (or_introl eq_refl)) (os ++ l) H1 H2) as (l' & K1 & K2 & K3). exists (l ++ l'). rewrite app_assoc. splits; auto. intros g' [<-|Hi]; auto. apply rch_app. auto. }
    destruct (G (op_pre op)) as (l & H1 & H2 & H3); [intros; apply in_or_app; auto|]. exists (l ++ [o]). rewrite app_assoc. splits.
    + eapply rseq_snoc; eauto.
    + intros o' Hi. apply in_app_or in Hi. destruct Hi as [Hi|[<-|[]]]; auto.
    + right. exists o, op. splits; auto; [apply in_or_app; right; now left|]. apply adds_spec. eauto.
  - rewrite rules_nil in Hr. destruct Hr.
Qed.
Lemma rreach_goals (O : nat -> Prop) : (forall f, In f (t_goal t) -> rreach t O s f) -> exists os, rseq os /\ (forall o, In o os -> O o) /\ forall f, In f (t_goal t) -> rch os f.
Proof.
  intros Hg. assert (G : forall fs, (forall f, In f fs -> In f (t_goal t)) -> exists os, rseq os /\ (forall o, In o os -> O o) /\ forall f, In f fs -> rch os f); [|apply G; auto].
  induction fs as [|g fs IH]; intros Hfs; [exists []; splits; [intros k o Hk; destruct k; discriminate|intros o []|intros f []]|]. destruct IH as (os & H1 & H2 & H3); [intros; apply Hfs; now right|].
  destruct (rreach_seq O g (Hg g (Hfs g (or_introl eq_refl))) os H1 H2) as (l & K1 & K2 & K3). exists (os ++ l). splits; auto. intros f [<-|Hi]; auto. apply rch_app. auto.
Qed.

(** ** First achievers *)
Section S.
Variable os : list nat.
Hypothesis Hos : rseq os.
Definition addsb (f : fact) (o : nat) : bool := match nth_error (t_ops t) o with Some op => adds op f | None => false end.
Fixpoint fidx (os : list nat) (f : fact) : option nat := match os with [] => None | o :: r => if addsb f o then Some 0 else option_map S (fidx r f) end.
Lemma fidx_some os' f j : fidx os' f = Some j -> exists o, nth_error os' j = Some o /\ addsb f o = true /\ forall k, rch (firstn k os') f -> in_state s f = false -> j < k.
Proof.
  revert j. induction os' as [|o r IH]; intros j H; cbn [fidx] in H; [discriminate|]. destruct (addsb f o) eqn:Ea.
  - inv H. exists o. splits; auto. intros k Hk Hf. destruct k; [|lia]. destruct Hk as [Hk|(o' & op & [] & _)]. congruence.
  - destruct (fidx r f) as [i|]; [|discriminate]. inv H. destruct (IH i eq_refl) as (o' & H1 & H2 & H3). exists o'. splits; auto. intros k Hk Hf. destruct k as [|k].
    + destruct Hk as [Hk|(o'' & op & [] & _)]. congruence.
    + cbn [firstn] in Hk. apply (proj1 (Nat.succ_lt_mono i k)). apply H3; auto. destruct Hk as [Hk|(o'' & op & [<-|Hi] & Ho & Hadd)]; [now left| |right; eauto]. unfold addsb in Ea. rewrite Ho in Ea. congruence.
Qed.
Lemma fidx_none os' f : fidx os' f = None -> rch os' f -> in_state s f = true.
Proof.
  induction os' as [|o r IH]; cbn [fidx]; intros H Hr.
  - destruct Hr as [Hr|(o & op & [] & _)]. auto.
  - destruct (addsb f o) eqn:Ea; [discriminate|]. destruct (fidx r f); [discriminate|]. apply IH; auto. destruct Hr as [Hr|(o' & op & [<-|Hi] & Ho & Hadd)]; [now left| |right; eauto]. unfold addsb in Ea. rewrite Ho in Ea. congruence.
Qed.
Definition tau (f : fact) : nat := if in_state s f then 0 else match fidx os f with Some j => S j | None => S (length os) end.
Definition ach (f : fact) : option nat := if in_state s f then None else match fidx os f with Some j => nth_error os j | None => None end.
Definition first (f : fact) (o : nat) : bool := match ach f with Some o' => o =? o' | None => false end.
Definition reachedb (f : fact) : bool := in_state s f || match ach f with Some _ => true | None => false end.
Lemma ach_some f o : ach f = Some o -> in_state s f = false /\ exists j op, nth_error os j = Some o /\ tau f = S j /\ is_op t o op /\ adds op f = true /\ forall q, In q (op_pre op) -> rch (firstn j os) q.
Proof.
  unfold ach, tau. destruct (in_state s f) eqn:Es; [discriminate|]. destruct (fidx os f) as [j|] eqn:Ej; [|discriminate]. intros Ho. split; auto. destruct (fidx_some os f j Ej) as (o' & H1 & H2 & H3). assert (o' = o) by congruence. subst o'.
  destruct (Hos j o Ho) as (op & Hop & Hq). exists j, op. splits; auto. unfold addsb in H2. unfold is_op in Hop. now rewrite Hop in H2.
Qed.
Lemma rch_tau k f : k <= length os -> rch (firstn k os) f -> tau f <= k /\ reachedb f = true.
Proof.
  intros Hk Hr. unfold tau, reachedb, ach. destruct (in_state s f) eqn:Es; [split; auto; lia|]. cbn [orb]. destruct (fidx os f) as [j|] eqn:Ej.
  - destruct (fidx_some os f j Ej) as (o & H1 & H2 & H3). rewrite H1. split; auto. specialize (H3 k Hr Es). lia.
  - exfalso. assert (in_state s f = true); [|congruence]. apply (fidx_none os f Ej). rewrite <- (firstn_skipn k os). now apply rch_app.
Qed.
Lemma first_sum_eq (c : operator -> bool) f : (opsum t (fun o op => ind (c op) * ind (first f o)) == match ach f with Some o => match nth_error (t_ops t) o with Some op => ind (c op) | None => 0 end | None => 0 end)%Q.
Proof.
  unfold first. destruct (ach f) as [o|] eqn:Ea.
  - destruct (ach_some f o Ea) as (_ & j & op & _ & _ & Ho & _). unfold is_op in Ho. rewrite Ho. rewrite (opsum_ext t _ (fun o' op' => ind (o' =? o) * ind (c op'))%Q); [|intros; ring]. now apply (opsum_single t o op (fun _ op => ind (c op))).
  - apply opsum_zero. intros. cbn [ind]. ring.
Qed.
Lemma first_used f o : first f o = true -> In o os.
Proof. unfold first. destruct (ach f) as [o'|] eqn:Ea; [|discriminate]. intros H. apply Nat.eqb_eq in H. subst o'. destruct (ach_some f o Ea) as (_ & j & op & Hj & _). eapply nth_error_In; eauto. Qed.
Lemma first_pre f o op q : first f o = true -> is_op t o op -> In q (op_pre op) -> tau q < tau f /\ reachedb q = true.
Proof.
  unfold first. destruct (ach f) as [o'|] eqn:Ea; [|discriminate]. intros H Ho Hq. apply Nat.eqb_eq in H. subst o'. destruct (ach_some f o Ea) as (_ & j & op' & Hj & Et & Ho' & _ & Hp). unfold is_op in *. assert (op' = op) by congruence. subst op'.
  apply nth_error_Some_lt in Hj. destruct (rch_tau j q) as [H1 H2]; auto; [lia|]. split; auto. lia.
Qed.

Hypothesis Hgoal : forall f, In f (t_goal t) -> rch os f.
Variable x : nat -> Q.
Hypothesis Hx0 : forall o op, is_op t o op -> (0 <= x o)%Q.
Hypothesis Hx1 : forall o, In o os -> (1 <= x o)%Q.
Lemma goal_reached f : In f (t_goal t) -> reachedb f = true.
Proof. intros Hf. apply (rch_tau (length os)); [lia|]. rewrite firstn_all. auto. Qed.
Lemma ind_first_le f o op : is_op t o op -> (ind (first f o) <= x o)%Q.
Proof. intros Ho. destruct (first f o) eqn:Ef; cbn [ind]; [apply Hx1; eapply first_used; eauto|eauto]. Qed.

(** *** Rankooh and Rintanen *)
Lemma rr_holds int : relaxation_rr t int s x (fun p => ind (reachedb p)) (fun p o => ind (first p o)).
Proof.
  unfold relaxation_rr. splits.
  - intros. apply ranges_ind.
  - intros. apply ranges_ind.
  - intros p Hp. rewrite (first_sum_eq (fun op => adds op p) p). unfold reachedb. destruct (ach p) as [o|] eqn:Ea.
    + destruct (ach_some p o Ea) as (Es & j & op & _ & _ & Ho & Ha & _). unfold is_op in Ho. rewrite Es, Ho, Ha. cbn [orb ind]. ring.
    + rewrite orb_false_r. ring.
  - intros p q Hp Hq Hne. rewrite (first_sum_eq (fun op => needs op q && adds op p) p). destruct (ach p) as [o|] eqn:Ea; [|destruct (reachedb q); cbn [ind]; lra].
    destruct (ach_some p o Ea) as (Es & j & op & _ & _ & Ho & Ha & _). unfold is_op in Ho. rewrite Ho, Ha, andb_true_r. apply ind_le. intros Hn. apply needs_spec in Hn.
    apply (first_pre p o op q); auto. unfold first. rewrite Ea. apply Nat.eqb_refl.
  - intros p Hp. rewrite goal_reached by auto. cbn [ind]. lra.
  - intros o op p Ho Ha. eapply ind_first_le; eauto.
Qed.
Lemma tl_holds int : time_labels t int (fun p o => ind (first p o)).
Proof.
  set (rank := fun p => length (filter (fun q => tau q <? tau p) (all_facts t))).
  assert (Hlt : forall q p, is_fact t q -> tau q < tau p -> rank q < rank p).
  { intros q p Hq Hl. apply filter_lt with (a := q).
    - now apply in_facts.
    - apply Nat.ltb_irrefl.
    - now apply Nat.ltb_lt.
    - intros z _ Hz. apply Nat.ltb_lt in Hz. apply Nat.ltb_lt. lia. }
  assert (Hub : forall p, is_fact t p -> rank p + 1 <= list_sum (map vdom (t_vars t))).
  { intros p Hp. rewrite <- length_all_facts. assert (rank p < length (filter (fun _ => true) (all_facts t))).
    { apply filter_lt with (a := p); auto; [now apply in_facts|apply Nat.ltb_irrefl]. }
    pose proof (filter_all (fun _ : fact => true) (all_facts t)). lia. }
  exists (fun p => inject_Z (Z.of_nat (rank p + 1))). unfold num_facts. split.
  - intros p Hp. unfold ranges. splits; [| |intros _; apply integral_nat].
    + change 1%Q with (inject_Z 1). rewrite <- Zle_Qle. lia.
    + rewrite <- Zle_Qle. specialize (Hub p Hp). lia.
  - intros o op p q Ho Hq Ha Hne. assert (Hqf : is_fact t q) by (eapply pre_fact; eauto). destruct (first p o) eqn:Ef; cbn [ind].
    + destruct (first_pre p o op q Ef Ho Hq) as [L _]. specialize (Hlt q p Hqf L). assert (inject_Z (Z.of_nat (rank q + 1)) + 1 <= inject_Z (Z.of_nat (rank p + 1)))%Q; [|lra].
      change 1%Q with (inject_Z 1). rewrite <- inject_Z_plus, <- Zle_Qle. lia.
    + assert (inject_Z (Z.of_nat (rank q + 1)) <= inject_Z (Z.of_nat (list_sum (map vdom (t_vars t)))))%Q by (rewrite <- Zle_Qle; specialize (Hub q Hqf); lia).
      assert (1 <= inject_Z (Z.of_nat (rank p + 1)))%Q by (change 1%Q with (inject_Z 1); rewrite <- Zle_Qle; lia). lra.
Qed.
Lemma eo_holds int edges delta : edge_order t int edges delta (fun p o => ind (first p o)).
Proof.
  exists (fun q p => ind (tau q <? tau p)). splits.
  - intros. apply ranges_ind.
  - intros o op p q Ho Hq Ha. apply ind_le. intros Hf. apply Nat.ltb_lt. eapply first_pre; eauto.
  - intros q p _ _. destruct (Nat.ltb_spec (tau q) (tau p)), (Nat.ltb_spec (tau p) (tau q)); cbn [ind]; try lra. lia.
  - intros i j k _. destruct (Nat.ltb_spec (tau i) (tau j)), (Nat.ltb_spec (tau j) (tau k)), (Nat.ltb_spec (tau i) (tau k)); cbn [ind]; try lra. lia.
Qed.

(** *** Imai and Fukunaga *)
Definition usedb (o : nat) : bool := existsb (Nat.eqb o) os.
Definition before (o' o : nat) : bool := match pos_of Nat.eqb o' os, pos_of Nat.eqb o os with Some a, Some b => a <? b | _, _ => false end.
Definition nops := length (t_ops t).
Definition top (o : nat) : nat := if usedb o then length (filter (fun o' => before o' o) (seq 0 nops)) else nops.
Definition tfact (f : fact) : nat := match ach f with Some o => S (top o) | None => 0 end.
Lemma used_in o : usedb o = true <-> In o os.
Proof. unfold usedb. rewrite existsb_exists. split; [intros (o' & H & E); apply Nat.eqb_eq in E; now subst|intros H; exists o; split; auto; apply Nat.eqb_refl]. Qed.
Lemma pos_first o k : nth_error os k = Some o -> exists j, pos_of Nat.eqb o os = Some j /\ j <= k /\ nth_error os j = Some o.
Proof.
  intros H. destruct (pos_of_in Nat.eqb Nat.eqb_eq o os (nth_error_In _ _ H)) as [j Hj]. exists j. splits; auto; [|now apply (pos_of_some Nat.eqb Nat.eqb_eq)].
  clear - H Hj. revert k j H Hj. induction os as [|a r IH]; intros k j H Hj; cbn [pos_of] in Hj; [discriminate|]. destruct (Nat.eqb_spec o a) as [->|Hne]; [inv Hj; lia|]. destruct (pos_of Nat.eqb o r) as [i|] eqn:Ei; [|discriminate]. inv Hj.
  destruct k as [|k]; cbn in H; [congruence|]. specialize (IH k i H eq_refl). lia.
Qed.
Lemma top_lt o op : is_op t o op -> In o os -> top o < nops.
Proof.
  intros Ho Hi. unfold top. rewrite (proj2 (used_in o) Hi). assert (length (filter (fun o' => before o' o) (seq 0 nops)) < length (filter (fun _ => true) (seq 0 nops))).
  { apply filter_lt with (a := o); auto; [apply in_seq; apply nth_error_Some_lt in Ho; unfold nops; lia|]. unfold before. destruct (pos_of Nat.eqb o os); auto. apply Nat.ltb_irrefl. }
  pose proof (filter_all (fun _ : nat => true) (seq 0 nops)). rewrite seq_length in H0. lia.
Qed.
Lemma top_le o op : is_op t o op -> top o <= nops.
Proof. intros Ho. destruct (usedb o) eqn:E; [apply used_in in E; pose proof (top_lt o op Ho E); lia|]. unfold top. rewrite E. lia. Qed.
Lemma if_holds time int : relaxation_if t time int s x.
Proof.
  exists (fun o => ind (usedb o)), (fun f => ind (reachedb f)), (fun o f => ind (first f o)), (fun o => inject_Z (Z.of_nat (top o))), (fun f => inject_Z (Z.of_nat (tfact f))). splits.
  - intros. apply ranges_ind.
  - intros. apply ranges_ind.
  - intros. apply ranges_ind.
  - intros f Hf. rewrite goal_reached by auto. cbn [ind]. lra.
  - intros f Hf. rewrite (first_sum_eq (fun op => adds op f) f). unfold reachedb. destruct (ach f) as [o|] eqn:Ea.
    + destruct (ach_some f o Ea) as (Es & j & op & _ & _ & Ho & Ha & _). unfold is_op in Ho. rewrite Es, Ho, Ha. cbn [orb ind]. lra.
    + rewrite orb_false_r. lra.
  - intros o op f Ho Ha. apply ind_le. intros Hf. apply used_in. eapply first_used; eauto.
  - intros o op f Ho Hp. apply ind_le. intros Hu. apply used_in in Hu. destruct (In_nth_error _ _ Hu) as [k Hk]. destruct (Hos k o Hk) as (op' & Ho' & Hq). unfold is_op in *. assert (op' = op) by congruence. subst op'.
    apply (rch_tau k); auto. apply nth_error_Some_lt in Hk. lia.
  - intros o op Ho. destruct (usedb o) eqn:Eu; cbn [ind]; [apply Hx1; now apply used_in|eauto].
  - intros _. unfold num_ops. fold nops.
    assert (Htf : forall f, tfact f <= nops).
    { intros f. unfold tfact. destruct (ach f) as [o|] eqn:Ea; [|lia]. destruct (ach_some f o Ea) as (_ & j & op & Hj & _ & Ho & _). apply (top_lt o op Ho). eapply nth_error_In; eauto. }
    splits.
    + intros o op Ho. unfold ranges. splits; [change 0%Q with (inject_Z 0)| |intros _; apply integral_nat]; rewrite <- Zle_Qle; [lia|]. pose proof (top_le o op Ho). lia.
    + intros f Hf. unfold ranges. splits; [change 0%Q with (inject_Z 0)| |intros _; apply integral_nat]; rewrite <- Zle_Qle; [lia|]. pose proof (Htf f). lia.
    + intros o op f Ho Hp. rewrite <- Zle_Qle. apply inj_le. destruct (usedb o) eqn:Eu; [|unfold top; rewrite Eu; apply Htf]. apply used_in in Eu. destruct (In_nth_error _ _ Eu) as [k0 Hk0]. destruct (pos_first o k0 Hk0) as (k & Hpos & _ & Hk).
      destruct (Hos k o Hk) as (op' & Ho' & Hq). unfold is_op in *. assert (op' = op) by congruence. subst op'. pose proof (nth_error_Some_lt _ _ _ Hk) as Lk. destruct (rch_tau k f) as [Hta Hre]; [lia|auto|].
      unfold tfact. destruct (ach f) as [o'|] eqn:Ea; [|lia]. destruct (ach_some f o' Ea) as (_ & j & op' & Hj & Et & Hop' & _). destruct (pos_first o' j Hj) as (j' & Hpos' & Lj & Hj').
      unfold top. rewrite (proj2 (used_in o) Eu), (proj2 (used_in o')) by (eapply nth_error_In; eauto). apply filter_lt with (a := o').
      * apply in_seq. apply nth_error_Some_lt in Hop'. unfold nops. lia.
      * unfold before. rewrite Hpos'. apply Nat.ltb_irrefl.
      * unfold before. rewrite Hpos', Hpos. apply Nat.ltb_lt. lia.
      * intros z _. unfold before. destruct (pos_of Nat.eqb z os) as [zz|]; [|discriminate]. rewrite Hpos', Hpos. intros L. apply Nat.ltb_lt in L. apply Nat.ltb_lt. lia.
    + intros o op f Ho Ha. pose proof (top_le o op Ho) as L. destruct (first f o) eqn:Ef; cbn [ind].
      * unfold first in Ef. unfold tfact. destruct (ach f) as [o'|]; [|discriminate]. apply Nat.eqb_eq in Ef. subst o'. assert (E : (inject_Z (Z.of_nat (S (top o))) == inject_Z (Z.of_nat (top o)) + 1)%Q) by (rewrite Nat2Z.inj_succ, <- Z.add_1_r, inject_Z_plus; reflexivity). rewrite E. lra.
      * assert (inject_Z (Z.of_nat (top o)) <= inject_Z (Z.of_nat nops))%Q by (rewrite <- Zle_Qle; lia). assert (0 <= inject_Z (Z.of_nat (tfact f)))%Q by (change 0%Q with (inject_Z 0); rewrite <- Zle_Qle; lia). lra.
Qed.
End S.
End R.

(** ** What solutions of the integer programs say *)
Section Strength.
Variable t : task.
Hypothesis Ht : plain_task t.
Variable s : state.
Variable x : nat -> Q.
Notation O := (fun o => (1 <= x o)%Q).
Lemma rreach_add o op f : is_op t o op -> adds op f = true -> (1 <= x o)%Q -> (forall q, In q (op_pre op) -> rreach t O s q) -> rreach t O s f.
Proof.
  intros Ho Ha Hx Hq. apply adds_spec in Ha. destruct Ha as (e & He & <-). eapply rr_op; eauto. rewrite (cond_nil t Ht op e); auto; [|now apply (op_in t o)]. rewrite app_nil_r. auto.
Qed.
Lemma floor_bound (q : Q) : exists k : nat, (q <= inject_Z (Z.of_nat k))%Q.
Proof. exists (Z.to_nat (Z.max 0 (Qround.Qceiling q))). rewrite Z2Nat.id by lia. apply Qle_trans with (inject_Z (Qround.Qceiling q)); [apply Qround.Qle_ceiling|]. rewrite <- Zle_Qle. lia. Qed.
Lemma if_strong : relaxation_if t true true s x -> forall f, In f (t_goal t) -> rreach t O s f.
Proof.
  intros (U & R & F & TO & TF & H1 & H2 & H3 & H4 & H5 & H6 & H7 & H8 & H9). destruct (H9 eq_refl) as (T1 & T2 & T3 & T4).
  assert (G : forall k : nat, forall f, is_fact t f -> (1 <= R f)%Q -> (TF f <= inject_Z (Z.of_nat k))%Q -> rreach t O s f).
  { induction k as [|k IH]; intros f Hf HR HT; (destruct (in_state s f) eqn:Es; [apply rr_state; now apply in_state_holds|]); specialize (H5 f Hf); rewrite Es in H5; cbn [ind] in H5.
    - destruct (opsum_pos t (fun o op => ind (adds op f) * F o f)%Q) as (o & op & Ho & Hp); [lra|]. destruct (adds op f) eqn:Ea; cbn [ind] in Hp; [|lra]. destruct (H3 o op f Ho Hf) as (F1 & F2 & F3). assert (HF : (1 <= F o f)%Q) by (apply integral_pos; [auto|lra]).
      pose proof (H6 o op f Ho Ea). pose proof (H8 o op Ho). eapply rreach_add; eauto; [lra|]. intros q Hq. exfalso. pose proof (T3 o op q Ho Hq). pose proof (T4 o op f Ho Ea). destruct (T2 q (pre_fact t Ht o op q Ho Hq)) as (T21 & _).
      assert (E : (F o f == 1)%Q) by lra. rewrite E in *. change (inject_Z (Z.of_nat 0)) with 0%Q in HT. lra.
    - destruct (opsum_pos t (fun o op => ind (adds op f) * F o f)%Q) as (o & op & Ho & Hp); [lra|]. destruct (adds op f) eqn:Ea; cbn [ind] in Hp; [|lra]. destruct (H3 o op f Ho Hf) as (F1 & F2 & F3). assert (HF : (1 <= F o f)%Q) by (apply integral_pos; [auto|lra]).
      pose proof (H6 o op f Ho Ea). pose proof (H8 o op Ho). eapply rreach_add; eauto; [lra|]. intros q Hq. pose proof (T3 o op q Ho Hq). pose proof (T4 o op f Ho Ea). pose proof (H7 o op q Ho Hq). pose proof (pre_fact t Ht o op q Ho Hq) as Hqf.
      assert (E : (F o f == 1)%Q) by lra. rewrite E in *. rewrite Nat2Z.inj_succ, <- Z.add_1_r, inject_Z_plus in HT. change (inject_Z 1) with 1%Q in HT. apply IH; auto; lra. }
  intros f Hf. destruct (floor_bound (TF f)) as [k Hk]. apply (G k); auto. now apply goal_fact.
Qed.

Section RRs.
Hypothesis Hno : no_noop_effects t.
Variables (f : fact -> Q) (fa : fact -> nat -> Q).
Hypothesis Hrr : relaxation_rr t true s x f fa.
(** A reached fact holds or has a first achiever, whose preconditions are reached. *)
Lemma rr_support p : is_fact t p -> (1 <= f p)%Q -> in_state s p = true \/
  exists o op, is_op t o op /\ adds op p = true /\ (1 <= fa p o)%Q /\ (1 <= x o)%Q /\ forall q, In q (op_pre op) -> is_fact t q /\ q <> p /\ (1 <= f q)%Q.
Proof.
  destruct Hrr as (H1 & H2 & H3 & H4 & H5 & H6). intros Hp Hf. destruct (in_state s p) eqn:Es; [now left|right]. pose proof (H3 p Hp) as E. rewrite Es in E. cbn [ind] in E.
  destruct (opsum_pos t (fun o op => ind (adds op p) * fa p o)%Q) as (o & op & Ho & Hpos); [lra|]. destruct (adds op p) eqn:Ea; cbn [ind] in Hpos; [|lra]. destruct (H2 o op p Ho Ea) as (F1 & F2 & F3). assert (HF : (1 <= fa p o)%Q) by (apply integral_pos; [auto|lra]).
  pose proof (H6 o op p Ho Ea). exists o, op. splits; auto; [lra|]. intros q Hq. pose proof (pre_fact t Ht o op q Ho Hq) as Hqf.
  assert (Hne : q <> p). { intros ->. apply adds_spec in Ea. destruct Ea as (e & He & <-). eapply Hno; eauto. now apply (op_in t o). }
  splits; auto. assert (Hpq : p <> q) by congruence. pose proof (H4 p q Hp Hqf Hpq) as L. apply Qle_trans with (2 := L).
  assert (K := opsum_term t (fun o op => ind (needs op q && adds op p) * fa p o)%Q o op). cbv beta in K. rewrite (proj2 (needs_spec op q) Hq), Ea in K. cbn [andb ind] in K.
  apply Qle_trans with (1 * fa p o)%Q; [lra|]. apply K; auto. intros o' op' Ho'. destruct (needs op' q); cbn [andb ind]; [|lra]. destruct (adds op' p) eqn:Ea'; cbn [ind]; [|lra]. destruct (H2 o' op' p Ho' Ea') as (G1 & _). lra.
Qed.
Lemma tl_strong : time_labels t true fa -> forall p, In p (t_goal t) -> rreach t O s p.
Proof.
  intros (T & T1 & T2).
  assert (G : forall k : nat, forall p, is_fact t p -> (1 <= f p)%Q -> (T p <= inject_Z (Z.of_nat k))%Q -> rreach t O s p).
  { induction k as [|k IH]; intros p Hp Hf HT; (destruct (rr_support p Hp Hf) as [Hs|(o & op & Ho & Ha & HF & Hx & Hq)]; [apply rr_state; now apply in_state_holds|]).
    - exfalso. destruct (T1 p Hp) as (L & _). change (inject_Z (Z.of_nat 0)) with 0%Q in HT. lra.
    - eapply rreach_add; eauto. intros q Hqi. destruct (Hq q Hqi) as (Hqf & Hne & Hfq). apply IH; auto. pose proof (T2 o op p q Ho Hqi Ha Hne) as L. destruct Hrr as (_ & H2 & _). destruct (H2 o op p Ho Ha) as (_ & F2 & _).
      assert (E : (fa p o == 1)%Q) by lra. rewrite E in L. rewrite Nat2Z.inj_succ, <- Z.add_1_r, inject_Z_plus in HT. change (inject_Z 1) with 1%Q in HT. lra. }
  intros p Hp. destruct (floor_bound (T p)) as [k Hk]. apply (G k); auto; [now apply goal_fact|]. destruct Hrr as (_ & _ & _ & _ & H5 & _). auto.
Qed.
Definition fact_dec (a b : fact) : {a = b} + {a <> b}. Proof. repeat decide equality. Defined.
Lemma first_of (X : list fact) : forall order, (exists p, In p order /\ In p X) -> exists l1 j l2, order = l1 ++ j :: l2 /\ In j X /\ forall p, In p l1 -> ~ In p X.
Proof.
  induction order as [|a r IH]; intros (p & Hp & HX); [destruct Hp|]. destruct (in_dec fact_dec a X) as [Ha|Ha].
  - exists [], a, r. splits; auto.
  - destruct IH as (l1 & j & l2 & -> & Hj & Hl); [exists p; split; auto; destruct Hp as [->|]; [contradiction|auto]|]. exists (a :: l1), j, l2. splits; auto. intros q [<-|Hq]; auto.
Qed.
Lemma no_cycle edges delta (E : fact -> fact -> Q) : vertex_elimination t edges delta -> (forall q p, In (q, p) edges -> In (p, q) edges -> (E q p + E p q <= 1)%Q) -> (forall i j k, In (i, j, k) delta -> (E i j + E j k - 1 <= E i k)%Q) ->
  forall n X, length X <= n -> (forall p, In p X -> exists q, In q X /\ In (q, p) edges /\ (1 <= E q p)%Q) -> X = [].
Proof.
  intros (order & O1 & O2 & E1 & E2 & E3 & D1 & D2) C7 C8. induction n as [|n IH]; intros X HX Hp; [destruct X; auto; cbn in HX; lia|]. destruct X as [|p0 X0]; auto. exfalso. set (X := p0 :: X0) in *.
  assert (Hfact : forall p, In p X -> is_fact t p) by (intros p Hi; destruct (Hp p Hi) as (q & _ & He & _); now apply E2 in He).
  destruct (first_of X order) as (l1 & j & l2 & Eo & Hj & Hl); [exists p0; split; [apply O2; apply Hfact|]; now left|].
  destruct (Hp j Hj) as (i & Hi & Hij & Eij). destruct (E2 i j Hij) as (_ & _ & Nij).
  assert (HX' : remove fact_dec j X = []).
  { apply IH; [pose proof (remove_length_lt fact_dec X j Hj); lia|]. intros p Hpr. apply in_remove in Hpr. destruct Hpr as [HpX Hpj]. destruct (Hp p HpX) as (q & Hq & Hqp & Eqp). destruct (fact_dec q j) as [->|Hqj].
    - assert (Hip : i <> p). { intros ->. pose proof (C7 p j Hij Hqp). lra. }
      assert (Hd : In (i, j, p) delta). { apply (D2 l1 j l2 Eo); auto; intros Hc; eapply Hl; eauto. }
      exists i. splits; [now apply in_in_remove|now apply D1 in Hd|]. specialize (C8 i j p Hd). lra.
    - exists q. splits; auto. now apply in_in_remove. }
  assert (Hr : In i (remove fact_dec j X)) by (apply in_in_remove; auto). rewrite HX' in Hr. destruct Hr.
Qed.
Lemma ve_strong edges delta : vertex_elimination t edges delta -> edge_order t true edges delta fa -> forall p, In p (t_goal t) -> rreach t O s p.
Proof.
  intros Hv (E & B1 & B2 & B3 & B4). set (hasb := fun X p => existsb (fun q => (if in_dec (fun a b : fact * fact => ltac:(repeat decide equality) : {a = b} + {a <> b}) (q, p) edges then true else false) && Qle_bool 1 (E q p)) X).
  assert (Hhas : forall X p, hasb X p = true <-> exists q, In q X /\ In (q, p) edges /\ (1 <= E q p)%Q).
  { intros X p. unfold hasb. rewrite existsb_exists. split; intros (q & Hq & H).
    - apply andb_true_iff in H. destruct H as [H1 H2]. apply Qle_bool_iff in H2. destruct (in_dec _ (q, p) edges); [eauto|discriminate].
    - exists q. split; auto. destruct H as [H1 H2]. apply Qle_bool_iff in H2. rewrite H2. destruct (in_dec _ (q, p) edges); auto. }
  set (C := filter (fun p => Qle_bool 1 (f p)) (all_facts t)).
  assert (HC : forall p, In p C <-> is_fact t p /\ (1 <= f p)%Q) by (intros p; unfold C; rewrite filter_In, in_facts, Qle_bool_iff; tauto).
  assert (G : forall n X, length X <= n -> (forall p, In p X -> In p C) -> (forall p, In p C -> ~ In p X -> rreach t O s p) -> forall p, In p C -> rreach t O s p).
  { induction n as [|n IH]; intros X Hl HXC Hr.
    - assert (X = []) by (destruct X; auto; cbn in Hl; lia). subst X. intros p Hp. apply Hr; auto.
    - destruct (forallb (hasb X) X) eqn:Ea.
      + assert (X = []). { rewrite forallb_forall in Ea. apply (no_cycle edges delta E Hv B3 B4 (length X) X); auto. intros p Hp. apply Hhas. auto. } subst X. intros p Hp. apply Hr; auto.
      + assert (He : exists p, In p X /\ hasb X p = false).
        { clear - Ea. assert (Gx : forall Y, forallb (hasb X) Y = false -> exists p, In p Y /\ hasb X p = false); [|now apply Gx]. induction Y as [|a Y IH]; cbn [forallb]; intros H; [discriminate|]. destruct (hasb X a) eqn:Eh; [|exists a; split; auto; now left]. destruct (IH H) as (p & Hp & E'). exists p. split; auto. now right. }
        destruct He as (p & Hp & Hn). assert (Hpr : rreach t O s p).
        { destruct (proj1 (HC p) (HXC p Hp)) as [Hpf Hf1]. destruct (rr_support p Hpf Hf1) as [Hs|(o & op & Ho & Ha & HF & Hx & Hq)]; [apply rr_state; now apply in_state_holds|].
          eapply rreach_add; eauto. intros q Hqi. destruct (Hq q Hqi) as (Hqf & Hne & Hfq). apply Hr; [apply HC; auto|]. intros HqX. assert (hasb X p = true); [|congruence]. apply Hhas. exists q. splits; auto.
          - destruct Hv as (order & _ & _ & _ & _ & V & _). eapply V; eauto.
          - pose proof (B2 o op p q Ho Hqi Ha). lra. }
        apply (IH (remove fact_dec p X)).
        * pose proof (remove_length_lt fact_dec X p Hp). lia.
        * intros q Hqr. apply in_remove in Hqr. apply HXC. tauto.
        * intros q HqC Hqr. destruct (fact_dec q p) as [->|Hqp]; auto. apply Hr; auto. intros HqX. apply Hqr. now apply in_in_remove. }
  intros p Hp. apply (G (length C) C); auto; [intros; contradiction|]. apply HC. split; [now apply goal_fact|]. destruct Hrr as (_ & _ & _ & _ & H5 & _). auto.
Qed.
End RRs.
End Strength.
