(** Grouped labels: sorting, costs of groups, combining locally equivalent labels. *)
From Verif Require Import Outcome Spec_FTS Model_MAS.

Definition active (L : label_costs) (l c : nat) : Prop := nth_error L l = Some (Some c).
Definition gstep (l2l : list (option nat)) (infos : list info) (l s t : nat) : Prop :=
  exists k i, nth_error l2l l = Some (Some k) /\ nth_error infos k = Some i /\ In (s, t) (i_trans i).
Definition the_lts (T : tsys) : lts := {|
  l_n := ts_n T; l_step := gstep (ts_l2l T) (ts_infos T);
  l_goal := fun s => nth_error (ts_goals T) s = Some true; l_init := ts_init T |}.

(** ** Sorting *)
Lemma insert_In {A} (le : A -> A -> bool) x l y : In y (insert le x l) <-> y = x \/ In y l.
Proof.
  induction l as [|z r IH]; cbn [insert].
  - cbn [In]. intuition.
  - destruct (le x z); cbn [In] in *; [intuition|]. rewrite IH. intuition.
Qed.
Lemma sort_In {A} (le : A -> A -> bool) l (y : A) : In y (sort le l) <-> In y l.
Proof. induction l as [|x r IH]; cbn [sort fold_right]; [tauto|]. rewrite insert_In. change (fold_right (insert le) [] r) with (sort le r). rewrite IH. cbn [In]. intuition. Qed.
Lemma trans_eqb_ok a b : trans_eqb a b = true <-> a = b.
Proof.
  destruct a as [a1 a2], b as [b1 b2]. unfold trans_eqb. cbn [fst snd]. rewrite andb_true_iff, !Nat.eqb_eq. split; [intros [-> ->]; auto|intros H; inversion H; auto].
Qed.
Lemma unique_In l y : In y (unique l) <-> In y l.
Proof.
  induction l as [|x r IH]; [reflexivity|]. cbn [unique]. destruct r as [|z r]; [reflexivity|].
  destruct (trans_eqb x z) eqn:E.
  - apply trans_eqb_ok in E. subst z. rewrite IH. cbn [In]. intuition.
  - cbn [In] in *. rewrite IH. intuition.
Qed.
Lemma sort_unique_In l y : In y (sort_unique l) <-> In y l.
Proof. unfold sort_unique. now rewrite unique_In, sort_In. Qed.
Lemma trans_list_eqb_ok a b : trans_list_eqb a b = true -> a = b.
Proof.
  revert b. induction a as [|x a IH]; intros [|y b] H; cbn [trans_list_eqb] in H; try discriminate; auto.
  apply andb_true_iff in H as [H1 H2]. apply trans_eqb_ok in H1. f_equal; auto.
Qed.
Lemma sort_nil {A} (le : A -> A -> bool) l : sort le l = [] -> l = [].
Proof. destruct l as [|x r]; auto. intros H. assert (G : In x (sort le (x :: r))) by (apply sort_In; now left). rewrite H in G. destruct G. Qed.

(** ** Costs of groups *)
Definition cost_ok (L : label_costs) (ls : list nat) (r : option nat) : Prop :=
  match r with
  | None => ls = []
  | Some c => (exists l, In l ls /\ active L l c) /\ forall l c', In l ls -> active L l c' -> c <= c'
  end.
Lemma get_label_cost_ok L l c : active L l c -> get_label_cost L l = Ok c.
Proof. intros H. unfold get_label_cost, vget. now rewrite H. Qed.
Lemma cost_ok_snoc L ls r l c : cost_ok L ls r -> active L l c -> cost_ok L (ls ++ [l]) (omin r (Some c)).
Proof.
  intros H Hc. destruct r as [x|]; cbn [omin cost_ok] in *.
  - destruct H as [(l0 & H1 & H2) H3]. split.
    + destruct (Nat.min_spec x c) as [[_ ->]|[_ ->]]; [exists l0|exists l]; split; auto; apply in_or_app; auto. right. now left.
    + intros l' c' Hl' Hc'. apply in_app_or in Hl' as [Hl'|[<-|[]]]; [specialize (H3 _ _ Hl' Hc')|unfold active in *; rewrite Hc in Hc'; inversion Hc'; subst]; lia.
  - subst ls. split; [exists l; split; auto; now left|]. intros l' c' [<-|[]] Hc'. unfold active in *; rewrite Hc in Hc'; inversion Hc'; lia.
Qed.
Lemma min_cost_ok L ls : (forall l, In l ls -> exists c, active L l c) -> exists r, min_cost L ls = Ok r /\ cost_ok L ls r.
Proof.
  unfold min_cost. intros H.
  assert (G : forall rest pre acc, cost_ok L pre acc -> (forall l, In l rest -> exists c, active L l c) ->
    exists r, fold_outcome (fun acc l => let* c := get_label_cost L l in Ok (omin acc (Some c))) rest acc = Ok r /\ cost_ok L (pre ++ rest) r).
  { induction rest as [|l rest IH]; intros pre acc Ha Hr; cbn [fold_outcome].
    - exists acc. rewrite app_nil_r. auto.
    - destruct (Hr l (or_introl eq_refl)) as [c Hc]. rewrite (get_label_cost_ok _ _ _ Hc). cbn [bind].
      destruct (IH (pre ++ [l]) (omin acc (Some c))) as (r & E & R).
      + now apply cost_ok_snoc.
      + intros l' Hl'. apply Hr. now right.
      + exists r. split; auto. rewrite <- app_assoc in R. exact R. }
  exact (G ls [] None eq_refl H).
Qed.
Lemma cost_ok_incl L ls ls' r : (forall l, In l ls <-> In l ls') -> cost_ok L ls r -> cost_ok L ls' r.
Proof.
  intros H. destruct r as [c|]; cbn [cost_ok].
  - intros [(l & H1 & H2) H3]. split; [exists l; split; auto; now apply H|]. intros l' c' H4. apply H3. now apply H.
  - intros ->. destruct ls' as [|x r]; auto. exfalso. apply (proj2 (H x)). now left.
Qed.
Lemma cost_ok_app L a b ra rb : cost_ok L a ra -> cost_ok L b rb -> cost_ok L (a ++ b) (omin ra rb).
Proof.
  destruct ra as [x|], rb as [y|]; cbn [cost_ok omin].
  - intros [(l1 & A1 & A2) A3] [(l2 & B1 & B2) B3]. split.
    + destruct (Nat.min_spec x y) as [[_ ->]|[_ ->]]; [exists l1|exists l2]; split; auto; apply in_or_app; auto.
    + intros l c Hl Hc. apply in_app_or in Hl as [Hl|Hl]; [specialize (A3 _ _ Hl Hc)|specialize (B3 _ _ Hl Hc)]; lia.
  - intros H ->. now rewrite app_nil_r.
  - intros -> H. exact H.
  - intros -> ->. reflexivity.
Qed.

(** ** Updating label_to_local_label *)
Lemma member_In l ls : member l ls = true <-> In l ls.
Proof. unfold member. rewrite existsb_exists. split; [intros (x & H & E); apply Nat.eqb_eq in E; now subst|intros H; exists l; split; auto; apply Nat.eqb_refl]. Qed.
Lemma member_not l ls : member l ls = false <-> ~ In l ls.
Proof. rewrite <- member_In. destruct (member l ls); intuition congruence. Qed.
Lemma set_local_ok k : forall ls m, (forall l, In l ls -> l < length m) ->
  exists m', set_local m ls k = Ok m' /\ length m' = length m /\ forall l, nth_error m' l = if member l ls then Some k else nth_error m l.
Proof.
  unfold set_local. induction ls as [|x r IH]; intros m H; cbn [fold_outcome].
  - exists m. splits; auto.
  - unfold vset at 1. rewrite (proj2 (Nat.ltb_lt x (length m))) by (apply H; now left). cbn [bind].
    destruct (IH (upd m x k)) as (m' & E & Hl & Hn); [intros l Hl; rewrite upd_length; apply H; now right|].
    exists m'. splits; auto; [now rewrite upd_length in Hl|]. intros l. rewrite Hn. unfold member. cbn [existsb]. change (existsb (fun x0 => l =? x0) r) with (member l r).
    destruct (member l r) eqn:Em; [now rewrite orb_true_r|]. rewrite orb_false_r. rewrite upd_nth. rewrite (proj2 (Nat.ltb_lt x (length m))) by (apply H; now left). rewrite andb_true_r, Nat.eqb_sym. reflexivity.
Qed.

(** ** Well-formed groups *)
Record gwf (L : label_costs) (n : nat) (l2l : list (option nat)) (infos : list info) : Prop := {
  g_label : forall l c, active L l c -> exists k i, nth_error l2l l = Some (Some k) /\ nth_error infos k = Some i /\ In l (i_labels i);
  g_group : forall k i l, nth_error infos k = Some i -> In l (i_labels i) -> nth_error l2l l = Some (Some k) /\ exists c, active L l c;
  g_cost : forall k i, nth_error infos k = Some i -> is_active i = true -> cost_ok L (i_labels i) (i_cost i);
  g_trans : forall k i s t, nth_error infos k = Some i -> In (s, t) (i_trans i) -> s < n /\ t < n
}.
Lemma active_In i : is_active i = true <-> exists l, In l (i_labels i).
Proof. unfold is_active. destruct (i_labels i) as [|l r]; split; try discriminate; [intros [l []]|intros _; exists l; now left|auto]. Qed.

Lemma gstep_info L n l2l infos k i l s t : gwf L n l2l infos -> nth_error infos k = Some i -> In l (i_labels i) -> (gstep l2l infos l s t <-> In (s, t) (i_trans i)).
Proof.
  intros W Hk Hl. destruct (g_group _ _ _ _ W k i l Hk Hl) as [E _]. split.
  - intros (k' & i' & E1 & E2 & Hin). rewrite E in E1. inversion E1; subst k'. rewrite Hk in E2. inversion E2; subst; auto.
  - intros Hin. exists k, i. auto.
Qed.

(** ** Combining locally equivalent labels *)
Definition same_steps (L : label_costs) l2l infos l2l' infos' : Prop :=
  forall l c s t, active L l c -> (gstep l2l' infos' l s t <-> gstep l2l infos l s t).
Lemma combine_pair_ok L n l2l infos k1 k2 a : gwf L n l2l infos -> k1 < k2 -> k2 < length infos ->
  nth_error infos k1 = Some a -> is_active a = true ->
  exists l2l' infos' a', combine_pair k1 (l2l, infos) k2 = Ok (l2l', infos') /\ gwf L n l2l' infos' /\
    length infos' = length infos /\ length l2l' = length l2l /\ nth_error infos' k1 = Some a' /\ is_active a' = true /\ same_steps L l2l infos l2l' infos'.
Proof.
  intros W Hk Hk2 Ha Aa. unfold combine_pair, vget. rewrite Ha. cbn [bind].
  destruct (nth_error infos k2) as [b|] eqn:Eb; [|apply nth_error_None in Eb; lia]. cbn [bind].
  destruct (is_active b && trans_list_eqb (i_trans a) (i_trans b)) eqn:Ec; [|exists l2l, infos, a; splits; auto; intros l c s t _; reflexivity].
  apply andb_true_iff in Ec as [Ab Et]. apply trans_list_eqb_ok in Et.
  destruct (set_local_ok (Some k1) (i_labels b) l2l) as (l2l' & -> & Hlen & Hget).
  { intros l Hl. destruct (g_group _ _ _ _ W k2 b l Eb Hl) as [E _]. eapply nth_error_Some_lt; eauto. }
  cbn [bind]. unfold vset at 1. rewrite (proj2 (Nat.ltb_lt k1 (length infos))) by lia. cbn [bind]. unfold vset. rewrite upd_length, (proj2 (Nat.ltb_lt k2 (length infos))) by lia. cbn [bind].
  set (infos' := upd (upd infos k1 (merge_infos a b)) k2 deactivated).
  assert (Hi : forall k, nth_error infos' k = if k =? k2 then Some deactivated else if k =? k1 then Some (merge_infos a b) else nth_error infos k).
  { intros k. unfold infos'. rewrite !upd_nth, upd_length. rewrite (proj2 (Nat.ltb_lt k2 (length infos))), (proj2 (Nat.ltb_lt k1 (length infos))) by lia. rewrite !andb_true_r, (Nat.eqb_sym k k2), (Nat.eqb_sym k k1). destruct (k2 =? k); auto. }
  assert (Hlab : forall l, In l (i_labels (merge_infos a b)) <-> In l (i_labels a) \/ In l (i_labels b)) by (intros l; unfold merge_infos; cbn [i_labels]; rewrite sort_In, in_app_iff; tauto).
  assert (W' : gwf L n l2l' infos').
  { constructor.
    - intros l c Hc. destruct (g_label _ _ _ _ W l c Hc) as (k & i & E1 & E2 & Hin). destruct (member l (i_labels b)) eqn:Em.
      + exists k1, (merge_infos a b). rewrite Hget, Em, Hi. splits; auto; [|apply Hlab; right; now apply member_In].
        destruct (Nat.eqb_spec k1 k2); [lia|]. now rewrite Nat.eqb_refl.
      + assert (k <> k2) by (intros ->; rewrite Eb in E2; inversion E2; subst i; apply member_not in Em; auto).
        rewrite Hget, Em. destruct (Nat.eqb_spec k k1) as [->|Hne].
        * rewrite Ha in E2. inversion E2; subst i. exists k1, (merge_infos a b). splits; auto; [|apply Hlab; auto]. rewrite Hi. destruct (Nat.eqb_spec k1 k2); [lia|]. now rewrite Nat.eqb_refl.
        * exists k, i. splits; auto. rewrite Hi. destruct (Nat.eqb_spec k k2); [lia|]. destruct (Nat.eqb_spec k k1); [lia|auto].
    - intros k i l Hki Hl. rewrite Hi in Hki. destruct (Nat.eqb_spec k k2) as [->|N2]; [inversion Hki; subst i; destruct Hl|].
      destruct (Nat.eqb_spec k k1) as [->|N1].
      + inversion Hki; subst i. apply Hlab in Hl as [Hl|Hl].
        * destruct (g_group _ _ _ _ W k1 a l Ha Hl) as [E C]. split; auto. rewrite Hget. now destruct (member l (i_labels b)).
        * destruct (g_group _ _ _ _ W k2 b l Eb Hl) as [E C]. split; auto. rewrite Hget. now rewrite (proj2 (member_In _ _) Hl).
      + destruct (g_group _ _ _ _ W k i l Hki Hl) as [E C]. split; auto. rewrite Hget. destruct (member l (i_labels b)) eqn:Em; auto.
        apply member_In in Em. destruct (g_group _ _ _ _ W k2 b l Eb Em) as [E2 _]. congruence.
    - intros k i Hki Hact. rewrite Hi in Hki. destruct (Nat.eqb_spec k k2) as [->|N2]; [inversion Hki; subst i; discriminate|].
      destruct (Nat.eqb_spec k k1) as [->|N1]; [|eapply g_cost; eauto]. inversion Hki; subst i.
      eapply cost_ok_incl; [|apply cost_ok_app; [exact (g_cost _ _ _ _ W _ _ Ha Aa)|exact (g_cost _ _ _ _ W _ _ Eb Ab)]].
      intros l. rewrite Hlab, in_app_iff. tauto.
    - intros k i s t Hki Hin. rewrite Hi in Hki. destruct (Nat.eqb_spec k k2) as [->|N2]; [inversion Hki; subst i; destruct Hin|].
      destruct (Nat.eqb_spec k k1) as [->|N1]; [|eapply g_trans; eauto]. inversion Hki; subst i. eapply (g_trans _ _ _ _ W k1 a); eauto. }
  assert (Hk1 : nth_error infos' k1 = Some (merge_infos a b)) by (rewrite Hi; destruct (Nat.eqb_spec k1 k2); [lia|]; now rewrite Nat.eqb_refl).
  exists l2l', infos', (merge_infos a b). splits; auto; [unfold infos'; now rewrite !upd_length| |].
  - apply active_In. apply active_In in Aa as [l Hl]. exists l. apply Hlab. auto.
  - intros l c s t Hc. destruct (g_label _ _ _ _ W l c Hc) as (k & i & E1 & E2 & Hin). rewrite (gstep_info _ _ _ _ k i l s t W E2 Hin).
    destruct (Nat.eq_dec k k2) as [->|N2]; [rewrite Eb in E2; inversion E2; subst i; rewrite (gstep_info _ _ _ _ k1 _ l s t W' Hk1) by (apply Hlab; auto); cbn [merge_infos i_trans]; now rewrite Et|].
    destruct (Nat.eq_dec k k1) as [->|N1]; [rewrite Ha in E2; inversion E2; subst i; rewrite (gstep_info _ _ _ _ k1 _ l s t W' Hk1) by (apply Hlab; auto); reflexivity|].
    apply (gstep_info _ _ _ _ k i l s t W'); auto. rewrite Hi. destruct (Nat.eqb_spec k k2); [lia|]. destruct (Nat.eqb_spec k k1); [lia|auto].
Qed.

Lemma same_steps_trans L a1 a2 b1 b2 c1 c2 : same_steps L a1 a2 b1 b2 -> same_steps L b1 b2 c1 c2 -> same_steps L a1 a2 c1 c2.
Proof. intros H1 H2 l c s t Hc. rewrite (H2 l c s t Hc). eauto. Qed.

Lemma combine_inner L n k1 : forall ks l2l infos a, gwf L n l2l infos -> (forall k, In k ks -> k1 < k < length infos) ->
  nth_error infos k1 = Some a -> is_active a = true ->
  exists l2l' infos', fold_outcome (combine_pair k1) ks (l2l, infos) = Ok (l2l', infos') /\ gwf L n l2l' infos' /\
    length infos' = length infos /\ length l2l' = length l2l /\ same_steps L l2l infos l2l' infos'.
Proof.
  induction ks as [|k ks IH]; intros l2l infos a W Hks Ha Aa; cbn [fold_outcome].
  - exists l2l, infos. splits; auto. intros l c s t _. reflexivity.
  - destruct (Hks k (or_introl eq_refl)) as [K1 K2].
    destruct (combine_pair_ok L n l2l infos k1 k a W K1 K2 Ha Aa) as (l1 & i1 & a1 & -> & W1 & L1 & M1 & Ha1 & Aa1 & S1). cbn [bind].
    destruct (IH l1 i1 a1 W1) as (l2 & i2 & -> & W2 & L2 & M2 & S2); auto; [intros k' Hk'; rewrite L1; apply Hks; now right|].
    exists l2, i2. splits; auto; [congruence|congruence|]. eapply same_steps_trans; eauto.
Qed.
Lemma combine_labels_ok L n l2l infos : gwf L n l2l infos ->
  exists l2l' infos', combine_labels l2l infos = Ok (l2l', infos') /\ gwf L n l2l' infos' /\
    length infos' = length infos /\ length l2l' = length l2l /\ same_steps L l2l infos l2l' infos'.
Proof.
  intros W. unfold combine_labels.
  assert (G : forall ks l infos0, gwf L n l infos0 -> (forall k, In k ks -> k < length infos0) ->
     exists l2l' infos', fold_outcome combine_from ks (l, infos0) = Ok (l2l', infos') /\ gwf L n l2l' infos' /\
       length infos' = length infos0 /\ length l2l' = length l /\ same_steps L l infos0 l2l' infos').
  { clear. induction ks as [|k ks IH]; intros l2l infos W Hks; cbn [fold_outcome].
    - exists l2l, infos. splits; auto. intros l c s t _. reflexivity.
    - unfold combine_from at 1. cbn [snd]. destruct (vget_some infos k) as (a & Ea & ->); [apply Hks; now left|]. cbn [bind].
      destruct (is_active a) eqn:Aa.
      + destruct (combine_inner L n k (seq (S k) (length infos - S k)) l2l infos a W) as (l1 & i1 & -> & W1 & L1 & M1 & S1); auto.
        { intros k' Hk'. apply in_seq in Hk'. lia. }
        cbn [bind]. destruct (IH l1 i1 W1) as (l2 & i2 & -> & W2 & L2 & M2 & S2); [intros k' Hk'; rewrite L1; apply Hks; now right|].
        exists l2, i2. splits; auto; [congruence|congruence|]. eapply same_steps_trans; eauto.
      + cbn [bind]. destruct (IH l2l infos W) as (l2 & i2 & -> & W2 & L2 & M2 & S2); [intros k' Hk'; apply Hks; now right|]. exists l2, i2. splits; auto. }
  apply G; auto. intros k Hk. apply in_seq in Hk. lia.
Qed.
