(** Merge-and-shrink: no label is listed twice in the label groups of a system. *)
From Coq Require Import Permutation.
From Verif Require Import Outcome Spec_Task Spec_Relaxation Spec_Projection Model_PQ Model_Graph Model_MAS Spec_FTS Model_MASRun.
From Verif Require Import Proof_MAS1 Proof_MAS2 Proof_MAS4 Proof_MAS5 Proof_MAS11 Proof_MAS12 Proof_MAS13 Proof_Pot5.

Definition labels_of (infos : list info) : list nat := concat (map i_labels infos).

Lemma insert_perm {A} (le : A -> A -> bool) x l : Permutation (insert le x l) (x :: l).
Proof. induction l as [|y r IH]; cbn [insert]; auto. destruct (le x y); auto. eapply perm_trans; [apply perm_skip, IH|apply perm_swap]. Qed.
Lemma sort_perm {A} (le : A -> A -> bool) l : Permutation (sort le l) l.
Proof. induction l as [|x r IH]; cbn [sort fold_right]; auto. eapply perm_trans; [apply insert_perm|]. now apply perm_skip. Qed.

Lemma concat_perm {A} (l l' : list (list A)) : Permutation l l' -> Permutation (concat l) (concat l').
Proof.
  induction 1; cbn [concat]; auto; [now apply Permutation_app_head| |etransitivity; eauto]. rewrite !app_assoc. apply Permutation_app_tail, Permutation_app_comm.
Qed.
Lemma map_upd {A B} (f : A -> B) (l : list A) k x : map f (upd l k x) = upd (map f l) k (f x).
Proof. revert k. induction l as [|y r IH]; intros [|k]; cbn [upd map]; auto. now rewrite IH. Qed.
Lemma concat_upd {A} (l : list (list A)) k y z : nth_error l k = Some y -> Permutation (concat (upd l k z)) (z ++ concat (upd l k [])).
Proof.
  revert k. induction l as [|w r IH]; intros [|k] H; cbn [nth_error upd concat] in *; try discriminate; auto.
  eapply perm_trans; [apply Permutation_app_head, IH; exact H|]. rewrite !app_assoc. apply Permutation_app_tail, Permutation_app_comm.
Qed.
Lemma concat_at {A} (l : list (list A)) k y : nth_error l k = Some y -> Permutation (concat l) (y ++ concat (upd l k [])).
Proof. intros H. rewrite <- (concat_upd l k y y H). now rewrite (upd_same l k y H). Qed.

Lemma upd_comm {A} (l : list A) i j x y : i <> j -> upd (upd l i x) j y = upd (upd l j y) i x.
Proof. revert i j. induction l as [|z r IH]; intros [|i] [|j] H; cbn [upd]; auto; [congruence|]. f_equal. apply IH. congruence. Qed.

(** Combining groups *)
Lemma combine_pair_labels k1 st k2 st' : k1 <> k2 -> combine_pair k1 st k2 = Ok st' -> Permutation (labels_of (snd st')) (labels_of (snd st)).
Proof.
  intros Hk E. destruct st as [l2l infos]. unfold combine_pair in E. apply bind_ok in E as (a & Ha & E). apply bind_ok in E as (b & Hb & E). destruct (is_active b && _); [|inv E; auto].
  apply bind_ok in E as (m & _ & E). apply bind_ok in E as (i1 & E1 & E). apply bind_ok in E as (i2 & E2 & E). inv E. cbn [snd].
  apply vget_ok in Ha, Hb. apply vset_ok in E1 as [L1 ->]. apply vset_ok in E2 as [L2 ->]. unfold labels_of. rewrite !map_upd. cbn [deactivated i_labels merge_infos].
  assert (N1 : nth_error (map i_labels infos) k1 = Some (i_labels a)) by (now rewrite nth_error_map, Ha).
  assert (N2 : nth_error (map i_labels infos) k2 = Some (i_labels b)) by (now rewrite nth_error_map, Hb).
  rewrite (concat_at _ _ _ N1). assert (N2' : nth_error (upd (map i_labels infos) k1 []) k2 = Some (i_labels b)) by (rewrite upd_nth_neq; auto).
  rewrite (concat_at _ _ _ N2'). rewrite upd_comm by auto. assert (N1' : nth_error (upd (map i_labels infos) k2 []) k1 = Some (i_labels a)) by (rewrite upd_nth_neq; auto).
  rewrite (concat_upd _ _ _ _ N1'). rewrite (upd_comm _ k1 k2) by auto. rewrite app_assoc. apply Permutation_app_tail. apply sort_perm.
Qed.
Lemma combine_labels_perm l2l infos l2l' infos' : combine_labels l2l infos = Ok (l2l', infos') -> Permutation (labels_of infos') (labels_of infos).
Proof.
  intros E. unfold combine_labels in E.
  apply (fold_keeps _ (fun st => Permutation (labels_of (snd st)) (labels_of infos)) _ _ _ E); [reflexivity|].
  intros k1 st st' _ HI E1. unfold combine_from in E1. apply bind_ok in E1 as (a & _ & E1). destruct (is_active a); [|inv E1; auto].
  apply (fold_keeps _ (fun st => Permutation (labels_of (snd st)) (labels_of infos)) _ _ _ E1); [exact HI|].
  intros k2 u u' Hk2 HI2 E2. apply in_seq in Hk2. eapply perm_trans; [eapply combine_pair_labels; [|exact E2]; lia|exact HI2].
Qed.

(** Merging *)
Lemma add_to_bucket_perm bs k l : Permutation (concat (map snd (add_to_bucket bs k l))) (l :: concat (map snd bs)).
Proof.
  induction bs as [|[k' ls] r IH]; cbn [add_to_bucket]; [reflexivity|]. destruct (k' =? k); cbn [map snd concat].
  - rewrite <- app_assoc. apply Permutation_sym. apply (Permutation_middle ls (concat (map snd r)) l).
  - eapply perm_trans; [apply Permutation_app_head, IH|]. apply Permutation_sym, Permutation_middle.
Qed.
Lemma distribute_perm T2 group bs : distribute T2 group = Ok bs -> Permutation (concat (map snd bs)) group.
Proof.
  unfold distribute. assert (G : forall group b0 bs, fold_outcome (fun bs l => let* k := vget (ts_l2l T2) l in match k with Some k => Ok (add_to_bucket bs k l) | None => UB end) group b0 = Ok bs ->
    Permutation (concat (map snd bs)) (concat (map snd b0) ++ group)).
  { clear. induction group as [|l r IH]; intros b0 bs E; cbn [fold_outcome] in E; [inv E; now rewrite app_nil_r|]. apply bind_ok in E as (b1 & E1 & E). apply bind_ok in E1 as (k & _ & E1). destruct k as [k|]; [|discriminate]. inv E1.
    eapply perm_trans; [apply (IH _ _ E)|]. eapply perm_trans; [apply Permutation_app_tail, add_to_bucket_perm|]. cbn [app]. apply Permutation_middle. }
  intros E. exact (G _ _ _ E).
Qed.
Lemma labels_of_snoc infos i : labels_of (infos ++ [i]) = labels_of infos ++ i_labels i.
Proof. unfold labels_of. rewrite map_app, concat_app. cbn [map concat]. now rewrite app_nil_r. Qed.
Definition ms_labels (st : merge_state) : list nat := labels_of (snd (fst st)) ++ snd st.
Lemma merge_bucket_perm L T2 tr1 st b st' : merge_bucket L T2 tr1 st b = Ok st' -> Permutation (ms_labels st') (ms_labels st ++ snd b).
Proof.
  destruct st as [[l2l infos] dead]. unfold merge_bucket. intros E. apply bind_ok in E as (i2 & _ & E). destruct (product_trans _ _ _) as [|tr trs].
  - inv E. unfold ms_labels. cbn [fst snd]. now rewrite app_assoc.
  - apply bind_ok in E as (c & _ & E). apply bind_ok in E as (m & _ & E). inv E. unfold ms_labels. cbn [fst snd]. rewrite labels_of_snoc. cbn [i_labels]. rewrite <- !app_assoc. apply Permutation_app_head.
    eapply perm_trans; [apply Permutation_app_tail, sort_perm|]. apply Permutation_app_comm.
Qed.
Lemma merge_buckets_perm L T2 tr1 : forall bs st st', fold_outcome (merge_bucket L T2 tr1) bs st = Ok st' -> Permutation (ms_labels st') (ms_labels st ++ concat (map snd bs)).
Proof.
  induction bs as [|b r IH]; intros st st' E; cbn [fold_outcome] in E; [inv E; cbn [map concat]; now rewrite app_nil_r|]. apply bind_ok in E as (s1 & E1 & E).
  eapply perm_trans; [apply (IH _ _ E)|]. eapply perm_trans; [apply Permutation_app_tail, (merge_bucket_perm _ _ _ _ _ _ E1)|]. cbn [map concat]. now rewrite app_assoc.
Qed.
Section MERGE.
Variable ord : list (nat * list nat) -> list (nat * list nat).
Hypothesis Hord : forall b, Permutation (ord b) b.
Lemma merge_groups_perm L T2 : forall is st st', fold_outcome (merge_group ord L T2) is st = Ok st' -> Permutation (ms_labels st') (ms_labels st ++ labels_of is).
Proof.
  induction is as [|i r IH]; intros st st' E; cbn [fold_outcome] in E; [inv E; cbn [labels_of map concat]; now rewrite app_nil_r|]. apply bind_ok in E as (s1 & E1 & E).
  eapply perm_trans; [apply (IH _ _ E)|]. change (labels_of (i :: r)) with (i_labels i ++ labels_of r). rewrite app_assoc. apply Permutation_app_tail. unfold merge_group in E1. unfold is_active in E1.
  destruct (i_labels i) as [|l ls] eqn:El; [inv E1; now rewrite app_nil_r|]. apply bind_ok in E1 as (bs & Ed & E1). eapply perm_trans; [apply (merge_buckets_perm _ _ _ _ _ _ E1)|]. apply Permutation_app_head.
  eapply perm_trans; [|exact (distribute_perm _ _ _ Ed)]. apply concat_perm. apply Permutation_map, Hord.
Qed.
Lemma merge_ts_labels L maxl T1 T2 T : merge_ts ord L maxl T1 T2 = Ok T -> Permutation (labels_of (ts_infos T)) (labels_of (ts_infos T1)).
Proof.
  unfold merge_ts. intros E. apply bind_ok in E as ([[l2l infos] dead] & E1 & E). apply merge_groups_perm in E1. unfold ms_labels in E1. cbn [fst snd labels_of map concat app] in E1.
  apply bind_ok in E as (fin & E2 & E). inv E. cbn [ts_infos]. destruct dead as [|d ds].
  - inv E2. cbn [snd]. now rewrite app_nil_r in E1.
  - apply bind_ok in E2 as (c & _ & E2). apply bind_ok in E2 as (m & _ & E2). inv E2. cbn [snd]. rewrite labels_of_snoc. cbn [i_labels]. eapply perm_trans; [apply Permutation_app_head, (sort_perm Nat.leb (d :: ds))|]. exact E1.
Qed.
End MERGE.

(** Abstraction *)
Lemma omap_labels m : forall infos infos', omap (abstract_info m) infos = Ok infos' -> map i_labels infos' = map i_labels infos.
Proof.
  induction infos as [|i r IH]; intros infos' E; cbn [omap] in E; [inv E; auto|]. apply bind_ok in E as (y & Ey & E). apply bind_ok in E as (ys & Eys & E). inv E. cbn [map]. rewrite (IH _ Eys). f_equal.
  unfold abstract_info in Ey. apply bind_ok in Ey as (tr & _ & Ey). inv Ey. reflexivity.
Qed.
Lemma abstract_ts_labels T cls m T' : abstract_ts T cls m = Ok T' -> Permutation (labels_of (ts_infos T')) (labels_of (ts_infos T)).
Proof.
  unfold abstract_ts. intros E. apply bind_ok in E as (gs & _ & E). apply bind_ok in E as (is & Ei & E). apply bind_ok in E as ([l2l is'] & Ec & E). apply bind_ok in E as (x & _ & E). inv E. cbn [ts_infos].
  eapply perm_trans; [exact (combine_labels_perm _ _ _ _ Ec)|]. unfold labels_of. now rewrite (omap_labels _ _ _ Ei).
Qed.

(** Label reduction: [labels_below n]: no duplicates and only numbers below [n] *)
Definition labels_below (n : nat) (infos : list info) : Prop := NoDup (labels_of infos) /\ forall l, In l (labels_of infos) -> l < n.
Lemma filter_sub {A} (p : A -> bool) (l r : list A) : NoDup (l ++ r) -> NoDup (filter p l ++ r).
Proof.
  induction l as [|x l IH]; cbn [app filter]; auto. intros H. inversion H; subst. destruct (p x); auto. cbn [app]. constructor; auto. rewrite in_app_iff, filter_In in *. tauto.
Qed.
Lemma filtered_at infos k i p : nth_error infos k = Some i -> NoDup (labels_of infos) ->
  NoDup (filter p (i_labels i) ++ concat (upd (map i_labels infos) k [])) /\ (forall l, In l (filter p (i_labels i) ++ concat (upd (map i_labels infos) k [])) -> In l (labels_of infos)).
Proof.
  intros Hk Hn. assert (N : nth_error (map i_labels infos) k = Some (i_labels i)) by (now rewrite nth_error_map, Hk). pose proof (concat_at _ _ _ N) as HP. split.
  - apply filter_sub. exact (Permutation_NoDup HP Hn).
  - intros l Hl. apply (Permutation_in _ (Permutation_sym HP)). rewrite in_app_iff in *. rewrite filter_In in Hl. tauto.
Qed.
Lemma reduce_equivalent_labels n st mp st' : labels_below n (snd st) -> fst mp = n -> reduce_equivalent st mp = Ok st' -> labels_below (S n) (snd st').
Proof.
  intros [Hn Hb] Hm E. destruct st as [l2l infos], mp as [new olds]. cbn [fst snd] in *. subst new. unfold reduce_equivalent in E. destruct olds as [|o olds]; [discriminate|]. apply bind_ok in E as (k & _ & E). destruct k as [k|]; [|discriminate].
  apply bind_ok in E as (i & Hi & E). apply bind_ok in E as (is & E1 & E). apply bind_ok in E as (m1 & _ & E). apply bind_ok in E as (m2 & _ & E). inv E. cbn [snd]. apply vget_ok in Hi. apply vset_ok in E1 as [Lk ->].
  destruct (filtered_at infos k i (fun l => negb (member l (o :: olds))) Hi Hn) as [F1 F2]. assert (N : nth_error (map i_labels infos) k = Some (i_labels i)) by (now rewrite nth_error_map, Hi).
  unfold labels_below, labels_of. rewrite map_upd. cbn [same_cost_mapping i_labels remove_labels]. pose proof (concat_upd _ _ _ (filter (fun l => negb (member l (o :: olds))) (i_labels i) ++ [n]) N) as HP.
  assert (HQ : Permutation (concat (upd (map i_labels infos) k (filter (fun l => negb (member l (o :: olds))) (i_labels i) ++ [n]))) (n :: filter (fun l => negb (member l (o :: olds))) (i_labels i) ++ concat (upd (map i_labels infos) k []))).
  { eapply perm_trans; [exact HP|]. rewrite <- app_assoc. cbn [app]. apply Permutation_sym, Permutation_middle. }
  split.
  - apply (Permutation_NoDup (Permutation_sym HQ)). constructor; auto. intros Hx. apply F2, Hb in Hx. lia.
  - intros l Hl. apply (Permutation_in _ HQ) in Hl. destruct Hl as [<-|Hl]; [lia|]. apply F2, Hb in Hl. lia.
Qed.
Lemma reduce_combinable_labels L n st mp st' : labels_below n (snd (fst st)) -> fst mp = n -> reduce_combinable L st mp = Ok st' -> labels_below (S n) (snd (fst st')).
Proof.
  intros [Hn Hb] Hm E. destruct st as [[l2l infos] rm], mp as [new olds]. cbn [fst snd] in *. subst new. unfold reduce_combinable in E. apply bind_ok in E as ([[[a b] c] d] & _ & E). apply bind_ok in E as (m & _ & E). apply bind_ok in E as (cc & _ & E). inv E. cbn [fst snd].
  unfold labels_below. rewrite labels_of_snoc. cbn [i_labels]. split.
  - apply (Permutation_NoDup (l := n :: labels_of infos)); [apply Permutation_cons_append|]. constructor; auto. intros Hx. apply Hb in Hx. lia.
  - intros l Hl. apply in_app_iff in Hl as [Hl|[<-|[]]]; [apply Hb in Hl; lia|lia].
Qed.
Lemma remove_from_labels L n infos e infos' : labels_below n infos -> remove_from L infos e = Ok infos' -> labels_below n infos'.
Proof.
  intros [Hn Hb] E. unfold remove_from in E. apply bind_ok in E as (i & Hi & E). apply bind_ok in E as (c & _ & E). apply vget_ok in Hi. apply vset_ok in E as [Lk ->].
  destruct (filtered_at infos (fst e) i (fun l => negb (member l (snd e))) Hi Hn) as [F1 F2]. assert (N : nth_error (map i_labels infos) (fst e) = Some (i_labels i)) by (now rewrite nth_error_map, Hi).
  unfold labels_below, labels_of. rewrite map_upd. cbn [i_labels remove_labels]. pose proof (concat_upd _ _ _ (filter (fun l => negb (member l (snd e))) (i_labels i)) N) as HP. split.
  - exact (Permutation_NoDup (Permutation_sym HP) F1).
  - intros l Hl. apply (Permutation_in _ HP) in Hl. auto.
Qed.
Lemma fold_below {A} (f : A -> nat * list nat -> outcome A) (g : A -> list info) :
  (forall n st mp st', labels_below n (g st) -> fst mp = n -> f st mp = Ok st' -> labels_below (S n) (g st')) ->
  forall mp n st st', (forall j e, nth_error mp j = Some e -> fst e = n + j) -> labels_below n (g st) -> fold_outcome f mp st = Ok st' -> labels_below (n + length mp) (g st').
Proof.
  intros H. induction mp as [|e r IH]; intros n st st' Hm Hst E; cbn [fold_outcome length] in *; [inv E; now rewrite Nat.add_0_r|]. apply bind_ok in E as (s1 & E1 & E).
  rewrite Nat.add_succ_r. apply (IH (S n) s1 st'); auto.
  - intros j e' Hj. rewrite (Hm (S j) e' Hj). lia.
  - apply (H n st e); auto. rewrite (Hm 0 e eq_refl). lia.
Qed.
Lemma reduce_ts_labels L mp only T T' n : (forall j e, nth_error mp j = Some e -> fst e = n + j) -> labels_below n (ts_infos T) -> reduce_ts L mp only T = Ok T' -> labels_below (n + length mp) (ts_infos T').
Proof.
  intros Hm HT E. unfold reduce_ts in E. apply bind_ok in E as ([l2l infos] & E1 & E). inv E. cbn [ts_infos]. destruct only.
  - exact (fold_below _ snd (reduce_equivalent_labels) mp n (ts_l2l T, ts_infos T) _ Hm HT E1).
  - apply bind_ok in E1 as ([[l1 is1] rm] & E1 & E2). apply bind_ok in E2 as (is2 & E2 & E3).
    pose proof (fold_below _ (fun st => snd (fst st)) (reduce_combinable_labels L) mp n (ts_l2l T, ts_infos T, []) _ Hm HT E1) as H1. cbn [fst snd] in H1.
    assert (H2 : labels_below (n + length mp) is2) by (apply (fold_keeps _ (labels_below (n + length mp)) _ _ _ E2 H1); intros x b b' _ Hb Eb; eapply remove_from_labels; eauto).
    pose proof (combine_labels_perm _ _ _ _ E3) as HP. destruct H2 as [A B]. split; [exact (Permutation_NoDup (Permutation_sym HP) A)|]. intros l Hl. apply B. exact (Permutation_in _ HP Hl).
Qed.

(** The atomic systems *)
Lemma add_group_labels : forall infos k tr l c infos' k', add_group infos k tr l c = (infos', k') -> Permutation (labels_of infos') (l :: labels_of infos).
Proof.
  induction infos as [|i r IH]; intros k tr l c infos' k' E; cbn [add_group] in E; [inv E; reflexivity|]. destruct (trans_list_eqb tr (i_trans i)).
  - inv E. unfold labels_of. cbn [map i_labels concat]. rewrite <- app_assoc. apply Permutation_sym, (Permutation_middle (i_labels i)).
  - destruct (add_group r (S k) tr l c) as [r' k1] eqn:Er. inv E. apply IH in Er. unfold labels_of in *. cbn [map concat]. eapply perm_trans; [apply Permutation_app_head, Er|]. apply Permutation_sym, Permutation_middle.
Qed.
Definition done_labels (done : list operator) (v : nat) (infos : list info) : Prop :=
  NoDup (labels_of infos) /\ forall l, In l (labels_of infos) -> exists op, nth_error done l = Some op /\ relevant op v = true.
Lemma build_ops_labels dom v : forall ops done l2l infos l2l' infos', done_labels done v infos -> build_ops dom v done ops l2l infos = Ok (l2l', infos') -> done_labels (done ++ ops) v infos'.
Proof.
  induction ops as [|op r IH]; intros done l2l infos l2l' infos' [Hn Hd] E; cbn [build_ops] in E; [inv E; rewrite app_nil_r; split; auto|].
  replace (done ++ op :: r) with ((done ++ [op]) ++ r) by (now rewrite <- app_assoc).
  assert (Hup : forall l op', nth_error done l = Some op' -> nth_error (done ++ [op]) l = Some op') by (intros l op' Hl; rewrite nth_error_app1; auto; eapply nth_error_Some_lt; eauto).
  destruct (relevant op v) eqn:Er.
  - destruct (add_group infos 0 _ (length done) (op_cost op)) as [is k] eqn:Ea. apply bind_ok in E as (m & _ & E). apply (IH _ _ _ _ _) in E; auto. apply add_group_labels in Ea. split.
    + apply (Permutation_NoDup (Permutation_sym Ea)). constructor; auto. intros Hx. destruct (Hd _ Hx) as (o & Ho & _). apply nth_error_Some_lt in Ho. lia.
    + intros l Hl. apply (Permutation_in _ Ea) in Hl. destruct Hl as [<-|Hl]; [exists op; split; auto; now rewrite nth_error_app2, Nat.sub_diag by lia|]. destruct (Hd l Hl) as (o & Ho & Hr). exists o. split; auto.
  - apply (IH _ _ _ _ _) in E; auto. split; auto. intros l Hl. destruct (Hd l Hl) as (o & Ho & Hr). exists o. split; auto.
Qed.
Lemma NoDup_app_disj {A} (a b : list A) : NoDup a -> NoDup b -> (forall x, In x a -> ~ In x b) -> NoDup (a ++ b).
Proof. induction 1 as [|x l Hx _ IH]; cbn [app]; auto. intros Hb Hd. constructor; [rewrite in_app_iff; intros [?|Hi]; auto; exact (Hd x (or_introl eq_refl) Hi)|]. apply IH; auto. intros y Hy. apply Hd. now right. Qed.
Lemma atomic_ts_labels t v T : atomic_ts t v = Ok T -> labels_below (length (t_ops t)) (ts_infos T).
Proof.
  unfold atomic_ts. intros E. apply bind_ok in E as (x & _ & E). apply bind_ok in E as (i & _ & E). apply bind_ok in E as ([l2l infos] & Eb & E).
  assert (H0 : done_labels [] v []) by (split; [constructor|intros l []]). destruct (build_ops_labels _ v (t_ops t) [] _ _ _ _ H0 Eb) as [Hn Hd]. cbn [app] in Hd.
  assert (Hlt : forall l, In l (labels_of infos) -> l < length (t_ops t)) by (intros l Hl; destruct (Hd l Hl) as (o & Ho & _); eapply nth_error_Some_lt; eauto).
  apply bind_ok in E as ([l2l' infos'] & E1 & E). inv E. cbn [ts_infos]. destruct (irrelevant_labels (t_ops t) v) as [|a irr] eqn:Ei.
  - inv E1. split; auto.
  - apply bind_ok in E1 as (c & _ & E1). apply bind_ok in E1 as (m & _ & E1). inv E1. unfold labels_below. rewrite labels_of_snoc. cbn [i_labels]. rewrite <- Ei.
    assert (Hirr : forall l, In l (irrelevant_labels (t_ops t) v) -> l < length (t_ops t) /\ exists o, nth_error (t_ops t) l = Some o /\ relevant o v = false).
    { intros l Hl. unfold irrelevant_labels in Hl. apply filter_In in Hl as [Hl Hr]. apply in_seq in Hl. split; [lia|]. destruct (nth_error (t_ops t) l) as [o|]; [|discriminate]. exists o. split; auto. now apply negb_true_iff. }
    split.
    + apply NoDup_app_disj; auto.
      * unfold irrelevant_labels. apply NoDup_filter, seq_NoDup.
      * intros l Hl Hi. destruct (Hd l Hl) as (o & Ho & Hr), (Hirr l Hi) as (_ & o' & Ho' & Hr'). congruence.
    + intros l Hl. apply in_app_iff in Hl as [Hl|Hl]; auto. apply Hirr; auto.
Qed.

Section RUN.
Variable P : pqueue.
Variable bag : PQ P -> list (nat * nat).
Hypothesis HP : pq_contract P bag.
Variable q0 : PQ P.
Hypothesis Hq0 : bag q0 = [].
Variable ord : list (nat * list nat) -> list (nat * list nat).
Hypothesis Hord : forall b, Permutation (ord b) b.
Variable ci cg : bool.
Variable t : task.
Hypothesis Ht : mas_task t.

Definition fts_labels (F : fts) : Prop := forall i f, at_factor F i f -> labels_below (length (F_labels F)) (ts_infos (f_ts f)).
Lemma below_perm n a b : Permutation (labels_of b) (labels_of a) -> labels_below n a -> labels_below n b.
Proof. intros H [A B]. split; [exact (Permutation_NoDup (Permutation_sym H) A)|]. intros l Hl. apply B. exact (Permutation_in _ H Hl). Qed.
Lemma abstraction_labels F i cls F' : fts_labels F -> apply_abstraction P q0 ci cg F i cls = Ok F' -> fts_labels F'.
Proof.
  intros H E. unfold apply_abstraction in E. apply bind_ok in E as (f & Hf & E). destruct (_ =? _); [inv E; auto|]. apply bind_ok in E as (m & _ & E). apply bind_ok in E as (T & ET & E). apply bind_ok in E as (D & _ & E). apply bind_ok in E as (r & _ & E). inv E.
  apply get_factor_ok in Hf. intros k g Hk. unfold at_factor in Hk. cbn [set_factors F_factors F_labels] in *. destruct (Nat.eq_dec k i) as [->|N]; [|rewrite upd_nth_neq in Hk by auto; apply (H k g Hk)].
  rewrite upd_nth_eq in Hk by (eapply nth_error_Some_lt; eauto). inv Hk. cbn [f_ts]. eapply below_perm; [exact (abstract_ts_labels _ _ _ _ ET)|]. exact (H i f Hf).
Qed.
Lemma mapping_labels F mp comb F' : (forall j e, nth_error mp j = Some e -> fst e = length (F_labels F) + j) -> fts_labels F -> apply_label_mapping F mp comb = Ok F' -> fts_labels F'.
Proof.
  intros Hm H E. unfold apply_label_mapping in E. apply bind_ok in E as (L & EL & E). apply bind_ok in E as (fs & Ef & E). inv E.
  assert (HL : length L = length (F_labels F) + length mp).
  { clear -EL. revert EL. generalize (F_labels F) as L0. induction mp as [|e r IH]; intros L0 E; cbn [fold_outcome length] in *; [inv E; lia|]. apply bind_ok in E as (L1 & E1 & E). rewrite (IH _ E). clear IH E. unfold reduce_labels in E1. apply bind_ok in E1 as ([L2 c] & E2 & E1). inv E1. rewrite app_length. cbn [length].
    assert (G : length L2 = length L0); [|lia]. apply (fold_keeps _ (fun x => length (fst x) = length L0) _ _ _ E2); [reflexivity|]. intros o [La ac] b' _ Hl Eb. cbn [fst] in *. apply bind_ok in Eb as (c1 & _ & Eb). apply bind_ok in Eb as (La' & Es & Eb). inv Eb. apply vset_ok in Es as [_ ->]. cbn [fst]. now rewrite upd_length. }
  intros k g Hk. unfold at_factor in Hk. cbn [F_factors F_labels] in *. rewrite HL. assert (H' : forall i f, nth_error (F_factors F) i = Some (Some f) -> labels_below (length (F_labels F)) (ts_infos (f_ts f))) by exact H. clear H EL HL. revert H' Ef Hk. generalize (F_factors F) as fs0. generalize 0 as i0. clear -Hm. intros i0 fs0. revert i0 fs k.
  induction fs0 as [|[f|] r IH]; intros i0 fs k H E Hk; cbn [reduce_all] in E.
  - inv E. destruct k; discriminate.
  - apply bind_ok in E as (T & ET & E). apply bind_ok in E as (rs & Er & E). inv E. destruct k as [|k]; cbn [nth_error] in Hk.
    + inv Hk. cbn [f_ts]. eapply reduce_ts_labels; eauto. apply (H 0 f eq_refl).
    + eapply IH; eauto. intros j g' Hj. apply (H (S j) g' Hj).
  - apply bind_ok in E as (rs & Er & E). inv E. destruct k as [|k]; cbn [nth_error] in Hk; [discriminate|]. eapply IH; eauto. intros j g' Hj. apply (H (S j) g' Hj).
Qed.
Lemma built_labels e F : built P q0 ord ci cg t e F -> fts_labels F.
Proof.
  induction 1 as [F E|e F i j f g F' HB IH Hne Hf Hg Nf Ng E|e F i f x cls F' HB IH Hf Hx HG HU Hgr E|e F i f x cls F' HB IH Hf Hx HG HA _ E|e F i f pu pi F' HB IH Hf Hi Hpu Hpi E|e F mp comb F' HB IH HG Hloc E].
  - unfold create_fts in E. apply bind_ok in E as (fs & Ef & E). inv E. intros i f Hi. unfold at_factor in Hi. cbn [F_factors F_labels] in *. unfold initial_labels. rewrite map_length. rewrite nth_error_map in Hi. destruct (nth_error fs i) as [f'|] eqn:Ei; [|discriminate]. cbn [option_map] in Hi. inv Hi.
    revert Ef i Ei. generalize (seq 0 (length (t_vars t))) as vs. clear. intros vs. revert fs. induction vs as [|v r IH]; intros fs E i Hi; cbn [omap] in E; [inv E; destruct i; discriminate|]. apply bind_ok in E as (y & Ey & E). apply bind_ok in E as (ys & Eys & E). inv E. destruct i as [|i]; cbn [nth_error] in Hi; [|eapply IH; eauto].
    inv Hi. unfold atomic_factor in Ey. apply bind_ok in Ey as (x & _ & Ey). apply bind_ok in Ey as (T & ET & Ey). apply bind_ok in Ey as (D & _ & Ey). inv Ey. cbn [f_ts]. eapply atomic_ts_labels; eauto.
  - unfold merge_factors in E. rewrite Hf, Hg in E. cbn [bind] in E. apply bind_ok in E as (T & ET & E). apply bind_ok in E as (D & _ & E). inv E. intros k h Hk. unfold at_factor in Hk. cbn [set_factors F_factors F_labels] in *. apply merged_nth in Hk. destruct Hk as [(A & B & Hk)|[A ->]]; [exact (IH k h Hk)|].
    cbn [f_ts]. eapply below_perm; [exact (merge_ts_labels ord Hord _ _ _ _ _ ET)|]. apply get_factor_ok in Hf. exact (IH i f Hf).
  - eapply abstraction_labels; eauto.
  - eapply abstraction_labels; eauto.
  - unfold prune_step in E. rewrite Hf in E. cbn [bind] in E. apply bind_ok in E as (cls & _ & E). eapply abstraction_labels; eauto.
  - eapply mapping_labels; eauto. apply HG.
Qed.
End RUN.
