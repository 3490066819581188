(** Abstracting a transition system yields the image under the grouping. *)
From Coq Require Import Permutation.
From Verif Require Import Outcome Spec_FTS Model_MAS Proof_MAS1 Proof_MAS2.

Lemma omap_ok {A B} (f : A -> outcome B) (R : A -> B -> Prop) : forall l, (forall x, In x l -> exists y, f x = Ok y /\ R x y) ->
  exists l', omap f l = Ok l' /\ Forall2 R l l'.
Proof.
  induction l as [|x r IH]; intros H; cbn [omap]; [exists []; auto|].
  destruct (H x (or_introl eq_refl)) as (y & -> & Hy). cbn [bind]. destruct IH as (ys & -> & Hys); [intros z Hz; apply H; now right|]. cbn [bind]. exists (y :: ys). auto.
Qed.
Lemma Forall2_nth {A B} (R : A -> B -> Prop) l l' : Forall2 R l l' -> forall i,
  match nth_error l i, nth_error l' i with Some x, Some y => R x y | None, None => True | _, _ => False end.
Proof. induction 1 as [|x y l l' Hr _ IH]; intros [|i]; cbn [nth_error]; auto. apply IH. Qed.
Lemma Forall2_len {A B} (R : A -> B -> Prop) l l' : Forall2 R l l' -> length l' = length l.
Proof. induction 1; cbn [length]; auto. Qed.

Lemma mapping_class (k : nat) : forall cls (m : list (option nat)), (forall s, In s cls -> s < length m) ->
  exists m', fold_outcome (fun m s => vset m s (Some k)) cls m = Ok m' /\ length m' = length m /\
    forall s, nth_error m' s = if member s cls then Some (Some k) else nth_error m s.
Proof. intros cls m H. exact (set_local_ok (Some k) cls m H). Qed.

Lemma abstraction_mapping_ok n eq : grouping n eq ->
  exists m, abstraction_mapping n eq = Ok m /\ length m = n /\ forall s k, nth_error m s = Some (Some k) <-> in_class eq k s.
Proof.
  intros (Hnd & Hne & Hlt). unfold abstraction_mapping.
  assert (G : forall rest pre m, eq = pre ++ rest -> length m = n -> (forall s k, nth_error m s = Some (Some k) <-> in_class pre k s) ->
     exists m', fold_outcome (fun mk cls => let '(m, k) := mk in let* m := fold_outcome (fun m s => vset m s (Some k)) cls m in Ok (m, S k)) rest (m, length pre) = Ok (m', length eq) /\
       length m' = n /\ forall s k, nth_error m' s = Some (Some k) <-> in_class eq k s).
  { induction rest as [|cls rest IH]; intros pre m Hsp Hl Hm; cbn [fold_outcome].
    - rewrite app_nil_r in Hsp. subst pre. exists m. auto.
    - assert (Hin : forall s, In s cls -> In s (concat eq)) by (intros s Hs; rewrite Hsp, concat_app; apply in_or_app; right; cbn [concat]; apply in_or_app; auto).
      destruct (mapping_class (length pre) cls m) as (m1 & -> & L1 & H1); [intros s Hs; rewrite Hl; apply Hlt; auto|]. cbn [bind].
      replace (S (length pre)) with (length (pre ++ [cls])) by (rewrite app_length; cbn [length]; lia).
      apply (IH (pre ++ [cls]) m1); [now rewrite <- app_assoc|congruence|].
      intros s k. rewrite H1. unfold in_class. destruct (member s cls) eqn:Em.
      + apply member_In in Em. split.
        * intros E. inversion E; subst k. exists cls. split; auto. rewrite nth_error_app2, Nat.sub_diag; auto.
        * intros (c & Hc & Hs). f_equal. f_equal. destruct (Nat.ltb_spec k (length pre)).
          -- exfalso. rewrite nth_error_app1 in Hc by auto. apply nth_error_In in Hc. rewrite Hsp, concat_app in Hnd. cbn [concat] in Hnd.
             assert (Hs' : In s (concat pre)) by (apply in_concat; eauto). clear - Hnd Hs' Em. induction (concat pre) as [|x r IHr]; [destruct Hs'|]. cbn [app] in Hnd. inversion Hnd; subst. destruct Hs' as [<-|Hs']; auto. apply H1. rewrite !in_app_iff. auto.
          -- assert (k < length (pre ++ [cls])) by (eapply nth_error_Some_lt; eauto). rewrite app_length in *. cbn [length] in *. lia.
      + apply member_not in Em. rewrite Hm. split.
        * intros (c & Hc & Hs). exists c. split; auto. rewrite nth_error_app1; auto. eapply nth_error_Some_lt; eauto.
        * intros (c & Hc & Hs). exists c. split; auto. destruct (Nat.ltb_spec k (length pre)); [rewrite nth_error_app1 in Hc by auto; auto|].
          rewrite nth_error_app2 in Hc by auto. destruct (k - length pre) as [|d]; cbn [nth_error] in Hc; [inversion Hc; subst; contradiction|destruct d; discriminate]. }
  destruct (G eq [] (repeat None n) eq_refl) as (m & E & Hl & Hm).
  - apply repeat_length.
  - intros s k. split.
    + intros E. apply nth_error_In, repeat_spec in E. discriminate.
    + intros (c & Hc & _). destruct k; discriminate.
  - cbn [length] in E. change (repeat None n, 0) with (repeat (@None nat) n, 0). rewrite E. cbn [bind]. exists m. auto.
Qed.

Lemma any_goal_ok goals : forall cls, (forall s, In s cls -> s < length goals) ->
  exists b, any_goal goals cls = Ok b /\ (b = true <-> exists s, In s cls /\ nth_error goals s = Some true).
Proof.
  induction cls as [|s r IH]; intros H; cbn [any_goal].
  - exists false. split; auto. split; [discriminate|intros (s & [] & _)].
  - destruct (vget_some goals s) as (g & Eg & ->); [apply H; now left|]. cbn [bind]. destruct g.
    + exists true. split; auto. split; auto. intros _. exists s. split; auto. now left.
    + destruct IH as (b & -> & Hb); [intros x Hx; apply H; now right|]. exists b. split; auto. rewrite Hb. split.
      * intros (x & Hx & E). exists x. split; auto. now right.
      * intros (x & [<-|Hx] & E); [congruence|]. exists x. auto.
Qed.

Definition image (m : list (option nat)) (tr : list trans) (x y : nat) : Prop :=
  exists s t, In (s, t) tr /\ nth_error m s = Some (Some x) /\ nth_error m t = Some (Some y).
Lemma map_trans_ok m : forall tr acc, (forall s t, In (s, t) tr -> s < length m /\ t < length m) ->
  exists acc', fold_outcome (map_trans m) tr acc = Ok acc' /\ forall x y, In (x, y) acc' <-> In (x, y) acc \/ image m tr x y.
Proof.
  induction tr as [|[s t] tr IH]; intros acc H; cbn [fold_outcome].
  - exists acc. split; auto. intros x y. split; auto. intros [?|(s & t & [] & _)]; auto.
  - destruct (H s t (or_introl eq_refl)) as [Hs Ht]. unfold map_trans at 1. cbn [fst snd].
    destruct (vget_some m s Hs) as (a & Ea & ->). cbn [bind]. destruct (vget_some m t Ht) as (b & Eb & ->). cbn [bind].
    assert (H' : forall s0 t0, In (s0, t0) tr -> s0 < length m /\ t0 < length m) by (intros; apply H; now right).
    assert (Skip : (forall x y, ~ (nth_error m s = Some (Some x) /\ nth_error m t = Some (Some y))) -> forall x y, image m ((s, t) :: tr) x y <-> image m tr x y).
    { intros Hn x y. unfold image. split.
      - intros (s' & t' & [E|Hin] & A & B); [inversion E; subst; exfalso; eapply Hn; eauto|exists s', t'; auto].
      - intros (s' & t' & Hin & A & B). exists s', t'. split; auto. now right. }
    destruct a as [a|]; [destruct b as [b|]|].
    + cbn [bind]. destruct (IH (acc ++ [(a, b)]) H') as (acc' & -> & Hacc). exists acc'. split; auto. intros x y. rewrite Hacc, in_app_iff. unfold image. split.
      * intros [[?|[E|[]]]|(s' & t' & Hin & A & B)]; auto; right; [inversion E; subst; exists s, t; splits; auto; now left|exists s', t'; splits; auto; now right].
      * intros [?|(s' & t' & [E|Hin] & A & B)]; auto; [|right; exists s', t'; auto]. inversion E; subst s' t'. left. right. left. congruence.
    + cbn [bind]. destruct (IH acc H') as (acc' & -> & Hacc). exists acc'. split; auto. intros x y. rewrite Hacc, Skip; [tauto|]. intros x' y' [_ B]. congruence.
    + cbn [bind]. destruct (IH acc H') as (acc' & -> & Hacc). exists acc'. split; auto. intros x y. rewrite Hacc, Skip; [tauto|]. intros x' y' [A _]. congruence.
Qed.

Lemma in_class_lt cls k s : in_class cls k s -> k < length cls.
Proof. intros (c & Hc & _). eapply nth_error_Some_lt; eauto. Qed.

Theorem abstract_ts_ok L maxl T eq m i0 : twf L maxl T -> grouping (ts_n T) eq -> ts_init T = Some i0 -> length m = ts_n T ->
  (forall s k, nth_error m s = Some (Some k) <-> in_class eq k s) ->
  exists T', abstract_ts T eq m = Ok T' /\ twf L maxl T' /\ is_image (active L) (the_lts T) eq (the_lts T').
Proof.
  intros W HG Hi Hml Hm. unfold abstract_ts. pose proof HG as (Hnd & Hne & Hlt).
  destruct (omap_ok (any_goal (ts_goals T)) (fun cls b => b = true <-> exists s, In s cls /\ nth_error (ts_goals T) s = Some true) eq) as (goals & -> & Fg).
  { intros cls Hc. apply any_goal_ok. intros s Hs. rewrite (w_goals _ _ _ W). apply Hlt, in_concat. eauto. }
  cbn [bind].
  destruct (omap_ok (abstract_info m) (fun i i' => i_labels i' = i_labels i /\ i_cost i' = i_cost i /\ forall x y, In (x, y) (i_trans i') <-> image m (i_trans i) x y) (ts_infos T)) as (infos & -> & Fi).
  { intros i Hin. unfold abstract_info. destruct (map_trans_ok m (i_trans i) []) as (tr & -> & Htr).
    - intros s t Hst. apply In_nth_error in Hin as [k Hk]. rewrite Hml. exact (g_trans _ _ _ _ (w_g _ _ _ W) k i s t Hk Hst).
    - cbn [bind]. eexists. split; [reflexivity|]. cbn [i_labels i_cost i_trans]. splits; auto. intros x y. rewrite sort_unique_In, Htr. cbn [In]. tauto. }
  cbn [bind].
  assert (Hnth : forall k i', nth_error infos k = Some i' -> exists i, nth_error (ts_infos T) k = Some i /\ i_labels i' = i_labels i /\ i_cost i' = i_cost i /\ forall x y, In (x, y) (i_trans i') <-> image m (i_trans i) x y).
  { intros k i' Hk. pose proof (Forall2_nth _ _ _ Fi k) as F. rewrite Hk in F. destruct (nth_error (ts_infos T) k) as [i|]; [|destruct F]. exists i. auto. }
  assert (Hnth' : forall k i, nth_error (ts_infos T) k = Some i -> exists i', nth_error infos k = Some i' /\ i_labels i' = i_labels i /\ forall x y, In (x, y) (i_trans i') <-> image m (i_trans i) x y).
  { intros k i Hk. pose proof (Forall2_nth _ _ _ Fi k) as F. rewrite Hk in F. destruct (nth_error infos k) as [i'|]; [|destruct F]. exists i'. split; auto. split; apply F. }
  assert (Wg : gwf L (length eq) (ts_l2l T) infos).
  { constructor.
    - intros l c Hc. destruct (g_label _ _ _ _ (w_g _ _ _ W) l c Hc) as (k & i & X & Y & Z). destruct (Hnth' k i Y) as (i' & A & B & _). exists k, i'. splits; auto. now rewrite B.
    - intros k i' l Hk Hl. destruct (Hnth k i' Hk) as (i & X & Y & _). rewrite Y in Hl. exact (g_group _ _ _ _ (w_g _ _ _ W) k i l X Hl).
    - intros k i' Hk Ha. destruct (Hnth k i' Hk) as (i & X & Y & Z & _). rewrite Y, Z. apply (g_cost _ _ _ _ (w_g _ _ _ W) k i X). unfold is_active in Ha |- *. rewrite <- Y. exact Ha.
    - intros k i' x y Hk Hin. destruct (Hnth k i' Hk) as (i & X & _ & _ & V). destruct (proj1 (V x y) Hin) as (s & t & _ & A & B). apply Hm in A. apply Hm in B. split; eapply in_class_lt; eauto. }
  destruct (combine_labels_ok L (length eq) (ts_l2l T) infos Wg) as (l2l' & infos' & -> & Wg' & _ & Ml & Hs). cbn [bind].
  rewrite Hi. destruct (vget_some m i0) as (x0 & E0 & ->); [rewrite Hml; eapply w_init; eauto|]. cbn [bind].
  eexists. split; [reflexivity|]. split.
  - constructor; cbn [ts_l2l ts_infos ts_n ts_goals ts_init]; auto.
    + rewrite Ml. exact (w_max _ _ _ W).
    + exact (Forall2_len _ _ _ Fg).
    + intros s ->. apply Hm in E0. eapply in_class_lt; eauto.
  - unfold is_image, the_lts. cbn [l_n l_step l_goal l_init ts_n ts_l2l ts_infos ts_goals ts_init]. splits; auto.
    + intros k. pose proof (Forall2_nth _ _ _ Fg k) as F. unfold in_class. destruct (nth_error eq k) as [cls|]; destruct (nth_error goals k) as [b|]; try contradiction.
      * split.
        -- intros E. inversion E; subst b. destruct (proj1 F eq_refl) as (s & A & B). exists s. split; eauto.
        -- intros (s & (c & A & B) & C). inversion A; subst c. f_equal. apply F. eauto.
      * split; [discriminate|]. intros (s & (c & A & _) & _). discriminate.
    + intros i k Ei. rewrite Hi in Ei. inversion Ei; subst i. rewrite <- Hm. rewrite E0. split; [intros ->; auto|congruence].
    + intros l c x y Hc. rewrite (Hs l c x y Hc). destruct (g_label _ _ _ _ (w_g _ _ _ W) l c Hc) as (k & i & X & Y & Z). destruct (Hnth' k i Y) as (i' & A & B & C).
      rewrite (gstep_info _ _ _ _ k i' l x y Wg A) by (now rewrite B). rewrite C. unfold image. split.
      * intros (s & t & D & E & F). exists s, t. splits; [now apply Hm|now apply Hm|]. now apply (gstep_info _ _ _ _ k i l s t (w_g _ _ _ W) Y Z).
      * intros (s & t & D & E & F). apply (gstep_info _ _ _ _ k i l s t (w_g _ _ _ W) Y Z) in F. exists s, t. splits; auto; now apply Hm.
Qed.
