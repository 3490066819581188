(** Scores of merge candidates. *)
From Coq Require Import Permutation.
From Verif Require Import Outcome Spec_Task Spec_Relaxation Spec_Projection Model_PQ Model_Graph Model_MAS Spec_FTS Model_MASRun Model_MASAlgorithm Spec_Shrink Spec_MASAlgorithm Model_MergeStrategy Spec_MergeStrategy Spec_Selection.
From Verif Require Import Proof_MAS1 Proof_MAS2 Proof_MAS3 Proof_MAS6 Proof_MAS11 Proof_MAS12 Proof_MAS13 Proof_OC1 Proof_MAA5 Proof_MAA10 Proof_MS1 Proof_MS2 Proof_MS8.

Lemma omap_nth {A B} (f : A -> outcome B) : forall l r, omap f l = Ok r -> length r = length l /\ forall k x y, nth_error l k = Some x -> nth_error r k = Some y -> f x = Ok y.
Proof.
  induction l as [|a l IH]; intros r H; cbn [omap] in H.
  - injection H as <-. split; auto. intros [|k] x y E; discriminate.
  - apply bind_ok in H as (b & Hb & H). apply bind_ok in H as (r' & Hr & H). injection H as <-. destruct (IH r' Hr) as [Hl Hn]. cbn [length]. split; [congruence|]. intros [|k] x y E1 E2; cbn [nth_error] in *; [congruence|eauto].
Qed.

(** ** Goal relevance *)
Lemma goal_relevant_iff L maxl T : twf L maxl T -> (is_goal_relevant T = true <-> some_non_goal (the_lts T)).
Proof.
  intros W. unfold is_goal_relevant, some_non_goal. cbn [the_lts l_n l_goal]. rewrite existsb_exists. split.
  - intros (b & Hb & N). destruct b; [discriminate|]. apply In_nth_error in Hb as [s Hs]. exists s. split; [rewrite <- (w_goals _ _ _ W); eapply nth_error_Some_lt; eauto|congruence].
  - intros (s & Hs & N). rewrite <- (w_goals _ _ _ W) in Hs. destruct (nth_error (ts_goals T) s) as [[|]|] eqn:E; [congruence| |apply nth_error_None in E; lia]. exists false. split; auto. eapply nth_error_In; eauto.
Qed.

(** ** DFP *)
Lemma irrelevant_iff L maxl T k g l : twf L maxl T -> nth_error (ts_infos T) k = Some g -> In l (i_labels g) -> NoDup (i_trans g) -> (group_relevant T g = false <-> irrelevant (the_lts T) l).
Proof.
  intros W Hk Hl HD. destruct (g_group _ _ _ _ (w_g _ _ _ W) k g l Hk Hl) as [El _].
  assert (St : forall s s', l_step (the_lts T) l s s' <-> In (s, s') (i_trans g)).
  { intros s s'. cbn [the_lts l_step]. unfold gstep. split; [intros (k' & g' & E1 & E2 & H); rewrite El in E1; injection E1 as <-; rewrite Hk in E2; injection E2 as <-; exact H|intros H; exists k, g; auto]. }
  unfold group_relevant, irrelevant. change (l_n (the_lts T)) with (ts_n T). rewrite orb_false_iff, negb_false_iff, Nat.eqb_eq. split.
  - intros [Hn He] s s' Hs Hs'. rewrite St.
    assert (Self : forall x, In x (i_trans g) -> snd x = fst x). { intros x Hx. destruct (Nat.eqb_spec (snd x) (fst x)) as [E|N]; auto. assert (existsb (fun t => negb (snd t =? fst t)) (i_trans g) = true); [|congruence]. apply existsb_exists. exists x. split; auto. rewrite (proj2 (Nat.eqb_neq _ _) N). reflexivity. }
    split; [intros H; symmetry; exact (Self _ H)|]. intros <-.
    assert (HD' : NoDup (map fst (i_trans g))).
    { clear - HD Self. induction HD as [|x r Hx HD IH]; cbn [map]; constructor; [|apply IH; intros y Hy; apply Self; now right]. intros Hin. apply in_map_iff in Hin as (y & E & Hy). apply Hx. pose proof (Self x (or_introl eq_refl)) as E1. pose proof (Self y (or_intror Hy)) as E2. destruct x, y. cbn [fst snd] in *. subst. exact Hy. }
    assert (Hinc : incl (seq 0 (ts_n T)) (map fst (i_trans g))).
    { apply NoDup_length_incl; auto; [rewrite seq_length, map_length; exact (Nat.eq_le_incl _ _ (eq_sym Hn))|]. intros z Hz. apply in_map_iff in Hz as ([z1 z2] & <- & Hz). apply in_seq. destruct (g_trans _ _ _ _ (w_g _ _ _ W) k g z1 z2 Hk Hz). cbn [fst]. lia. }
    assert (Hin : In s (map fst (i_trans g))) by (apply Hinc, in_seq; lia). apply in_map_iff in Hin as ([z1 z2] & E & Hz). cbn [fst] in E. subst z1. pose proof (Self _ Hz) as E2. cbn [fst snd] in E2. now subst z2.
  - intros H.
    assert (Hin : forall x, In x (i_trans g) <-> In x (map (fun s => (s, s)) (seq 0 (ts_n T)))).
    { intros [s s']. rewrite in_map_iff. split.
      - intros Hx. destruct (g_trans _ _ _ _ (w_g _ _ _ W) k g s s' Hk Hx) as [L1 L2]. apply St in Hx. apply H in Hx; auto. subst s'. exists s. split; auto. apply in_seq. lia.
      - intros (z & E & Hz). injection E as <- <-. apply in_seq in Hz. apply St, H; auto; lia. }
    assert (HD' : NoDup (map (fun s => (s, s)) (seq 0 (ts_n T)))) by (apply FinFun.Injective_map_NoDup; [intros a b E; now inv E|apply seq_NoDup]). split.
    + assert (A1 : length (i_trans g) <= length (map (fun s => (s, s)) (seq 0 (ts_n T)))) by (apply NoDup_incl_length; auto; intros x Hx; now apply Hin).
      assert (A2 : length (map (fun s => (s, s)) (seq 0 (ts_n T))) <= length (i_trans g)) by (apply NoDup_incl_length; auto; intros x Hx; now apply Hin). rewrite map_length, seq_length in *. lia.
    + destruct (existsb (fun t => negb (snd t =? fst t)) (i_trans g)) eqn:E; auto. apply existsb_exists in E as (x & Hx & Hn). apply Hin, in_map_iff in Hx as (z & <- & _). cbn [fst snd] in Hn. rewrite Nat.eqb_refl in Hn. discriminate.
Qed.
Lemma rank_leads L maxl T dg k g l r : twf L maxl T -> nth_error (ts_infos T) k = Some g -> In l (i_labels g) -> goal_distances (active L) (the_lts T) dg -> rank_of T dg g (Some r) ->
  match r with Some c => least (leads_to (active L) (the_lts T) l) c | None => forall c, ~ leads_to (active L) (the_lts T) l c end.
Proof.
  intros W Hk Hl [Ld Hd] HR. destruct (g_group _ _ _ _ (w_g _ _ _ W) k g l Hk Hl) as [El _].
  assert (St : forall s s', l_step (the_lts T) l s s' <-> In (s, s') (i_trans g)).
  { intros s s'. cbn [the_lts l_step]. unfold gstep. split; [intros (k' & g' & E1 & E2 & H); rewrite El in E1; injection E1 as <-; rewrite Hk in E2; injection E2 as <-; exact H|intros H; exists k, g; auto]. }
  assert (Lt : forall s s', In (s, s') (i_trans g) -> s' < l_n (the_lts T)) by (intros s s' H; apply (g_trans _ _ _ _ (w_g _ _ _ W) k g s s' Hk H)).
  destruct r as [c|]; cbn [rank_of] in HR.
  - destruct HR as (_ & ([s s'] & Hin & Hc) & Hmin). cbn [snd] in Hc. split.
    + pose proof (Hd s' (Lt s s' Hin)) as H. rewrite Hc in H. destruct H as [(z & G & Pz) _]. exists s, s', z. split; [now apply St|auto].
    + intros c' (u & u' & z & Hs & G & Pz). apply St in Hs. pose proof (Hd u' (Lt u u' Hs)) as H. destruct (nth u' dg None) as [d|] eqn:Ed; [|destruct (H c'); eauto]. destruct H as [_ H]. specialize (Hmin (u, u') d Hs Ed). specialize (H c' (ex_intro _ z (conj G Pz))). lia.
  - destruct HR as [_ Hno]. intros c (u & u' & z & Hs & G & Pz). apply St in Hs. pose proof (Hd u' (Lt u u' Hs)) as H. pose proof (Hno (u, u') Hs) as E. cbn [snd] in E. rewrite E in H. apply (H c). eauto.
Qed.
Definition both (r1 r2 : list (option (option nat))) (l a b : nat) : Prop := nth_error r1 l = Some (Some (Some a)) /\ nth_error r2 l = Some (Some (Some b)).
Lemma weight_fold : forall r1 r2 w, let res := fold_left (fun w (r : option (option nat) * option (option nat)) => match r with (Some a, Some b) => omin w (omax a b) | _ => w end) (combine r1 r2) w in
  (forall k, res = Some k -> w = Some k \/ exists l a b, both r1 r2 l a b /\ k = Nat.max a b) /\
  (forall k, w = Some k -> exists k', res = Some k' /\ k' <= k) /\
  (forall l a b, both r1 r2 l a b -> exists k', res = Some k' /\ k' <= Nat.max a b).
Proof.
  induction r1 as [|x r1 IH]; intros r2 w; cbv zeta in *.
  - cbn [combine fold_left]. split; [auto|]. split; [intros k ->; eauto|]. intros [|l] a b [H _]; discriminate.
  - destruct r2 as [|y r2]; cbn [combine fold_left].
    + split; [auto|]. split; [intros k ->; eauto|]. intros [|l] a b [_ H]; discriminate.
    + set (w' := match x with Some a => match y with Some b => omin w (omax a b) | None => w end | None => w end).
      destruct (IH r2 w') as (I1 & I2 & I3).
      assert (W1 : forall k, w' = Some k -> w = Some k \/ exists a b, x = Some (Some a) /\ y = Some (Some b) /\ k = Nat.max a b).
      { intros k. unfold w'. destruct x as [[a|]|], y as [[b|]|], w as [c|]; cbn [omin omax]; intros H; try discriminate; auto; injection H as <-.
        - destruct (Nat.min_spec c (Nat.max a b)) as [[_ ->]|[_ ->]]; [now left|right; eauto 6].
        - right. eauto 6. }
      assert (W2 : forall k, w = Some k -> exists k', w' = Some k' /\ k' <= k).
      { intros k ->. unfold w'. destruct x as [[a|]|], y as [[b|]|]; cbn [omin omax]; eauto. eexists. split; [reflexivity|lia]. }
      assert (W3 : forall a b, x = Some (Some a) -> y = Some (Some b) -> exists k', w' = Some k' /\ k' <= Nat.max a b).
      { intros a b -> ->. unfold w'. cbn [omax]. destruct w; cbn [omin]; eexists; (split; [reflexivity|lia]). }
      split; [|split].
      * intros k Hk. apply I1 in Hk as [Hk|(l & a & b & H & ->)]; [|right; exists (S l), a, b; split; auto]. apply W1 in Hk as [Hk|(a & b & -> & -> & ->)]; auto. right. exists 0, a, b. repeat split.
      * intros k Hk. destruct (W2 k Hk) as (k' & E & Hle). destruct (I2 k' E) as (k'' & E' & Hle'). exists k''. split; auto. lia.
      * intros [|l] a b [H1 H2]; cbn [nth_error] in H1, H2; [|apply (I3 l a b); split; auto]. injection H1 as ->. injection H2 as ->. destruct (W3 a b eq_refl eq_refl) as (k' & E & Hle). destruct (I2 k' E) as (k'' & E' & Hle'). exists k''. split; auto. lia.
Qed.
Lemma pair_weight_ok r1 r2 : match pair_weight r1 r2 with
  | Some k => (exists l a b, both r1 r2 l a b /\ k = Nat.max a b) /\ forall l a b, both r1 r2 l a b -> k <= Nat.max a b
  | None => forall l a b, ~ both r1 r2 l a b end.
Proof.
  unfold pair_weight. destruct (weight_fold r1 r2 None) as (A & _ & C). cbv zeta in *. destruct (fold_left _ (combine r1 r2) None) as [k|].
  - split; [destruct (A k eq_refl) as [H|H]; [discriminate|exact H]|]. intros l a b H. destruct (C l a b H) as (k' & E & Hle). injection E as <-. exact Hle.
  - intros l a b H. destruct (C l a b H) as (k' & E & _). discriminate.
Qed.

(** ** Total orders *)
Lemma before_cons x l a b : before l a b -> before (x :: l) a b.
Proof. intros (u & v & w & ->). exists (x :: u), v, w. reflexivity. Qed.
Lemma before_hd x l b : In b l -> before (x :: l) x b.
Proof. intros H. apply in_split in H as (u & v & ->). exists [], u, v. reflexivity. Qed.
Lemma all_pairs_before l i j : In (i, j) (all_pairs l) -> before l i j.
Proof. intros H. now apply all_pairs_In in H. Qed.
Lemma map_pair_nth (x : nat) (l : list nat) q p : nth_error (map (fun y => (x, y)) l) q = Some p -> exists y, p = (x, y) /\ nth_error l q = Some y.
Proof. rewrite nth_error_map. destruct (nth_error l q) as [y|]; [|discriminate]. intros E. injection E as <-. eauto. Qed.
Lemma nth_before : forall (l : list nat) q q' a b, nth_error l q = Some a -> nth_error l q' = Some b -> q < q' -> before l a b.
Proof.
  induction l as [|x l IH]; intros [|q] [|q'] a b H1 H2 Hlt; cbn [nth_error] in *; try discriminate; try lia.
  - injection H1 as <-. apply before_hd. eapply nth_error_In; eauto.
  - apply before_cons. apply (IH q q'); auto; lia.
Qed.
Lemma all_pairs_order : forall l q q' a b a' b', nth_error (all_pairs l) q = Some (a, b) -> nth_error (all_pairs l) q' = Some (a', b') -> q < q' -> before l a a' \/ a = a' /\ before l b b'.
Proof.
  induction l as [|x l IH]; intros q q' a b a' b' H1 H2 Hlt; cbn [all_pairs] in *; [destruct q; discriminate|].
  destruct (Nat.lt_ge_cases q (length (map (fun y => (x, y)) l))) as [Lq|Lq].
  - rewrite nth_error_app1 in H1 by auto. apply map_pair_nth in H1 as (y & E & Hy). injection E as -> ->. destruct (Nat.lt_ge_cases q' (length (map (fun y => (x, y)) l))) as [Lq'|Lq'].
    + rewrite nth_error_app1 in H2 by auto. apply map_pair_nth in H2 as (y' & E & Hy'). injection E as -> ->. right. split; auto. apply before_cons. eapply nth_before; eauto.
    + rewrite nth_error_app2 in H2 by auto. left. apply before_hd. apply nth_error_In, all_pairs_mem in H2. tauto.
  - rewrite nth_error_app2 in H1 by auto. rewrite nth_error_app2 in H2 by lia. destruct (IH _ _ a b a' b' H1 H2) as [H|[-> H]]; [lia|left; now apply before_cons|right; split; auto; now apply before_cons].
Qed.

(** ** The best ones *)
Lemma smaller_iff a b : smaller a b <-> score_lt a b = true.
Proof. destruct a as [[x y]|], b as [[u v]|]; cbn [smaller score_lt]; try (split; [tauto|discriminate]); [symmetry; apply Nat.ltb_lt|tauto]. Qed.
Definition score_of (cands : list (nat * nat)) (l : list score) (c : nat * nat) : score :=
  match find (fun cs => (fst (fst cs) =? fst c) && (snd (fst cs) =? snd c)) (combine cands l) with Some cs => snd cs | None => None end.
Lemma score_of_nth : forall cands l k c x, NoDup cands -> nth_error cands k = Some c -> nth_error l k = Some x -> score_of cands l c = x.
Proof.
  unfold score_of. induction cands as [|c0 cands IH]; intros [|x0 l] k c x HD H1 H2; try (destruct k; discriminate). inversion HD as [|? ? Hn HD']; subst. cbn [combine find fst snd]. destruct k as [|k]; cbn [nth_error] in H1, H2.
  - injection H1 as ->. injection H2 as ->. now rewrite !Nat.eqb_refl.
  - destruct (Nat.eqb_spec (fst c0) (fst c)) as [E1|]; [destruct (Nat.eqb_spec (snd c0) (snd c)) as [E2|]|]; cbn [andb]; eauto.
    exfalso. apply Hn. replace c0 with c by (destruct c, c0; cbn [fst snd] in *; congruence). eapply nth_error_In; eauto.
Qed.
Lemma best_eq l x : (forall y, In y l -> valid y) -> In x l -> (score_eq x (best_score l) = true <-> forall y, In y l -> score_lt y x = false).
Proof.
  intros V Hx. assert (Hne : l <> []) by (intros ->; destruct Hx). pose proof (best_in l Hne) as Hb. destruct (best_least l None I V) as [_ Hl]. cbv zeta in Hl. fold (best_score l) in Hl. split.
  - intros E y Hy. apply score_eq_lt in E as [_ E]. apply (score_le_trans y (best_score l) x); auto.
  - intros H. apply score_tri; auto.
Qed.
Lemma best_ones_ok (rates : nat * nat -> score -> Prop) cands l r : NoDup cands -> length l = length cands -> (forall y, In y l -> valid y) -> (forall k c x, nth_error cands k = Some c -> nth_error l k = Some x -> rates c x) ->
  (forall c, In c r <-> exists k, nth_error cands k = Some c /\ exists s, nth_error l k = Some s /\ score_eq s (best_score l) = true) -> best_ones rates cands r.
Proof.
  intros HD Hl V HR Hr. exists (score_of cands l).
  assert (At : forall c, In c cands -> exists k x, nth_error cands k = Some c /\ nth_error l k = Some x /\ score_of cands l c = x).
  { intros c Hc. apply In_nth_error in Hc as [k Hk]. destruct (nth_error l k) as [x|] eqn:Ex; [|apply nth_error_None in Ex; pose proof (nth_error_Some_lt _ _ _ Hk); lia]. exists k, x. split; auto. split; auto. eapply score_of_nth; eauto. }
  split; [intros c Hc; destruct (At c Hc) as (k & x & H1 & H2 & ->); eauto|]. intros c. rewrite Hr. split.
  - intros (k & Hk & x & Hx & E). assert (Hc : In c cands) by (eapply nth_error_In; eauto). split; auto. rewrite (score_of_nth _ _ _ _ _ HD Hk Hx). intros c' Hc'. destruct (At c' Hc') as (k' & x' & H1 & H2 & ->). rewrite smaller_iff. pose proof (proj1 (best_eq l x V (nth_error_In _ _ Hx)) E x' (nth_error_In _ _ H2)). congruence.
  - intros [Hc Hmin]. destruct (At c Hc) as (k & x & H1 & H2 & E). exists k. split; auto. exists x. split; auto. apply best_eq; auto; [eapply nth_error_In; eauto|]. intros y Hy. apply In_nth_error in Hy as [k' Hk']. destruct (nth_error cands k') as [c'|] eqn:Ec; [|apply nth_error_None in Ec; pose proof (nth_error_Some_lt _ _ _ Hk'); lia].
    specialize (Hmin c' (nth_error_In _ _ Ec)). rewrite E, (score_of_nth _ _ _ _ _ HD Ec Hk'), smaller_iff in Hmin. destruct (score_lt y x); congruence.
Qed.
