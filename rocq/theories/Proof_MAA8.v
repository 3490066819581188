(** Shrinking by bisimulation: signatures, splitting groups, the fixpoint. *)
From Coq Require Import Permutation Sorted.
From Verif Require Import Outcome Spec_Task Model_PQ Model_Graph Model_Equivalence Model_MAS Spec_FTS Model_MASAlgorithm Spec_Shrink.
From Verif Require Import Proof_MAS1 Proof_MAS2 Proof_OC1 Proof_Pot5 Proof_MAA1 Proof_MAA6 Proof_MAA7.

Section BISIM.
Variable L : label_costs.
Variable maxl : nat.
Variable T : tsys.
Variable dg : dists.
Variable greedy : bool.
Hypothesis W : twf L maxl T.
Hypothesis HD : goal_distances (active L) (the_lts T) dg.
Notation n := (ts_n T).
Definition goalb (s : nat) : bool := nth s (ts_goals T) false.
Definition hgof (s : nat) : option nat := h_and_goal (goalb s) (nth s dg None).

Lemma goal_nth s : s < n -> nth_error (ts_goals T) s = Some (goalb s).
Proof. intros H. unfold goalb. apply nth_error_nth'. rewrite (w_goals _ _ _ W). auto. Qed.
Lemma dg_len : length dg = n. Proof. apply HD. Qed.
Lemma dg_nth s : s < n -> nth_error dg s = Some (nth s dg None).
Proof. intros H. apply nth_error_nth'. now rewrite dg_len. Qed.
Lemma goal_zero s : s < n -> goalb s = true -> nth s dg None = Some 0.
Proof.
  intros H E. pose proof (proj2 HD s H) as G. assert (P : exists g, l_goal (the_lts T) g /\ lpath (active L) (l_step (the_lts T)) s 0 g) by (exists s; split; [cbn; rewrite goal_nth, E by auto; auto|constructor]).
  destruct (nth s dg None) as [c|]; [|destruct (G 0 P)]. destruct G as [_ G]. specialize (G 0 P). f_equal. lia.
Qed.
Lemma state_info_ok s : s < n -> state_info T dg s = Ok (goalb s, nth s dg None).
Proof.
  intros H. unfold state_info. rewrite (proj2 (vget_ok _ _ _) (dg_nth s H)). cbn [bind]. rewrite (proj2 (vget_ok _ _ _) (goal_nth s H)). cbn [bind].
  destruct (goalb s) eqn:E; [|reflexivity]. rewrite (goal_zero s H E). reflexivity.
Qed.
Lemma hgof_inj s t : hgof s = hgof t -> s < n -> t < n -> goalb s = goalb t /\ nth s dg None = nth t dg None.
Proof.
  unfold hgof, h_and_goal. intros E Hs Ht. destruct (goalb s) eqn:Es, (goalb t) eqn:Et; try (destruct (nth s dg None); discriminate); try (destruct (nth t dg None); discriminate).
  - split; auto. now rewrite !goal_zero.
  - split; auto. destruct (nth s dg None), (nth t dg None); cbn [option_map] in E; inv E; auto.
Qed.

(** ** Successors *)
Definition kept (i : info) (s t : nat) : Prop :=
  greedy = true -> exists a b c, nth s dg None = Some a /\ nth t dg None = Some b /\ i_cost i = Some c /\ b + c = a.
Definition SUCC (s2g : list nat) (s : nat) (x : trans) : Prop :=
  exists i t, nth_error (active_infos T) (fst x) = Some i /\ In (s, t) (i_trans i) /\ kept i s t /\ nth_error s2g t = Some (snd x).

Lemma active_infos_In i : In i (active_infos T) -> is_active i = true /\ exists k, nth_error (ts_infos T) k = Some i.
Proof. unfold active_infos. rewrite filter_In. intros [H1 H2]. split; auto. now apply In_nth_error. Qed.
Lemma info_trans i s t : In i (active_infos T) -> In (s, t) (i_trans i) -> s < n /\ t < n.
Proof. intros H Ht. apply active_infos_In in H as (_ & k & Hk). exact (g_trans _ _ _ _ (w_g _ _ _ W) k i s t Hk Ht). Qed.
Lemma info_cost i : In i (active_infos T) -> exists l c, In l (i_labels i) /\ active L l c /\ i_cost i = Some c.
Proof.
  intros H. apply active_infos_In in H as (Ha & k & Hk). pose proof (g_cost _ _ _ _ (w_g _ _ _ W) k i Hk Ha) as G. destruct (i_cost i) as [c|]; cbn [cost_ok] in G.
  - destruct G as [(l & G1 & G2) _]. eauto.
  - apply Proof_MAS1.active_In in Ha as (l & Hl). rewrite G in Hl. destruct Hl.
Qed.
Lemma info_step i l s t : In i (active_infos T) -> In l (i_labels i) -> (gstep (ts_l2l T) (ts_infos T) l s t <-> In (s, t) (i_trans i)).
Proof. intros H Hl. apply active_infos_In in H as (_ & k & Hk). exact (gstep_info _ _ _ _ k i l s t (w_g _ _ _ W) Hk Hl). Qed.
Lemma dg_step a c s t b : active L a c -> gstep (ts_l2l T) (ts_infos T) a s t -> s < n -> t < n -> nth t dg None = Some b -> exists a', nth s dg None = Some a' /\ a' <= c + b.
Proof.
  intros Ha Hs Ls Lt E. pose proof (proj2 HD t Lt) as G. rewrite E in G. destruct G as [(g & G1 & G2) _]. pose proof (proj2 HD s Ls) as H.
  assert (P : exists g, l_goal (the_lts T) g /\ lpath (active L) (l_step (the_lts T)) s (c + b) g) by (exists g; split; auto; econstructor; eauto).
  destruct (nth s dg None) as [a'|]; [|destruct (H _ P)]. destruct H as [_ H]. eauto.
Qed.
Lemma keep_ok i s t : In i (active_infos T) -> In (s, t) (i_trans i) -> exists b, keep_transition greedy dg (i_cost i) (s, t) = Ok b /\ (b = true <-> kept i s t).
Proof.
  intros Hi Ht. destruct (info_trans i s t Hi Ht) as [Ls Lt]. unfold keep_transition, kept. destruct greedy; [|exists true; split; auto; split; auto; discriminate].
  cbn [fst snd]. rewrite (proj2 (vget_ok _ _ _) (dg_nth s Ls)). cbn [bind]. rewrite (proj2 (vget_ok _ _ _) (dg_nth t Lt)). cbn [bind].
  destruct (info_cost i Hi) as (l & c & Hl & Hc & Ec). rewrite Ec. destruct (nth s dg None) as [a|] eqn:Ea; [|exists false; split; auto; split; [discriminate|intros H; destruct (H eq_refl) as (? & ? & ? & ? & _); discriminate]].
  destruct (nth t dg None) as [b|] eqn:Eb; [|exists false; split; auto; split; [discriminate|intros H; destruct (H eq_refl) as (? & ? & ? & _ & ? & _); discriminate]].
  destruct (dg_step l c s t b Hc (proj2 (info_step i l s t Hi Hl) Ht) Ls Lt Eb) as (a' & Ea' & Hle). rewrite Ea in Ea'. inv Ea'.
  destruct (Nat.ltb_spec (b + c) a'); [lia|]. exists (b + c =? a'). split; auto. rewrite Nat.eqb_eq. split; [intros E _; exists a', b, c; auto|].
  intros H'. destruct (H' eq_refl) as (x & y & z & E1 & E2 & E3 & E4). inv E1. inv E2. inv E3. reflexivity.
Qed.

Definition succ_in (s2g : list nat) (is : list info) (s : nat) (x : trans) : Prop :=
  exists i t, nth_error is (fst x) = Some i /\ In (s, t) (i_trans i) /\ kept i s t /\ nth_error s2g t = Some (snd x).
Lemma add_successors_ok s2g k i succs : length s2g = n -> In i (active_infos T) -> length succs = n ->
  exists succs', fold_outcome (add_successor greedy dg s2g k i) (i_trans i) succs = Ok succs' /\ length succs' = n /\
    forall s l, nth_error succs s = Some l -> exists l', nth_error succs' s = Some l' /\
      forall x, In x l' <-> In x l \/ (fst x = k /\ exists t, In (s, t) (i_trans i) /\ kept i s t /\ nth_error s2g t = Some (snd x)).
Proof.
  intros Hg Hi Hlen. destruct (fold_inv (add_successor greedy dg s2g k i) (fun pre succs' => length succs' = n /\
    forall s l, nth_error succs s = Some l -> exists l', nth_error succs' s = Some l' /\
      forall x, In x l' <-> In x l \/ (fst x = k /\ exists t, In (s, t) pre /\ kept i s t /\ nth_error s2g t = Some (snd x))) (i_trans i) succs) as (succs' & E & I1 & I2).
  - split; auto. intros s l Hs. exists l. split; auto. intros x. split; auto. intros [?|(_ & t & [] & _)]; auto.
  - intros pre [u v] post cur Hsp [I1 I2]. assert (Hin : In (u, v) (i_trans i)) by (rewrite Hsp; apply in_app_iff; right; now left). destruct (info_trans i u v Hi Hin) as [Lu Lv].
    unfold add_successor. destruct (keep_ok i u v Hi Hin) as (b & -> & Hb). cbn [bind fst snd]. destruct b.
    + destruct (nth_error s2g v) as [g|] eqn:Eg; [|apply nth_error_None in Eg; lia]. rewrite (proj2 (vget_ok _ _ _) Eg). cbn [bind].
      destruct (nth_error cur u) as [lu|] eqn:Eu; [|apply nth_error_None in Eu; lia]. rewrite (proj2 (vget_ok _ _ _) Eu). cbn [bind]. unfold vset. rewrite (proj2 (Nat.ltb_lt u (length cur))) by lia. eexists. split; [reflexivity|]. split; [now rewrite upd_length|].
      intros s l Hs. destruct (I2 s l Hs) as (l' & Hl' & HI). destruct (Nat.eq_dec s u) as [->|Ns].
      * rewrite upd_nth_eq by lia. rewrite Eu in Hl'. inv Hl'. eexists. split; [reflexivity|]. intros x. rewrite in_app_iff, HI. split.
        -- intros [[H|(H1 & t & H2 & H3)]|[<-|[]]]; auto; right; cbn [fst snd]; split; auto; [exists t; split; auto; apply in_app_iff; auto|]. exists v. splits; auto; [apply in_app_iff; right; now left|now apply Hb].
        -- intros [H|(H1 & t & H2 & H3 & H4)]; auto. apply in_app_iff in H2 as [H2|[H2|[]]]; [left; right; eauto|]. inv H2. right. left. rewrite Eg in H4. inv H4. now destruct x.
      * rewrite upd_nth_neq by auto. exists l'. split; auto. intros x. rewrite HI. split; (intros [H|(H1 & t & H2 & H3)]; [auto|right; split; auto; exists t; split; auto]); [apply in_app_iff; auto|]. apply in_app_iff in H2 as [H2|[H2|[]]]; auto. inv H2. congruence.
    + eexists. split; [reflexivity|]. split; auto. intros s l Hs. destruct (I2 s l Hs) as (l' & Hl' & HI). exists l'. split; auto. intros x. rewrite HI. split; (intros [H|(H1 & t & H2 & H3)]; [auto|right; split; auto; exists t; split; auto]); [apply in_app_iff; auto|].
      apply in_app_iff in H2 as [H2|[H2|[]]]; auto. inv H2. destruct H3 as [H3 _]. apply Hb in H3. discriminate.
  - cbn [app] in E. exists succs'. auto.
Qed.
Lemma successors_ok s2g : length s2g = n -> exists succs, successor_signatures greedy T dg s2g = Ok succs /\ length succs = n /\
  forall s l, nth_error succs s = Some l -> forall x, In x l <-> SUCC s2g s x.
Proof.
  intros Hg. unfold successor_signatures. set (step := fun (st : list (list trans) * nat) i => let '(succs, k) := st in let* succs := fold_outcome (add_successor greedy dg s2g k i) (i_trans i) succs in Ok (succs, S k)).
  destruct (fold_inv step (fun pre st => snd st = length pre /\ length (fst st) = n /\ forall s l, nth_error (fst st) s = Some l -> forall x, In x l <-> succ_in s2g pre s x) (active_infos T) (repeat [] n, 0)) as ([succs k] & E & _ & I1 & I2).
  - cbn [fst snd]. splits; auto; [apply repeat_length|]. intros s l Hs x. apply nth_error_In in Hs. apply repeat_spec in Hs. subst l. split; [intros []|]. intros (i & t & Hi & _). destruct (fst x); discriminate.
  - intros pre i post [succs k] Hsp (K1 & K2 & K3). cbn [fst snd] in K1, K2, K3. subst k. unfold step.
    destruct (add_successors_ok s2g (length pre) i succs Hg) as (succs' & -> & J1 & J2); auto; [rewrite Hsp; apply in_app_iff; right; now left|]. cbn [bind]. eexists. split; [reflexivity|]. cbn [fst snd]. splits; auto; [rewrite app_length; cbn [length]; lia|].
    intros s l' Hs x. destruct (nth_error succs s) as [l|] eqn:El; [|apply nth_error_None in El; apply nth_error_Some_lt in Hs; lia]. destruct (J2 s l El) as (l2 & Hl2 & HI). rewrite Hs in Hl2. inv Hl2. rewrite HI, (K3 s l El x). unfold succ_in. split.
    + intros [(i' & t & A & B)|(A & t & B)]; [exists i', t; split; auto; rewrite nth_error_app1; auto; eapply nth_error_Some_lt; eauto|]. exists i, t. split; auto. rewrite A, nth_error_app2, Nat.sub_diag by lia. reflexivity.
    + intros (i' & t & A & B). destruct (Nat.lt_ge_cases (fst x) (length pre)) as [Lx|Lx].
      * rewrite nth_error_app1 in A by auto. left. eauto.
      * assert (fst x = length pre). { apply nth_error_Some_lt in A. rewrite app_length in A. cbn [length] in A. lia. } rewrite nth_error_app2 in A by auto. rewrite H, Nat.sub_diag in A. cbn [nth_error] in A. inv A. right. split; auto. exists t. exact B.
  - cbn [app] in E. rewrite E. cbn [bind]. exists succs. splits; auto.
Qed.

(** ** Signatures *)
Definition sig_ok (s2g : list nat) (e : signature) : Prop :=
  sg_state e < n /\ sg_hg e = hgof (sg_state e) /\ nth_error s2g (sg_state e) = Some (sg_group e) /\ strictly (sg_succ e) /\ forall x, In x (sg_succ e) <-> SUCC s2g (sg_state e) x.
Lemma signatures_ok s2g : length s2g = n -> exists sigs, compute_signatures greedy T dg s2g = Ok sigs /\ sorted_by sig_le sigs /\ Permutation (map sg_state sigs) (seq 0 n) /\ forall e, In e sigs -> sig_ok s2g e.
Proof.
  intros Hg. unfold compute_signatures. destruct (successors_ok s2g Hg) as (succs & -> & S1 & S2). cbn [bind].
  set (mk := fun s => {| sg_hg := hgof s; sg_group := nth s s2g 0; sg_succ := sort_unique (nth s succs []); sg_state := s |}).
  rewrite (omap_ok _ mk). 2:{ intros s Hs. apply in_seq in Hs. rewrite state_info_ok by lia. cbn [bind]. rewrite (proj2 (vget_ok s2g s (nth s s2g 0))) by (apply nth_error_nth'; lia). cbn [bind]. rewrite (proj2 (vget_ok succs s (nth s succs []))) by (apply nth_error_nth'; lia). reflexivity. }
  cbn [bind]. eexists. split; [reflexivity|]. splits.
  - apply sort_sorted; [apply sig_le_total|apply sig_le_trans].
  - rewrite sort_perm. rewrite map_map. unfold mk. cbn [sg_state]. now rewrite map_id.
  - intros e He. apply sort_In in He. apply in_map_iff in He as (s & <- & Hs). apply in_seq in Hs. unfold sig_ok, mk. cbn [sg_state sg_hg sg_group sg_succ]. splits; auto; [lia|apply nth_error_nth'; lia|apply sort_unique_strict|].
    intros x. rewrite sort_unique_In. apply S2. apply nth_error_nth'. lia.
Qed.
Lemma sig_same s2g e e' : sig_ok s2g e -> sig_ok s2g e' -> sg_state e = sg_state e' -> e = e'.
Proof.
  destruct e as [a b c d], e' as [a' b' c' d']. unfold sig_ok. cbn. intros (_ & -> & E1 & S1 & I1) (_ & -> & E2 & S2 & I2) ->. rewrite E1 in E2. inv E2. f_equal. apply strict_ext; auto. intros x. rewrite I1, I2. tauto.
Qed.

(** ** Groups *)
Record GI (s2g : list nat) (num : nat) : Prop := {
  gi_len : length s2g = n;
  gi_lt : forall s g, nth_error s2g s = Some g -> g < num;
  gi_ne : forall g, g < num -> exists s, nth_error s2g s = Some g;
  gi_hg : forall s t g, nth_error s2g s = Some g -> nth_error s2g t = Some g -> hgof s = hgof t
}.
Lemma GI_le s2g num : GI s2g num -> num <= n.
Proof.
  intros G. rewrite <- (gi_len _ _ G), <- (seq_length num 0). apply NoDup_incl_length; [apply seq_NoDup|]. intros g Hg. apply in_seq in Hg. destruct (gi_ne _ _ G g) as [s Hs]; [lia|]. eapply nth_error_In; eauto.
Qed.
Lemma GI_move s2g num s old new b num' : GI s2g num -> nth_error s2g s = Some old -> nth_error s2g b = Some old -> b <> s -> new < num' -> num <= num' ->
  (forall t, nth_error s2g t = Some new -> hgof t = hgof s) -> (forall g, g < num' -> g < num \/ g = new) -> GI (upd s2g s new) num'.
Proof.
  intros G Hs Hb Nb Hn Hnn Hh Hc. pose proof (nth_error_Some_lt _ _ _ Hs) as Ls. constructor.
  - rewrite upd_length. apply G.
  - intros t g Ht. destruct (Nat.eq_dec t s) as [->|Nt]; [rewrite upd_nth_eq in Ht by auto; inv Ht; auto|rewrite upd_nth_neq in Ht by auto; apply (gi_lt _ _ G) in Ht; lia].
  - intros g Hg. destruct (Nat.eq_dec g new) as [->|Nn]; [exists s; now rewrite upd_nth_eq|]. destruct (Hc g Hg) as [Hg'|]; [|congruence]. destruct (gi_ne _ _ G g Hg') as [t Ht]. destruct (Nat.eq_dec t s) as [->|Nt].
    + exists b. rewrite upd_nth_neq by auto. congruence.
    + exists t. rewrite upd_nth_neq by auto. auto.
  - intros t u g Ht Hu. destruct (Nat.eq_dec t s) as [->|Nt], (Nat.eq_dec u s) as [->|Nu]; auto.
    + rewrite upd_nth_eq in Ht by auto. rewrite upd_nth_neq in Hu by auto. inv Ht. symmetry. auto.
    + rewrite upd_nth_eq in Hu by auto. rewrite upd_nth_neq in Ht by auto. inv Hu. auto.
    + rewrite upd_nth_neq in Ht, Hu by auto. eapply gi_hg; eauto.
Qed.

Section ROUND.
Variable s2g0 : list nat.
Variable num0 : nat.
Hypothesis G0 : GI s2g0 num0.
Variable sigs : list signature.
Hypothesis Hsort : sorted_by sig_le sigs.
Hypothesis Hperm : Permutation (map sg_state sigs) (seq 0 n).
Hypothesis Hsig : forall e, In e sigs -> sig_ok s2g0 e.

Lemma sigs_nodup : NoDup (map sg_state sigs).
Proof. eapply Permutation_NoDup; [symmetry; exact Hperm|apply seq_NoDup]. Qed.
Lemma group_hg a b : In a sigs -> In b sigs -> sg_group a = sg_group b -> sg_hg a = sg_hg b.
Proof.
  intros Ha Hb E. destruct (Hsig a Ha) as (_ & A1 & A2 & _). destruct (Hsig b Hb) as (_ & B1 & B2 & _). rewrite A1, B1. rewrite <- E in B2. eapply gi_hg; eauto.
Qed.
Lemma sorted_split l1 l2 a b : sigs = l1 ++ l2 -> In a l1 -> In b l2 -> sig_le a b = true.
Proof.
  intros E Ha Hb. unfold sorted_by in Hsort. rewrite E in Hsort. clear - Hsort Ha Hb. induction l1 as [|x l IH]; [destruct Ha|]. cbn [app] in Hsort. inversion Hsort; subst. destruct Ha as [<-|Ha]; auto. rewrite Forall_forall in H2. apply H2, in_app_iff. auto.
Qed.
Definition key_eq (a b : signature) : Prop := sg_group a = sg_group b /\ sg_succ a = sg_succ b.
(** an earlier signature with the key of a later one has the key of those in between *)
Lemma key_between l1 p s l2 a : sigs = (l1 ++ [p]) ++ s :: l2 -> In a (l1 ++ [p]) -> sg_group a = sg_group s -> sg_group p = sg_group s /\ (sg_succ a = sg_succ s -> sg_succ p = sg_succ s).
Proof.
  intros E Ha Eg. assert (Hs : sig_le p s = true) by (apply (sorted_split (l1 ++ [p]) (s :: l2)); auto; [apply in_app_iff; right|]; now left).
  assert (Hin : forall x, In x ((l1 ++ [p]) ++ s :: l2) -> In x sigs) by (intros x; now rewrite E).
  assert (Ia : In a sigs) by (apply Hin, in_app_iff; auto). assert (Is : In s sigs) by (apply Hin, in_app_iff; right; now left).
  apply in_app_iff in Ha as [Ha|[<-|[]]]; [|split; auto].
  assert (Hap : sig_le a p = true) by (rewrite <- app_assoc in E; apply (sorted_split l1 ([p] ++ s :: l2)); auto; now left).
  pose proof (group_hg a s Ia Is Eg) as Eh. split; [rewrite <- Eg; eapply between_group; eauto|]. intros Es. rewrite <- Es. eapply between_succ; eauto.
Qed.

Fixpoint newgroups (prev : option signature) (l : list signature) : nat :=
  match l with [] => 0 | s :: r => (match compare_prev prev s with NewGroup => 1 | _ => 0 end) + newgroups (Some s) r end.
Lemma count_ok : forall l prev, exists cb, forall o w, count_groups prev l o w = (o + cb, w + cb + newgroups prev l).
Proof.
  induction l as [|s r IH]; intros prev; cbn [count_groups newgroups].
  - exists 0. intros o w. f_equal; lia.
  - destruct (IH (Some s)) as [cb H]. destruct (compare_prev prev s).
    + exists (S cb). intros o w. rewrite H. f_equal; lia.
    + exists cb. intros o w. rewrite H. f_equal; lia.
    + exists cb. intros o w. rewrite H. f_equal; lia.
Qed.
Lemma newgroups_le l : forall prev, newgroups prev l <= length l.
Proof. induction l as [|s r IH]; intros prev; cbn [newgroups length]; [lia|]. specialize (IH (Some s)). destruct (compare_prev prev s); lia. Qed.
Lemma newgroups_app l1 : forall prev l2, newgroups prev (l1 ++ l2) = newgroups prev l1 + newgroups (last_of prev l1) l2.
Proof. induction l1 as [|s r IH]; intros prev l2; cbn [newgroups app]; [reflexivity|]. rewrite IH. unfold last_of. cbn [fold_left]. lia. Qed.
Lemma last_of_snoc prev l x : last_of prev (l ++ [x]) = Some x.
Proof. unfold last_of. now rewrite fold_left_app. Qed.
Lemma last_of_app prev l1 l2 : last_of prev (l1 ++ l2) = last_of (last_of prev l1) l2.
Proof. unfold last_of. now rewrite fold_left_app. Qed.

(** no group has to be split: states of one group have the same successors *)
Lemma no_new_same : newgroups None sigs = 0 -> forall a b, In a sigs -> In b sigs -> sg_group a = sg_group b -> sg_succ a = sg_succ b.
Proof.
  intros H0. assert (Fwd : forall l1 a l2, sigs = l1 ++ a :: l2 -> forall b, In b l2 -> sg_group a = sg_group b -> sg_succ a = sg_succ b).
  { intros l1 a l2 E. assert (N : newgroups (Some a) l2 = 0). { rewrite E, newgroups_app in H0. cbn [newgroups] in H0. lia. } revert l1 a E N. induction l2 as [|y l2 IH]; intros l1 a E N b Hb Eg; [destruct Hb|].
    cbn [newgroups] in N. assert (Ny : sg_group a = sg_group y -> sg_succ a = sg_succ y).
    { intros Ey. unfold compare_prev in N. rewrite Ey, Nat.eqb_refl in N. cbn [negb] in N. destruct (trans_list_eqb (sg_succ a) (sg_succ y)) eqn:El; [now apply trans_list_eqb_iff|]. cbn [negb] in N. lia. }
    destruct Hb as [<-|Hb]; auto. assert (Ey : sg_group a = sg_group y).
    { assert (E' : sigs = ((l1 ++ [a]) ++ [y]) ++ l2) by (rewrite E, <- !app_assoc; reflexivity). apply in_split in Hb as (m1 & m2 & ->). symmetry. eapply (between_group a y b).
      - apply (sorted_split (l1 ++ [a]) (y :: m1 ++ b :: m2)); [now rewrite E, <- app_assoc|apply in_app_iff; right; now left|now left].
      - apply (sorted_split (l1 ++ [a] ++ [y]) (m1 ++ b :: m2)); [now rewrite E, <- !app_assoc|rewrite !in_app_iff; right; right; now left|apply in_app_iff; right; now left].
      - apply group_hg; auto; rewrite E; apply in_app_iff; right; [now left|right; right; apply in_app_iff; right; now left].
      - auto. }
    rewrite (Ny Ey). apply (IH (l1 ++ [a]) y); auto; [now rewrite E, <- app_assoc|lia|congruence]. }
  intros a b Ha Hb Eg. apply in_split in Ha as (l1 & l2 & E). assert (Hb' : In b (l1 ++ a :: l2)) by (now rewrite <- E). apply in_app_iff in Hb' as [Hb'|[<-|Hb']]; auto.
  - apply in_split in Hb' as (m1 & m2 & ->). symmetry. apply (Fwd m1 b (m2 ++ a :: l2)); auto; [now rewrite E, <- app_assoc|apply in_app_iff; right; now left].
  - eapply Fwd; eauto.
Qed.

(** ** One level *)
Definition same_keys (l : list signature) (s2g : list nat) : Prop :=
  forall a b, In a l -> In b l -> key_eq a b -> nth_error s2g (sg_state a) = nth_error s2g (sg_state b).
Definition untouched (l : list signature) (s2g : list nat) : Prop := forall e, In e l -> nth_error s2g (sg_state e) = Some (sg_group e).
(* within a level: pl has been processed, the last one is p *)
Definition LI (done pl todo : list signature) (p : signature) (cur : nat) (s2g : list nat) (num : nat) : Prop :=
  GI s2g num /\ untouched todo s2g /\ same_keys (done ++ pl) s2g /\ nth_error s2g (sg_state p) = Some cur /\
  exists b, In b (done ++ pl) /\ nth_error s2g (sg_state b) = Some (sg_group p).

Lemma state_neq l1 s l2 b : sigs = l1 ++ s :: l2 -> In b l1 \/ In b l2 -> sg_state b <> sg_state s.
Proof.
  intros E Hb Es. pose proof sigs_nodup as Hd. rewrite E, map_app in Hd. cbn [map] in Hd. apply NoDup_remove_2 in Hd. apply Hd. rewrite <- Es, in_app_iff, !in_map_iff. destruct Hb; eauto.
Qed.

Lemma split_go target : forall level done pl rest p cur s2g num, sigs = (done ++ pl ++ [p]) ++ level ++ rest ->
  LI done (pl ++ [p]) (level ++ rest) p cur s2g num -> num < target -> num0 <= num ->
  exists s2g' num' full, split_level target (Some p) (Some cur) level s2g num = Ok (s2g', num', full) /\ GI s2g' num' /\ num' <= target /\ num <= num' /\
    (full = true -> num' = target /\ num < num') /\ (full = false -> num' = num + newgroups (Some p) level /\ num' < target /\ untouched rest s2g' /\ same_keys (done ++ pl ++ [p] ++ level) s2g').
Proof.
  induction level as [|s level IH]; intros done pl rest p cur s2g num E (G & U & K & Ep & b & Hb & Eb) Hlt Hn0; cbn [split_level newgroups].
  - exists s2g, num, false. split; [reflexivity|]. split; [exact G|]. split; [lia|]. split; [lia|]. split; [discriminate|]. intros _. rewrite Nat.add_0_r. splits; auto.
  - assert (E' : sigs = (done ++ (pl ++ [p]) ++ [s]) ++ level ++ rest) by (rewrite E, <- !app_assoc; reflexivity).
    assert (Es : sigs = (done ++ pl ++ [p]) ++ s :: level ++ rest) by (rewrite E; reflexivity).
    assert (Is : In s sigs) by (rewrite Es; apply in_app_iff; right; now left). destruct (Hsig s Is) as (Ls & Hs1 & Hs2 & _).
    assert (Us : nth_error s2g (sg_state s) = Some (sg_group s)) by (apply U; now left).
    assert (Ip : In p sigs) by (rewrite Es, !in_app_iff; left; right; right; now left).
    assert (Hg0 : sg_group s < num0) by (eapply gi_lt; eauto).
    assert (Ul : length s2g = n) by apply G.
    assert (Nst : forall x, In x (done ++ pl ++ [p]) \/ In x (level ++ rest) -> sg_state x <> sg_state s) by (intros x Hx; eapply state_neq; eauto).
    assert (Keep : forall g, untouched (level ++ rest) (upd s2g (sg_state s) g)) by (intros g e He; rewrite upd_nth_neq by (apply not_eq_sym, Nst; auto); apply U; now right).
    assert (Kold : forall g a c, In a (done ++ pl ++ [p]) -> In c (done ++ pl ++ [p]) -> key_eq a c -> nth_error (upd s2g (sg_state s) g) (sg_state a) = nth_error (upd s2g (sg_state s) g) (sg_state c)) by (intros g a c Ha Hc Hk; rewrite !upd_nth_neq by (apply not_eq_sym, Nst; auto); auto).
    assert (Kbt : forall a, In a (done ++ pl ++ [p]) -> sg_group a = sg_group s -> sg_group p = sg_group s /\ (sg_succ a = sg_succ s -> sg_succ p = sg_succ s)).
    { intros a Ha. apply (key_between (done ++ pl) p s (level ++ rest)); [rewrite Es, <- !app_assoc; reflexivity|rewrite <- app_assoc; auto]. }
    (* a signature with a new key *)
    assert (Knew : forall g, (~ exists a, In a (done ++ pl ++ [p]) /\ key_eq a s) -> same_keys (done ++ (pl ++ [p]) ++ [s]) (upd s2g (sg_state s) g)).
    { intros g Hno a c Ha Hc Hk. rewrite app_assoc, in_app_iff in Ha, Hc. destruct Ha as [Ha|[<-|[]]], Hc as [Hc|[<-|[]]]; auto; exfalso; apply Hno; [exists a; auto|exists c; split; auto]. destruct Hk; split; auto. }
    unfold compare_prev. destruct (Nat.eqb_spec (sg_group p) (sg_group s)) as [Eg|Ng]; cbn [negb].
    + destruct (trans_list_eqb (sg_succ p) (sg_succ s)) eqn:Et; cbn [negb].
      * (* same group *)
        apply trans_list_eqb_iff in Et. unfold vset. rewrite (proj2 (Nat.ltb_lt (sg_state s) (length s2g))) by lia. cbn [bind]. destruct (Nat.eqb_spec num target) as [|Nt]; [lia|].
        assert (G' : GI (upd s2g (sg_state s) cur) num).
        { apply (GI_move s2g num (sg_state s) (sg_group s) cur (sg_state b) num G Us); [congruence|apply Nst; auto|exact (gi_lt _ _ G _ _ Ep)|lia| |auto]. intros t Ht. rewrite (gi_hg _ _ G t (sg_state p) cur Ht Ep). pose proof (group_hg p s Ip Is Eg) as Eh. destruct (Hsig p Ip) as (_ & Hp1 & _). congruence. }
        destruct (IH done (pl ++ [p]) rest s cur (upd s2g (sg_state s) cur) num) as (s2g' & num' & full & R1 & R2 & R3 & R4 & R5 & R6); auto.
        -- unfold LI. splits; auto.
           ++ intros a c Ha Hc Hk. rewrite app_assoc, in_app_iff in Ha, Hc.
              assert (One : forall a, In a (done ++ pl ++ [p]) -> key_eq a s -> nth_error (upd s2g (sg_state s) cur) (sg_state a) = nth_error (upd s2g (sg_state s) cur) (sg_state s)).
              { intros x Hx [Hk1 Hk2]. rewrite upd_nth_eq by lia. rewrite upd_nth_neq by (apply not_eq_sym, Nst; auto). rewrite <- Ep. apply K; auto; [apply in_app_iff; right; apply in_app_iff; right; now left|]. split; congruence. }
              destruct Ha as [Ha|[<-|[]]], Hc as [Hc|[<-|[]]]; auto. symmetry. apply One; auto. destruct Hk; split; auto.
           ++ now rewrite upd_nth_eq by lia.
           ++ exists b. split; [rewrite app_assoc, in_app_iff; auto|]. rewrite upd_nth_neq by (apply not_eq_sym, Nst; auto). congruence.
        -- exists s2g', num', full. splits; auto. intros Hf. destruct (R6 Hf) as (Q1 & Q2 & Q3 & Q4). splits; auto. rewrite <- app_assoc in Q4. exact Q4.
      * (* new group *)
        assert (Hno : ~ exists a, In a (done ++ pl ++ [p]) /\ key_eq a s).
        { intros (a & Ha & Hk1 & Hk2). destruct (Kbt a Ha Hk1) as [_ Q]. rewrite (Q Hk2) in Et. rewrite (proj2 (trans_list_eqb_iff _ _) eq_refl) in Et. discriminate. }
        unfold vset. rewrite (proj2 (Nat.ltb_lt (sg_state s) (length s2g))) by lia. cbn [bind].
        assert (G' : GI (upd s2g (sg_state s) num) (S num)).
        { apply (GI_move s2g num (sg_state s) (sg_group s) num (sg_state b) (S num) G Us); [congruence|apply Nst; auto|lia|lia|intros t Ht; apply (gi_lt _ _ G) in Ht; lia|intros g Hg; lia]. }
        destruct (Nat.eqb_spec (S num) target) as [Et'|Nt].
        -- exists (upd s2g (sg_state s) num), (S num), true. splits; auto; try lia; discriminate.
        -- destruct (IH done (pl ++ [p]) rest s num (upd s2g (sg_state s) num) (S num)) as (s2g' & num' & full & R1 & R2 & R3 & R4 & R5 & R6); auto; try lia.
           ++ unfold LI. splits; auto; [now rewrite upd_nth_eq by lia|]. exists b. split; [rewrite app_assoc, in_app_iff; auto|]. rewrite upd_nth_neq by (apply not_eq_sym, Nst; auto). congruence.
           ++ exists s2g', num', full. split; [exact R1|]. split; [exact R2|]. split; [lia|]. split; [lia|]. split; [intros Hf; destruct (R5 Hf); lia|]. intros Hf. destruct (R6 Hf) as (Q1 & Q2 & Q3 & Q4). splits; auto; [lia|]. rewrite <- app_assoc in Q4. exact Q4.
    + (* new block *)
      unfold vset. rewrite (proj2 (Nat.ltb_lt (sg_state s) (length s2g))) by lia. cbn [bind]. destruct (Nat.eqb_spec num target) as [|Nt]; [lia|].
      assert (Hno : ~ exists a, In a (done ++ pl ++ [p]) /\ key_eq a s) by (intros (a & Ha & Hk1 & _); destruct (Kbt a Ha Hk1); congruence).
      assert (Esame : upd s2g (sg_state s) (sg_group s) = s2g) by (now apply upd_same).
      destruct (IH done (pl ++ [p]) rest s (sg_group s) (upd s2g (sg_state s) (sg_group s)) num) as (s2g' & num' & full & R1 & R2 & R3 & R4 & R5 & R6); auto.
      * unfold LI. splits; auto; [now rewrite Esame|now rewrite upd_nth_eq by lia|]. exists s. split; [rewrite !in_app_iff; right; right; now left|]. now rewrite upd_nth_eq by lia.
      * exists s2g', num', full. splits; auto. intros Hf. destruct (R6 Hf) as (Q1 & Q2 & Q3 & Q4). splits; auto. rewrite <- app_assoc in Q4. exact Q4.
Qed.

Definition apart (l1 l2 : list signature) : Prop := forall a b, In a l1 -> In b l2 -> sg_hg a <> sg_hg b.
Lemma apart_group l1 l2 a b : sigs = l1 ++ l2 -> apart l1 l2 -> In a l1 -> In b l2 -> sg_group a <> sg_group b.
Proof. intros E H Ha Hb Eg. apply (H a b Ha Hb). apply group_hg; auto; rewrite E; apply in_app_iff; auto. Qed.

Lemma split_start target level done rest s2g num : level <> [] -> sigs = done ++ level ++ rest -> apart done (level ++ rest) ->
  GI s2g num -> untouched (level ++ rest) s2g -> same_keys done s2g -> num < target -> num0 <= num ->
  exists s2g' num' full, split_level target (last_of None done) None level s2g num = Ok (s2g', num', full) /\ GI s2g' num' /\ num' <= target /\ num <= num' /\
    (full = true -> num' = target /\ num < num') /\ (full = false -> num' = num + newgroups (last_of None done) level /\ num' < target /\ untouched rest s2g' /\ same_keys (done ++ level) s2g').
Proof.
  intros Hne E Ap G U K Hlt Hn0. destruct level as [|s level]; [congruence|]. clear Hne. cbn [split_level newgroups].
  assert (Is : In s sigs) by (rewrite E; apply in_app_iff; right; now left). destruct (Hsig s Is) as (Ls & Hs1 & Hs2 & _).
  assert (C : compare_prev (last_of None done) s = NewBlock).
  { destruct done as [|d0 d1] using rev_ind; [reflexivity|]. rewrite last_of_snoc. unfold compare_prev. destruct (Nat.eqb_spec (sg_group d0) (sg_group s)) as [Eg|]; [|reflexivity]. exfalso. eapply (apart_group (d1 ++ [d0]) ((s :: level) ++ rest) d0 s); eauto; [apply in_app_iff; right; now left|now left]. }
  rewrite C. assert (Us : nth_error s2g (sg_state s) = Some (sg_group s)) by (apply U; now left).
  unfold vset. rewrite (proj2 (Nat.ltb_lt (sg_state s) (length s2g))) by (rewrite (gi_len _ _ G); auto). cbn [bind]. destruct (Nat.eqb_spec num target) as [|Nt]; [lia|]. rewrite (upd_same _ _ _ Us).
  destruct (split_go target level done [] rest s (sg_group s) s2g num) as (s2g' & num' & full & R1 & R2 & R3 & R4 & R5 & R6); auto.
  - rewrite E, <- !app_assoc. reflexivity.
  - unfold LI. splits; auto.
    + intros e He. apply U. now right.
    + intros a b Ha Hb Hk. cbn [app] in Ha, Hb. apply in_app_iff in Ha, Hb. destruct Ha as [Ha|[<-|[]]], Hb as [Hb|[<-|[]]]; auto; exfalso; destruct Hk as [Hk _].
      * eapply (apart_group done ((s :: level) ++ rest) a s); eauto. now left.
      * eapply (apart_group done ((s :: level) ++ rest) b s); eauto. now left.
    + exists s. split; auto. apply in_app_iff. right. now left.
  - exists s2g', num', full. splits; auto.
Qed.

Lemma take_level_ok hg : forall l a b, take_level hg l = (a, b) -> l = a ++ b /\ (forall e, In e a -> sg_hg e = hg) /\ (forall e r, b = e :: r -> sg_hg e <> hg).
Proof.
  induction l as [|x l IH]; intros a b H; cbn [take_level] in H; [inv H; splits; auto; [intros e []|discriminate]|].
  destruct (oeqb (sg_hg x) hg) eqn:E.
  - destruct (take_level hg l) as [a' b'] eqn:El. inv H. destruct (IH a' b eq_refl) as (-> & H1 & H2). splits; auto. intros e [<-|He]; auto. now apply oeqb_spec.
  - inv H. splits; auto; [intros e []|]. intros e r Er. inv Er. intros Eh. apply oeqb_spec in Eh. congruence.
Qed.

Variable target : nat.
Variable use_up : bool.
Definition SI (done rest : list signature) (st : split_result) : Prop :=
  sigs = done ++ rest /\ apart done rest /\ GI (r_s2g st) (r_num st) /\ untouched rest (r_s2g st) /\ same_keys done (r_s2g st) /\ r_num st < target /\ num0 <= r_num st /\ r_stop st = false /\
  (r_stable st = true -> r_s2g st = s2g0 /\ r_num st = num0 /\ newgroups None done = 0) /\ (r_stable st = false -> num0 < r_num st).
Definition RI (st : split_result) : Prop :=
  GI (r_s2g st) (r_num st) /\ r_num st <= target /\ (r_stable st = true -> r_s2g st = s2g0 /\ r_num st = num0) /\ (r_stable st = false -> num0 < r_num st) /\
  (r_stable st = true -> r_stop st = false -> newgroups None sigs = 0) /\ (r_num st < target -> same_keys sigs (r_s2g st)) /\
  (use_up = true \/ n <= target -> r_stop st = false).
Lemma same_keys_untouched done rest rest' s2g : sigs = done ++ rest ++ rest' -> apart done (rest ++ rest') -> untouched rest s2g -> same_keys done s2g -> same_keys (done ++ rest) s2g.
Proof.
  intros E Ap U K a b Ha Hb Hk. apply in_app_iff in Ha, Hb. destruct Ha as [Ha|Ha], Hb as [Hb|Hb]; auto.
  - exfalso. destruct Hk. eapply (apart_group done (rest ++ rest') a b); eauto. apply in_app_iff; auto.
  - exfalso. destruct Hk. eapply (apart_group done (rest ++ rest') b a); eauto. apply in_app_iff; auto.
  - destruct Hk as [Hk _]. rewrite (U a Ha), (U b Hb). now rewrite Hk.
Qed.
Lemma split_levels_ok : forall fuel rest done st, length rest <= fuel -> SI done rest st -> exists st', split_levels fuel use_up target (last_of None done) rest st = Ok st' /\ RI st'.
Proof.
  induction fuel as [|fuel IH]; intros rest done st Hf HS; pose proof HS as (E & Ap & G & U & K & Hlt & Hn0 & Hst & Hstab & Hun).
  - destruct rest; [|cbn [length] in Hf; lia]. cbn [split_levels]. exists st. split; auto. rewrite app_nil_r in E. subst done. unfold RI. split; [auto|]. split; [lia|]. splits; auto; intros Hs; try intros _; destruct (Hstab Hs) as (Q1 & Q2 & Q3); auto.
  - destruct rest as [|s rest0]; cbn [split_levels].
    { exists st. split; auto. rewrite app_nil_r in E. subst done. unfold RI. split; [auto|]. split; [lia|]. splits; auto; intros Hs; try intros _; destruct (Hstab Hs) as (Q1 & Q2 & Q3); auto. }
    destruct (take_level (sg_hg s) (s :: rest0)) as [level rest] eqn:El. pose proof (take_level_ok _ _ _ _ El) as (Esp & Hl1 & Hl2).
    assert (Hne : level <> []). { intros ->. cbn [app] in Esp. apply (Hl2 s rest0); auto. }
    rewrite Esp in E, Ap, U.
    assert (E' : sigs = (done ++ level) ++ rest) by (now rewrite <- app_assoc).
    assert (Ap' : apart (done ++ level) rest).
    { intros a b Ha Hb. apply in_app_iff in Ha as [Ha|Ha]; [apply Ap; auto; apply in_app_iff; auto|]. destruct rest as [|y r]; [destruct Hb|]. intros Eh. apply (Hl2 y r eq_refl). rewrite <- (Hl1 a Ha). eapply (between_hg a y b); auto.
      - apply (sorted_split (done ++ level) (y :: r)); auto; [apply in_app_iff; auto|now left].
      - destruct Hb as [<-|Hb]; [destruct (sig_le_total y y); auto|]. apply (sorted_split ((done ++ level) ++ [y]) r); auto; [rewrite E', <- !app_assoc; reflexivity|apply in_app_iff; right; now left]. }
    assert (Hlr : length rest <= fuel). { assert (length (s :: rest0) = length level + length rest) by (rewrite Esp; apply app_length). destruct level; [congruence|]. cbn [length] in *. lia. }
    destruct (count_ok level (last_of None done)) as [cb Hc]. rewrite Hc. cbn [plus].
    assert (Hghost : r_num st + newgroups (last_of None done) level <= n).
    { destruct (split_start (S (r_num st + length level)) level done rest (r_s2g st) (r_num st)) as (s2g' & num' & full & R1 & R2 & R3 & R4 & R5 & R6); auto; [lia|].
      destruct full; [exfalso|destruct (R6 eq_refl) as (<- & _); now apply GI_le in R2].
      (* the limit is beyond reach *)
      clear - R1. assert (Gh : forall tg level prev cur s2g num s2g' num', num + length level < tg -> split_level tg prev cur level s2g num = Ok (s2g', num', true) -> False).
      { clear. intros tg. induction level as [|x l IH]; intros prev cur s2g num s2g' num' Hlt H; cbn [split_level] in H; [discriminate|]. cbn [length] in Hlt.
        destruct (match compare_prev prev x with NewBlock => (Some (sg_group x), num) | NewGroup => (Some num, S num) | SameGroup => (cur, num) end) as [c m] eqn:Em.
        assert (Hm : m <= S num) by (destruct (compare_prev prev x); inv Em; lia). destruct c as [g|]; [|discriminate]. apply bind_ok in H as (s2 & Hs & H). destruct (Nat.eqb_spec m tg); [lia|]. eapply IH; [|exact H]. lia. }
      eapply Gh; [|exact R1]. lia. }
    destruct (negb use_up && (target + cb <? r_num st + (cb + newgroups (last_of None done) level))) eqn:Ec.
    { eexists. split; [reflexivity|]. apply andb_true_iff in Ec as [Eu Ec]. apply Nat.ltb_lt in Ec. unfold RI. cbn [r_s2g r_num r_stable r_stop]. split; [auto|]. split; [lia|]. splits; auto; try discriminate.
      - intros Hs. destruct (Hstab Hs) as (-> & -> & _). auto.
      - intros _. rewrite E. apply (same_keys_untouched done (level ++ rest) []); auto; rewrite app_nil_r; auto.
      - intros [->|Hn]; [discriminate|]. lia. }
    destruct (Nat.eqb_spec (cb + newgroups (last_of None done) level) cb) as [Eq|Nq]; cbn [negb].
    + rewrite <- last_of_app. apply IH; auto. unfold SI. splits; auto.
      * intros e He. apply U, in_app_iff. auto.
      * apply (same_keys_untouched done level rest); auto. intros e He. apply U, in_app_iff; auto.
      * intros Hs. destruct (Hstab Hs) as (Q1 & Q2 & Q3). splits; auto. rewrite newgroups_app, Q3. lia.
    + destruct (split_start target level done rest (r_s2g st) (r_num st)) as (s2g' & num' & full & R1 & R2 & R3 & R4 & R5 & R6); auto. rewrite R1. cbn [bind]. destruct full.
      * destruct (R5 eq_refl) as [Q1 Q2]. eexists. split; [reflexivity|]. unfold RI. cbn [r_s2g r_num r_stable r_stop]. splits; auto; try discriminate; try lia.
      * destruct (R6 eq_refl) as (Q1 & Q2 & Q3 & Q4). rewrite <- last_of_app. apply IH; auto. unfold SI. cbn [r_s2g r_num r_stable r_stop]. splits; auto; try discriminate; lia.
Qed.
Lemma round_ok : num0 < target -> exists r, split_levels (length sigs) use_up target None sigs {| r_s2g := s2g0; r_num := num0; r_stable := true; r_stop := false |} = Ok r /\ RI r.
Proof.
  intros Hlt. apply (split_levels_ok (length sigs) sigs []); auto. unfold SI. cbn [r_s2g r_num r_stable r_stop app]. splits; auto; try discriminate.
  - intros a b [].
  - intros e He. apply Hsig. auto.
  - intros a b [].
Qed.
End ROUND.
End BISIM.
