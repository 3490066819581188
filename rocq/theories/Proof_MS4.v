(** Strategies that select by scores. *)
From Coq Require Import Permutation.
From Verif Require Import Outcome Spec_Task Spec_Relaxation Spec_Projection Model_PQ Model_Graph Model_MAS Spec_FTS Model_MASRun Model_MASAlgorithm Spec_Shrink Spec_MASAlgorithm Model_MergeStrategy Spec_MergeStrategy.
From Verif Require Import Proof_MAS1 Proof_MAS11 Proof_MAS12 Proof_OC1 Proof_MAA5 Proof_MAA10 Proof_MAA11 Proof_MS1 Proof_MS2 Proof_MS3.

(** ** Members *)
Section MEMBERS.
Variable nv : nat.
Definition earlier (h : list (nat * nat)) : Prop := forall q i j, nth_error h q = Some (i, j) -> i < nv + q /\ j < nv + q.
Lemma member_mono h h' k v : member nv h k v -> member nv (h ++ h') k v.
Proof. induction 1 as [v Hv|q i j v Hq _ IH|q i j v Hq _ IH]; [now apply member_atomic|apply (member_first nv (h ++ h') q i j); [|exact IH]|apply (member_second nv (h ++ h') q i j); [|exact IH]]; (rewrite nth_error_app1; [exact Hq|exact (nth_error_Some_lt _ _ _ Hq)]). Qed.
Lemma member_lt h k v : member nv h k v -> v < nv.
Proof. induction 1; auto. Qed.
Lemma member_old h c k v : earlier h -> member nv (h ++ [c]) k v -> k < nv + length h -> member nv h k v.
Proof.
  intros He. induction 1 as [v Hv|q i j v Hq _ IH|q i j v Hq _ IH]; intros Hk; [now apply member_atomic| |]; rewrite nth_error_app1 in Hq by lia; destruct (He q i j Hq) as [E1 E2].
  - eapply member_first; [exact Hq|]. apply IH. lia.
  - eapply member_second; [exact Hq|]. apply IH. lia.
Qed.
Lemma member_atom h k v : member nv h k v -> k < nv -> v = k.
Proof. destruct 1; intros Hk; auto; lia. Qed.
Lemma member_new h i j v : earlier h -> i < nv + length h -> j < nv + length h -> (member nv (h ++ [(i, j)]) (nv + length h) v <-> member nv h i v \/ member nv h j v).
Proof.
  intros He Hi Hj. split.
  - intros H. remember (nv + length h) as k eqn:Ek. destruct H as [v Hv|q i' j' v Hq H|q i' j' v Hq H]; [lia| |].
    + assert (q = length h) by lia. subst q. rewrite nth_error_app2, Nat.sub_diag in Hq by auto. cbn [nth_error] in Hq. inv Hq. left. eapply member_old; eauto.
    + assert (q = length h) by lia. subst q. rewrite nth_error_app2, Nat.sub_diag in Hq by auto. cbn [nth_error] in Hq. inv Hq. right. eapply member_old; eauto.
  - intros [H|H]; [eapply member_first|eapply member_second]; try (apply member_mono; exact H); rewrite nth_error_app2, Nat.sub_diag by auto; reflexivity.
Qed.
Lemma earlier_app h i j : earlier h -> i < nv + length h -> j < nv + length h -> earlier (h ++ [(i, j)]).
Proof.
  intros He Hi Hj q a b Hq. destruct (Nat.lt_ge_cases q (length h)) as [Hl|Hl]; [rewrite nth_error_app1 in Hq by auto; auto|]. rewrite nth_error_app2 in Hq by auto. destruct (q - length h) as [|z] eqn:E; [|destruct z; discriminate]. cbn [nth_error] in Hq. inv Hq. lia.
Qed.
(** What holds of every run. *)
Definition hist (h : list (nat * nat)) (l : list bool) : Prop :=
  earlier h /\ length l = nv + length h /\ (forall k, act l k <-> left_over nv h k) /\ (forall v, v < nv -> exists k, act l k /\ member nv h k v) /\
  (forall k, act l k -> exists v, member nv h k v) /\ forall k k' v, act l k -> act l k' -> member nv h k v -> member nv h k' v -> k = k'.
Lemma hist_start : hist [] (repeat true nv).
Proof.
  split; [intros [|q] i j H; discriminate|]. split; [rewrite repeat_length; cbn [length]; lia|]. split.
  - intros k. rewrite act_repeat. unfold left_over. cbn [length In]. split; [intros H; split; [lia|tauto]|intros [H _]; lia].
  - split; [|split].
    + intros v Hv. exists v. split; [now apply act_repeat|now apply member_atomic].
    + intros k Hk. apply act_repeat in Hk. exists k. now apply member_atomic.
    + intros k k' v Hk Hk' Hm Hm'. apply act_repeat in Hk, Hk'. apply member_atom in Hm, Hm'; auto. congruence.
Qed.
Lemma hist_next h l i j : hist h l -> act l i -> act l j -> hist (h ++ [(i, j)]) (merged l i j).
Proof.
  intros (H1 & H2 & H3 & H4 & H5 & H6) Hi Hj. assert (Li : i < nv + length h) by (apply H3 in Hi; apply Hi). assert (Lj : j < nv + length h) by (apply H3 in Hj; apply Hj). split; [now apply earlier_app|]. split; [rewrite merged_length, app_length; cbn [length]; lia|]. split.
  - intros k. rewrite act_merged, H3, H2. unfold left_over. rewrite app_length. cbn [length]. split.
    + intros [->|([A B] & N1 & N2)].
      * split; [lia|]. intros a b Hin. apply in_app_iff in Hin as [Hin|[E|[]]]; [|inv E; lia]. apply In_nth_error in Hin as [q Hq]. destruct (H1 q a b Hq). pose proof (nth_error_Some_lt _ _ _ Hq). lia.
      * split; [lia|]. intros a b Hin. apply in_app_iff in Hin as [Hin|[E|[]]]; [now apply B|inv E; auto].
    + intros [A B]. destruct (Nat.eq_dec k (nv + length h)) as [E|N]; [now left|right]. destruct (B i j) as [N1 N2]; [apply in_app_iff; right; now left|]. split; auto. split; [lia|]. intros a b Hin. apply B. apply in_app_iff. now left.
  - assert (Lt : forall k, act l k -> k < nv + length h) by (intros k Hk; apply H3 in Hk; apply Hk).
    assert (Old : forall k v, act l k -> member nv (h ++ [(i, j)]) k v -> member nv h k v) by (intros k v Hk Hm; eapply member_old; eauto).
    split; [|split].
    2:{ intros k Hk. apply act_merged in Hk as [->|(Hk & _)]; [|destruct (H5 k Hk) as [v Hv]; exists v; now apply member_mono]. destruct (H5 i Hi) as [v Hv]. exists v. rewrite H2. apply member_new; auto. }
    2:{ intros k k' v Hk Hk' Hm Hm'. apply act_merged in Hk as [->|(Hk & N1 & N2)]; apply act_merged in Hk' as [->|(Hk' & N1' & N2')]; auto.
        - rewrite H2 in Hm. apply member_new in Hm; auto. apply Old in Hm'; auto. exfalso. destruct Hm as [Hm|Hm]; [apply N1'|apply N2']; eapply H6; eauto.
        - rewrite H2 in Hm'. apply member_new in Hm'; auto. apply Old in Hm; auto. exfalso. destruct Hm' as [Hm'|Hm']; [apply N1|apply N2]; eapply H6; eauto.
        - apply Old in Hm, Hm'; auto. eapply H6; eauto. }
    intros v Hv. destruct (H4 v Hv) as (k & Hk & Hm). destruct (Nat.eq_dec k i) as [->|Ni]; [|destruct (Nat.eq_dec k j) as [->|Nj]].
    + exists (length l). split; [apply act_merged; now left|]. rewrite H2. apply member_new; auto.
    + exists (length l). split; [apply act_merged; now left|]. rewrite H2. apply member_new; auto.
    + exists k. split; [apply act_merged; right; auto|]. now apply member_mono.
Qed.
End MEMBERS.

Section SELECTORS.
Variable P : pqueue.
Variable bag : PQ P -> list (nat * nat).
Hypothesis HP : pq_contract P bag.
Variable q0 : PQ P.
Hypothesis Hq0 : bag q0 = [].
Variable ord : list (nat * list nat) -> list (nat * list nat).
Hypothesis Hord : forall b, Permutation (ord b) b.
Variable O : mas_options.
Variable t : task.
Hypothesis Ht : mas_task t.
Variable shuffle : nat -> bool -> list nat -> list nat.
Variable random : nat -> nat -> nat -> nat.
Variable pick : nat -> nat -> nat * nat -> bool -> list (list nat) -> nat * nat.
Hypothesis Hrnd : random_ok shuffle random pick.
Variable L : list scoring.
Hypothesis HL : Forall scoring_ok L.
Hypothesis HLb : Exists breaks_ties L.
Hypothesis HLi : sel_init_distances L = true -> o_ci O = true.
Hypothesis HLg : sel_goal_distances L = true -> o_cg O = true.
Local Notation nv := (length (t_vars t)).
Local Notation ci := (o_ci O).
Local Notation cg := (o_cg O).
Local Notation at_point := (at_point P q0 ord O t).
Local Notation select := (select_merge_from_candidates P q0 ord random pick).

Lemma initialize_fst : forall l n k, map fst (selector_initialize shuffle n k l) = l.
Proof. induction l as [|s l IH]; intros n k; cbn [selector_initialize map fst]; auto. now rewrite IH. Qed.
Lemma initialize_ok : 0 < nv -> forall l k, (forall s, In s l -> In s L) -> sel_ok ci cg shuffle (2 * nv - 1) k (selector_initialize shuffle nv k l).
Proof.
  intros Hpos. induction l as [|s l IH]; intros k Hs [|q] s0 d E; cbn [selector_initialize nth_error] in E; try discriminate.
  - inv E. pose proof (Hs s0 (or_introl eq_refl)) as Hin. rewrite Forall_forall in HL. split; auto. split; [intros H; apply HLi; apply existsb_exists; eauto|]. split; [intros H; apply HLg; apply existsb_exists; eauto|]. rewrite Nat.add_0_r.
    destruct s0 as [| |a p b| |? ? ? ? ?]; cbn [data_ok sf_initialize]; auto.
    + exists nv. auto.
    + split; [apply repeat_length|]. intros i row Hr. apply nth_error_In, repeat_spec in Hr. subst row. split; [apply repeat_length|]. intros j x Hx. apply nth_error_In, repeat_spec in Hx. discriminate.
  - replace (k + S q) with (S k + q) by lia. eapply IH; [|exact E]. intros s' Hs'. apply Hs. now right.
Qed.
Lemma pick_ok n h F sfs idx : at_point h F -> sel_ok ci cg shuffle (2 * nv - 1) 0 sfs -> map fst sfs = L -> NoDup idx -> 2 <= length idx -> (forall i, In i idx -> act (occupied F) i) -> 2 <= nt (occupied F) ->
  exists i j sfs', select n sfs F (all_pairs idx) = Ok ((i, j), sfs') /\ In i idx /\ In j idx /\ i <> j /\ sel_ok ci cg shuffle (2 * nv - 1) 0 sfs' /\ map fst sfs' = L.
Proof.
  intros ([(e & HB) HS] & A1 & A2) Hsel Hfst HD H2 Hact Hnt. destruct (built_inv P bag HP q0 Hq0 ord Hord ci cg t Ht e F HB) as [lab HI].
  assert (HS' : forall i f, nth_error (F_factors F) i = Some (Some f) -> solv cg (F_labels F) f). { intros i f Hf. apply (solvable_iff ci cg t (F_labels F) lab f (in_fac _ _ _ _ _ HI i f Hf)). apply (HS i f). now apply get_factor_ok. }
  assert (Hlt : forall i, act (occupied F) i -> i < 2 * nv - 1) by (intros i Hi; apply act_lt in Hi; lia).
  destruct (select_ok P bag HP q0 Hq0 ord Hord ci cg t shuffle random pick Hrnd F lab HI HS' n (2 * nv - 1) sfs (all_pairs idx) Hsel) as [([i j] & sfs' & E & Hin & Hs & Hf)|[_ Hno]].
  - now apply all_pairs_nonempty.
  - now apply all_pairs_nodup.
  - intros [i j] Hin. destruct (all_pairs_mem _ _ _ Hin) as [Hi Hj]. pose proof (all_pairs_neq _ _ _ HD Hin) as Hne. cbn [fst snd]. split; [split; [exact Hne|split; apply act_iff; cbn [fst snd]; auto]|split; cbn [fst snd]; auto].
  - intros i j Hin. now apply all_pairs_anti.
  - destruct (all_pairs_mem _ _ _ Hin) as [Hi Hj]. pose proof (all_pairs_neq _ _ _ HD Hin) as Hne. exists i, j, sfs'. splits; auto. congruence.
  - exfalso. apply Exists_exists in HLb as (s & Hs & Hb). rewrite <- Hfst in Hs. apply in_map_iff in Hs as ([s' d] & E & Hin). cbn [fst] in E. subst s'. exact (Hno s d Hin Hb).
Qed.

(** ** Stateless *)
Definition stateless_J (h : list (nat * nat)) (m : list (scoring * sf_data)) (l : list bool) : Prop := (0 < nv -> sel_ok ci cg shuffle (2 * nv - 1) 0 m) /\ map fst m = L /\ hist nv h l.
Local Notation SL := (stateless P q0 ord shuffle random pick L t).
Lemma stateless_start F : occupied F = repeat true nv -> exists m, ms_start SL F = Ok m /\ stateless_J [] m (occupied F).
Proof. intros HO. cbn [ms_start stateless]. eexists. split; [reflexivity|]. split; [intros Hp; now apply initialize_ok|]. split; [apply initialize_fst|]. rewrite HO. apply hist_start. Qed.
Lemma stateless_next h m F n : at_point h F -> stateless_J h m (occupied F) -> 2 <= num_active F ->
  exists i j m', ms_get_next SL n m F = Ok (i, j, m') /\ i <> j /\ act (occupied F) i /\ act (occupied F) j /\ stateless_J (h ++ [(i, j)]) m' (merged (occupied F) i j).
Proof.
  intros HA (J1 & J2 & J3) H2. pose proof H2 as H2'. rewrite nt_active in H2'. assert (Hpos : 0 < nv) by (destruct HA as (_ & _ & ?); lia).
  destruct (pick_ok n h F m (active_indices F) HA (J1 Hpos) J2 (active_indices_nodup F)) as (i & j & m' & E & Hi & Hj & Hne & Hs & Hf); auto.
  - now rewrite active_indices_length.
  - intros i Hi. now apply active_indices_In.
  - apply active_indices_In in Hi, Hj. exists i, j, m'. cbn [ms_get_next stateless]. unfold compute_merge_candidates. splits; auto. split; auto. split; auto. now apply hist_next.
Qed.
Lemma stateless_good : good_merges P q0 ord O t SL.
Proof. apply (runs_good P q0 ord O t SL stateless_J); [intros F _; apply stateless_start|apply stateless_next]. Qed.
End SELECTORS.
