(** The merge-and-shrink algorithm: solvable factors, shrinking them. *)
From Coq Require Import Permutation.
From Verif Require Import Outcome Spec_Task Spec_Relaxation Spec_Projection Spec_Partition Model_PQ Model_Graph Model_Equivalence Model_MAS Spec_FTS Model_MASRun Model_MASAlgorithm Spec_LabelReduction Spec_Shrink.
From Verif Require Import Proof_MAS1 Proof_MAS2 Proof_MAS6 Proof_MAS7 Proof_MAS11 Proof_MAS12 Proof_MAS13 Proof_OC1 Proof_MAA1 Proof_MAA4 Proof_MAA5 Proof_MAA6 Proof_MAA8 Proof_MAA9 Prop_PDB Prop_MAS.

(** ** Classes *)
Lemma all_grouped_grouping n cls : all_grouped n cls -> grouping n cls /\ forall s, s < n -> grouped cls s.
Proof. intros (A & B & C). split; [split; [auto|split; auto; intros s Hs; now apply C]|]. intros s Hs. apply concat_class. now apply C. Qed.
Lemma classes_le n cls : grouping n cls -> length cls <= n.
Proof.
  intros (A & B & C). transitivity (length (concat cls)).
  - clear A C. induction cls as [|c r IH]; cbn [length concat]; [lia|]. rewrite app_length. assert (c <> []) by (apply B; now left). destruct c; [congruence|]. cbn [length]. assert (length r <= length (concat r)) by (apply IH; intros x Hx; apply B; now right). lia.
  - rewrite <- (seq_length n 0). apply NoDup_incl_length; auto. intros s Hs. apply in_seq. specialize (C s Hs). lia.
Qed.
Lemma perm_grouped n cls buckets : NoDup (concat buckets) -> (forall s, In s (concat buckets) <-> s < n) -> Permutation (concat cls) (concat buckets) -> (forall c, In c cls -> c <> []) -> all_grouped n cls.
Proof.
  intros A B C D. unfold all_grouped. splits; auto.
  - eapply Permutation_NoDup; [symmetry; exact C|auto].
  - intros s. rewrite <- B. split; apply Permutation_in; [auto|now symmetry].
Qed.

Definition bucket_strategy (s : shrink_strategy) : Prop := match s with ShrinkBisimulation _ _ => False | _ => True end.
Definition exact_strategy (s : shrink_strategy) : Prop := exists u, s = ShrinkBisimulation false u.
Definition all_singletons (cls : list (list nat)) : Prop := forall c, In c cls -> length c = 1.

Lemma fh_parts fh hh n di dg bs : ordered_by_fh fh hh n di dg bs -> NoDup (concat bs) /\ (forall s, In s (concat bs) <-> s < n) /\ forall b, In b bs -> b <> [].
Proof. intros (A & B & C & _). auto. Qed.
Lemma bind_eq {A B} (m : outcome A) (k : A -> outcome B) a b : m = Ok a -> k a = Ok b -> bind m k = Ok b.
Proof. now intros ->. Qed.
Section RUNS.
Variable P : pqueue.
Variable bag : PQ P -> list (nat * nat).
Hypothesis HP : pq_contract P bag.
Variable q0 : PQ P.
Hypothesis Hq0 : bag q0 = [].
Variable ord : list (nat * list nat) -> list (nat * list nat).
Hypothesis Hord : forall b, Permutation (ord b) b.
Variable ci cg : bool.
Variable t : task.
Hypothesis Ht : mas_task t.
Notation built := (built P q0 ord ci cg t).

(** ** Solvable factors *)
Definition solv (L : label_costs) (f : factor) : Prop := exists x, ts_init (f_ts f) = Some x /\ (cg = true -> reaches_goal (active L) (the_lts (f_ts f)) x).
Lemma solvable_iff L lab f : FI ci cg t L lab f -> (is_solvable f = Ok true <-> solv L f).
Proof.
  intros HF. unfold is_solvable, solv. destruct (ts_init (f_ts f)) as [x|] eqn:Ex; [|split; [discriminate|intros (x & E & _); discriminate]].
  assert (Lx : x < ts_n (f_ts f)) by (eapply w_init; [exact (fi_wf _ _ _ _ _ _ HF)|auto]). destruct (bool_dec cg true) as [Ec|Ec].
  - destruct (fi_dist _ _ _ _ _ _ HF) as [_ H]. destruct (H Ec) as (d & Ed & Hd). rewrite Ed. pose proof (proj2 Hd x Lx) as Hx.
    assert (En : nth_error d x = Some (nth x d None)) by (apply nth_error_nth'; rewrite (proj1 Hd); exact Lx). rewrite (proj2 (vget_ok _ _ _) En). cbn [bind].
    destruct (nth x d None) as [c|]; split.
    + intros _. exists x. split; auto. intros _. destruct Hx as [(g & G1 & G2) _]. exists g, c. auto.
    + auto.
    + discriminate.
    + intros (x' & E & Hr). injection E as <-. destruct (Hr Ec) as (g & c & G1 & G2). destruct (Hx c). eauto.
  - apply not_true_iff_false in Ec. destruct (fi_tab _ _ _ _ _ _ HF Ec) as [->|(_ & E0 & _)]; [|lia]. split; auto. intros _. exists x. split; auto. congruence.
Qed.
Lemma solv_goal L lab f : FI ci cg t L lab f -> solv L f -> cg = true -> exists s, s < ts_n (f_ts f) /\ goalb (f_ts f) s = true.
Proof.
  intros HF (x & _ & Hr) Ec. destruct (Hr Ec) as (g & c & Hg & _). cbn [the_lts l_goal] in Hg. exists g. pose proof (nth_error_Some_lt _ _ _ Hg) as Hlt. rewrite (w_goals _ _ _ (fi_wf _ _ _ _ _ _ HF)) in Hlt. split; auto.
  unfold goalb. now apply nth_error_nth.
Qed.

(** ** The strategies *)
Lemma shrink_classes_ok L lab f pick s target : FI ci cg t L lab f -> solv L f -> picks_two pick -> 1 <= target ->
  (requires_init_distances s = true -> ci = true) -> (requires_goal_distances s = true -> cg = true) ->
  exists cls, shrink_classes pick s (f_ts f) (f_dist f) target = Ok cls /\ all_grouped (ts_n (f_ts f)) cls /\
    (bucket_strategy s -> length cls <= target) /\ (exact_strategy s -> ts_n (f_ts f) <= target -> bisimulation (active L) (the_lts (f_ts f)) cls).
Proof.
  intros HF Hs Hpick Htar Hci Hcg. pose proof (fi_wf _ _ _ _ _ _ HF) as W. destruct (fi_dist _ _ _ _ _ _ HF) as [Di Dg]. destruct s as [greedy use_up|fh hh|]; cbn [shrink_classes requires_init_distances requires_goal_distances] in *.
  - destruct (Dg (Hcg eq_refl)) as (dg & Eg & Hg). destruct (solv_goal L lab f HF Hs (Hcg eq_refl)) as (g & G1 & G2).
    destruct (bisimulation_ok L (max_labels t) (f_ts f) dg W Hg greedy use_up target (f_dist f) Eg) as (cls & E & A & _ & _ & B & _); [eauto|]. exists cls. splits; auto; [intros []|]. intros (u & Eu) Hn. inv Eu. auto.
  - destruct (Di (Hci eq_refl)) as (di & Ei & Hi). destruct (Dg (Hcg eq_refl)) as (dg & Eg & Hg). destruct (f_dist f) as [a b] eqn:Ef. cbn [d_init d_goal] in Ei, Eg. subst a b.
    destruct (fh_buckets_ok fh hh di dg (ts_n (f_ts f)) (proj1 Hi) (proj1 Hg) (f_ts f) eq_refl) as (bs & Eb & HB).
    destruct (fh_parts _ _ _ _ _ _ HB) as (B1 & B2 & B3).
    destruct (bucket_based_ok pick target bs Hpick Htar B3) as (cls & E & C1 & C2 & C3 & _). exists cls. splits; auto; [exact (bind_eq _ _ bs cls Eb E)|eapply perm_grouped; eauto|]. intros (u & Eu). discriminate.
  - unfold random_buckets. assert (Hpos : ts_n (f_ts f) <> 0) by (destruct Hs as (x & Hx & _); apply (w_init _ _ _ W) in Hx; lia).
    destruct (bucket_based_ok pick target [seq 0 (ts_n (f_ts f))] Hpick Htar) as (cls & E & C1 & C2 & C3 & _); [intros b [<-|[]]; destruct (ts_n (f_ts f)); [congruence|discriminate]|].
    cbn [concat] in C1. rewrite app_nil_r in C1. exists cls. splits; auto; [|intros (u & Eu); discriminate]. apply (perm_grouped _ _ [seq 0 (ts_n (f_ts f))]); auto; cbn [concat]; rewrite ?app_nil_r; auto; [apply seq_NoDup|]. intros s. rewrite in_seq. lia.
Qed.

(** ** Shrinking a factor *)
Definition SOLV (F : fts) : Prop := forall i f, nth_error (F_factors F) i = Some (Some f) -> solv (F_labels F) f.
Definition same_but (i : nat) (F F' : fts) : Prop :=
  F_labels F' = F_labels F /\ length (F_factors F') = length (F_factors F) /\ forall k, k <> i -> nth_error (F_factors F') k = nth_error (F_factors F) k.
Lemma same_but_refl i F : same_but i F F. Proof. unfold same_but. splits; auto. Qed.
Lemma image_solv L T cls T' x k : (forall s, s < ts_n T -> grouped cls s) -> (forall a s s', l_step (the_lts T) a s s' -> s < ts_n T /\ s' < ts_n T) -> is_image (active L) (the_lts T) cls (the_lts T') ->
  in_class cls k x -> reaches_goal (active L) (the_lts T) x -> reaches_goal (active L) (the_lts T') k.
Proof.
  intros Hall Hr (_ & Hg & _ & Hst) Hk (g & c & G & Hp). revert k Hk. induction Hp as [s|s a w s1 y s2 Ha Hs Hp IH]; intros k Hk.
  - exists k, 0. split; [apply Hg; eauto|constructor].
  - destruct (Hall s1) as [k1 Hk1]; [exact (proj2 (Hr _ _ _ Hs))|]. destruct (IH G k1 Hk1) as (g' & c' & G' & Hp'). exists g', (w + c'). split; auto. econstructor; eauto. apply (Hst a w); eauto.
Qed.

Variable O : mas_options.
Hypothesis Eci : o_ci O = ci.
Hypothesis Ecg : o_cg O = cg.
Variable pick : nat -> list (list nat) -> nat * nat.
Hypothesis Hpick : forall n, picks_two (pick n).

Lemma needs_init : requires_init_distances (o_shrink O) = true -> ci = true.
Proof. intros H. rewrite <- Eci. unfold o_ci. now rewrite H. Qed.
Lemma needs_goal : requires_goal_distances (o_shrink O) = true -> cg = true.
Proof. intros H. rewrite <- Ecg. unfold o_cg. now rewrite H. Qed.

Lemma shrink_factor_ok e F n i f size : built e F -> SOLV F -> nth_error (F_factors F) i = Some (Some f) -> 1 <= size ->
  exists e' F' f', shrink_factor P q0 O pick n F i size = Ok F' /\ built e' F' /\ SOLV F' /\ same_but i F F' /\ nth_error (F_factors F') i = Some (Some f') /\ ts_n (f_ts f') <= ts_n (f_ts f) /\
    (bucket_strategy (o_shrink O) -> ts_n (f_ts f') <= size) /\ (exact_strategy (o_shrink O) -> ts_n (f_ts f) <= size -> e' = e).
Proof.
  intros HB HS Hf Hsz. unfold shrink_factor. rewrite (proj2 (get_factor_ok F i f) Hf). cbn [bind]. destruct (Nat.ltb_spec (Nat.min size (o_threshold O)) (ts_n (f_ts f))) as [Hlt|Hge].
  2:{ exists e, F, f. splits; auto using same_but_refl. intros _. lia. }
  destruct (built_inv P bag HP q0 Hq0 ord Hord ci cg t Ht e F HB) as [lab HI]. pose proof (in_fac _ _ _ _ _ HI i f Hf) as HF. pose proof (HS i f Hf) as Hs. pose proof (fi_wf _ _ _ _ _ _ HF) as W.
  destruct (shrink_classes_ok (F_labels F) lab f (pick n) (o_shrink O) size HF Hs (Hpick n) Hsz needs_init needs_goal) as (cls & -> & A & B & C). cbn [bind].
  destruct (all_grouped_grouping _ _ A) as [HG Hall]. destruct Hs as (x & Hx & Hr). assert (Lx : x < ts_n (f_ts f)) by (eapply w_init; eauto).
  pose proof (all_grouped_useless t (F_labels F) (f_ts f) cls W Hall) as HU. apply get_factor_ok in Hf.
  destruct (abstraction_sound P bag HP q0 Hq0 ci cg t Ht lab F i f x cls HI Hf Hx HG HU (or_introl (Hall x Lx))) as (F' & E & HI' & Hc). rewrite Eci, Ecg, E.
  assert (HB' : exists e', built e' F' /\ (exact_strategy (o_shrink O) -> ts_n (f_ts f) <= size -> e' = e)).
  { destruct (o_shrink O) as [gr uu|fh hh|] eqn:Es.
    - destruct gr; [exists false; split; [eapply built_shrink; eauto|intros (u & Eu); discriminate]|]. destruct (Nat.le_gt_cases (ts_n (f_ts f)) size) as [Hle|Hgt].
      + exists e. split; auto. eapply built_bisim; eauto. apply C; auto. exists uu. reflexivity.
      + exists false. split; [eapply built_shrink; eauto|]. intros _ ?. lia.
    - exists false. split; [eapply built_shrink; eauto|intros (u & Eu); discriminate].
    - exists false. split; [eapply built_shrink; eauto|intros (u & Eu); discriminate]. }
  destruct HB' as (e' & HB' & He'). apply get_factor_ok in Hf. destruct Hc as [[-> El]|(f' & EF & HIm & _)].
  - exists e', F, f. splits; auto using same_but_refl. intros Hb. rewrite <- El. auto.
  - pose proof (nth_error_Some_lt _ _ _ Hf) as Li. pose proof HIm as (Hn & _ & Hini & _). cbn [the_lts l_n l_init] in Hn, Hini.
    subst F'. exists e', (set_factors F (upd (F_factors F) i (Some f'))), f'. splits; auto.
    + intros k g Hk. cbn [set_factors F_factors F_labels] in *. destruct (Nat.eq_dec k i) as [->|Nk]; [|rewrite upd_nth_neq in Hk by auto; apply (HS k); auto]. rewrite upd_nth_eq in Hk by auto. inv Hk. destruct (Hall x Lx) as [j Hj]. exists j. split; [now apply (Hini x j Hx)|]. intros Ec.
      eapply (image_solv (F_labels F) (f_ts f) cls (f_ts g) x j); eauto. intros a s s' (p & i0 & _ & Q1 & Q2). exact (g_trans _ _ _ _ (w_g _ _ _ W) p i0 s s' Q1 Q2).
    + unfold same_but. cbn [set_factors F_factors F_labels]. splits; auto; [now rewrite upd_length|]. intros k Nk. now rewrite upd_nth_neq by auto.
    + cbn [set_factors F_factors]. now rewrite upd_nth_eq.
    + rewrite Hn. now apply classes_le.
    + intros Hb. rewrite Hn. auto.
Qed.
End RUNS.
