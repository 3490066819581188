(** Selections along a run. *)
From Coq Require Import Permutation Sorted.
From Verif Require Import Outcome Spec_Task Spec_Relaxation Spec_Projection Model_PQ Model_Graph Model_MAS Spec_FTS Model_MASRun Model_MASAlgorithm Spec_Shrink Spec_MASAlgorithm Model_MergeStrategy Spec_MergeStrategy Spec_Selection.
From Verif Require Import Proof_MAS1 Proof_MAS2 Proof_MAS11 Proof_MAS12 Proof_MAS13 Proof_OC1 Proof_MAA5 Proof_MAA10 Proof_MAA11 Proof_MS1 Proof_MS2 Proof_MS3 Proof_MS4 Proof_MS8 Proof_MS9 Proof_MS10.

Lemma pairs_ascending (f : nat -> bool) : forall n k i j, In (i, j) (all_pairs (filter f (seq k n))) -> i < j.
Proof.
  induction n as [|n IH]; intros k i j H; cbn [seq filter] in H; [destruct H|]. destruct (f k); [|eauto]. cbn [all_pairs] in H. apply in_app_iff in H as [H|H]; [|eauto]. apply in_map_iff in H as (y & E & Hy). injection E as <- <-. apply filter_In in Hy as [Hy _]. apply in_seq in Hy. lia.
Qed.
Lemma candidates_In F i j : In (i, j) (compute_merge_candidates F) <-> i < j /\ (exists f, get_factor F i = Ok f) /\ exists g, get_factor F j = Ok g.
Proof.
  unfold compute_merge_candidates.
  assert (A : forall k, In k (active_indices F) <-> exists f, get_factor F k = Ok f). { intros k. rewrite active_indices_In, act_iff. split; intros [f Hf]; exists f; now apply get_factor_ok. }
  rewrite <- !A. split.
  - intros H. split; [now apply pairs_ascending in H|now apply all_pairs_mem].
  - intros (Hlt & Hi & Hj). destruct (all_pairs_sym _ i j Hi Hj) as [H|H]; [lia|exact H|]. apply pairs_ascending in H. lia.
Qed.
Lemma sequence_ok a p b n sh1 sh2 : (forall l, Permutation (sh1 l) l) -> (forall l, Permutation (sh2 l) l) -> system_sequence a p b n (ts_order a p b sh1 sh2 n).
Proof.
  intros H1 H2. unfold ts_order. replace (n * 2 - 1 - n) with (n - 1) by lia.
  exists (match a with AtomicReverseLevel => seq 0 n | AtomicLevel => rev (seq 0 n) | AtomicRandom => sh1 (seq 0 n) end), (match p with OldToNew => seq n (n - 1) | NewToOld => rev (seq n (n - 1)) | ProductRandom => sh2 (seq n (n - 1)) end). destruct a, p; auto.
Qed.

Section SELECTORS.
Variable P : pqueue.
Variable bag : PQ P -> list (nat * nat).
Hypothesis HP : pq_contract P bag.
Variable q0 : PQ P.
Hypothesis Hq0 : bag q0 = [].
Variable ord : list (nat * list nat) -> list (nat * list nat).
Hypothesis Hord : forall b, Permutation (ord b) b.
Variable O : mas_options.
Variable t : task.
Hypothesis Ht : mas_task t.
Hypothesis Hm : mentions_once t.
Variable shuffle : nat -> bool -> list nat -> list nat.
Variable random : nat -> nat -> nat -> nat.
Variable pick : nat -> nat -> nat * nat -> bool -> list (list nat) -> nat * nat.
Hypothesis Hrnd : random_ok shuffle random pick.
Variable L : list scoring.
Hypothesis HL : Forall scoring_ok L.
Hypothesis HLi : sel_init_distances L = true -> o_ci O = true.
Hypothesis HLg : sel_goal_distances L = true -> o_cg O = true.
Local Notation nv := (length (t_vars t)).
Local Notation ci := (o_ci O).
Local Notation cg := (o_cg O).
Local Notation at_point := (at_point P q0 ord O t).
Local Notation select := (select_merge_from_candidates P q0 ord random pick).

Definition the_orders (k : nat) : list nat := match nth_error L k with Some (TotalOrder a p b) => ts_order a p b (shuffle k false) (shuffle k true) nv | _ => [] end.
Lemma select_narrowed (past : fts -> Prop) n h F sfs cands : past F -> at_point h F -> 0 < nv -> sel_ok ci cg shuffle (2 * nv - 1) 0 sfs -> map fst sfs = L -> all_from past sfs ->
  cands <> [] -> NoDup cands -> (forall i j, In (i, j) cands -> i <> j /\ act (occupied F) i /\ act (occupied F) j) -> (forall i j, In (i, j) cands -> ~ In (j, i) cands) -> 2 <= nt (occupied F) ->
  exists r, narrowed past F the_orders 0 L cands r /\
    ((exists c sfs', r = [c] /\ select n sfs F cands = Ok (c, sfs') /\ In c cands /\ sel_ok ci cg shuffle (2 * nv - 1) 0 sfs' /\ map fst sfs' = L /\ all_from past sfs') \/
     (2 <= length r /\ select n sfs F cands = Exit 32)).
Proof.
  intros Hpast ([(e & HB) HS] & A1 & A2) Hpos Hsel Hfst HC Hne HD Hc Hanti Hnt. destruct (built_inv P bag HP q0 Hq0 ord Hord ci cg t Ht e F HB) as [lab HI].
  assert (HS' : forall i f, nth_error (F_factors F) i = Some (Some f) -> solv cg (F_labels F) f). { intros i f Hf. apply (solvable_iff ci cg t (F_labels F) lab f (in_fac _ _ _ _ _ HI i f Hf)). apply (HS i f). now apply get_factor_ok. }
  pose proof (built_nd P bag HP q0 Hq0 ord Hord ci cg t Ht Hm e F HB) as HN.
  assert (Hlt : forall i, act (occupied F) i -> i < 2 * nv - 1) by (intros i Hi; apply act_lt in Hi; lia).
  assert (Hc' : forall c, In c cands -> good_pair F c /\ pair_below (2 * nv - 1) c). { intros [i j] Hin. destruct (Hc i j Hin) as (Hij & Hi & Hj). split; [split; [exact Hij|split; apply act_iff; cbn [fst snd]; auto]|split; cbn [fst snd]; auto]. }
  destruct (filter_candidates_ok P bag HP q0 Hq0 ord Hord ci cg t shuffle random pick Hrnd F lab HI HS' n (2 * nv - 1) sfs 0 cands Hsel Hne HD Hc' Hanti) as (r & sfs' & E & B1 & B2 & B3 & B4 & B5 & _).
  destruct (filter_narrowed P bag HP q0 Hq0 ord Hord ci cg t shuffle random pick Hrnd F lab HI HS' HN past Hpast n the_orders Hpos sfs 0 cands r sfs' Hsel HC) as [HN1 HC1]; auto.
  { intros q s d a p b Hq ->. cbn [Nat.add]. unfold the_orders. rewrite <- Hfst, nth_error_map, Hq. reflexivity. }
  rewrite Hfst in HN1. exists r. split; auto. unfold select_merge_from_candidates. rewrite E. cbn [bind]. destruct r as [|c [|c' r]]; [congruence|left|right].
  - exists c, sfs'. split; auto. split; auto. split; [apply B5; now left|]. split; auto. split; [congruence|auto].
  - cbn [length]. split; [lia|reflexivity].
Qed.

Local Notation SL := (stateless P q0 ord shuffle random pick L t).
Local Notation run := (strategy_run P q0 ord O t SL).
Definition seen (h : list (nat * nat)) (F0 : fts) : Prop := exists h0 h1 m0, h = h0 ++ h1 /\ run h0 m0 F0.
Lemma from_mono (past past' : fts -> Prop) sfs : (forall F, past F -> past' F) -> all_from past sfs -> all_from past' sfs.
Proof. intros Hp H q s d Hq. specialize (H q s d Hq). destruct s, d; cbn [cache_from] in *; auto. intros i row j x H1 H2. destruct (H i row j x H1 H2) as (F0 & H3 & H4). eauto. Qed.
Lemma stateless_candidates F : 2 <= nt (occupied F) -> compute_merge_candidates F <> [] /\ NoDup (compute_merge_candidates F) /\ (forall i j, In (i, j) (compute_merge_candidates F) -> i <> j /\ act (occupied F) i /\ act (occupied F) j) /\ (forall i j, In (i, j) (compute_merge_candidates F) -> ~ In (j, i) (compute_merge_candidates F)).
Proof.
  intros H2. unfold compute_merge_candidates. pose proof (active_indices_nodup F) as HD. split; [apply all_pairs_nonempty; now rewrite active_indices_length, nt_active|]. split; [now apply all_pairs_nodup|]. split; [|intros i j; now apply all_pairs_anti].
  intros i j H. split; [exact (all_pairs_neq _ _ _ HD H)|]. destruct (all_pairs_mem _ _ _ H) as [Hi Hj]. split; now apply active_indices_In.
Qed.
Lemma stateless_weak h m F : run h m F -> at_point h F /\ (0 < nv -> sel_ok ci cg shuffle (2 * nv - 1) 0 m) /\ map fst m = L /\ all_from (seen h) m.
Proof.
  induction 1 as [F m HU HO HM|h m F n i j m' F' HR (HA & J1 & J2 & J3) H2 HN HU HO].
  - cbn [ms_start stateless] in HM. injection HM as <-. split; [split; auto; rewrite HO, repeat_length, nt_repeat; cbn [length]; lia|]. split; [intros Hp; now apply (initialize_ok O t shuffle L HL HLi HLg)|]. split; [apply initialize_fst|].
    intros q s d Hq. assert (G : forall l k q, nth_error (selector_initialize shuffle nv k l) q = Some (s, d) -> exists k', d = sf_initialize shuffle nv k' s).
    { induction l as [|s0 l IH]; intros k [|q'] E; cbn [selector_initialize nth_error] in E; try discriminate; [injection E as <- <-; eauto|eauto]. }
    destruct (G _ _ _ Hq) as [k' ->]. destruct s; cbn [cache_from sf_initialize]; auto. intros a row b x H1 H3. apply nth_error_In, repeat_spec in H1. subst row. apply nth_error_In, repeat_spec in H3. discriminate.
  - rewrite nt_active in H2. assert (Hpos : 0 < nv) by (destruct HA as (_ & _ & ?); lia). destruct (stateless_candidates F H2) as (C1 & C2 & C3 & C4).
    destruct (select_narrowed (seen h) n h F m (compute_merge_candidates F)) as (r & _ & [(c & sfs' & _ & E & Hin & S1 & S2 & S3)|[_ E]]); auto.
    + exists h, [], m. rewrite app_nil_r. auto.
    + cbn [ms_get_next stateless] in HN. rewrite E in HN. injection HN as -> ->. destruct (C3 i j Hin) as (Hij & Hi & Hj). split; [|split; [auto|split; [exact S2|]]].
      * destruct HA as (_ & A1 & A2). split; auto. rewrite HO, merged_length, app_length. cbn [length]. pose proof (nt_merged _ _ _ Hij Hi Hj). lia.
      * apply (from_mono (seen h)); auto. intros F0 (h0 & h1 & m0 & -> & H0). exists h0, (h1 ++ [(i, j)]), m0. now rewrite app_assoc.
    + cbn [ms_get_next stateless] in HN. rewrite E in HN. discriminate.
Qed.
Lemma stateless_selection h m F n : run h m F -> 2 <= num_active F ->
  exists cands r, NoDup cands /\ (forall i j, In (i, j) cands <-> i < j /\ (exists f, get_factor F i = Ok f) /\ exists g, get_factor F j = Ok g) /\ narrowed (seen h) F the_orders 0 L cands r /\
    ((exists c m', r = [c] /\ ms_get_next SL n m F = Ok (c, m')) \/ (2 <= length r /\ ms_get_next SL n m F = Exit 32)).
Proof.
  intros HR H2. rewrite nt_active in H2. destruct (stateless_weak h m F HR) as (HA & J1 & J2 & J3). assert (Hpos : 0 < nv) by (destruct HA as (_ & _ & ?); lia). destruct (stateless_candidates F H2) as (C1 & C2 & C3 & C4).
  destruct (select_narrowed (seen h) n h F m (compute_merge_candidates F)) as (r & HN & HE); auto.
  - exists h, [], m. rewrite app_nil_r. auto.
  - exists (compute_merge_candidates F), r. split; [exact C2|]. split; [apply candidates_In|]. split; [exact HN|]. cbn [ms_get_next stateless]. destruct HE as [(c & sfs' & -> & E & _)|[Hl E]]; [left; exists c, sfs'; auto|right; auto].
Qed.
End SELECTORS.
