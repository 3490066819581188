(** Selection of merge candidates. *)
From Coq Require Import Permutation.
From Verif Require Import Outcome Spec_Task Spec_Relaxation Spec_Projection Model_PQ Model_Graph Model_MAS Spec_FTS Model_MASRun Model_MASAlgorithm Spec_Shrink Spec_MASAlgorithm Model_MergeStrategy Spec_MergeStrategy Spec_Selection.
From Verif Require Import Proof_MAS1 Proof_MAS2 Proof_MAS3 Proof_MAS6 Proof_MAS11 Proof_MAS12 Proof_MAS13 Proof_OC1 Proof_MAA5 Proof_MAA10 Proof_MS1 Proof_MS2 Proof_MS3 Proof_MS4 Proof_MS8 Proof_MS9.

Definition both_some (d : option nat * option nat) : bool := match d with (Some _, Some _) => true | _ => false end.
Lemma count_alive_nth : forall di dg k, length di = length dg ->
  length (filter (fun s => both_some (nth (s - k) di None, nth (s - k) dg None)) (seq k (length di))) = length (filter both_some (combine di dg)).
Proof.
  induction di as [|x di IH]; intros [|y dg] k H; try discriminate; [reflexivity|]. cbn [length] in H. injection H as H. cbn [length seq filter combine].
  assert (E : filter (fun s => both_some (nth (s - k) (x :: di) None, nth (s - k) (y :: dg) None)) (seq (S k) (length di)) = filter (fun s => both_some (nth (s - S k) di None, nth (s - S k) dg None)) (seq (S k) (length di))).
  { apply filter_ext_in. intros s Hs. apply in_seq in Hs. replace (s - k) with (S (s - S k)) by lia. reflexivity. }
  rewrite E, Nat.sub_diag. change (nth 0 (x :: di) None) with x. change (nth 0 (y :: dg) None) with y. specialize (IH dg (S k) H). destruct (both_some (x, y)); cbn [length]; congruence.
Qed.
Lemma alive_list lc T di dg : init_distances lc T di -> goal_distances lc T dg ->
  exists alive, NoDup alive /\ (forall z, In z alive <-> z < l_n T /\ from_init lc T z /\ reaches_goal lc T z) /\ length alive = count_alive di dg.
Proof.
  intros [L1 H1] [L2 H2]. exists (filter (fun s => both_some (nth (s - 0) di None, nth (s - 0) dg None)) (seq 0 (length di))). split; [apply NoDup_filter, seq_NoDup|]. split.
  - intros z. rewrite filter_In, in_seq, L1, Nat.sub_0_r. split.
    + intros [Hz Hb]. assert (Lz : z < l_n T) by lia. split; auto. specialize (H1 z Lz). specialize (H2 z Lz). destruct (nth z di None) as [a|]; [|discriminate]. destruct (nth z dg None) as [b|]; [|discriminate]. destruct H1 as [(i & E & Pi) _]. destruct H2 as [(g & G & Pg) _]. split; [exists i, a; auto|exists g, b; auto].
    + intros (Lz & (i & a & E & Pi) & (g & b & G & Pg)). split; [lia|]. specialize (H1 z Lz). specialize (H2 z Lz). destruct (nth z di None) as [a'|]; [|destruct (H1 a); eauto]. destruct (nth z dg None) as [b'|]; [reflexivity|destruct (H2 b); eauto].
  - rewrite count_alive_nth by congruence. reflexivity.
Qed.

Section SCORES.
Variable P : pqueue.
Variable bag : PQ P -> list (nat * nat).
Hypothesis HP : pq_contract P bag.
Variable q0 : PQ P.
Hypothesis Hq0 : bag q0 = [].
Variable ord : list (nat * list nat) -> list (nat * list nat).
Hypothesis Hord : forall b, Permutation (ord b) b.
Variable ci cg : bool.
Variable t : task.
Hypothesis Ht : mas_task t.
Variable shuffle : nat -> bool -> list nat -> list nat.
Variable random : nat -> nat -> nat -> nat.
Variable pick : nat -> nat -> nat * nat -> bool -> list (list nat) -> nat * nat.
Hypothesis Hrnd : random_ok shuffle random pick.
Variable F : fts.
Variable lab : nat -> nat.
Hypothesis HI : Inv ci cg t lab F.
Hypothesis HS : forall i f, nth_error (F_factors F) i = Some (Some f) -> solv cg (F_labels F) f.
Hypothesis HN : fts_nd F.
Variable past : fts -> Prop.
Hypothesis Hpast : past F.
Local Notation L := (F_labels F).
Local Notation good := (good_pair F).
Local Notation nv := (length (t_vars t)).

Lemma wf i f : nth_error (F_factors F) i = Some (Some f) -> twf L (max_labels t) (f_ts f).
Proof. intros Hf. exact (fi_wf _ _ _ _ _ _ (in_fac _ _ _ _ _ HI i f Hf)). Qed.
Lemma goal_relevance_rates c x : good c -> goal_relevance_score F c = Ok x -> goal_relevance F c x.
Proof.
  intros Hc E. destruct (goal_relevance_ok F c Hc) as (y & E' & Hy). rewrite E in E'. injection E' as <-. destruct Hc as (_ & (f & Hf) & (g & Hg)). specialize (Hy f g Hf Hg).
  pose proof (goal_relevant_iff _ _ _ (wf _ _ Hf)) as I1. pose proof (goal_relevant_iff _ _ _ (wf _ _ Hg)) as I2.
  exists (the_lts (f_ts f)), (the_lts (f_ts g)). split; [exists f, g; rewrite !get_factor_ok; auto|]. revert Hy I1 I2. destruct (is_goal_relevant (f_ts f)), (is_goal_relevant (f_ts g)); cbn [orb]; intros Hy I1 I2; try (left; split; [first [left; now apply I1|right; now apply I2]|exact Hy]).
  right. split; [intros H; apply I1 in H; congruence|]. split; [intros H; apply I2 in H; congruence|exact Hy].
Qed.
Lemma dfp_rates c x : cg = true -> good c -> dfp_score F c = Ok x -> dfp F c x.
Proof.
  intros Hcg (_ & (f & Hf) & (g & Hg)). unfold dfp_score.
  destruct (label_ranks_ok ci cg t F lab HI HS (fst c) f Hcg Hf) as (d1 & r1 & _ & G1 & -> & L1 & A1 & B1). destruct (label_ranks_ok ci cg t F lab HI HS (snd c) g Hcg Hg) as (d2 & r2 & _ & G2 & -> & L2 & A2 & B2). cbn [bind]. intros E. injection E as <-.
  exists (the_lts (f_ts f)), (the_lts (f_ts g)). split; [exists f, g; rewrite !get_factor_ok; auto|].
  assert (One : forall i h dg r, nth_error (F_factors F) i = Some (Some h) -> goal_distances (active L) (the_lts (f_ts h)) dg ->
    (forall l c k g, active L l c -> nth_error (ts_infos (f_ts h)) k = Some g -> In l (i_labels g) -> exists x, nth_error r l = Some x /\ rank_of (f_ts h) dg g x) ->
    forall l c j, active L l c -> (nth_error r l = Some (Some (Some j)) <-> ~ irrelevant (the_lts (f_ts h)) l /\ least (leads_to (active L) (the_lts (f_ts h)) l) j)).
  { intros i h dg r Hh G A l c0 j Hl. destruct (g_label _ _ _ _ (w_g _ _ _ (wf i h Hh)) l c0 Hl) as (k & gr & El & Hk & Hin). destruct (A l c0 k gr Hl Hk Hin) as (y & Hy & Rk). rewrite Hy.
    pose proof (irrelevant_iff _ _ _ k gr l (wf i h Hh) Hk Hin (nd_nth _ _ _ (HN i h Hh) Hk)) as Hirr. destruct y as [y|].
    - assert (Hrel : group_relevant (f_ts h) gr = true) by (destruct y as [y|]; cbn [rank_of] in Rk; tauto). pose proof (rank_leads _ _ _ dg k gr l y (wf i h Hh) Hk Hin G Rk) as HL. split.
      + intros E. injection E as ->. split; [intros H; apply Hirr in H; congruence|exact HL].
      + intros [_ [Hj1 Hj2]]. destruct y as [y|]; [|destruct (HL j Hj1)]. destruct HL as [Hy1 Hy2]. specialize (Hj2 _ Hy1). specialize (Hy2 _ Hj1). do 3 f_equal. lia.
    - cbn [rank_of] in Rk. split; [discriminate|]. intros [H _]. destruct H. now apply Hirr. }
  pose proof (One _ _ _ _ Hf G1 A1) as O1. pose proof (One _ _ _ _ Hg G2 A2) as O2.
  assert (J : forall k, joint (active L) (the_lts (f_ts f)) (the_lts (f_ts g)) k <-> exists l a b, both r1 r2 l a b /\ k = Nat.max a b).
  { intros k. split.
    - intros (l & c0 & j1 & j2 & Hl & N1 & N2 & M1 & M2 & ->). exists l, j1, j2. split; auto. split; [apply (O1 l c0 j1 Hl); auto|apply (O2 l c0 j2 Hl); auto].
    - intros (l & a & b & [R1 R2] & ->). destruct (B1 l _ R1) as [c0 Hl]. apply (O1 l c0 a Hl) in R1 as [N1 M1]. apply (O2 l c0 b Hl) in R2 as [N2 M2]. exists l, c0, a, b. auto 8. }
  pose proof (pair_weight_ok r1 r2) as W. destruct (pair_weight r1 r2) as [k|]; cbn [option_map].
  - left. exists k. split; auto. split; [apply J; apply W|]. intros k' Hk'. apply J in Hk' as (l & a & b & Hb & ->). apply W in Hb. exact Hb.
  - right. split; auto. intros k Hk. apply J in Hk as (l & a & b & Hb & _). exact (W l a b Hb).
Qed.
Lemma miasm_rates n k sh m b th c T x : 1 <= b <= m -> ci = true -> cg = true -> good c -> shrink_before_merge_externally ord (pick n k c) sh m b th F c = Ok T -> miasm_ratio P q0 T = Ok x -> alive_share sh m b th F c x.
Proof.
  intros Hb Hci Hcg Hc ET Ex. destruct (external_ok ord Hord ci cg t F lab HI HS (pick n k c) sh m b th c Hc) as (T' & ET' & WT & IT & Hx); auto; [intros y gs Hgs; apply (proj2 (proj2 Hrnd)); auto|]. rewrite ET in ET'. injection ET' as <-.
  destruct (ratio_ok P bag HP q0 Hq0 t F T WT IT) as (di & dg & Di & Dg & E & Hpos). rewrite Ex in E. injection E as ->. destruct Hc as (_ & (f & Hf) & (g & Hg)). destruct (Hx f g Hf Hg) as (T1 & T2 & cls1 & cls2 & A1 & B1 & A2 & B2 & Pr & Bk & Sm). destruct (alive_list _ _ _ _ Di Dg) as (alive & N1 & N2 & N3).
  exists (the_lts (f_ts f)), (the_lts (f_ts g)), (the_lts T1), (the_lts T2), (the_lts T), cls1, cls2, alive. split; [exists f, g; rewrite !get_factor_ok; auto|]. do 5 (split; [assumption|]). split; [destruct sh; auto; now apply Bk|].
  split; [intros H1 H2 H3; destruct (Sm H1 H2 H3) as [-> ->]; auto|]. split; [exact N1|]. split; [exact N2|]. split; [exact Hpos|]. now rewrite N3.
Qed.

(** *** What is stored *)
Definition cache_from (s : scoring) (d : sf_data) : Prop :=
  match s, d with
  | MIASM sh m b th _, Cache c => forall i row j x, nth_error c i = Some row -> nth_error row j = Some (Some x) -> exists F0, past F0 /\ alive_share sh m b th F0 (i, j) x
  | _, _ => True
  end.
Lemma miasm_narrows n k sh m b th ca : 1 <= b <= m -> ci = true -> cg = true -> forall cands scores cache l cache', (forall c, In c cands -> good c) -> cache_from (MIASM sh m b th ca) (Cache cache) ->
  fold_outcome (miasm_score P q0 ord pick n k sh m b th ca F) cands (scores, cache) = Ok (l, cache') ->
  cache_from (MIASM sh m b th ca) (Cache cache') /\ exists r, l = scores ++ r /\ length r = length cands /\
    forall q c x, nth_error cands q = Some c -> nth_error r q = Some x -> if ca then exists F0, past F0 /\ alive_share sh m b th F0 c x else alive_share sh m b th F c x.
Proof.
  intros Hb Hci Hcg. induction cands as [|c cands IH]; intros scores cache l cache' Hc HC H; cbn [fold_outcome] in H.
  - injection H as <- <-. split; auto. exists []. rewrite app_nil_r. split; auto. split; auto. intros [|q] c x E; discriminate.
  - apply bind_ok in H as ([scores1 cache1] & H1 & H2).
    assert (St : cache_from (MIASM sh m b th ca) (Cache cache1) /\ exists x, scores1 = scores ++ [x] /\ if ca then exists F0, past F0 /\ alive_share sh m b th F0 c x else alive_share sh m b th F c x).
    { unfold miasm_score in H1. apply bind_ok in H1 as (old & Ho & H1). destruct old as [x|].
      - injection H1 as <- <-. split; auto. exists x. split; auto. destruct ca; [|discriminate]. apply bind_ok in Ho as (row & Hr & Ho). apply vget_ok in Hr, Ho. destruct c as [i j]. exact (HC i row j x Hr Ho).
      - apply bind_ok in H1 as (T & HT & H1). apply bind_ok in H1 as (x & Hx & H1). apply bind_ok in H1 as (cache2 & Hc2 & H1). injection H1 as <- <-.
        pose proof (miasm_rates n k sh m b th c T x Hb Hci Hcg (Hc c (or_introl eq_refl)) HT Hx) as HA. destruct ca.
        + split; [|exists x; split; auto; exists F; auto]. apply bind_ok in Hc2 as (row & Hr & Hc2). apply bind_ok in Hc2 as (row' & Hr' & Hc2). apply vget_ok in Hr. apply vset_ok in Hr' as [Lr ->]. apply vset_ok in Hc2 as [Lc ->]. intros i row0 j y Hi Hj.
          destruct (Nat.eq_dec i (fst c)) as [->|Ni]; [|rewrite upd_nth_neq in Hi by auto; exact (HC i row0 j y Hi Hj)]. rewrite upd_nth_eq in Hi by auto. injection Hi as <-.
          destruct (Nat.eq_dec j (snd c)) as [->|Nj]; [|rewrite upd_nth_neq in Hj by auto; exact (HC (fst c) row j y Hr Hj)]. rewrite upd_nth_eq in Hj by auto. injection Hj as <-. exists F. split; [exact Hpast|]. destruct c; exact HA.
        + injection Hc2 as <-. split; auto. exists x. auto. }
    destruct St as (HC1 & x & -> & Hx). destruct (IH _ _ _ _ (fun c' H => Hc c' (or_intror H)) HC1 H2) as (HC2 & r & -> & Hl & Hr). split; auto. exists (x :: r). rewrite <- app_assoc. split; auto. cbn [length]. split; [congruence|].
    intros [|q] c' y E1 E2; cbn [nth_error] in E1, E2; [injection E1 as <-; injection E2 as <-; exact Hx|exact (Hr q c' y E1 E2)].
Qed.

Lemma single_list {A} (r : list A) : r <> [] -> NoDup r -> (forall a b, In a r -> In b r -> a = b) -> exists a, r = [a].
Proof. intros N D U. destruct r as [|a [|b r]]; [congruence|eauto|]. exfalso. inversion D as [|? ? Hn _]; subst. apply Hn. rewrite (U a b); [now left|now left|right; now left]. Qed.
Lemma scores_narrow n k s d cands l d' r ol : scoring_ok s -> (sf_init_distances s = true -> ci = true) -> (sf_goal_distances s = true -> cg = true) -> data_ok shuffle (2 * nv - 1) k s d -> cache_from s d ->
  (forall a p b, s = TotalOrder a p b -> ol = ts_order a p b (shuffle k false) (shuffle k true) nv) -> 0 < nv ->
  cands <> [] -> NoDup cands -> (forall c, In c cands -> good c /\ pair_below (2 * nv - 1) c) -> (forall i j, In (i, j) cands -> ~ In (j, i) cands) ->
  compute_scores P q0 ord random pick n k s d F cands = Ok (l, d') -> get_remaining_candidates cands l = Ok r ->
  narrows past F ol s cands r /\ cache_from s d' /\ r <> [] /\ NoDup r /\ (forall c, In c r -> In c cands).
Proof.
  intros Hs Hi Hg Hd HC Hol Hnv Hne HD Hc Hanti ES ER.
  destruct (compute_scores_ok P bag HP q0 Hq0 ord Hord ci cg t shuffle random pick Hrnd F lab HI HS n k s d (2 * nv - 1) cands Hs Hi Hg Hd Hne Hc) as (l0 & d0 & E0 & Hl & _ & Hv & _). rewrite ES in E0. injection E0 as <- <-.
  destruct (remaining_ok cands l Hl Hne) as (r0 & E0 & Hrne & Hr). rewrite ER in E0. injection E0 as <-. pose proof (remaining_nodup _ _ _ ER HD) as HDr.
  assert (Hsub : forall c, In c r -> In c cands) by (intros c Hcr; apply Hr in Hcr as (q & Hq & _); eapply nth_error_In; eauto).
  assert (Done : narrows past F ol s cands r /\ cache_from s d' -> narrows past F ol s cands r /\ cache_from s d' /\ r <> [] /\ NoDup r /\ (forall c, In c r -> In c cands)) by tauto. apply Done. clear Done.
  destruct s as [| |a p b| |sh m b th ca]; cbn [compute_scores sf_init_distances sf_goal_distances scoring_ok narrows] in *.
  - apply bind_ok in ES as (l1 & El & ES). injection ES as -> ->. split; [|exact I]. destruct (omap_nth _ _ _ El) as [_ Hn]. eapply best_ones_ok; eauto. intros q c x H1 H2. apply goal_relevance_rates; [apply Hc; eapply nth_error_In; eauto|eauto].
  - apply bind_ok in ES as (l1 & El & ES). injection ES as -> ->. split; [|exact I]. destruct (omap_nth _ _ _ El) as [_ Hn]. eapply best_ones_ok; eauto. intros q c x H1 H2. apply dfp_rates; [now apply Hg|apply Hc; eapply nth_error_In; eauto|eauto].
  - destruct d as [|o|]; try contradiction. split; [|destruct d'; exact I]. specialize (Hol a p b eq_refl). destruct Hd as (n' & Hn' & EN & ->). assert (n' = nv) by lia. subst n'. rewrite <- Hol in ES.
    apply bind_ok in ES as (l1 & El & ES). injection ES as -> _. destruct (omap_nth _ _ _ El) as [_ Hn].
    assert (At : forall q c x, nth_error cands q = Some c -> nth_error l q = Some x -> exists z o, x = Some (z, 1) /\ nth_error (all_pairs ol) z = Some o /\ (o = c \/ o = (snd c, fst c))).
    { intros q c x H1 H2. pose proof (find_pair_spec c (all_pairs ol) 0) as Hf. rewrite (Hn q c x H1 H2) in Hf. destruct Hf as (z & o & -> & Hz & Hsp). exists z, o. split; auto. split; auto. now apply same_pair_iff. }
    assert (Same : forall c c' o, In c cands -> In c' cands -> (o = c \/ o = (snd c, fst c)) -> (o = c' \/ o = (snd c', fst c')) -> c = c').
    { intros [c1 c2] [e1 e2] o H1 H2 K1 K2. cbn [fst snd] in *. destruct K1 as [->| ->], K2 as [K2|K2]; injection K2 as -> ->; auto; exfalso; eapply Hanti; eauto. }
    assert (Uni : forall c c', In c r -> In c' r -> c = c').
    { intros c c' H1 H2. pose proof (Hsub c H1) as S1. pose proof (Hsub c' H2) as S2. apply Hr in H1 as (q & Q1 & x & X1 & Y1). apply Hr in H2 as (q' & Q2 & x' & X2 & Y2). destruct (At q c x Q1 X1) as (z & o & -> & Z1 & O1). destruct (At q' c' x' Q2 X2) as (z' & o' & -> & Z2 & O2).
      apply (Same c c' o); auto. assert (z = z'); [|subst z'; rewrite Z1 in Z2; injection Z2 as ->; exact O2].
      pose proof (proj1 (best_eq l _ Hv (nth_error_In _ _ X1)) Y1 _ (nth_error_In _ _ X2)) as B1. pose proof (proj1 (best_eq l _ Hv (nth_error_In _ _ X2)) Y2 _ (nth_error_In _ _ X1)) as B2. cbn [score_lt] in B1, B2. apply Nat.ltb_ge in B1, B2. lia. }
    destruct (single_list r Hrne HDr Uni) as [c ->]. exists c. split; auto. assert (Hin : In c cands) by (apply Hsub; now left). split; auto. intros c' Hc'.
    assert (Hcr : In c [c]) by (now left). apply Hr in Hcr as (q & Q1 & x & X1 & Y1). destruct (At q c x Q1 X1) as (z & o & -> & Z1 & O1). apply In_nth_error in Hc' as [q' Q2]. destruct (nth_error l q') as [x'|] eqn:X2; [|apply nth_error_None in X2; pose proof (nth_error_Some_lt _ _ _ Q2); lia]. destruct (At q' c' x' Q2 X2) as (z' & o' & -> & Z2 & O2).
    pose proof (proj1 (best_eq l _ Hv (nth_error_In _ _ X1)) Y1 _ (nth_error_In _ _ X2)) as B1. cbn [score_lt] in B1. apply Nat.ltb_ge in B1. destruct (Nat.eq_dec z z') as [<-|Nz].
    + left. rewrite Z1 in Z2. injection Z2 as <-. apply (Same c' c o); auto. eapply nth_error_In; eauto.
    + right. destruct o as [u v], o' as [u' v']. exists u, v, u', v'. split; [split; [apply all_pairs_before; eapply nth_error_In; eauto|destruct c; cbn [fst snd] in O1; destruct O1 as [E|E]; injection E as -> ->; auto]|].
      split; [split; [apply all_pairs_before; eapply nth_error_In; eauto|destruct c'; cbn [fst snd] in O2; destruct O2 as [E|E]; injection E as -> ->; auto]|]. apply (all_pairs_order ol z z' u v u' v'); auto. lia.
  - injection ES as <- <-. split; [|exact I]. set (ch := random n k (length cands)) in *. assert (Hpos : 0 < length cands) by (destruct cands; [congruence|cbn [length]; lia]). pose proof (proj1 (proj2 Hrnd) n k (length cands) Hpos) as Hch. fold ch in Hch. set (l := map (fun i => if i =? ch then Some (0, 1) else None) (seq 0 (length cands))) in *.
    assert (Hq : forall q, q < length cands -> nth_error l q = Some (if q =? ch then Some (0, 1) else None)) by (intros q Hq; unfold l; rewrite nth_error_map, (nth_error_nth' _ 0), seq_nth by (rewrite ?seq_length; lia); reflexivity).
    assert (Uni : forall c q, nth_error cands q = Some c -> In c r -> q = ch).
    { intros c q Q1 H1. apply Hr in H1 as (q' & Q2 & x & X1 & Y1). assert (q = q') by (eapply (proj1 (NoDup_nth_error cands) HD); [eapply nth_error_Some_lt; eauto|congruence]). subst q'.
      pose proof (proj1 (best_eq l _ Hv (nth_error_In _ _ X1)) Y1 _ (nth_error_In _ _ (Hq ch Hch))) as B1. rewrite Nat.eqb_refl in B1. pose proof (eq_trans (eq_sym X1) (Hq q (nth_error_Some_lt _ _ _ Q1))) as EX. injection EX as ->. destruct (Nat.eqb_spec q ch); auto. discriminate. }
    destruct (single_list r Hrne HDr) as [c ->]; [|exists c; split; auto; apply Hsub; now left]. intros c c' H1 H2. pose proof (Hsub c H1) as S1. pose proof (Hsub c' H2) as S2. apply In_nth_error in S1 as [q Q1]. apply In_nth_error in S2 as [q' Q2]. rewrite (Uni c q Q1 H1) in Q1. rewrite (Uni c' q' Q2 H2) in Q2. congruence.
  - destruct d as [| |c]; try contradiction. apply bind_ok in ES as ([l1 c1] & El & ES). injection ES as -> <-. destruct (miasm_narrows n k sh m b th ca Hs (Hi eq_refl) (Hg eq_refl) cands [] c l c1 (fun c H => proj1 (Hc c H)) HC El) as (HC' & r1 & -> & _ & Hn). split; auto. cbn [app] in *. eapply best_ones_ok; eauto.
Qed.

(** *** Filtering *)
Definition all_from (sfs : list (scoring * sf_data)) : Prop := forall q s d, nth_error sfs q = Some (s, d) -> cache_from s d.
Lemma filter_narrowed n (ols : nat -> list nat) : 0 < nv -> forall sfs k cands r sfs', sel_ok ci cg shuffle (2 * nv - 1) k sfs -> all_from sfs ->
  (forall q s d a p b, nth_error sfs q = Some (s, d) -> s = TotalOrder a p b -> ols (k + q) = ts_order a p b (shuffle (k + q) false) (shuffle (k + q) true) nv) ->
  cands <> [] -> NoDup cands -> (forall c, In c cands -> good c /\ pair_below (2 * nv - 1) c) -> (forall i j, In (i, j) cands -> ~ In (j, i) cands) ->
  filter_candidates P q0 ord random pick n k sfs F cands = Ok (r, sfs') -> narrowed past F ols k (map fst sfs) cands r /\ all_from sfs'.
Proof.
  intros Hnv. induction sfs as [|[s d] sfs IH]; intros k cands r sfs' Hsel HC Hol Hne HD Hc Hanti E; cbn [filter_candidates map fst] in *.
  - injection E as <- <-. split; [constructor|]. intros [|q] s d H; discriminate.
  - destruct (Hsel 0 s d eq_refl) as (A1 & A2 & A3 & A4). rewrite Nat.add_0_r in A4. apply bind_ok in E as ([l d'] & ES & E). apply bind_ok in E as (mid & EM & E).
    destruct (scores_narrow n k s d cands l d' mid (ols k) A1 A2 A3 A4 (HC 0 s d eq_refl)) as (HN1 & HC1 & M1 & M2 & M3); auto. { intros a p b Hs. pose proof (Hol 0 s d a p b eq_refl Hs) as H. now rewrite Nat.add_0_r in H. }
    destruct (Nat.eqb_spec (length mid) 1) as [E1|N1].
    + injection E as <- <-. destruct mid as [|c [|c' mid]]; try discriminate. split; [now apply narrowed_one|]. intros [|q] s0 d0 H; cbn [nth_error] in H; [injection H as <- <-; exact HC1|exact (HC (S q) s0 d0 H)].
    + apply bind_ok in E as ([r1 sfs1] & E & E2). injection E2 as <- <-. destruct (IH (S k) mid r1 sfs1) as [H1 H2]; auto.
      * intros q s0 d0 H. replace (S k + q) with (k + S q) by lia. exact (Hsel (S q) s0 d0 H).
      * intros q s0 d0 H. exact (HC (S q) s0 d0 H).
      * intros q s0 d0 a p b H Hs. replace (S k + q) with (k + S q) by lia. exact (Hol (S q) s0 d0 a p b H Hs).
      * intros i j K1 K2. apply (Hanti i j); auto.
      * split; [|intros [|q] s0 d0 H; cbn [nth_error] in H; [injection H as <- <-; exact HC1|exact (H2 q s0 d0 H)]]. eapply narrowed_next; eauto. destruct mid as [|? [|? ?]]; cbn [length] in *; try congruence; lia.
Qed.
End SCORES.
