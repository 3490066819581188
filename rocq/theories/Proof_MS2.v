(** Scoring functions are defined on the systems that occur. *)
From Coq Require Import Permutation.
From Verif Require Import Outcome Spec_Task Spec_Relaxation Spec_Projection Model_PQ Model_Graph Model_MAS Spec_FTS Model_MASRun Model_MASAlgorithm Spec_Shrink Model_MergeStrategy Spec_MergeStrategy.
From Verif Require Import Proof_MAS1 Proof_MAS2 Proof_MAS3 Proof_MAS6 Proof_MAS11 Proof_MAS12 Proof_OC1 Proof_MAA5 Proof_MAA10 Proof_MS1.

Lemma omap_len {A B} (f : A -> outcome B) (R : A -> B -> Prop) : forall l, (forall x, In x l -> exists y, f x = Ok y /\ R x y) ->
  exists r, omap f l = Ok r /\ length r = length l /\ forall k x y, nth_error l k = Some x -> nth_error r k = Some y -> R x y.
Proof.
  induction l as [|x l IH]; intros H.
  - exists []. splits; auto. intros k x y E. destruct k; discriminate.
  - destruct (H x (or_introl eq_refl)) as (y & Ey & Hy). destruct IH as (r & Er & Hl & Hr); [intros z Hz; apply H; now right|]. exists (y :: r). cbn [omap length]. rewrite Ey. cbn [bind]. rewrite Er. splits; auto.
    intros [|k] a b E1 E2; cbn [nth_error] in *; [congruence|eauto].
Qed.

Section SCORES.
Variable P : pqueue.
Variable bag : PQ P -> list (nat * nat).
Hypothesis HP : pq_contract P bag.
Variable q0 : PQ P.
Hypothesis Hq0 : bag q0 = [].
Variable ord : list (nat * list nat) -> list (nat * list nat).
Hypothesis Hord : forall b, Permutation (ord b) b.
Variable ci cg : bool.
Variable t : task.
Hypothesis Ht : mas_task t.
Variable shuffle : nat -> bool -> list nat -> list nat.
Variable random : nat -> nat -> nat -> nat.
Variable pick : nat -> nat -> nat * nat -> bool -> list (list nat) -> nat * nat.
Hypothesis Hrnd : random_ok shuffle random pick.
Variable F : fts.
Variable lab : nat -> nat.
Hypothesis HI : Inv ci cg t lab F.
Hypothesis HS : forall i f, nth_error (F_factors F) i = Some (Some f) -> solv cg (F_labels F) f.
Local Notation L := (F_labels F).

Definition good_pair (c : nat * nat) : Prop := fst c <> snd c /\ (exists f, nth_error (F_factors F) (fst c) = Some (Some f)) /\ exists g, nth_error (F_factors F) (snd c) = Some (Some g).

Lemma goal_relevance_ok c : good_pair c -> exists s, goal_relevance_score F c = Ok s /\
  forall f g, nth_error (F_factors F) (fst c) = Some (Some f) -> nth_error (F_factors F) (snd c) = Some (Some g) -> s = if is_goal_relevant (f_ts f) || is_goal_relevant (f_ts g) then Some (0, 1) else None.
Proof.
  intros (_ & (f & Hf) & (g & Hg)). unfold goal_relevance_score, goal_relevant_flags.
  rewrite (proj2 (vget_ok _ (fst c) (is_goal_relevant (f_ts f)))) by (now rewrite nth_error_map, Hf). cbn [bind]. destruct (is_goal_relevant (f_ts f)) eqn:E.
  - eexists. split; [reflexivity|]. intros f' g' Hf' Hg'. rewrite Hf in Hf'. inv Hf'. now rewrite E.
  - rewrite (proj2 (vget_ok _ (snd c) (is_goal_relevant (f_ts g)))) by (now rewrite nth_error_map, Hg). cbn [bind]. eexists. split; [reflexivity|]. intros f' g' Hf' Hg'. rewrite Hf in Hf'. rewrite Hg in Hg'. inv Hf'. inv Hg'. now rewrite E.
Qed.

(** *** DFP *)
Lemma omin_fold (dg : dists) : forall (l : list (nat * nat)) r, (forall x, In x l -> snd x < length dg) ->
  exists r', fold_outcome (fun (r : option nat) (t : nat * nat) => let* d := vget dg (snd t) in Ok (omin r d)) l r = Ok r' /\
    (forall c, r' = Some c -> r = Some c \/ exists x, In x l /\ nth (snd x) dg None = Some c) /\
    (forall c, r = Some c -> exists c', r' = Some c' /\ c' <= c) /\
    (forall x c, In x l -> nth (snd x) dg None = Some c -> exists c', r' = Some c' /\ c' <= c).
Proof.
  induction l as [|x l IH]; intros r Hl; cbn [fold_outcome].
  - exists r. splits; auto; [intros c ->; eauto|intros x c []].
  - assert (Lx : snd x < length dg) by (apply Hl; now left). rewrite (proj2 (vget_ok dg (snd x) (nth (snd x) dg None))) by (now apply nth_error_nth'). cbn [bind].
    destruct (IH (omin r (nth (snd x) dg None))) as (r' & E & A & B & C); [intros y Hy; apply Hl; now right|]. exists r'. splits; auto.
    + intros c Hc. apply A in Hc as [Hc|(y & Hy & Hc)]; [|right; exists y; split; auto; now right]. destruct r as [a|], (nth (snd x) dg None) as [b|] eqn:Eb; cbn [omin] in Hc; try discriminate; auto.
      * inv Hc. destruct (Nat.min_spec a b) as [[_ ->]|[_ ->]]; [now left|right; exists x; split; auto; now left].
      * inv Hc. right. exists x. split; auto. now left.
    + intros c ->. destruct (nth (snd x) dg None) as [b|]; cbn [omin] in B; [destruct (B _ eq_refl) as (c' & E' & Hle); exists c'; split; auto; lia|eauto].
    + intros y c [<-|Hy] Hc; [|eauto]. rewrite Hc in B. destruct r as [a|]; cbn [omin] in B; destruct (B _ eq_refl) as (c' & E' & Hle); exists c'; split; auto; lia.
Qed.
Definition rank_of (T : tsys) (dg : dists) (g : info) (r : option (option nat)) : Prop :=
  match r with
  | None => group_relevant T g = false
  | Some None => group_relevant T g = true /\ forall x, In x (i_trans g) -> nth (snd x) dg None = None
  | Some (Some c) => group_relevant T g = true /\ (exists x, In x (i_trans g) /\ nth (snd x) dg None = Some c) /\ forall x c', In x (i_trans g) -> nth (snd x) dg None = Some c' -> c <= c'
  end.
Lemma group_rank_ok T dg g : (forall x, In x (i_trans g) -> snd x < length dg) -> exists r, group_rank T dg g = Ok r /\ rank_of T dg g r.
Proof.
  intros Hl. unfold group_rank. destruct (group_relevant T g) eqn:E; [|exists None; auto].
  destruct (omin_fold dg (i_trans g) None Hl) as (r & -> & A & _ & C). cbn [bind]. exists (Some r). split; auto. destruct r as [c|]; cbn [rank_of]; splits; auto.
  - destruct (A c eq_refl) as [?|?]; [discriminate|auto].
  - intros x c' Hx Hc. destruct (C x c' Hx Hc) as (c'' & Q & ?). now inv Q.
  - intros x Hx. destruct (nth (snd x) dg None) as [c|] eqn:Ec; auto. destruct (C x c Hx Ec) as (c' & Q & _). discriminate.
Qed.
Lemma vset_all {A} (v : A) : forall ls (l : list A), (forall k, In k ls -> k < length l) ->
  exists l', fold_outcome (fun l k => vset l k v) ls l = Ok l' /\ length l' = length l /\ forall k, nth_error l' k = if existsb (Nat.eqb k) ls then Some v else nth_error l k.
Proof.
  induction ls as [|a ls IH]; intros l Hl; cbn [fold_outcome existsb].
  - exists l. auto.
  - unfold vset. assert (La : a < length l) by (apply Hl; now left). rewrite (proj2 (Nat.ltb_lt _ _) La). cbn [bind]. destruct (IH (upd l a v)) as (l' & E & Hn & Hk); [intros k Hk; rewrite upd_length; apply Hl; now right|]. exists l'. rewrite upd_length in Hn. splits; auto.
    intros k. rewrite Hk. destruct (existsb (Nat.eqb k) ls) eqn:Eb; [now rewrite orb_true_r|rewrite orb_false_r]. destruct (Nat.eqb_spec k a) as [->|N]; [now apply upd_nth_eq|apply upd_nth_neq; congruence].
Qed.
Lemma active_infos_In T g : In g (active_infos T) <-> is_active g = true /\ exists k, nth_error (ts_infos T) k = Some g.
Proof. unfold active_infos. rewrite filter_In. split; [intros [H1 H2]; split; auto; now apply In_nth_error|intros [H1 [k Hk]]; split; auto; eapply nth_error_In; eauto]. Qed.
Lemma label_ranks_ok i f : cg = true -> nth_error (F_factors F) i = Some (Some f) ->
  exists dg r, d_goal (f_dist f) = Some dg /\ goal_distances (active L) (the_lts (f_ts f)) dg /\ compute_label_ranks F i = Ok r /\ length r = length L /\
    (forall l c k g, active L l c -> nth_error (ts_infos (f_ts f)) k = Some g -> In l (i_labels g) -> exists x, nth_error r l = Some x /\ rank_of (f_ts f) dg g x) /\
    (forall l x, nth_error r l = Some (Some x) -> exists c, active L l c).
Proof.
  intros Hcg Hf. pose proof (in_fac _ _ _ _ _ HI i f Hf) as HF. pose proof (fi_wf _ _ _ _ _ _ HF) as W. destruct (proj2 (fi_dist _ _ _ _ _ _ HF) Hcg) as (dg & Eg & Hg). pose proof (proj1 Hg) as Lg. cbn [the_lts l_n] in Lg.
  unfold compute_label_ranks. rewrite (proj2 (get_factor_ok F i f) Hf). cbn [bind]. rewrite Eg.
  assert (Q : forall gs ranks, (forall g, In g gs -> exists k, nth_error (ts_infos (f_ts f)) k = Some g) -> length ranks = length L ->
    exists r, fold_outcome (fun (ranks : list (option (option nat))) g => let* r := group_rank (f_ts f) dg g in fold_outcome (fun ranks l => vset ranks l r) (i_labels g) ranks) gs ranks = Ok r /\ length r = length L /\
      forall l, (exists g x, In g gs /\ In l (i_labels g) /\ nth_error r l = Some x /\ rank_of (f_ts f) dg g x) \/ ((forall g, In g gs -> ~ In l (i_labels g)) /\ nth_error r l = nth_error ranks l)).
  { induction gs as [|g gs IH]; intros ranks Hgs Hl; cbn [fold_outcome].
    - exists ranks. splits; auto.
    - destruct (Hgs g (or_introl eq_refl)) as [k Hk]. destruct (group_rank_ok (f_ts f) dg g) as (x & -> & Hx). { intros [s s'] Hin. rewrite Lg. apply (g_trans _ _ _ _ (w_g _ _ _ W) k g s s' Hk Hin). } cbn [bind].
      destruct (vset_all x (i_labels g) ranks) as (ranks' & -> & Hl' & Hn). { intros l Hin. destruct (g_group _ _ _ _ (w_g _ _ _ W) k g l Hk Hin) as (_ & c & Hc). rewrite Hl. eapply nth_error_Some_lt; exact Hc. } cbn [bind].
      destruct (IH ranks') as (r & E & Hr & Hl2); [intros g' Hg'; apply Hgs; now right|congruence|]. exists r. splits; auto. intros l. destruct (Hl2 l) as [(g' & x' & A1 & A2 & A3 & A4)|[A1 A2]]; [left; exists g', x'; splits; auto; now right|].
      destruct (existsb (Nat.eqb l) (i_labels g)) eqn:Eb.
      + left. exists g, x. apply existsb_exists in Eb as (l' & Hin & El). apply Nat.eqb_eq in El. subst l'. splits; auto; [now left|]. rewrite A2, Hn. rewrite (proj2 (existsb_exists _ _)); auto. exists l. split; auto. apply Nat.eqb_refl.
      + right. split; [|rewrite A2, Hn, Eb; auto]. intros g' [<-|Hg']; auto. intros Hin. assert (existsb (Nat.eqb l) (i_labels g) = true) by (apply existsb_exists; exists l; split; auto; apply Nat.eqb_refl). congruence. }
  destruct (Q (active_infos (f_ts f)) (repeat None (length L))) as (r & E & Hl & Hr). { intros g Hg0. apply active_infos_In in Hg0 as (_ & k & Hk). eauto. } { apply repeat_length. }
  exists dg, r. splits; auto.
  - intros l c k g Hc Hk Hin. assert (Ha : In g (active_infos (f_ts f))) by (apply active_infos_In; split; [apply Proof_MAS1.active_In; eauto|eauto]). destruct (Hr l) as [(g' & x & A1 & A2 & A3 & A4)|[A1 _]]; [|destruct (A1 g Ha Hin)].
    apply active_infos_In in A1 as (_ & k' & Hk'). destruct (g_group _ _ _ _ (w_g _ _ _ W) k g l Hk Hin) as [E1 _]. destruct (g_group _ _ _ _ (w_g _ _ _ W) k' g' l Hk' A2) as [E2 _]. rewrite E1 in E2. inv E2. rewrite Hk in Hk'. inv Hk'. eauto.
  - intros l x Hx. destruct (Hr l) as [(g' & x' & A1 & A2 & A3 & A4)|[_ A2]].
    + apply active_infos_In in A1 as (_ & k' & Hk'). exact (proj2 (g_group _ _ _ _ (w_g _ _ _ W) k' g' l Hk' A2)).
    + rewrite A2 in Hx. assert (Some x = @None (option nat)) by (apply nth_error_In, repeat_spec in Hx; auto). discriminate.
Qed.
Lemma dfp_ok c : cg = true -> good_pair c -> exists s, dfp_score F c = Ok s /\ valid s.
Proof.
  intros Hcg (_ & (f & Hf) & (g & Hg)). unfold dfp_score. destruct (label_ranks_ok (fst c) f Hcg Hf) as (_ & r1 & _ & _ & -> & _). destruct (label_ranks_ok (snd c) g Hcg Hg) as (_ & r2 & _ & _ & -> & _). cbn [bind]. eexists. split; [reflexivity|]. destruct (pair_weight r1 r2); cbn [option_map valid]; auto; lia.
Qed.

(** *** MIASM *)
Lemma shrink_copy_ok choose s th i f size : nth_error (F_factors F) i = Some (Some f) -> picks_two choose -> 1 <= size -> ci = true -> cg = true ->
  exists T, shrink_copy choose s th f size = Ok T /\ twf L (max_labels t) T /\ ts_init T <> None /\ (bucket_strategy s -> ts_n T <= size) /\ (ts_n (f_ts f) <= Nat.min size th -> T = f_ts f) /\
    exists cls, all_grouped (ts_n (f_ts f)) cls /\ is_image (active L) (the_lts (f_ts f)) cls (the_lts T).
Proof.
  intros Hf Hp Hsz Hci Hcg. pose proof (in_fac _ _ _ _ _ HI i f Hf) as HF. pose proof (fi_wf _ _ _ _ _ _ HF) as W. pose proof (HS i f Hf) as Hs. pose proof Hs as (x & Hx & _).
  assert (Same : (bucket_strategy s -> ts_n (f_ts f) <= size) -> exists T, Ok (f_ts f) = Ok T /\ twf L (max_labels t) T /\ ts_init T <> None /\ (bucket_strategy s -> ts_n T <= size) /\ (ts_n (f_ts f) <= Nat.min size th -> T = f_ts f) /\ exists cls, all_grouped (ts_n (f_ts f)) cls /\ is_image (active L) (the_lts (f_ts f)) cls (the_lts T)).
  { intros Hbig. exists (f_ts f). split; [reflexivity|]. split; [exact W|]. split; [congruence|]. split; [exact Hbig|]. split; [reflexivity|]. exists (map (fun s => [s]) (seq 0 (ts_n (f_ts f)))).
    assert (Hc : forall k s, in_class (map (fun s => [s]) (seq 0 (ts_n (f_ts f)))) k s <-> k = s /\ s < ts_n (f_ts f)).
    { intros k s0. unfold in_class. rewrite nth_error_map. split.
      - intros (c & E & Hin). destruct (nth_error (seq 0 (ts_n (f_ts f))) k) as [y|] eqn:Ek; [|discriminate]. inv E. destruct Hin as [<-|[]]. pose proof (nth_error_Some_lt _ _ _ Ek) as Hlt. rewrite seq_length in Hlt. rewrite (nth_error_nth' _ 0), seq_nth in Ek by (rewrite ?seq_length; lia). inv Ek. auto.
      - intros [-> Hlt]. exists [s0]. split; [|now left]. rewrite (nth_error_nth' _ 0), seq_nth by (rewrite ?seq_length; lia). reflexivity. }
    assert (Hcc : concat (map (fun s => [s]) (seq 0 (ts_n (f_ts f)))) = seq 0 (ts_n (f_ts f))).
    { generalize (seq 0 (ts_n (f_ts f))). induction l as [|a l IH]; cbn [map concat app]; auto. now rewrite IH. }
    split.
    - split; [rewrite Hcc; apply seq_NoDup|]. split; [intros c Hin; apply in_map_iff in Hin as (y & <- & _); discriminate|]. intros s0. rewrite Hcc, in_seq. lia.
    - split; [cbn [the_lts l_n]; now rewrite map_length, seq_length|]. split; [|split].
      + intros k. split; [|intros (y & Hy & Hg); apply Hc in Hy as [-> _]; auto]. intros Hg. exists k. split; auto. apply Hc. split; auto. cbn [the_lts l_goal] in Hg. pose proof (nth_error_Some_lt _ _ _ Hg). now rewrite (w_goals _ _ _ W) in H.
      + intros a k Ha. split; [intros E; rewrite Ha in E; inv E; apply Hc; split; auto; now apply (w_init _ _ _ W)|]. intros H. apply Hc in H as [-> _]. exact Ha.
      + intros a c y z Ha. split; [|intros (s1 & s2 & H1 & H2 & H3); apply Hc in H1 as [-> _]; apply Hc in H2 as [-> _]; auto]. intros Hst. pose proof Hst as (p & g & _ & G1 & G2). destruct (g_trans _ _ _ _ (w_g _ _ _ W) p g y z G1 G2). exists y, z. splits; auto; apply Hc; auto. }
  unfold shrink_copy. destruct (Nat.ltb_spec (Nat.min size th) (ts_n (f_ts f))) as [Hlt|Hge]; [|apply Same; lia].
  destruct (shrink_classes_ok ci cg t L lab f choose s size HF Hs Hp Hsz) as (cls & -> & A & Hbk & _); [intros _; exact Hci|intros _; exact Hcg|]. cbn [bind]. destruct (Nat.ltb_spec (length cls) (ts_n (f_ts f))) as [Hc|Hc]; [|apply Same; intros Hb; specialize (Hbk Hb); lia].
  destruct (all_grouped_grouping _ _ A) as [HG Hall]. destruct (abstraction_mapping_ok (ts_n (f_ts f)) cls HG) as (m & -> & Hm & Hk). cbn [bind].
  destruct (abstract_ts_ok L (max_labels t) (f_ts f) cls m x W HG Hx Hm Hk) as (T & -> & WT & HIm). exists T. split; [reflexivity|]. split; [exact WT|]. split; [|split; [|split; [lia|exists cls; auto]]].
  - pose proof HIm as (_ & _ & Hini & _). cbn [the_lts l_init] in Hini. destruct (Hall x (w_init _ _ _ W x Hx)) as [j Hj]. rewrite (proj2 (Hini x j Hx) Hj). discriminate.
  - pose proof HIm as (Hn & _). cbn [the_lts l_n] in Hn. rewrite Hn. exact Hbk.
Qed.
Lemma external_ok choose s m b th c : good_pair c -> (forall x, picks_two (choose x)) -> 1 <= b <= m -> ci = true -> cg = true ->
  exists T, shrink_before_merge_externally ord choose s m b th F c = Ok T /\ twf L (max_labels t) T /\ ts_init T <> None /\
    (forall f g, nth_error (F_factors F) (fst c) = Some (Some f) -> nth_error (F_factors F) (snd c) = Some (Some g) ->
       exists T1 T2 cls1 cls2, all_grouped (ts_n (f_ts f)) cls1 /\ is_image (active L) (the_lts (f_ts f)) cls1 (the_lts T1) /\ all_grouped (ts_n (f_ts g)) cls2 /\ is_image (active L) (the_lts (f_ts g)) cls2 (the_lts T2) /\
         is_product (active L) (the_lts T1) (the_lts T2) (the_lts T) /\
         (bucket_strategy s -> ts_n T1 <= b /\ ts_n T2 <= b /\ ts_n T1 * ts_n T2 <= m) /\
         (ts_n (f_ts f) <= Nat.min b th -> ts_n (f_ts g) <= Nat.min b th -> ts_n (f_ts f) * ts_n (f_ts g) <= m -> T1 = f_ts f /\ T2 = f_ts g)).
Proof.
  intros (_ & (f & Hf) & (g & Hg)) Hp Hb Hci Hcg. unfold shrink_before_merge_externally. rewrite (proj2 (get_factor_ok F _ f) Hf), (proj2 (get_factor_ok F _ g) Hg). cbn [bind].
  assert (Pos : forall i h, nth_error (F_factors F) i = Some (Some h) -> 1 <= ts_n (f_ts h)). { intros i h Hh. destruct (HS i h Hh) as (x & Hx & _). apply (w_init _ _ _ (fi_wf _ _ _ _ _ _ (in_fac _ _ _ _ _ HI i h Hh))) in Hx. lia. }
  pose proof (compute_shrink_sizes_ok (ts_n (f_ts f)) (ts_n (f_ts g)) b m (Pos _ _ Hf) (Pos _ _ Hg) (proj1 Hb) (proj2 Hb)) as Hsz. destruct (compute_shrink_sizes (ts_n (f_ts f)) (ts_n (f_ts g)) b m) as [s1 s2]. destruct Hsz as ([S1 U1] & [S2 U2] & Sm & Sf).
  destruct (shrink_copy_ok (choose false) s th (fst c) f s1 Hf (Hp false) S1 Hci Hcg) as (T1 & -> & W1 & I1 & K1 & E1 & cls1 & A1 & B1). destruct (shrink_copy_ok (choose true) s th (snd c) g s2 Hg (Hp true) S2 Hci Hcg) as (T2 & -> & W2 & I2 & K2 & E2 & cls2 & A2 & B2). cbn [bind]. rewrite (in_max _ _ _ _ _ HI).
  destruct (merge_ts_ok L (max_labels t) T1 T2 W1 W2 ord Hord) as (T & -> & W & HPr). exists T. splits; auto.
  - pose proof HPr as (_ & _ & Hini & _). cbn [the_lts l_init] in Hini. rewrite Hini. destruct (ts_init T1); [|congruence]. destruct (ts_init T2); [discriminate|congruence].
  - intros f' g' Hf' Hg'. rewrite Hf in Hf'. rewrite Hg in Hg'. inv Hf'. inv Hg'. exists T1, T2, cls1, cls2. do 5 (split; [assumption|]). split.
    + intros Hb'. specialize (K1 Hb'). specialize (K2 Hb'). assert (ts_n T1 * ts_n T2 <= s1 * s2) by (now apply Nat.mul_le_mono). lia.
    + intros L1 L2 L3. rewrite (Nat.min_l _ b) in Sf by lia. rewrite (Nat.min_l _ b) in Sf by lia. destruct (Sf L3) as [-> ->]. split; [apply E1|apply E2]; lia.
Qed.
Lemma ratio_ok T : twf L (max_labels t) T -> ts_init T <> None -> exists di dg, init_distances (active L) (the_lts T) di /\ goal_distances (active L) (the_lts T) dg /\
  miasm_ratio P q0 T = Ok (Some (count_alive di dg, ts_n T)) /\ 0 < ts_n T.
Proof.
  intros W Hi. assert (Hn : 0 < ts_n T) by (destruct (ts_init T) as [x|] eqn:E; [pose proof (w_init _ _ _ W x E); lia|congruence]). unfold miasm_ratio.
  destruct (compute_distances_ok P bag q0 L (max_labels t) T true true no_distances HP Hq0 W) as (D & -> & [D1 D2] & _); auto. cbn [bind]. destruct (D1 eq_refl) as (di & -> & Hdi). destruct (D2 eq_refl) as (dg & -> & Hdg).
  exists di, dg. splits; auto. destruct (Nat.eqb_spec (ts_n T) 0); [lia|reflexivity].
Qed.

(** *** All of them *)
Definition cache_ok (N : nat) (c : list (list (option score))) : Prop := length c = N /\ forall i row, nth_error c i = Some row -> length row = N /\ forall j s, nth_error row j = Some (Some s) -> valid s.
Definition data_ok (N k : nat) (s : scoring) (d : sf_data) : Prop :=
  match s, d with
  | TotalOrder a p b, Order o => exists n, 0 < n /\ N = 2 * n - 1 /\ o = all_pairs (ts_order a p b (shuffle k false) (shuffle k true) n)
  | MIASM _ _ _ _ _, Cache c => cache_ok N c
  | TotalOrder _ _ _, _ => False
  | MIASM _ _ _ _ _, _ => False
  | _, _ => True
  end.
Definition pair_below (N : nat) (c : nat * nat) : Prop := fst c < N /\ snd c < N.

Lemma miasm_fold n k s m b th ca N : 1 <= b <= m -> ci = true -> cg = true -> forall cands scores cache, (forall c, In c cands -> good_pair c /\ pair_below N c) -> cache_ok N cache -> (forall x, In x scores -> valid x) ->
  exists l cache', fold_outcome (miasm_score P q0 ord pick n k s m b th ca F) cands (scores, cache) = Ok (l, cache') /\ length l = length scores + length cands /\ cache_ok N cache' /\ forall x, In x l -> valid x.
Proof.
  intros Hb Hci Hcg. induction cands as [|c cands IH]; intros scores cache Hc Hk Hv; cbn [fold_outcome].
  - exists scores, cache. cbn [length]. splits; auto; lia.
  - destruct (Hc c (or_introl eq_refl)) as [Hgp [B1 B2]]. destruct Hk as [K1 K2]. destruct (nth_error cache (fst c)) as [row|] eqn:Er; [|apply nth_error_None in Er; lia]. destruct (K2 _ row Er) as [R1 R2].
    assert (Next : forall x cache', valid x -> cache_ok N cache' -> exists l cache'', fold_outcome (miasm_score P q0 ord pick n k s m b th ca F) cands (scores ++ [x], cache') = Ok (l, cache'') /\ length l = length scores + length (c :: cands) /\ cache_ok N cache'' /\ forall y, In y l -> valid y).
    { intros x cache' Vx Hk'. destruct (IH (scores ++ [x]) cache') as (l & cache'' & E & Hl & Hk'' & Hv'); auto; [intros c' Hc'; apply Hc; now right|intros y Hy; apply in_app_iff in Hy as [Hy|[<-|[]]]; auto|]. exists l, cache''. rewrite app_length in Hl. cbn [length] in *. splits; auto; lia. }
    assert (Step : exists x cache', miasm_score P q0 ord pick n k s m b th ca F (scores, cache) c = Ok (scores ++ [x], cache') /\ valid x /\ cache_ok N cache').
    { unfold miasm_score. destruct (if ca then let* row := vget cache (fst c) in vget row (snd c) else Ok None) as [old| | |] eqn:Eo.
      2,3,4: exfalso; destruct ca; try discriminate; rewrite (proj2 (vget_ok _ _ _) Er) in Eo; cbn [bind] in Eo; destruct (nth_error row (snd c)) as [z|] eqn:Ez; [rewrite (proj2 (vget_ok _ _ _) Ez) in Eo; discriminate|apply nth_error_None in Ez; lia].
      cbn [bind]. destruct old as [x|].
      - exists x, cache. split; auto. split; [|split; auto]. destruct ca; [|discriminate]. rewrite (proj2 (vget_ok _ _ _) Er) in Eo. cbn [bind] in Eo. apply vget_ok in Eo. eauto.
      - destruct (external_ok (pick n k c) s m b th c Hgp) as (T & -> & WT & IT & _); auto; [intros x gs Hgs; apply (proj2 (proj2 Hrnd)); auto|]. cbn [bind].
        destruct (ratio_ok T WT IT) as (di & dg & _ & _ & -> & Hpos). cbn [bind]. destruct ca; cbn [bind]; [|eexists _, cache; split; [reflexivity|]; split; [exact Hpos|split; auto]].
        rewrite (proj2 (vget_ok _ _ _) Er). cbn [bind]. unfold vset. rewrite (proj2 (Nat.ltb_lt (snd c) (length row))) by lia. cbn [bind]. rewrite (proj2 (Nat.ltb_lt (fst c) (length cache))) by lia. cbn [bind].
        eexists _, _. split; [reflexivity|]. split; [exact Hpos|]. split; [now rewrite upd_length|]. intros i row' Hrow'. destruct (Nat.eq_dec i (fst c)) as [->|Ni]; [|rewrite upd_nth_neq in Hrow' by auto; eauto]. rewrite upd_nth_eq in Hrow' by lia. inv Hrow'. split; [now rewrite upd_length|].
        intros j x Hx. destruct (Nat.eq_dec j (snd c)) as [->|Nj]; [rewrite upd_nth_eq in Hx by lia; inv Hx; exact Hpos|rewrite upd_nth_neq in Hx by auto; eauto]. }
    destruct Step as (x & cache' & -> & Vx & Hk'). cbn [bind]. now apply Next.
Qed.

Lemma compute_scores_ok n k s d N cands : scoring_ok s -> (sf_init_distances s = true -> ci = true) -> (sf_goal_distances s = true -> cg = true) -> data_ok N k s d ->
  cands <> [] -> (forall c, In c cands -> good_pair c /\ pair_below N c) ->
  exists l d', compute_scores P q0 ord random pick n k s d F cands = Ok (l, d') /\ length l = length cands /\ data_ok N k s d' /\ (forall x, In x l -> valid x) /\
    (breaks_ties s -> NoDup cands -> (forall i j, In (i, j) cands -> ~ In (j, i) cands) -> exists p, forall q x, nth_error l q = Some x -> score_eq x (best_score l) = true -> q = p).
Proof.
  intros Hs Hi Hg Hd Hne Hc. destruct s as [| |a p b| |s m b th ca]; cbn [compute_scores sf_init_distances sf_goal_distances scoring_ok breaks_ties] in *.
  - destruct (omap_len (goal_relevance_score F) (fun _ y => valid y) cands) as (l & -> & Hl & Hr). { intros c Hin. destruct (Hc c Hin) as [Hgp _]. destruct (goal_relevance_ok c Hgp) as (y & E & Hy). exists y. split; auto. destruct Hgp as (_ & (f & Hf) & g & Hg'). rewrite (Hy f g Hf Hg'). destruct (_ || _); cbn [valid]; auto. }
    cbn [bind]. exists l, d. splits; auto; [|intros []]. intros x Hx. apply In_nth_error in Hx as [q Hq]. destruct (nth_error cands q) as [c|] eqn:Ec; [eauto|apply nth_error_None in Ec; pose proof (nth_error_Some_lt _ _ _ Hq); lia].
  - destruct (omap_len (dfp_score F) (fun _ y => valid y) cands) as (l & -> & Hl & Hr). { intros c Hin. apply dfp_ok; auto. now apply Hc. }
    cbn [bind]. exists l, d. splits; auto; [|intros []]. intros x Hx. apply In_nth_error in Hx as [q Hq]. destruct (nth_error cands q) as [c|] eqn:Ec; [eauto|apply nth_error_None in Ec; pose proof (nth_error_Some_lt _ _ _ Hq); lia].
  - destruct d as [|o|]; try contradiction. destruct Hd as (nv & Hnv & -> & ->). pose proof (ts_order_perm a p b (shuffle k false) (shuffle k true) nv (proj1 Hrnd k false) (proj1 Hrnd k true) Hnv) as Hperm. set (ol := ts_order a p b (shuffle k false) (shuffle k true) nv) in *.
    assert (Hin : forall v, v < 2 * nv - 1 -> In v ol) by (intros v Hv; apply (Permutation_in _ (Permutation_sym Hperm)), in_seq; lia).
    destruct (omap_len (fun c => find_pair c (all_pairs ol) 0) (fun c y => exists q, y = Some (q, 1) /\ exists o, nth_error (all_pairs ol) q = Some o /\ same_pair c o = true) cands) as (l & -> & Hl & Hr).
    { intros c Hc0. destruct (Hc c Hc0) as [(N1 & _) [B1 B2]]. destruct (find_pair_ok ol c (Hin _ B1) (Hin _ B2) N1) as (q & E & Ho). exists (Some (q, 1)). split; auto. eauto. }
    cbn [bind]. exists l, (Order (all_pairs ol)). splits; auto.
    + exists nv. auto.
    + intros x Hx. apply In_nth_error in Hx as [q Hq]. destruct (nth_error cands q) as [c|] eqn:Ec; [|apply nth_error_None in Ec; pose proof (nth_error_Some_lt _ _ _ Hq); lia]. destruct (Hr q c x Ec Hq) as (z & -> & _). cbn [valid]. lia.
    + intros _ HD Hanti.
      assert (Lne : l <> []) by (destruct l; [destruct cands; [congruence|discriminate]|discriminate]). pose proof (best_in l Lne) as Hbest. apply In_nth_error in Hbest as [pb Hpb]. exists pb. intros q x Hq Heq.
      destruct (nth_error cands q) as [c1|] eqn:E1; [|apply nth_error_None in E1; pose proof (nth_error_Some_lt _ _ _ Hq); lia]. destruct (nth_error cands pb) as [c2|] eqn:E2; [|apply nth_error_None in E2; pose proof (nth_error_Some_lt _ _ _ Hpb); lia].
      destruct (Hr q c1 x E1 Hq) as (z1 & -> & o1 & O1 & S1). destruct (Hr pb c2 _ E2 Hpb) as (z2 & E & o2 & O2 & S2). rewrite E in Heq. cbn [score_eq] in Heq. apply Nat.eqb_eq in Heq. assert (z1 = z2) by lia. subst z2. rewrite O1 in O2. inv O2.
      assert (c1 = c2 \/ c1 = (snd c2, fst c2)). { apply same_pair_iff in S1, S2. destruct c1, c2. cbn [fst snd] in *. destruct S1 as [-> | ->], S2 as [S2|S2]; inv S2; auto. }
      destruct H as [-> | ->].
      * eapply (proj1 (NoDup_nth_error cands) HD); [eapply nth_error_Some_lt; eauto|congruence].
      * exfalso. apply (Hanti (fst c2) (snd c2)); [rewrite <- surjective_pairing; eapply nth_error_In; eauto|eapply nth_error_In; eauto].
  - assert (Hpos : 0 < length cands) by (destruct cands; [congruence|cbn [length]; lia]). pose proof (proj1 (proj2 Hrnd) n k (length cands) Hpos) as Hch. set (ch := random n k (length cands)) in *.
    eexists _, d. split; [reflexivity|]. split; [now rewrite map_length, seq_length|]. split; [destruct d; auto|]. split.
    + intros x Hx. apply in_map_iff in Hx as (i & <- & _). destruct (i =? ch); cbn [valid]; auto.
    + intros _ _ _. exists ch. intros q x Hq Heq. set (l := map _ _) in *.
      assert (Hl : forall q x, nth_error l q = Some x -> x = if q =? ch then Some (0, 1) else None).
      { intros q' x' H. unfold l in H. rewrite nth_error_map in H. destruct (nth_error (seq 0 (length cands)) q') as [y|] eqn:Ey; [|discriminate]. pose proof (nth_error_Some_lt _ _ _ Ey) as Hlt. rewrite seq_length in Hlt. rewrite (nth_error_nth' _ 0), seq_nth in Ey by (rewrite ?seq_length; lia). inv Ey. now inv H. }
      assert (Hchl : nth_error l ch = Some (Some (0, 1))). { unfold l. rewrite nth_error_map, (nth_error_nth' _ 0), seq_nth by (rewrite ?seq_length; lia). cbn [option_map Nat.add]. now rewrite Nat.eqb_refl. }
      destruct (best_least l None I) as [_ Hleast]. { intros y Hy. apply In_nth_error in Hy as [z Hz]. rewrite (Hl z y Hz). destruct (z =? ch); cbn [valid]; auto. } cbv zeta in Hleast. specialize (Hleast _ (nth_error_In _ _ Hchl)). fold (best_score l) in Hleast.
      pose proof (Hl q x Hq) as Ex. destruct (Nat.eqb_spec q ch) as [->|Nq]; auto. subst x. destruct (best_score l) as [[? ?]|]; cbn [score_eq score_lt] in *; discriminate.
  - destruct d as [| |c]; try contradiction. destruct (miasm_fold n k s m b th ca N Hs (Hi eq_refl) (Hg eq_refl) cands [] c Hc Hd) as (l & c' & -> & Hl & Hk & Hv); [intros x []|]. cbn [bind]. exists l, (Cache c'). splits; auto. intros [].
Qed.

(** *** Filtering *)
Definition sel_ok (N : nat) (k : nat) (sfs : list (scoring * sf_data)) : Prop :=
  forall q s d, nth_error sfs q = Some (s, d) -> scoring_ok s /\ (sf_init_distances s = true -> ci = true) /\ (sf_goal_distances s = true -> cg = true) /\ data_ok N (k + q) s d.
Lemma filter_candidates_ok n N : forall sfs k cands, sel_ok N k sfs -> cands <> [] -> NoDup cands -> (forall c, In c cands -> good_pair c /\ pair_below N c) -> (forall i j, In (i, j) cands -> ~ In (j, i) cands) ->
  exists r sfs', filter_candidates P q0 ord random pick n k sfs F cands = Ok (r, sfs') /\ sel_ok N k sfs' /\ map fst sfs' = map fst sfs /\ r <> [] /\ NoDup r /\ (forall c, In c r -> In c cands) /\ ((exists s d, In (s, d) sfs /\ breaks_ties s) -> length r = 1).
Proof.
  induction sfs as [|[s d] sfs IH]; intros k cands Hsel Hne HD Hc Hanti; cbn [filter_candidates].
  - exists cands, []. splits; auto. intros (s & d & [] & _).
  - destruct (Hsel 0 s d eq_refl) as (A1 & A2 & A3 & A4). rewrite Nat.add_0_r in A4. destruct (compute_scores_ok n k s d N cands A1 A2 A3 A4 Hne Hc) as (l & d' & -> & Hl & Hd' & _ & Hb). cbn [bind].
    destruct (remaining_ok cands l Hl Hne) as (r & Er & Hr & Hin). rewrite Er. cbn [bind]. assert (Hsub : forall c, In c r -> In c cands) by (intros c Hcr; apply Hin in Hcr as (q & Hq & _); eapply nth_error_In; eauto).
    assert (HDr : NoDup r) by (eapply remaining_nodup; eauto).
    assert (Hsel1 : sel_ok N k ((s, d') :: sfs)). { intros [|q] s0 d0 E; cbn [nth_error] in E; [inv E; rewrite Nat.add_0_r; auto|apply (Hsel (S q)); exact E]. }
    assert (Hone : breaks_ties s -> length r = 1).
    { intros Ht'. destruct (Hb Ht' HD Hanti) as [p Hp]. assert (Hu : forall c c', In c r -> In c' r -> c = c'). { intros c c' H1 H2. apply Hin in H1 as (q1 & Q1 & x1 & X1 & Y1). apply Hin in H2 as (q2 & Q2 & x2 & X2 & Y2). apply (Hp q1 x1 X1) in Y1. apply (Hp q2 x2 X2) in Y2. congruence. }
      destruct r as [|c [|c' r]]; [congruence|reflexivity|]. exfalso. inversion HDr as [|? ? Hn _]; subst. apply Hn. rewrite (Hu c c'); [now left|now left|right; now left]. }
    destruct (Nat.eqb_spec (length r) 1) as [E1|N1].
    + exists r, ((s, d') :: sfs). splits; auto.
    + destruct (IH (S k) r) as (r' & sfs' & -> & B1 & B2 & B3 & B4 & B5 & B6); auto.
      * intros q s0 d0 E. replace (S k + q) with (k + S q) by lia. apply (Hsel (S q)). exact E.
      * intros i j H1 H2. apply (Hanti i j); auto.
      * cbn [bind]. exists r', ((s, d') :: sfs'). splits; auto.
        -- intros [|q] s0 d0 E; cbn [nth_error] in E; [inv E; rewrite Nat.add_0_r; auto|]. replace (k + S q) with (S k + q) by lia. now apply B1.
        -- cbn [map fst]. now rewrite B2.
        -- intros (s0 & d0 & [E|Hin0] & Hb0); [inv E; exfalso; auto|]. apply B6. eauto.
Qed.
Lemma select_ok n N sfs cands : sel_ok N 0 sfs -> cands <> [] -> NoDup cands -> (forall c, In c cands -> good_pair c /\ pair_below N c) -> (forall i j, In (i, j) cands -> ~ In (j, i) cands) ->
  (exists c sfs', select_merge_from_candidates P q0 ord random pick n sfs F cands = Ok (c, sfs') /\ In c cands /\ sel_ok N 0 sfs' /\ map fst sfs' = map fst sfs) \/
  (select_merge_from_candidates P q0 ord random pick n sfs F cands = Exit 32 /\ forall s d, In (s, d) sfs -> ~ breaks_ties s).
Proof.
  intros Hsel Hne HD Hc Hanti. unfold select_merge_from_candidates. destruct (filter_candidates_ok n N sfs 0 cands Hsel Hne HD Hc Hanti) as (r & sfs' & -> & B1 & B2 & B3 & B4 & B5 & B6). cbn [bind].
  destruct r as [|c [|c' r]]; [congruence|left|right].
  - exists c, sfs'. splits; auto. apply B5. now left.
  - split; auto. intros s d Hin Hb. discriminate B6. eauto.
Qed.
End SCORES.
