(** Shrinking by bisimulation: the result. *)
From Coq Require Import Permutation Sorted.
From Verif Require Import Outcome Spec_Task Model_PQ Model_Graph Model_Equivalence Model_MAS Spec_FTS Model_MASAlgorithm Spec_Shrink.
From Verif Require Import Proof_MAS1 Proof_MAS2 Proof_MAS13 Proof_OC1 Proof_Pot5 Proof_MAA1 Proof_MAA6 Proof_MAA7 Proof_MAA8.

Lemma nodup_concat_classes (cls : list (list nat)) : (forall k c, nth_error cls k = Some c -> NoDup c) ->
  (forall k k' s, in_class cls k s -> in_class cls k' s -> k = k') -> NoDup (concat cls).
Proof.
  induction cls as [|c cls IH]; intros H1 H2; cbn [concat]; [constructor|]. apply NoDup_app_disj.
  - apply (H1 0). reflexivity.
  - apply IH; [intros k c' H; exact (H1 (S k) c' H)|]. intros k k' s (a & A1 & A2) (b & B1 & B2). assert (S k = S k') by (apply (H2 _ _ s); [exists a|exists b]; auto). congruence.
  - intros s Hs Hc. apply in_concat in Hc as (c' & Hc & Hs'). apply In_nth_error in Hc as [k Hk]. assert (0 = S k) by (apply (H2 _ _ s); [exists c|exists c']; auto). discriminate.
Qed.
Lemma concat_class (cls : list (list nat)) s : In s (concat cls) <-> exists k, in_class cls k s.
Proof.
  rewrite in_concat. split.
  - intros (c & Hc & Hs). apply In_nth_error in Hc as [k Hk]. exists k, c. auto.
  - intros (k & c & Hk & Hs). exists c. split; auto. eapply nth_error_In; eauto.
Qed.

Section BISIM.
Variable L : label_costs.
Variable maxl : nat.
Variable T : tsys.
Variable dg : dists.
Hypothesis W : twf L maxl T.
Hypothesis HD : goal_distances (active L) (the_lts T) dg.
Notation n := (ts_n T).
Notation hgof := (hgof T dg).
Notation goalb := (goalb T).
Notation GI := (GI T dg).

Section MODE.
Variable greedy : bool.
Notation SUCC := (SUCC T dg greedy).
Definition stable (s2g : list nat) : Prop := forall s t g, nth_error s2g s = Some g -> nth_error s2g t = Some g -> forall x, SUCC s2g s x <-> SUCC s2g t x.
Definition respects (R : nat -> nat -> Prop) (s2g : list nat) : Prop := forall s t, R s t -> nth_error s2g s = nth_error s2g t.
Definition stable_rel (R : nat -> nat -> Prop) : Prop := (forall s t, R s t -> s < n /\ t < n) /\
  forall s2g, length s2g = n -> respects R s2g -> forall s t, R s t -> forall x, SUCC s2g s x <-> SUCC s2g t x.

Lemma refine_ok use_up target : forall fuel s2g num, GI s2g num -> n < fuel + num ->
  exists s2g' num', refine_groups fuel greedy use_up target T dg s2g num = Ok (s2g', num') /\ GI s2g' num' /\ (target <= num -> s2g' = s2g /\ num' = num) /\ (num <= target -> num' <= target) /\
    (num' < target -> use_up = true \/ n <= target -> stable s2g') /\ (forall R, stable_rel R -> respects R s2g -> num' < target -> respects R s2g').
Proof.
  induction fuel as [|fuel IH]; intros s2g num G Hf; cbn [refine_groups]; destruct (Nat.leb_spec target num) as [Hle|Hlt].
  - exists s2g, num. splits; auto. intros; lia.
  - apply (GI_le _ _ _ _) in G. lia.
  - exists s2g, num. splits; auto. intros; lia.
  - destruct (signatures_ok L maxl T dg greedy W HD s2g (gi_len _ _ _ _ G)) as (sigs & -> & S1 & S2 & S3). cbn [bind].
    destruct (round_ok T dg greedy s2g num G sigs S1 S2 S3 target use_up Hlt) as (r & -> & G' & R1 & R2 & R3 & R4 & R5 & R6). cbn [bind].
    assert (Find : forall s, s < n -> exists e, In e sigs /\ sg_state e = s).
    { intros s Hs. assert (Hin : In s (map sg_state sigs)) by (eapply Permutation_in; [symmetry; exact S2|apply in_seq; lia]). apply in_map_iff in Hin as (e & He & Hin). eauto. }
    assert (Coarse : forall R, stable_rel R -> respects R s2g -> r_num r < target -> respects R (r_s2g r)).
    { intros R [HR1 HR2] Hres Hn s t Hst. destruct (HR1 s t Hst) as [Ls Lt]. destruct (Find s Ls) as (e & He & Es). destruct (Find t Lt) as (e' & He' & Et). rewrite <- Es, <- Et. apply R5; auto.
      destruct (S3 e He) as (_ & _ & E1 & E2 & E3). destruct (S3 e' He') as (_ & _ & E1' & E2' & E3'). split.
      - pose proof (Hres s t Hst) as Q. rewrite <- Es, <- Et, E1, E1' in Q. congruence.
      - apply strict_ext; auto. intros x. rewrite E3, E3', Es, Et. apply HR2; auto. apply G. }
    destruct (r_stable r) eqn:Est; cbn [orb].
    + exists (r_s2g r), (r_num r). destruct (R2 eq_refl) as [Q1 Q2]. splits; auto; try (intros; lia).
      intros Hn Hu. rewrite Q1 in *. pose proof (no_new_same T dg greedy s2g num G sigs S1 S3 (R4 eq_refl (R6 Hu))) as Hsame.
      intros s t g Hs Ht x. assert (Ls : s < n) by (rewrite <- (gi_len _ _ _ _ G); eapply nth_error_Some_lt; eauto). assert (Lt : t < n) by (rewrite <- (gi_len _ _ _ _ G); eapply nth_error_Some_lt; eauto).
      destruct (Find s Ls) as (e & He & Es). destruct (Find t Lt) as (e' & He' & Et). destruct (S3 e He) as (_ & _ & E1 & E2 & E3). destruct (S3 e' He') as (_ & _ & E1' & E2' & E3').
      rewrite <- Es, <- Et, <- E3, <- E3'. rewrite (Hsame e e'); auto; [tauto|]. rewrite Es in E1. rewrite Et in E1'. congruence.
    + destruct (r_stop r) eqn:Esp.
      * exists (r_s2g r), (r_num r). splits; auto; try (intros; lia). intros _ Hu. specialize (R6 Hu). discriminate.
      * specialize (R3 eq_refl). destruct (IH (r_s2g r) (r_num r) G') as (s2g' & num' & I1 & I2 & I3 & I4 & I5 & I6); [lia|]. exists s2g', num'. splits; auto; try (intros; lia).
        intros R HR Hres Hn. apply I6; auto. apply Coarse; auto. destruct (Nat.lt_ge_cases (r_num r) target); auto. destruct (I3 H). lia.
Qed.
End MODE.

(** ** The first groups *)
Lemma initialize_ok : (exists s, s < n /\ goalb s = true) -> exists s2g num, initialize_groups T dg = Ok (s2g, num) /\ GI s2g num /\ forall s t, s < n -> t < n -> hgof s = hgof t -> nth_error s2g s = nth_error s2g t.
Proof.
  intros (s0 & L0 & Hg0). unfold initialize_groups.
  set (step := fun (st : list nat * list (option nat * nat) * nat) s => let '(s2g, m, num) := st in
      let* (g, h) := state_info T dg s in
      if g : bool then Ok (s2g ++ [0], m, num)
      else match find (fun e => oeqb (fst e) h) m with Some e => Ok (s2g ++ [snd e], m, num) | None => Ok (s2g ++ [num], m ++ [(h, num)], S num) end).
  set (I := fun (pre : list nat) (st : list nat * list (option nat * nat) * nat) => let '(s2g, m, num) := st in
     length s2g = length pre /\ num = S (length m) /\ (forall j e, nth_error m j = Some e -> snd e = S j) /\ NoDup (map fst m) /\
     (forall s, s < length pre -> match goalb s with true => nth_error s2g s = Some 0 | false => exists g, nth_error s2g s = Some g /\ In (nth s dg None, g) m end) /\
     (forall h g, In (h, g) m -> exists s, s < length pre /\ goalb s = false /\ nth s dg None = h /\ nth_error s2g s = Some g)).
  destruct (fold_inv step I (seq 0 n) ([], [], 1)) as ([[s2g m] num] & E & I1 & I2 & I3 & I4 & I5 & I6).
  - unfold I. splits; auto.
    + intros [|j] e; discriminate.
    + constructor.
    + cbn [length]. lia.
    + intros h g [].
  - intros pre x post [[s2g m] num] Hsp (I1 & I2 & I3 & I4 & I5 & I6).
    assert (Ex : x = length pre /\ x < n).
    { assert (Q : nth_error (seq 0 n) (length pre) = Some x) by (rewrite Hsp, nth_error_app2, Nat.sub_diag by lia; reflexivity). pose proof (nth_error_Some_lt _ _ _ Q) as Q2. rewrite seq_length in Q2. apply (nth_error_nth _ _ 0) in Q. rewrite seq_nth in Q by auto. lia. }
    destruct Ex as [Ex Lx]. unfold step. rewrite (state_info_ok L maxl T dg W HD x Lx). cbn [bind].
    assert (Olds : forall v s, s < length pre -> nth_error (s2g ++ [v]) s = nth_error s2g s) by (intros v s Hs; apply nth_error_app1; lia).
    assert (New : forall v, nth_error (s2g ++ [v]) x = Some v) by (intros v; rewrite nth_error_app2, I1, Ex, Nat.sub_diag by lia; reflexivity).
    assert (Lap : length (pre ++ [x]) = S (length pre)) by (rewrite app_length; cbn [length]; lia).
    assert (Len : forall v : nat, length (s2g ++ [v]) = length (pre ++ [x])) by (intros v; rewrite !app_length; cbn [length]; lia).
    destruct (goalb x) eqn:Eg.
    + eexists. split; [reflexivity|]. unfold I. splits; auto.
      * intros s Hs. rewrite Lap in Hs. destruct (Nat.eq_dec s x) as [->|Ns]; [rewrite Eg; auto|]. rewrite Olds by lia. apply I5. lia.
      * intros h g Hin. destruct (I6 h g Hin) as (s & A & B & C & D). exists s. rewrite Lap, Olds by auto. splits; auto.
    + destruct (find (fun e => oeqb (fst e) (nth x dg None)) m) as [e|] eqn:Ef.
      * apply find_some in Ef as [Ef1 Ef2]. apply oeqb_spec in Ef2. eexists. split; [reflexivity|]. unfold I. splits; auto.
        -- intros s Hs. rewrite Lap in Hs. destruct (Nat.eq_dec s x) as [->|Ns].
           ++ rewrite Eg. exists (snd e). split; auto. rewrite <- Ef2. now destruct e.
           ++ rewrite Olds by lia. apply I5. lia.
        -- intros h g Hin. destruct (I6 h g Hin) as (s & A & B & C & D). exists s. rewrite Lap, Olds by auto. splits; auto.
      * assert (Nin : ~ In (nth x dg None) (map fst m)).
        { intros Hin. apply in_map_iff in Hin as (e & He & Hin). eapply find_none in Ef; [|exact Hin]. cbn beta in Ef. rewrite He in Ef. rewrite (proj2 (oeqb_spec _ _) eq_refl) in Ef. discriminate. }
        eexists. split; [reflexivity|]. unfold I. splits; auto.
        -- rewrite app_length. cbn [length]. lia.
        -- intros j e Hj. destruct (Nat.lt_ge_cases j (length m)) as [Lj|Lj]; [rewrite nth_error_app1 in Hj by auto; auto|]. rewrite nth_error_app2 in Hj by auto. destruct (j - length m) as [|q] eqn:Eq; cbn [nth_error] in Hj; [|destruct q; discriminate]. inv Hj. cbn [snd]. lia.
        -- rewrite map_app. cbn [map fst]. apply NoDup_app_disj; auto; [repeat constructor; intros []|]. intros y Hy [<-|[]]. auto.
        -- intros s Hs. rewrite Lap in Hs. destruct (Nat.eq_dec s x) as [->|Ns].
           ++ rewrite Eg. exists num. split; auto. apply in_app_iff. right. now left.
           ++ rewrite Olds by lia. specialize (I5 s ltac:(lia)). destruct (goalb s); auto. destruct I5 as (g & A & B). exists g. split; auto. apply in_app_iff. auto.
        -- intros h g Hin. apply in_app_iff in Hin as [Hin|[Hin|[]]].
           ++ destruct (I6 h g Hin) as (s & A & B & C & D). exists s. rewrite Lap, Olds by auto. splits; auto.
           ++ inv Hin. exists (length pre). rewrite Lap. splits; auto.
  - cbn [app] in E. rewrite E. cbn [bind fst snd]. exists s2g, num. split; auto. rewrite seq_length in *.
    assert (Uniq : forall h g g', In (h, g) m -> In (h, g') m -> g = g').
    { intros h g g' H1 H2. apply In_nth_error in H1 as [j1 H1]. apply In_nth_error in H2 as [j2 H2]. assert (j1 = j2).
      { eapply (proj1 (NoDup_nth_error (map fst m)) I4); [rewrite map_length; eapply nth_error_Some_lt; eauto|]. rewrite !nth_error_map, H1, H2. reflexivity. } subst j2. congruence. }
    assert (Uniq2 : forall h h' g, In (h, g) m -> In (h', g) m -> h = h').
    { intros h h' g H1 H2. apply In_nth_error in H1 as [j1 H1]. apply In_nth_error in H2 as [j2 H2]. pose proof (I3 _ _ H1) as Q1. pose proof (I3 _ _ H2) as Q2. cbn [snd] in Q1, Q2. assert (j1 = j2) by lia. subst j2. congruence. }
    assert (Pos : forall h g, In (h, g) m -> 0 < g < num) by (intros h g H; apply In_nth_error in H as [j H]; pose proof (I3 _ _ H) as Q; cbn [snd] in Q; apply nth_error_Some_lt in H; lia).
    assert (Lt : forall s g, nth_error s2g s = Some g -> s < n) by (intros s g H; apply nth_error_Some_lt in H; lia).
    split; [constructor|]; auto.
    + intros s g Hs. specialize (I5 s (Lt _ _ Hs)). destruct (goalb s); [rewrite Hs in I5; inv I5; lia|]. destruct I5 as (g' & A & B). rewrite Hs in A. inv A. apply Pos in B. lia.
    + intros g Hg. destruct g as [|j].
      * exists s0. specialize (I5 s0 L0). rewrite Hg0 in I5. auto.
      * destruct (nth_error m j) as [[h g]|] eqn:Ej; [|apply nth_error_None in Ej; lia]. pose proof (I3 _ _ Ej) as Q. cbn [snd] in Q. subst g. apply nth_error_In in Ej. destruct (I6 _ _ Ej) as (s & _ & _ & _ & D). eauto.
    + intros s t g Hs Ht. pose proof (I5 s (Lt _ _ Hs)) as As. pose proof (I5 t (Lt _ _ Ht)) as At. unfold Proof_MAA8.hgof. destruct (goalb s) eqn:Es, (goalb t) eqn:Et; cbn [h_and_goal]; auto.
      * destruct At as (g' & A & B). rewrite As in Hs. inv Hs. rewrite Ht in A. inv A. apply Pos in B. lia.
      * destruct As as (g' & A & B). rewrite At in Ht. inv Ht. rewrite Hs in A. inv A. apply Pos in B. lia.
      * destruct As as (g1 & A & B), At as (g2 & C & D). rewrite Hs in A. inv A. rewrite Ht in C. inv C. rewrite (Uniq2 _ _ _ B D). reflexivity.
    + intros s t Ls Lt' Hh. apply (hgof_inj L maxl T dg W HD) in Hh as [H1 H2]; auto. pose proof (I5 s Ls) as As. pose proof (I5 t Lt') as At. rewrite H1 in As. destruct (goalb t); [congruence|]. destruct As as (g1 & A & B), At as (g2 & C & D). rewrite H2 in B. rewrite A, C. f_equal. eauto.
Qed.

(** ** The classes *)
Lemma collect_ok s2g num : GI s2g num -> exists cls, collect_groups s2g num = Ok cls /\ length cls = num /\ all_grouped n cls /\ forall k s, in_class cls k s <-> nth_error s2g s = Some k.
Proof.
  intros G. unfold collect_groups. set (step := fun (st : classes * nat) g => let '(rel, s) := st in let* c := vget rel g in let* rel := vset rel g (s :: c) in Ok (rel, S s)).
  destruct (fold_inv step (fun pre st => snd st = length pre /\ length (fst st) = num /\ forall k c, nth_error (fst st) k = Some c -> NoDup c /\ forall s, In s c <-> nth_error pre s = Some k) s2g (repeat [] num, 0)) as ([cls m] & E & _ & I2 & I3).
  - cbn [fst snd]. splits; auto; [apply repeat_length|]. intros k c Hk. apply nth_error_In, repeat_spec in Hk. subst c. split; [constructor|]. intros s. split; [intros []|destruct s; discriminate].
  - intros pre g post [rel m] Hsp (J1 & J2 & J3). cbn [fst snd] in *. subst m. unfold step. assert (Hg : g < num) by (apply (gi_lt _ _ _ _ G (length pre)); rewrite Hsp, nth_error_app2, Nat.sub_diag by lia; reflexivity).
    destruct (nth_error rel g) as [c|] eqn:Ec; [|apply nth_error_None in Ec; lia]. rewrite (proj2 (vget_ok _ _ _) Ec). cbn [bind]. unfold vset. rewrite (proj2 (Nat.ltb_lt g (length rel))) by lia. cbn [bind]. eexists. split; [reflexivity|]. cbn [fst snd]. splits; [rewrite app_length; cbn [length]; lia|now rewrite upd_length|].
    assert (App : forall s k, nth_error (pre ++ [g]) s = Some k <-> nth_error pre s = Some k \/ s = length pre /\ k = g).
    { intros s k. destruct (Nat.lt_ge_cases s (length pre)) as [H|H]; [rewrite nth_error_app1 by auto; split; auto; intros [?|[-> _]]; auto; lia|]. rewrite nth_error_app2 by auto. split.
      - destruct (s - length pre) as [|q] eqn:Eq; cbn [nth_error]; [intros Q; inv Q; right; split; auto; lia|destruct q; discriminate].
      - intros [Q|[-> ->]]; [apply nth_error_Some_lt in Q; lia|]. now rewrite Nat.sub_diag. }
    intros k c' Hk. destruct (Nat.eq_dec k g) as [->|Nk].
    + rewrite upd_nth_eq in Hk by lia. inv Hk. destruct (J3 g c Ec) as [N1 N2]. split.
      * constructor; auto. rewrite N2. intros Q. apply nth_error_Some_lt in Q. lia.
      * intros s. rewrite App. cbn [In]. rewrite N2. split; [intros [<-|?]; auto|intros [?|[-> _]]; auto].
    + rewrite upd_nth_neq in Hk by auto. destruct (J3 k c' Hk) as [N1 N2]. split; auto. intros s. rewrite App, N2. split; auto. intros [?|[_ ?]]; auto. congruence.
  - cbn [app fst snd] in *. exists cls. split; [|split; auto].
    { change (bind (fold_outcome step s2g (repeat [] num, 0)) (fun st => let '(rel, _) := st in Ok rel) = Ok cls). rewrite E. reflexivity. }
    assert (HC : forall k s, in_class cls k s <-> nth_error s2g s = Some k).
    { intros k s. split.
      - intros (c & Hc & Hs). now apply (I3 k c Hc).
      - intros Hs. pose proof (gi_lt _ _ _ _ G s k Hs) as Lk. destruct (nth_error cls k) as [c|] eqn:Ec; [|apply nth_error_None in Ec; lia]. exists c. split; auto. now apply (I3 k c Ec). }
    split; auto. unfold all_grouped. splits.
    + apply nodup_concat_classes; [intros k c Hk; apply (I3 k c Hk)|]. intros k k' s H1 H2. apply HC in H1, H2. congruence.
    + intros c Hc ->. apply In_nth_error in Hc as [k Hk]. destruct (gi_ne _ _ _ _ G k) as [s Hs]; [rewrite <- I2; eapply nth_error_Some_lt; eauto|]. apply (I3 k [] Hk) in Hs. destruct Hs.
    + intros s. rewrite concat_class. split.
      * intros [k Hk]. apply HC in Hk. rewrite <- (gi_len _ _ _ _ G). eapply nth_error_Some_lt; eauto.
      * intros Hs. destruct (nth_error s2g s) as [k|] eqn:Ek; [exists k; now apply HC|]. apply nth_error_None in Ek. rewrite (gi_len _ _ _ _ G) in Ek. lia.
Qed.

(** ** All together *)
Lemma goal_iff s : s < n -> (l_goal (the_lts T) s <-> goalb s = true).
Proof. intros Hs. cbn [the_lts l_goal]. rewrite (goal_nth L maxl T W s Hs). split; congruence. Qed.
Lemma succ_iff s2g s x : SUCC T dg false s2g s x <-> exists i t, nth_error (active_infos T) (fst x) = Some i /\ In (s, t) (i_trans i) /\ nth_error s2g t = Some (snd x).
Proof. unfold Proof_MAA8.SUCC. split; intros (i & t & H); exists i, t; [tauto|]. destruct H as (A & B & C). splits; auto. unfold kept. discriminate. Qed.
Lemma label_info a c s t : active L a c -> gstep (ts_l2l T) (ts_infos T) a s t -> exists k i, nth_error (active_infos T) k = Some i /\ In a (i_labels i) /\ In (s, t) (i_trans i).
Proof.
  intros Ha (k & i & H1 & H2 & H3). destruct (g_label _ _ _ _ (w_g _ _ _ W) a c Ha) as (k' & i' & A & B & C). rewrite H1 in A. inv A. rewrite H2 in B. inv B.
  assert (Hin : In i' (active_infos T)) by (unfold active_infos; apply filter_In; split; [eapply nth_error_In; eauto|apply Proof_MAS1.active_In; eauto]). apply In_nth_error in Hin as [j Hj]. eauto.
Qed.
(* the states of a class of a bisimulation have the same goal distances *)
Lemma bisim_path cls : all_grouped n cls -> bisimulation (active L) (the_lts T) cls -> forall s c g, lpath (active L) (l_step (the_lts T)) s c g -> l_goal (the_lts T) g -> s < n ->
  forall k t, in_class cls k s -> in_class cls k t -> exists g', l_goal (the_lts T) g' /\ lpath (active L) (l_step (the_lts T)) t c g'.
Proof.
  intros (A1 & A2 & A3) [B1 B2] s c g Hp Hg. induction Hp as [s|s a x s1 y s2 Ha Hs Hp IH]; intros Ls k t Hk Ht.
  - exists t. split; [eapply B1; eauto|constructor].
  - assert (L1 : s1 < n). { destruct (label_info a x s s1 Ha Hs) as (j & i & Hj & _ & Hin). apply (info_trans L maxl T W i s s1); auto. eapply nth_error_In; eauto. }
    destruct (proj1 (concat_class cls s1) (proj2 (A3 s1) L1)) as [k1 Hk1]. destruct (B2 k k1 s t s1 a x) as (t1 & Ht1 & Hk1'); auto. destruct (IH Hg L1 k1 t1) as (g' & G1 & G2); auto. exists g'. split; auto. econstructor; eauto.
Qed.
Lemma bisim_dg cls k s t : all_grouped n cls -> bisimulation (active L) (the_lts T) cls -> in_class cls k s -> in_class cls k t -> nth s dg None = nth t dg None.
Proof.
  intros A B. assert (Le : forall s t, in_class cls k s -> in_class cls k t -> forall c, nth s dg None = Some c -> exists c', nth t dg None = Some c' /\ c' <= c).
  { intros x y Hx Hy c E. assert (Lx : x < n) by (apply A, concat_class; eauto). assert (Ly : y < n) by (apply A, concat_class; eauto). pose proof (proj2 HD x Lx) as Dx. rewrite E in Dx. destruct Dx as [(g & G1 & G2) _].
    destruct (bisim_path cls A B x c g G2 G1 Lx k y Hx Hy) as (g' & P1 & P2). pose proof (proj2 HD y Ly) as Dy. destruct (nth y dg None) as [c'|]; [|destruct (Dy c); eauto]. exists c'. split; auto. apply Dy. eauto. }
  intros Hs Ht. destruct (nth s dg None) as [c|] eqn:Es.
  - destruct (Le s t Hs Ht c Es) as (c' & E1 & L1). rewrite E1. destruct (Le t s Ht Hs c' E1) as (c'' & E2 & L2). rewrite Es in E2. inv E2. f_equal. lia.
  - destruct (nth t dg None) as [c|] eqn:Et; auto. destruct (Le t s Ht Hs c Et) as (c' & E1 & _). congruence.
Qed.

Lemma greedy_kept a c i s s' b : active L a c -> In i (active_infos T) -> In a (i_labels i) -> In (s, s') (i_trans i) -> nth s' dg None = Some b -> nth s dg None = Some (c + b) -> kept dg true i s s'.
Proof.
  intros Ha Hi Hl Hs E1 E2 _. destruct (info_cost L maxl T W i Hi) as (l & x & Hx & Hc & Ec). destruct (info_trans L maxl T W i s s' Hi Hs) as [Ls Lt].
  destruct (dg_step L T dg HD l x s s' b Hc (proj2 (info_step L maxl T W i l s s' Hi Hx) Hs) Ls Lt E1) as (a' & Ea' & Hle). rewrite E2 in Ea'. inv Ea'.
  pose proof Hi as Hi'. apply active_infos_In in Hi' as (Hact & k & Hk). pose proof (g_cost _ _ _ _ (w_g _ _ _ W) k i Hk Hact) as G. rewrite Ec in G. destruct G as [_ G]. specialize (G a c Hl Ha).
  exists (c + b), b, x. splits; auto. lia.
Qed.
Lemma bisimulation_ok greedy use_up target D : d_goal D = Some dg -> (exists s, s < n /\ goalb s = true) ->
  exists cls, bisimulation_classes greedy use_up T D target = Ok cls /\ all_grouped n cls /\
    (forall k s t, in_class cls k s -> in_class cls k t -> goalb s = goalb t /\ nth s dg None = nth t dg None) /\
    (length cls <= target \/ forall s t, s < n -> t < n -> goalb s = goalb t -> nth s dg None = nth t dg None -> exists k, in_class cls k s /\ in_class cls k t) /\
    (greedy = false -> n <= target \/ (use_up = true /\ length cls < target) -> bisimulation (active L) (the_lts T) cls) /\
    (greedy = false -> length cls < target -> forall cls', all_grouped n cls' -> bisimulation (active L) (the_lts T) cls' ->
       forall k s t, in_class cls' k s -> in_class cls' k t -> exists j, in_class cls j s /\ in_class cls j t) /\
    (greedy = true -> n <= target \/ (use_up = true /\ length cls < target) -> greedy_bisimulation (active L) (the_lts T) dg cls) /\
    (greedy = true -> length cls < target -> forall cls', all_grouped n cls' -> greedy_bisimulation (active L) (the_lts T) dg cls' ->
       forall k s t, in_class cls' k s -> in_class cls' k t -> exists j, in_class cls j s /\ in_class cls j t).
Proof.
  intros Ed Hgoal. unfold bisimulation_classes. rewrite Ed. destruct (initialize_ok Hgoal) as (s2g0 & num0 & -> & G0 & H0). cbn [bind].
  destruct (refine_ok greedy use_up target (S n) s2g0 num0 G0) as (s2g & num & -> & G & R1 & R2 & R3 & R4); [lia|]. cbn [bind].
  destruct (collect_ok s2g num G) as (cls & Hcls & Hlen & HA & HC). exists cls. split; auto. split; auto.
  assert (Look : forall s, s < n -> exists g, nth_error s2g s = Some g) by (intros s Hs; destruct (nth_error s2g s) as [g|] eqn:E; eauto; apply nth_error_None in E; rewrite (gi_len _ _ _ _ G) in E; lia).
  assert (Hlt : forall s g, nth_error s2g s = Some g -> s < n) by (intros s g H; rewrite <- (gi_len _ _ _ _ G); eapply nth_error_Some_lt; eauto).
  assert (Pair : forall s t, s < n -> nth_error s2g s = nth_error s2g t -> exists k, in_class cls k s /\ in_class cls k t).
  { intros s t Ls E. destruct (Look s Ls) as [g Hg]. exists g. split; apply HC; congruence. }
  assert (Hcase : n <= target \/ (use_up = true /\ length cls < target) -> num = n \/ num < target /\ (use_up = true \/ n <= target)).
  { intros Hc. pose proof (GI_le _ _ _ _ G). destruct Hc as [Hc|[Hu Hc]]; [|right; split; [lia|auto]]. destruct (Nat.eq_dec num n); [auto|]. right. split; [lia|auto]. }
  assert (Single : num = n -> forall k s t, in_class cls k s -> in_class cls k t -> s = t).
  { intros En k s t Hs Ht. apply HC in Hs, Ht.
    assert (Hinj : NoDup s2g). { eapply NoDup_incl_NoDup; [apply (seq_NoDup n 0)|rewrite seq_length, (gi_len _ _ _ _ G); auto|]. intros g Hg. apply in_seq in Hg. destruct (gi_ne _ _ _ _ G g) as [x Hx]; [lia|]. eapply nth_error_In; eauto. }
    eapply (proj1 (NoDup_nth_error s2g) Hinj); [eapply nth_error_Some_lt; eauto|congruence]. }
  assert (Same : forall k s t, in_class cls k s -> in_class cls k t -> goalb s = goalb t /\ nth s dg None = nth t dg None).
  { intros k s t Hs Ht. apply HC in Hs, Ht. apply (hgof_inj L maxl T dg W HD); eauto. eapply gi_hg; eauto. }
  splits.
  - intros k s t Hs Ht. apply HC in Hs, Ht. apply (hgof_inj L maxl T dg W HD); eauto. eapply gi_hg; eauto.
  - destruct (Nat.le_gt_cases num0 target) as [Hle|Hgt]; [left; rewrite Hlen; auto|right]. destruct R1 as [-> ->]; [lia|]. intros s t Ls Lt E1 E2. apply Pair; auto. apply H0; auto. unfold Proof_MAA8.hgof. now rewrite E1, E2.
  - intros -> Hc. specialize (Hcase Hc).
    split.
    + intros k s t Hs Ht. apply HC in Hs, Ht. assert (Q : goalb s = goalb t) by (apply (hgof_inj L maxl T dg W HD); eauto; eapply gi_hg; eauto). rewrite !goal_iff by eauto. now rewrite Q.
    + intros k k' s t s' a c Ha Hs Ht Hs' Hst. destruct Hcase as [En|[Hn Hu]].
      * rewrite (Single En k t s Ht Hs). eauto.
      * destruct (label_info a c s s' Ha Hst) as (j & i & Hj & Hla & Hin). apply HC in Hs, Ht, Hs'.
        assert (Q : SUCC T dg false s2g s (j, k')) by (apply succ_iff; exists i, s'; cbn [fst snd]; auto).
        apply (R3 Hn Hu s t k Hs Ht) in Q. apply succ_iff in Q as (i' & t' & Q1 & Q2 & Q3). cbn [fst snd] in Q1, Q3. rewrite Hj in Q1. inv Q1. exists t'. split; [|now apply HC].
        apply (info_step L maxl T W i' a t t'); auto. eapply nth_error_In; eauto.
  - intros -> Hn cls' HA' HB' k s t Hs Ht. assert (Ls : s < n) by (apply HA', concat_class; eauto). apply Pair; auto.
    set (R := fun s t => exists k, in_class cls' k s /\ in_class cls' k t).
    assert (HRlt : forall s t, R s t -> s < n /\ t < n) by (intros x y (j & Hx & Hy); split; apply HA', concat_class; eauto).
    apply (R4 R); [| |lia|exists k; auto].
    + split; auto. intros g Hg Hres. assert (One : forall s t, R s t -> forall x, SUCC T dg false g s x -> SUCC T dg false g t x).
      { intros x y (j & Hx & Hy) z Hz. apply succ_iff in Hz as (i & u & A & B & C). apply succ_iff. assert (Hi : In i (active_infos T)) by (eapply nth_error_In; eauto).
        destruct (info_cost L maxl T W i Hi) as (l & c & Hl & Hc & _). destruct (info_trans L maxl T W i x u Hi B) as [_ Lu]. destruct (proj1 (concat_class cls' u) (proj2 (proj2 (proj2 HA') u) Lu)) as [ku Hku].
        destruct (proj2 HB' j ku x y u l c) as (v & Hv & Hkv); auto; [apply (info_step L maxl T W i l x u); auto|]. exists i, v. splits; auto; [now apply (info_step L maxl T W i l y v)|]. rewrite <- C. symmetry. apply Hres. exists ku. auto. }
      intros x y Hxy z. split; apply One; auto. destruct Hxy as (j & ? & ?). exists j. auto.
    + intros x y Hxy. destruct (HRlt x y Hxy) as [Lx Ly]. apply H0; auto. destruct Hxy as (j & Hx & Hy). unfold Proof_MAA8.hgof. rewrite (bisim_dg cls' j x y HA' HB' Hx Hy). f_equal.
      destruct (goalb x) eqn:Ex, (goalb y) eqn:Ey; auto; exfalso.
      * assert (l_goal (the_lts T) y) by (apply (proj1 HB' j x y Hx Hy), goal_iff; auto). apply goal_iff in H; auto. congruence.
      * assert (l_goal (the_lts T) x) by (apply (proj1 HB' j y x Hy Hx), goal_iff; auto). apply goal_iff in H; auto. congruence.
  - intros -> Hc. specialize (Hcase Hc). split.
    + intros k s t Hs Ht. destruct (Same k s t Hs Ht) as [Q1 Q2]. apply HC in Hs, Ht. rewrite !goal_iff by eauto. rewrite Q1. split; [tauto|exact Q2].
    + intros k k' s t s' a c h Ha Hs Ht Hs' Hst E1 E2. destruct Hcase as [En|[Hn Hu]]; [rewrite (Single En k t s Ht Hs); eauto|].
      destruct (label_info a c s s' Ha Hst) as (j & i & Hj & Hla & Hin). apply HC in Hs, Ht, Hs'. assert (Hi : In i (active_infos T)) by (eapply nth_error_In; eauto).
      assert (Q : SUCC T dg true s2g s (j, k')) by (exists i, s'; cbn [fst snd]; splits; auto; eapply greedy_kept; eauto).
      apply (R3 Hn Hu s t k Hs Ht) in Q. destruct Q as (i' & t' & Q1 & Q2 & _ & Q3). cbn [fst snd] in Q1, Q3. rewrite Hj in Q1. inv Q1. exists t'. split; [|now apply HC].
      now apply (info_step L maxl T W i' a t t').
  - intros -> Hn cls' HA' HB' k s t Hs Ht. assert (Ls : s < n) by (apply HA', concat_class; eauto). apply Pair; auto.
    set (R := fun s t => exists k, in_class cls' k s /\ in_class cls' k t).
    assert (HRlt : forall s t, R s t -> s < n /\ t < n) by (intros x y (j & Hx & Hy); split; apply HA', concat_class; eauto).
    apply (R4 R); [| |lia|exists k; auto].
    + split; auto. intros g Hg Hres. assert (One : forall s t, R s t -> forall x, SUCC T dg true g s x -> SUCC T dg true g t x).
      { intros x y (j & Hx & Hy) z (i & u & A & B & K & C). assert (Hi : In i (active_infos T)) by (eapply nth_error_In; eauto). destruct (K eq_refl) as (a0 & b0 & c0 & K1 & K2 & K3 & K4).
        destruct (info_cost L maxl T W i Hi) as (l & c & Hl & Hc & Ec). rewrite K3 in Ec. inv Ec. destruct (info_trans L maxl T W i x u Hi B) as [_ Lu]. destruct (proj1 (concat_class cls' u) (proj2 (proj2 (proj2 HA') u) Lu)) as [ku Hku].
        destruct (proj2 HB' j ku x y u l c b0) as (v & Hv & Hkv); auto; [apply (info_step L maxl T W i l x u); auto|unfold h_of; rewrite K1; f_equal; lia|].
        exists i, v. splits; auto; [now apply (info_step L maxl T W i l y v)| |rewrite <- C; symmetry; apply Hres; exists ku; auto].
        intros _. exists (b0 + c), b0, c. pose proof (proj2 (proj1 HB' j x y Hx Hy)) as D1. pose proof (proj2 (proj1 HB' ku u v Hku Hkv)) as D2. unfold h_of in D1, D2. splits; auto; congruence. }
      intros x y Hxy z. split; apply One; auto. destruct Hxy as (j & ? & ?). exists j. auto.
    + intros x y Hxy. destruct (HRlt x y Hxy) as [Lx Ly]. apply H0; auto. destruct Hxy as (j & Hx & Hy). destruct (proj1 HB' j x y Hx Hy) as [D1 D2]. unfold Proof_MAA8.hgof. unfold h_of in D2. rewrite D2. f_equal.
      rewrite !goal_iff in D1 by auto. destruct (goalb x), (goalb y); auto; [symmetry; now apply D1|now apply D1].
Qed.
End BISIM.
