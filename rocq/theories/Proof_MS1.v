(** Score-based selection of merge candidates. *)
From Coq Require Import Permutation.
From Verif Require Import Outcome Spec_Task Model_PQ Model_Graph Model_MAS Model_MASAlgorithm Model_MergeStrategy.

(** ** Scores *)
Definition valid (s : score) : Prop := match s with Some (_, d) => 0 < d | None => True end.
Lemma score_eq_refl s : score_eq s s = true. Proof. destruct s as [[x y]|]; cbn [score_eq]; auto. apply Nat.eqb_refl. Qed.
Lemma score_lt_irrefl s : score_lt s s = false. Proof. destruct s as [[x y]|]; cbn [score_lt]; auto. apply Nat.ltb_irrefl. Qed.
Lemma score_le_trans a b c : valid a -> valid b -> valid c -> score_lt a b = false -> score_lt b c = false -> score_lt a c = false.
Proof.
  destruct a as [[a a']|], b as [[b b']|], c as [[c c']|]; cbn [score_lt valid]; auto; try discriminate. intros Ha Hb Hc H1 H2. apply Nat.ltb_ge in H1, H2. apply Nat.ltb_ge.
  apply (Nat.mul_le_mono_pos_r _ _ b'); auto. nia.
Qed.
Lemma score_lt_asym a b : score_lt a b = true -> score_lt b a = false.
Proof. destruct a as [[a a']|], b as [[b b']|]; cbn [score_lt]; auto; try discriminate. intros H. apply Nat.ltb_lt in H. apply Nat.ltb_ge. lia. Qed.
Lemma score_tri a b : score_lt a b = false -> score_lt b a = false -> score_eq a b = true.
Proof. destruct a as [[a a']|], b as [[b b']|]; cbn [score_lt score_eq]; auto; try discriminate. intros H1 H2. apply Nat.ltb_ge in H1, H2. apply Nat.eqb_eq. lia. Qed.
Lemma score_eq_lt a b : score_eq a b = true -> score_lt a b = false /\ score_lt b a = false.
Proof. destruct a as [[a a']|], b as [[b b']|]; cbn [score_lt score_eq]; auto; try discriminate. intros H. apply Nat.eqb_eq in H. split; apply Nat.ltb_ge; lia. Qed.

Lemma best_fold : forall l b, (fold_left (fun b s => if score_lt s b then s else b) l b = b /\ forall s, In s l -> score_lt s b = false) \/ In (fold_left (fun b s => if score_lt s b then s else b) l b) l.
Proof.
  induction l as [|a l IH]; intros b; cbn [fold_left]; [left; split; auto; intros s []|]. destruct (score_lt a b) eqn:E.
  - right. destruct (IH a) as [[-> _]|H]; [now left|now right].
  - destruct (IH b) as [[-> H]|H]; [left; split; auto; intros s [<-|Hs]; auto|right; now right].
Qed.
Lemma best_in l : l <> [] -> In (best_score l) l.
Proof.
  intros Hl. unfold best_score. destruct (best_fold l None) as [[E H]|H]; auto. rewrite E. destruct l as [|a l]; [congruence|]. specialize (H a (or_introl eq_refl)). destruct a as [[x y]|]; [discriminate|now left].
Qed.
Lemma best_least : forall l b, valid b -> (forall s, In s l -> valid s) -> let r := fold_left (fun b s => if score_lt s b then s else b) l b in score_lt b r = false /\ forall s, In s l -> score_lt s r = false.
Proof.
  induction l as [|a l IH]; intros b Vb Vl; cbn [fold_left]; [split; [apply score_lt_irrefl|intros s []]|]. cbv zeta in *. assert (Va : valid a) by (apply Vl; now left). assert (Vr : forall s, In s l -> valid s) by (intros s Hs; apply Vl; now right).
  assert (Vres : forall c, valid c -> valid (fold_left (fun b s => if score_lt s b then s else b) l c)).
  { intros c Vc. destruct (best_fold l c) as [[-> _]|H]; auto. }
  destruct (score_lt a b) eqn:E.
  - destruct (IH a Va Vr) as [H1 H2]. split; [|intros s [<-|Hs]; auto]. eapply score_le_trans; [exact Vb|exact Va|auto|now apply score_lt_asym|exact H1].
  - destruct (IH b Vb Vr) as [H1 H2]. split; auto. intros s [<-|Hs]; auto. eapply score_le_trans; [exact Va|exact Vb|auto|exact E|exact H1].
Qed.

Lemma combine_In_nth {A B} : forall (l : list A) (l' : list B) x y, In (x, y) (combine l l') <-> exists k, nth_error l k = Some x /\ nth_error l' k = Some y.
Proof.
  induction l as [|a l IH]; intros [|b l'] x y; cbn [combine In]; (split; [|intros (k & H1 & H2)]).
  - intros []. - destruct k; discriminate. - intros []. - destruct k; discriminate. - intros []. - destruct k; discriminate.
  - intros [E|H]; [inv E; exists 0; auto|]. apply IH in H as (k & H1 & H2). now exists (S k).
  - destruct k as [|k]; cbn [nth_error] in *; [inv H1; inv H2; now left|]. right. apply IH. eauto.
Qed.
(** The remaining candidates are those with the best score. *)
Lemma remaining_ok cands scores : length scores = length cands -> cands <> [] ->
  exists r, get_remaining_candidates cands scores = Ok r /\ r <> [] /\
    (forall c, In c r <-> exists k, nth_error cands k = Some c /\ exists s, nth_error scores k = Some s /\ score_eq s (best_score scores) = true).
Proof.
  intros Hl Hne. unfold get_remaining_candidates. rewrite Hl, Nat.eqb_refl. eexists. split; [reflexivity|]. set (r := map fst _).
  assert (Hr : forall c, In c r <-> exists k, nth_error cands k = Some c /\ exists s, nth_error scores k = Some s /\ score_eq s (best_score scores) = true).
  { intros c. unfold r. rewrite in_map_iff. split.
    - intros ([c' s] & <- & H). apply filter_In in H as [H1 H2]. apply combine_In_nth in H1 as (k & H3 & H4). exists k. split; auto. exists s. auto.
    - intros (k & H1 & s & H2 & H3). exists (c, s). split; auto. apply filter_In. split; auto. apply combine_In_nth. eauto. }
  split; auto. assert (Hs : scores <> []) by (destruct scores; [destruct cands; [congruence|discriminate]|discriminate]).
  apply best_in, In_nth_error in Hs as [k Hk]. destruct (nth_error cands k) as [c|] eqn:Ec; [|apply nth_error_None in Ec; pose proof (nth_error_Some_lt _ _ _ Hk); lia].
  intros E. assert (In c r) by (apply Hr; exists k; split; auto; exists (best_score scores); split; auto; apply score_eq_refl). rewrite E in H. destruct H.
Qed.
Lemma remaining_nodup cands scores r : get_remaining_candidates cands scores = Ok r -> NoDup cands -> NoDup r.
Proof.
  unfold get_remaining_candidates. destruct (length cands =? length scores) eqn:E; [|discriminate]. intros H. inv H. apply Nat.eqb_eq in E. intros HD. revert scores E. induction HD as [|c cands Hn HD IH]; intros [|s scores] E; try discriminate; [constructor|].
  generalize (best_score (s :: scores)) as b. intros b. cbn [combine filter snd].
  assert (H : NoDup (map fst (filter (fun cs : nat * nat * score => score_eq (snd cs) b) (combine cands scores)))).
  { clear IH Hn E. revert scores. induction HD as [|x l Hx HD IH]; intros [|y r]; cbn [combine filter map snd]; try constructor. destruct (score_eq y b); cbn [map fst]; auto. constructor; auto. intros Hin. apply in_map_iff in Hin as ([x' y'] & <- & Hin). apply filter_In in Hin as [Hin _]. apply in_combine_l in Hin. auto. }
  destruct (score_eq s b); cbn [map fst]; auto. constructor; auto. intros Hin. apply in_map_iff in Hin as ([x' y'] & <- & Hin). apply filter_In in Hin as [Hin _]. apply in_combine_l in Hin. auto.
Qed.

(** ** Pairs *)
Lemma all_pairs_In : forall l i j, In (i, j) (all_pairs l) <-> exists a b c, l = a ++ i :: b ++ j :: c.
Proof.
  induction l as [|x l IH]; intros i j; cbn [all_pairs].
  - split; [intros []|]. intros (a & b & c & H). destruct a; discriminate.
  - rewrite in_app_iff, in_map_iff, IH. split.
    + intros [(y & E & Hy)|(a & b & c & ->)]; [inv E; apply in_split in Hy as (b & c & ->); exists [], b, c; auto|exists (x :: a), b, c; auto].
    + intros ([|y a] & b & c & E); cbn [app] in E; inv E; [left; exists j; split; auto; apply in_elt|right; eauto].
Qed.
Lemma all_pairs_sym l i j : In i l -> In j l -> i <> j -> In (i, j) (all_pairs l) \/ In (j, i) (all_pairs l).
Proof.
  intros Hi Hj N. apply in_split in Hi as (a & b & ->). apply in_app_iff in Hj as [Hj|[Hj|Hj]]; [|congruence|].
  - right. apply in_split in Hj as (c & d & ->). apply all_pairs_In. exists c, d, b. now rewrite <- app_assoc.
  - left. apply in_split in Hj as (c & d & ->). apply all_pairs_In. exists a, c, d. reflexivity.
Qed.
Lemma all_pairs_mem l i j : In (i, j) (all_pairs l) -> In i l /\ In j l.
Proof. intros H. apply all_pairs_In in H as (a & b & c & ->). split; [apply in_elt|]. apply in_app_iff. right. right. apply in_elt. Qed.
Lemma all_pairs_neq l i j : NoDup l -> In (i, j) (all_pairs l) -> i <> j.
Proof. intros HD H E. subst j. apply all_pairs_In in H as (a & b & c & ->). apply NoDup_remove_2 in HD. apply HD. apply in_app_iff. right. apply in_elt. Qed.
Lemma all_pairs_nodup l : NoDup l -> NoDup (all_pairs l).
Proof.
  induction 1 as [|x l Hx HD IH]; cbn [all_pairs]; [constructor|]. assert (H1 : NoDup (map (fun y => (x, y)) l)) by (apply FinFun.Injective_map_NoDup; auto; intros a b E; now inv E).
  revert H1 IH. assert (D : forall p, In p (map (fun y => (x, y)) l) -> ~ In p (all_pairs l)). { intros p Hp Hin. apply in_map_iff in Hp as (y & <- & _). apply all_pairs_mem in Hin. tauto. }
  revert D. generalize (map (fun y => (x, y)) l), (all_pairs l). intros A B D HA HB. induction HA as [|a A Ha HA IH]; cbn [app]; auto. constructor; [|apply IH; intros p Hp; apply D; now right]. rewrite in_app_iff. intros [H|H]; auto. apply (D a); auto. now left.
Qed.
Lemma all_pairs_anti l i j : NoDup l -> In (i, j) (all_pairs l) -> ~ In (j, i) (all_pairs l).
Proof.
  induction 1 as [|x l Hx HD IH]; cbn [all_pairs]; [intros []|]. rewrite !in_app_iff, !in_map_iff. intros [(y & E & Hy)|H] [(z & E' & Hz)|H'].
  - inv E. inv E'. auto. - inv E. apply all_pairs_mem in H'. tauto. - inv E'. apply all_pairs_mem in H. tauto. - exact (IH H H').
Qed.
Lemma all_pairs_nonempty l : 2 <= length l -> all_pairs l <> [].
Proof. destruct l as [|a [|b l]]; cbn [length]; try lia. discriminate. Qed.
Lemma same_pair_iff c o : same_pair c o = true <-> o = c \/ o = (snd c, fst c).
Proof.
  destruct c as [i j], o as [a b]. unfold same_pair. cbn [fst snd]. rewrite orb_true_iff, !andb_true_iff, !Nat.eqb_eq. split; [intros [[-> ->]|[-> ->]]; auto|]. intros [E|E]; inv E; auto.
Qed.
Lemma find_pair_spec c : forall l k, match find_pair c l k with Ok s => exists p o, s = Some (k + p, 1) /\ nth_error l p = Some o /\ same_pair c o = true | UB => forall o, In o l -> same_pair c o = false | _ => False end.
Proof.
  induction l as [|o l IH]; intros k; cbn [find_pair]; [intros o []|]. destruct (same_pair c o) eqn:E.
  - exists 0, o. rewrite Nat.add_0_r. auto.
  - specialize (IH (S k)). destruct (find_pair c l (S k)); auto.
    + destruct IH as (p & o' & -> & H1 & H2). exists (S p), o'. rewrite Nat.add_succ_r. auto.
    + intros o' [<-|H]; auto.
Qed.
Lemma find_pair_ok l c : In (fst c) l -> In (snd c) l -> fst c <> snd c -> exists p, find_pair c (all_pairs l) 0 = Ok (Some (p, 1)) /\ exists o, nth_error (all_pairs l) p = Some o /\ same_pair c o = true.
Proof.
  intros Hi Hj N. pose proof (find_pair_spec c (all_pairs l) 0) as H. destruct (find_pair c (all_pairs l) 0) as [s| | |]; try contradiction.
  - destruct H as (p & o & -> & H1 & H2). exists p. split; auto. eauto.
  - exfalso. destruct (all_pairs_sym l (fst c) (snd c) Hi Hj N) as [Hin|Hin]; apply H in Hin; [assert (same_pair c (fst c, snd c) = true) by (apply same_pair_iff; left; destruct c; auto)|assert (same_pair c (snd c, fst c) = true) by (apply same_pair_iff; now right)]; congruence.
Qed.
Lemma ts_order_perm a p b sh1 sh2 n : (forall l, Permutation (sh1 l) l) -> (forall l, Permutation (sh2 l) l) -> 0 < n -> Permutation (ts_order a p b sh1 sh2 n) (seq 0 (2 * n - 1)).
Proof.
  intros H1 H2 Hn. unfold ts_order. replace (n * 2 - 1 - n) with (n - 1) by lia. replace (2 * n - 1) with (n + (n - 1)) by lia. rewrite seq_app, Nat.add_0_l.
  assert (A : Permutation (match a with AtomicReverseLevel => seq 0 n | AtomicLevel => rev (seq 0 n) | AtomicRandom => sh1 (seq 0 n) end) (seq 0 n)) by (destruct a; auto using Permutation_sym, Permutation_rev).
  assert (B : Permutation (match p with OldToNew => seq n (n - 1) | NewToOld => rev (seq n (n - 1)) | ProductRandom => sh2 (seq n (n - 1)) end) (seq n (n - 1))) by (destruct p; auto using Permutation_sym, Permutation_rev).
  destruct b; [now apply Permutation_app|]. rewrite Permutation_app_comm. now apply Permutation_app.
Qed.
