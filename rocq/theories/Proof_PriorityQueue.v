(** AdaptiveQueue behaves as a bag from which least entries are popped. *)
From Verif Require Import Outcome Model_OrderedSet Model_Heap Proof_Heap Spec_PriorityQueue Model_PriorityQueue.
From Coq Require Import Permutation.

Section P.
Context {V : Type}.
Notation entries := (@bucket_entries V).
Notation empties E := (Forall (fun b : list V => b = []) E).

Lemma entry_le_total (x y : Z * V) : entry_le x y = false -> entry_le y x = true.
Proof. unfold entry_le. rewrite Z.leb_gt, Z.leb_le. lia. Qed.
Lemma entry_le_trans (x y z : Z * V) : entry_le x y = true -> entry_le y z = true -> entry_le x z = true.
Proof. unfold entry_le. rewrite !Z.leb_le. lia. Qed.

Lemma entries_app l1 : forall k l2, entries k (l1 ++ l2) = entries k l1 ++ entries (k + length l1) l2.
Proof.
  induction l1 as [|b l1 IH]; intros; cbn [app bucket_entries length]; [now rewrite Nat.add_0_r|].
  rewrite IH, <- app_assoc. do 3 f_equal. lia.
Qed.
Lemma entries_empties E : empties E -> forall k, entries k E = [].
Proof. induction 1 as [|b E Hb H IH]; intros; cbn; auto. subst. cbn. apply IH. Qed.
Lemma entries_key l : forall k e, In e (entries k l) -> (Z.of_nat k <= fst e)%Z.
Proof.
  induction l as [|b l IH]; intros k e; cbn [bucket_entries]; [intros []|]. rewrite in_app_iff, in_map_iff.
  intros [(v & <- & _)|H]; cbn; [lia|]. apply IH in H. lia.
Qed.
Lemma entries_nil l k : entries k l = [] -> empties l.
Proof.
  revert k. induction l as [|b l IH]; intros k H; constructor; cbn in H; apply app_eq_nil in H; destruct H as [H1 H2]; eauto.
  now apply map_eq_nil in H1.
Qed.
Lemma empties_repeat n : empties (repeat [] n).
Proof. induction n; cbn; constructor; auto. Qed.

Lemma leading_split l k : entries k l <> [] ->
  exists E b t, l = E ++ b :: t /\ empties E /\ b <> [] /\ length E = leading_empty l.
Proof.
  revert k. induction l as [|b l IH]; intros k H; [cbn in H; congruence|].
  destruct b as [|v b].
  - cbn in H. destruct (IH (S k) H) as (E & b & t & -> & HE & Hb & Hl). exists ([] :: E), b, t. splits; auto. cbn. lia.
  - exists [], (v :: b), l. splits; auto. discriminate.
Qed.

Lemma firstn_empties (bs : list (list V)) : forall c, (forall i b, i < c -> nth_error bs i = Some b -> b = []) -> empties (firstn c bs).
Proof.
  intros c H. apply Forall_forall. intros b Hb. apply In_nth_error in Hb. destruct Hb as [i Hi].
  pose proof (nth_error_Some_lt _ _ _ Hi) as Hl. rewrite firstn_length in Hl.
  apply (H i b); [lia|]. rewrite <- (firstn_skipn c bs). rewrite nth_error_app1; auto. rewrite firstn_length. lia.
Qed.

Record bq_inv (q : bq V) (M : list (Z * V)) (p : Z) : Prop := {
  b_perm : Permutation (entries 0 (bq_buckets q)) M;
  b_num : bq_num q = length M;
  b_cur : forall i b, i < bq_cur q -> nth_error (bq_buckets q) i = Some b -> b = [];
  b_le : bq_cur q <= length (bq_buckets q);
  b_push : (0 <= bq_pushes q <= p)%Z }.

Definition aq_inv (a : aq V) (M : list (Z * V)) (p : Z) : Prop :=
  match a with
  | AHeap h => is_heap entry_le h /\ Permutation h M
  | ABucket q => bq_inv q M p
  end.

Lemma suffix_entries q M p : bq_inv q M p ->
  entries 0 (bq_buckets q) = entries (bq_cur q) (skipn (bq_cur q) (bq_buckets q)).
Proof.
  intros [Hp Hn Hc Hle Hpu]. rewrite <- (firstn_skipn (bq_cur q) (bq_buckets q)) at 1.
  rewrite entries_app, (entries_empties _ (firstn_empties _ _ Hc)), firstn_length. cbn. f_equal. lia.
Qed.

Lemma extract_ok : forall l k n, n = length (entries k l) -> extract_sorted l k n = Ok (entries k l).
Proof.
  induction l as [|b l IH]; intros k n Hn; cbn [bucket_entries] in *.
  - cbn in Hn. subst. reflexivity.
  - rewrite app_length, map_length in Hn. destruct n as [|n].
    + cbn [extract_sorted]. symmetry in Hn. apply Nat.eq_add_0 in Hn. destruct Hn as [H1 H2].
      apply length_zero_iff_nil in H1. subst. cbn. apply length_zero_iff_nil in H2. now rewrite H2.
    + cbn [extract_sorted]. destruct (Nat.leb_spec (length b) (S n)); [|lia]. cbn [guard bind].
      rewrite IH by lia. reflexivity.
Qed.

Lemma sorted_entries l : forall k i j x y, i < j -> nth_error (entries k l) i = Some x -> nth_error (entries k l) j = Some y ->
  entry_le x y = true.
Proof.
  induction l as [|b l IH]; intros k i j x y Hij Hi Hj; cbn [bucket_entries] in *; [destruct i; discriminate|].
  destruct (Nat.lt_ge_cases i (length b)) as [Hib|Hib].
  - rewrite nth_error_app1 in Hi by (rewrite map_length; lia). apply nth_error_In, in_map_iff in Hi. destruct Hi as (v & <- & _).
    apply nth_error_In, in_app_iff in Hj. unfold entry_le. apply Z.leb_le. cbn [fst].
    destruct Hj as [Hj|Hj]; [apply in_map_iff in Hj; destruct Hj as (w & <- & _); cbn; lia|]. apply entries_key in Hj. lia.
  - rewrite nth_error_app2 in Hi, Hj by (rewrite map_length; lia). rewrite map_length in *. eapply IH; [|exact Hi|exact Hj]. lia.
Qed.

Lemma clear_ok : forall l k n, n = length (entries k l) -> exists t, clear_loop l n = Ok t /\ empties t.
Proof.
  induction l as [|b l IH]; intros k n Hn; cbn [bucket_entries] in *.
  - cbn in Hn. subst. exists []. split; auto.
  - rewrite app_length, map_length in Hn. destruct n as [|n].
    + exists (b :: l). split; auto. symmetry in Hn. apply Nat.eq_add_0 in Hn. destruct Hn as [H1 H2].
      apply length_zero_iff_nil in H1, H2. constructor; auto. eapply entries_nil; eauto.
    + cbn [clear_loop]. destruct (Nat.leb_spec (length b) (S n)); [|lia]. cbn [guard bind].
      destruct (IH (S k) (S n - length b)) as (t & -> & Ht); [lia|]. cbn [bind]. exists ([] :: t). split; auto.
Qed.

Lemma entries_upd l : forall k i b v, nth_error l i = Some b ->
  Permutation (entries k (upd l i (b ++ [v]))) ((Z.of_nat (k + i), v) :: entries k l).
Proof.
  intros k i b v Hi. destruct (upd_split l i (b ++ [v]) b Hi) as (l1 & l2 & -> & Hl & ->).
  rewrite !entries_app. cbn [bucket_entries]. rewrite map_app, Hl. cbn [map].
  rewrite (Permutation_app_comm (map _ b) [_]), <- !app_assoc. cbn [app].
  apply Permutation_sym, Permutation_middle.
Qed.

Lemma resize_nth (l : list (list V)) n i : length l <= n ->
  nth_error (resize_buckets l n) i = if i <? length l then nth_error l i else if i <? n then Some [] else None.
Proof.
  intros H. unfold resize_buckets. rewrite firstn_all2 by lia. destruct (Nat.ltb_spec i (length l)).
  - now rewrite nth_error_app1.
  - rewrite nth_error_app2 by lia. destruct (Nat.ltb_spec i n).
    + rewrite nth_error_repeat; auto. lia.
    + apply nth_error_None. rewrite repeat_length. lia.
Qed.

Lemma bq_push_ok q M p key v : bq_inv q M p -> (0 <= key < INT_MAX_KEY)%Z -> (p + 1 <= INT_MAX_KEY)%Z ->
  exists q', bq_push q key v = Ok q' /\ bq_inv q' ((key, v) :: M) (p + 1).
Proof.
  intros [Hp Hn Hc Hle Hpu] Hk Hov. unfold bq_push, valid_key.
  destruct (Z.leb_spec 0 key); [|lia]. destruct (Z.eqb_spec key INT_MAX_KEY); [lia|]. cbn [negb andb guard bind].
  destruct (Z.leb_spec (bq_pushes q + 1) INT_MAX_KEY); [|lia]. cbn [guard bind].
  set (k := Z.to_nat key). assert (Ek : Z.of_nat k = key) by (unfold k; lia).
  match goal with |- context [let '(bs, cur) := ?e in _] => set (sel := e) end.
  assert (Hsel : exists bs cur b, sel = (bs, cur) /\ nth_error bs k = Some b /\ entries 0 bs = entries 0 (bq_buckets q) /\
    cur <= k /\ cur <= length bs /\ (forall i b', i < cur -> nth_error bs i = Some b' -> b' = []) \/
    exists bs b, sel = (bs, bq_cur q) /\ nth_error bs k = Some b /\ entries 0 bs = entries 0 (bq_buckets q) /\
      bq_cur q <= k /\ bq_cur q <= length bs /\ (forall i b', i < bq_cur q -> nth_error bs i = Some b' -> b' = [])).
  { unfold sel. destruct (Nat.leb_spec (length (bq_buckets q)) k).
    - exists (resize_buckets (bq_buckets q) (k + 1)), (bq_cur q), []. left. splits; auto; try lia.
      + rewrite resize_nth by lia. destruct (Nat.ltb_spec k (length (bq_buckets q))); [lia|]. destruct (Nat.ltb_spec k (k + 1)); [auto|lia].
      + unfold resize_buckets. rewrite firstn_all2 by lia. rewrite entries_app, (entries_empties _ (empties_repeat _)). apply app_nil_r.
      + unfold resize_buckets. rewrite app_length, repeat_length, firstn_length. lia.
      + intros i b' Hi. rewrite resize_nth by lia. destruct (Nat.ltb_spec i (length (bq_buckets q))); [eauto|].
        destruct (Nat.ltb_spec i (k + 1)); congruence.
    - destruct (vget_some (bq_buckets q) k ltac:(lia)) as (b & Eb & _). destruct (Nat.ltb_spec k (bq_cur q)).
      + exists (bq_buckets q), k, b. left. splits; auto; try lia. intros i b' Hi. apply Hc. lia.
      + exists (bq_buckets q), (bq_cur q), b. left. splits; auto; lia. }
  assert (Hsel' : exists bs cur b, sel = (bs, cur) /\ nth_error bs k = Some b /\ entries 0 bs = entries 0 (bq_buckets q) /\
    cur <= k /\ cur <= length bs /\ (forall i b', i < cur -> nth_error bs i = Some b' -> b' = [])).
  { destruct Hsel as (bs & cur & b & [H'|(bs' & b' & H')]); [exists bs, cur, b; exact H'|exists bs', (bq_cur q), b'; exact H']. }
  clear Hsel. destruct Hsel' as (bs & cur & b & -> & Eb & Een & Hck & Hcl & Hce).
  unfold vget, vset. rewrite Eb. cbn [bind]. pose proof (nth_error_Some_lt _ _ _ Eb). destruct (Nat.ltb_spec k (length bs)); [|lia].
  cbn [bind]. eexists. split; [reflexivity|]. constructor; cbn [bq_buckets bq_cur bq_num bq_pushes].
  - rewrite (entries_upd bs 0 k b v Eb). cbn [Nat.add]. rewrite Ek, Een. now constructor.
  - cbn. lia.
  - intros i b' Hi. rewrite upd_nth_neq by lia. eauto.
  - rewrite upd_length. exact Hcl.
  - lia.
Qed.

Lemma bq_pop_ok q M p : bq_inv q M p -> M <> [] ->
  exists k v q' M', bq_pop q = Ok ((k, v), q') /\ Permutation M ((k, v) :: M') /\ (forall e, In e M -> (k <= fst e)%Z) /\ bq_inv q' M' p.
Proof.
  intros Hinv Hne. pose proof (suffix_entries q M p Hinv) as Hsuf. destruct Hinv as [Hp Hn Hc Hle Hpu]. unfold bq_pop.
  destruct (bq_num q) as [|n] eqn:En; [destruct M; [congruence|discriminate]|].
  assert (Hs : entries (bq_cur q) (skipn (bq_cur q) (bq_buckets q)) <> []).
  { rewrite <- Hsuf. intros E. rewrite E in Hp. apply Permutation_nil in Hp. contradiction. }
  destruct (leading_split _ _ Hs) as (E & b & t & Esk & HE & Hb & Hl).
  set (F := firstn (bq_cur q) (bq_buckets q) ++ E).
  assert (HF : empties F) by (apply Forall_app; split; auto; apply firstn_empties; auto).
  assert (Ebs : bq_buckets q = F ++ b :: t).
  { unfold F. rewrite <- app_assoc, <- Esk. symmetry. apply firstn_skipn. }
  assert (Hcur : update_current_bucket_no q = length F).
  { unfold update_current_bucket_no, F. rewrite app_length, firstn_length, Hl. lia. }
  rewrite Hcur. destruct (@exists_last _ b Hb) as (b0 & v & ->).
  assert (Enth : nth_error (bq_buckets q) (length F) = Some (b0 ++ [v])).
  { rewrite Ebs, nth_error_app2, Nat.sub_diag; auto. }
  unfold vget, vset. rewrite Enth. cbn [bind]. unfold take_back. rewrite rev_app_distr. cbn [rev app bind fst snd]. rewrite rev_involutive.
  pose proof (nth_error_Some_lt _ _ _ Enth). destruct (Nat.ltb_spec (length F) (length (bq_buckets q))); [|lia]. cbn [bind].
  assert (Een : entries 0 (bq_buckets q) = entries (length F) ((b0 ++ [v]) :: t)).
  { rewrite Ebs, entries_app, (entries_empties _ HF). reflexivity. }
  assert (Eup : upd (bq_buckets q) (length F) b0 = F ++ b0 :: t).
  { rewrite Ebs, upd_app_r, Nat.sub_diag by lia. reflexivity. }
  eexists _, v, _, (entries 0 (upd (bq_buckets q) (length F) b0)). split; [reflexivity|].
  assert (Hperm : Permutation M ((Z.of_nat (length F), v) :: entries 0 (upd (bq_buckets q) (length F) b0))).
  { rewrite <- Hp, Een, Eup, entries_app, (entries_empties _ HF). cbn [app bucket_entries Nat.add]. rewrite map_app. cbn [map].
    rewrite <- app_assoc. cbn [app]. apply Permutation_sym, Permutation_middle. }
  splits; auto.
  - intros e He. apply (Permutation_in _ (Permutation_sym Hp)) in He. rewrite Een in He. now apply entries_key in He.
  - constructor; cbn [bq_buckets bq_cur bq_num bq_pushes]; auto.
    + apply Permutation_length in Hperm. cbn in Hperm. lia.
    + intros i b' Hi. rewrite Eup, nth_error_app1 by lia. intros Hb'. apply nth_error_In in Hb'.
      rewrite Forall_forall in HF. auto.
    + rewrite upd_length. lia.
Qed.

Lemma pushes_nonneg (ops : list (pq_op V)) : (0 <= pushes ops)%Z.
Proof. induction ops as [|op ops IH]; [cbn; lia|]. destruct op; cbn [pushes]; lia. Qed.

Lemma aq_step_ok a M p op ops : aq_inv a M p -> legal INT_MAX_KEY (length M) (op :: ops) ->
  (p + pushes (op :: ops) <= INT_MAX_KEY)%Z -> (0 <= p)%Z ->
  exists a' r M' p', aq_step a op = Ok (a', r) /\ aq_inv a' M' p' /\ legal INT_MAX_KEY (length M') ops /\
    (p' + pushes ops <= INT_MAX_KEY)%Z /\ (0 <= p')%Z /\
    (forall rs Mf, bag_run M' ops rs Mf -> bag_run M (op :: ops) (r :: rs) Mf).
Proof.
  intros Hinv Hleg Hp Hp0. destruct op as [key v| | | |n]; cbn [legal pushes] in Hleg, Hp.
  - destruct Hleg as [Hk Hleg]. cbn [aq_step].
    assert (Hconv : exists a1, convert_if_necessary a key = Ok a1 /\ aq_inv a1 M p).
    { destruct a as [h|q]; cbn [convert_if_necessary]; [eauto|]. unfold valid_key.
      destruct (Z.leb_spec 0 key); [|lia]. destruct (Z.eqb_spec key INT_MAX_KEY); [lia|]. cbn [negb andb guard bind].
      destruct ((MIN_BUCKETS_BEFORE_SWITCH <=? key)%Z && (bq_pushes q <? key)%Z); [|eauto].
      cbn in Hinv. pose proof (suffix_entries _ _ _ Hinv) as Hs. rewrite (extract_ok _ _ (bq_num q)).
      - cbn [bind]. eexists. split; [reflexivity|]. cbn. rewrite <- Hs. split; [|apply Hinv].
        apply sorted_heap. intros i j x y Hij Hx Hy. eapply sorted_entries; eauto.
      - rewrite <- Hs, (b_num _ _ _ Hinv). symmetry. apply Permutation_length, Hinv. }
    destruct Hconv as (a1 & -> & Hinv1). cbn [bind]. clear Hinv a. destruct a1 as [h|q]; cbn in Hinv1.
    + unfold hq_push. destruct (Z.eqb_spec key INT_MAX_KEY); [lia|]. cbn [negb guard bind]. destruct Hinv1 as [Hh HP].
      destruct (heap_push_ok entry_le entry_le_total entry_le_trans h (key, v) Hh) as (h' & -> & Hh' & HP'). cbn [bind].
      eexists _, _, ((key, v) :: M), (p + 1)%Z. split; [reflexivity|]. cbn [aq_inv length]. splits; auto; try lia.
      * rewrite <- HP'. now constructor.
      * intros rs Mf Hr. now constructor.
    + destruct (bq_push_ok q M p key v Hinv1 Hk) as (q' & -> & Hq'). { pose proof (pushes_nonneg ops). lia. }
      cbn [bind]. eexists _, _, ((key, v) :: M), (p + 1)%Z. split; [reflexivity|]. splits; auto; try lia.
      intros rs Mf Hr. now constructor.
  - destruct Hleg as [Hn Hleg]. cbn [aq_step]. destruct a as [h|q]; cbn in Hinv.
    + destruct Hinv as [Hh HP]. unfold hq_pop.
      destruct (heap_pop_ok entry_le entry_le_total entry_le_trans h Hh) as ([k v] & h' & -> & Hh' & HP' & Hmin).
      { intros ->. apply Permutation_nil in HP. subst. cbn in Hn. lia. }
      cbn [bind fst snd]. eexists _, _, h', p. split; [reflexivity|].
      assert (HM : Permutation M ((k, v) :: h')) by (rewrite <- HP; auto).
      splits; auto.
      * split; auto.
      * apply Permutation_length in HM. cbn in HM. rewrite HM in Hleg. exact Hleg.
      * intros rs Mf Hr. econstructor; eauto. intros e He. apply (Permutation_in _ (Permutation_sym HP)), Hmin in He.
        unfold entry_le in He. apply Z.leb_le in He. exact He.
    + destruct (bq_pop_ok q M p Hinv) as (k & v & q' & M' & -> & HM & Hmin & Hq').
      { intros ->. cbn in Hn. lia. }
      cbn [bind fst snd]. eexists _, _, M', p. split; [reflexivity|]. splits; auto.
      * apply Permutation_length in HM. cbn in HM. rewrite HM in Hleg. exact Hleg.
      * intros rs Mf Hr. econstructor; eauto.
  - cbn [aq_step]. eexists _, _, M, p. split; [reflexivity|]. splits; auto. intros rs Mf Hr. constructor; auto.
    destruct a as [h|q]; cbn in Hinv.
    + destruct Hinv as [_ HP]. destruct h; cbn.
      * apply Permutation_nil in HP. tauto.
      * split; [discriminate|]. intros ->. apply Permutation_sym, Permutation_nil in HP. discriminate.
    + unfold bq_empty. rewrite (b_num _ _ _ Hinv), Nat.eqb_eq. apply length_zero_iff_nil.
  - cbn [aq_step]. destruct a as [h|q]; cbn in Hinv.
    + eexists _, _, [], p. split; [reflexivity|]. splits; auto.
      * split; auto. intros j Hj x y Hx. destruct (parent j); discriminate.
      * intros rs Mf Hr. now constructor.
    + unfold bq_clear. pose proof (suffix_entries _ _ _ Hinv) as Hs.
      destruct (clear_ok (skipn (bq_cur q) (bq_buckets q)) (bq_cur q) (bq_num q)) as (t & -> & Ht).
      { rewrite <- Hs, (b_num _ _ _ Hinv). symmetry. apply Permutation_length, Hinv. }
      cbn [bind]. eexists _, _, [], p. split; [reflexivity|]. splits; auto.
      * constructor; cbn; auto; try lia.
        rewrite entries_empties; auto. apply Forall_app. split; auto. apply firstn_empties, Hinv.
      * intros rs Mf Hr. now constructor.
  - cbn [aq_step]. pose proof (pushes_nonneg ops) as Hpo.
    destruct a as [h|q]; cbn in Hinv.
    + eexists _, _, M, p. split; [reflexivity|]. splits; auto; try lia. intros rs Mf Hr. now constructor.
    + destruct Hinv as [H1 H2 H3 H4 H5]. destruct (Z.leb_spec (bq_pushes q + Z.of_nat n) INT_MAX_KEY); [|lia]. cbn [guard bind].
      eexists _, _, M, (p + Z.of_nat n)%Z. split; [reflexivity|]. splits; auto; try lia.
      * constructor; cbn; auto; lia.
      * intros rs Mf Hr. now constructor.
Qed.

Lemma aq_run_ok : forall ops a M p, aq_inv a M p -> legal INT_MAX_KEY (length M) ops ->
  (p + pushes ops <= INT_MAX_KEY)%Z -> (0 <= p)%Z ->
  exists a' rs, aq_run a ops = Ok (a', rs) /\ bag_run M ops rs (aq_entries a').
Proof.
  induction ops as [|op ops IH]; intros a M p Hinv Hleg Hp Hp0.
  - exists a, []. split; auto. constructor. destruct a as [h|q]; cbn in *; [symmetry; apply Hinv|symmetry; apply Hinv].
  - destruct (aq_step_ok a M p op ops Hinv Hleg Hp Hp0) as (a1 & r & M1 & p1 & E & Hi & Hl & Hp1 & Hp10 & Hr).
    destruct (IH a1 M1 p1 Hi Hl Hp1 Hp10) as (a2 & rs & E2 & H2).
    exists a2, (r :: rs). split; [|auto]. cbn [aq_run]. rewrite E. cbn [bind fst snd]. rewrite E2. reflexivity.
Qed.

Lemma aq_history (ops : list (pq_op V)) : legal INT_MAX_KEY 0 ops -> (pushes ops <= INT_MAX_KEY)%Z ->
  exists a rs, aq_run aq_make ops = Ok (a, rs) /\ bag_run [] ops rs (aq_entries a).
Proof.
  intros Hl Hp. apply (aq_run_ok ops aq_make [] 0%Z); auto; try lia.
  constructor; cbn; auto; lia.
Qed.
Lemma hq_history (ops : list (pq_op V)) : legal INT_MAX_KEY 0 ops -> (pushes ops <= INT_MAX_KEY)%Z ->
  exists a rs, aq_run (AHeap []) ops = Ok (a, rs) /\ bag_run [] ops rs (aq_entries a).
Proof.
  intros Hl Hp. apply (aq_run_ok ops (AHeap []) [] 0%Z); auto; try lia.
  split; auto. intros j Hj x y Hx. destruct (parent j); discriminate.
Qed.
End P.
