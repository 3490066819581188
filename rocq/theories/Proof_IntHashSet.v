(** IntHashSet is a set of keys up to the given equality. *)
From Verif Require Import Outcome Spec_KeySet Model_IntHashSet Model_OrderedSet Proof_OrderedSet.
From Coq Require Import Permutation.

Lemma mod_wrap n x : x < 2 * n -> x mod n = if x <? n then x else x - n.
Proof.
  intros H. destruct (Nat.ltb_spec x n); [now apply Nat.mod_small|].
  replace x with ((x - n) + 1 * n) at 1 by lia. rewrite Nat.mod_add by lia. apply Nat.mod_small. lia.
Qed.

Lemma get_bucket_mod k h : get_bucket (2 ^ k) h = N.to_nat (h mod 2 ^ N.of_nat k).
Proof.
  unfold get_bucket. f_equal. rewrite <- N.land_ones. f_equal.
  rewrite N.ones_equiv, Nat2N.inj_pow. cbn. lia.
Qed.
Lemma get_bucket_nat k x : get_bucket (2 ^ k) (N.of_nat x) = x mod 2 ^ k.
Proof.
  rewrite get_bucket_mod. apply Nat2N.inj. rewrite N2Nat.id, Nat2N.inj_mod, Nat2N.inj_pow. reflexivity.
Qed.
Lemma get_bucket_lt k h : get_bucket (2 ^ k) h < 2 ^ k.
Proof.
  rewrite get_bucket_mod. pose proof (N.mod_upper_bound h (2 ^ N.of_nat k)) as H.
  assert (2 ^ N.of_nat k <> 0)%N by (apply N.pow_nonzero; lia). specialize (H H0).
  replace (2 ^ k) with (N.to_nat (2 ^ N.of_nat k)) by (rewrite N2Nat.inj_pow, Nat2N.id; reflexivity). lia.
Qed.
Lemma filter_perm {A} (p : A -> bool) l l' : Permutation l l' -> Permutation (filter p l) (filter p l').
Proof.
  induction 1 as [|x l l' HP IH|x y l|]; cbn; auto.
  - destruct (p x); auto.
  - destruct (p y), (p x); auto. apply perm_swap.
  - eapply Permutation_trans; eauto.
Qed.
Lemma pow2_pos k : 0 < 2 ^ k.
Proof. pose proof (Nat.pow_nonzero 2 k). lia. Qed.

Definition dist (n i1 i2 : nat) : nat := if i1 <=? i2 then i2 - i1 else n + i2 - i1.
Lemma get_distance_ok n i1 i2 : i1 < n -> i2 < n -> get_distance n i1 i2 = Ok (dist n i1 i2).
Proof. intros H1 H2. unfold get_distance. apply Nat.ltb_lt in H1, H2. now rewrite H1, H2. Qed.
Lemma dist_lt n i1 i2 : i1 < n -> i2 < n -> dist n i1 i2 < n.
Proof. unfold dist. destruct (Nat.leb_spec i1 i2); lia. Qed.
Lemma dist_mod n i1 i2 : i1 < n -> i2 < n -> (i1 + dist n i1 i2) mod n = i2.
Proof.
  intros H1 H2. rewrite mod_wrap by (pose proof (dist_lt n i1 i2 H1 H2); lia). unfold dist.
  destruct (Nat.leb_spec i1 i2); [destruct (Nat.ltb_spec (i1 + (i2 - i1)) n)|destruct (Nat.ltb_spec (i1 + (n + i2 - i1)) n)]; lia.
Qed.
Lemma dist_of n i d : i < n -> d < n -> dist n i ((i + d) mod n) = d.
Proof.
  intros H1 H2. rewrite mod_wrap by lia. unfold dist. destruct (Nat.ltb_spec (i + d) n).
  - destruct (Nat.leb_spec i (i + d)); lia.
  - destruct (Nat.leb_spec i (i + d - n)); lia.
Qed.
Lemma dist_back n i f o : i < n -> f < n -> o <= dist n i f -> o < n -> dist n i ((f + n - o) mod n) = dist n i f - o.
Proof.
  intros H1 H2 H3 H4. rewrite mod_wrap by lia. unfold dist in *.
  destruct (Nat.ltb_spec (f + n - o) n); destruct (Nat.leb_spec i f);
  repeat match goal with |- context [?a <=? ?b] => destruct (Nat.leb_spec a b) end; lia.
Qed.

Section P.
Variable hasher : nat -> N.
Variable equal : nat -> nat -> bool.
Hypothesis Heq : equivalence equal.
Hypothesis Hcompat : forall x y, equal x y = true -> hasher x = hasher y.

Definition key_of (b : bucket) : list nat := match bkey b with Some k => [k] | None => [] end.
Definition keys (bs : list bucket) : list nat := flat_map key_of bs.

Definition placed (n : nat) (bs : list bucket) : Prop :=
  forall i b k, nth_error bs i = Some b -> bkey b = Some k ->
    bhash b = hasher k /\ dist n (get_bucket n (hasher k)) i < MAX_DISTANCE.

Definition pairwise (l : list nat) : Prop := ForallOrdPairs (fun a b => equal a b = false) l.

Lemma equal_sym_false a b : equal a b = false -> equal b a = false.
Proof.
  intros H. destruct (equal b a) eqn:E; auto. destruct Heq as (_ & Hs & _). apply Hs in E. congruence.
Qed.

Lemma pairwise_cons x l : pairwise (x :: l) <-> (forall y, In y l -> equal x y = false) /\ pairwise l.
Proof.
  unfold pairwise. split.
  - intros H. inv H. rewrite Forall_forall in H2. auto.
  - intros [H1 H2]. constructor; auto. now apply Forall_forall.
Qed.
Lemma pairwise_perm l l' : Permutation l l' -> pairwise l -> pairwise l'.
Proof.
  induction 1 as [|x l l' HP IH|x y l|l l' l'' H1 IH1 H2 IH2]; auto.
  - rewrite !pairwise_cons. intros [H1 H2]. split; auto. intros z Hz. apply H1. eapply Permutation_in; [apply Permutation_sym|]; eauto.
  - rewrite !pairwise_cons. intros [H1 [H2 H3]]. splits; auto.
    + intros z [->|Hz]; auto. apply equal_sym_false. apply H1. now left.
    + intros z Hz. apply H1. now right.
Qed.
Lemma pairwise_snoc l x : pairwise l -> (forall y, In y l -> equal y x = false) -> pairwise (l ++ [x]).
Proof.
  intros H1 H2. apply (pairwise_perm (x :: l)); [apply Permutation_cons_append|]. apply pairwise_cons. split; auto.
  intros y Hy. apply equal_sym_false. auto.
Qed.

Record good (s : hset) (E : list nat) (k : nat) : Prop := {
  g_len : length (buckets s) = 2 ^ k;
  g_placed : placed (2 ^ k) (buckets s);
  g_perm : Permutation (keys (buckets s)) E;
  g_pw : pairwise E;
  g_num : num_entries s = length E }.

Lemma In_keys bs k : In k (keys bs) <-> exists i b, nth_error bs i = Some b /\ bkey b = Some k.
Proof.
  unfold keys. rewrite in_flat_map. split.
  - intros (b & Hb & Hk). apply In_nth_error in Hb. destruct Hb as [i Hi]. exists i, b. split; auto.
    unfold key_of in Hk. destruct (bkey b); [|destruct Hk]. destruct Hk as [->|[]]. auto.
  - intros (i & b & Hi & Hb). exists b. split; [eapply nth_error_In; eauto|]. unfold key_of. rewrite Hb. now left.
Qed.

Lemma keys_le bs : length (keys bs) <= length bs.
Proof.
  unfold keys. induction bs as [|b bs IH]; cbn; auto. rewrite app_length. unfold key_of. unfold key_of in IH; destruct (bkey b); cbn [length]; lia.
Qed.
Lemma keys_full bs : (forall i b, nth_error bs i = Some b -> full b = true) -> length (keys bs) = length bs.
Proof.
  unfold keys. induction bs as [|b bs IH]; cbn; intros H; auto. rewrite app_length, IH.
  - specialize (H 0 b eq_refl). unfold full in H. unfold key_of. destruct (bkey b); [auto|discriminate].
  - intros i c Hc. apply (H (S i) c Hc).
Qed.

Lemma keys_notfull bs i b : nth_error bs i = Some b -> full b = false -> length (keys bs) < length bs.
Proof.
  intros Hi Hf. destruct (nth_error_split _ _ Hi) as (l1 & l2 & -> & _). unfold keys. rewrite flat_map_app, !app_length. cbn [flat_map].
  rewrite app_length. unfold full in Hf. unfold key_of at 2. destruct (bkey b); [discriminate|].
  pose proof (keys_le l1). pose proof (keys_le l2). unfold keys in *. cbn [length]. lia.
Qed.

(* ---- find_equal_key ---- *)
Lemma find_equal_from_ok k bs ideal key h cnt : length bs = 2 ^ k -> forall i,
  exists r, find_equal_from equal cnt i bs ideal key h = Ok r /\
    match r with
    | Some key' => exists j b, nth_error bs j = Some b /\ bkey b = Some key' /\ equal key' key = true
    | None => forall m b key', i <= m < i + cnt -> nth_error bs ((ideal + m) mod 2 ^ k) = Some b -> bkey b = Some key' ->
        N.eqb (bhash b) h && equal key' key = false
    end.
Proof.
  intros Hlen. induction cnt as [|cnt IH]; intros i; cbn [find_equal_from].
  - exists None. split; auto. intros; lia.
  - rewrite Hlen, get_bucket_nat.
    destruct (vget_some bs ((ideal + i) mod 2 ^ k)) as (b & Eb & ->).
    { rewrite Hlen. apply Nat.mod_upper_bound. pose proof (pow2_pos k). lia. }
    cbn [bind]. destruct (IH (S i)) as (r & Er & Hr).
    assert (Hcont : (forall key', bkey b = Some key' -> N.eqb (bhash b) h && equal key' key = false) ->
      match r with
      | Some key' => exists j b, nth_error bs j = Some b /\ bkey b = Some key' /\ equal key' key = true
      | None => forall m b key', i <= m < i + S cnt -> nth_error bs ((ideal + m) mod 2 ^ k) = Some b -> bkey b = Some key' ->
          N.eqb (bhash b) h && equal key' key = false
      end).
    { intros Hb. destruct r; auto. intros m c key' Hm Hc Hk. destruct (Nat.eq_dec m i) as [->|].
      - rewrite Eb in Hc. injection Hc as <-. auto.
      - eapply Hr; eauto. lia. }
    destruct (bkey b) as [key'|] eqn:Ek.
    + destruct (N.eqb (bhash b) h && equal key' key) eqn:Et.
      * exists (Some key'). split; auto. apply andb_true_iff in Et. exists ((ideal + i) mod 2 ^ k), b. tauto.
      * exists r. split; auto. apply Hcont. intros key2 E2. now injection E2 as <-.
    + exists r. split; auto. apply Hcont. discriminate.
Qed.

Lemma find_equal_key_ok s E k key : good s E k ->
  exists r, find_equal_key equal (buckets s) key (hasher key) = Ok r /\
    r = find (fun k' => equal k' key) E.
Proof.
  intros [Hlen Hpl Hp Hpw Hnum]. unfold find_equal_key.
  destruct (find_equal_from_ok k (buckets s) (get_bucket (length (buckets s)) (hasher key)) key (hasher key) MAX_DISTANCE Hlen 0)
    as (r & Er & Hr). exists r. split; [rewrite Er; reflexivity|]. destruct r as [key'|].
  - destruct Hr as (j & b & Hj & Hb & He).
    assert (Hin : In key' E) by (eapply Permutation_in; [exact Hp|]; apply In_keys; eauto).
    clear - Hin He Hpw Heq. induction E as [|e E IH]; [destruct Hin|]. apply pairwise_cons in Hpw. destruct Hpw as [H1 H2]. cbn.
    destruct Hin as [->|Hin]; [now rewrite He|]. destruct (equal e key) eqn:Ee; [|auto].
    specialize (H1 _ Hin). destruct Heq as (_ & Hs & Ht). rewrite (Ht e key key') in H1; auto; discriminate.
  - destruct (find (fun k' => equal k' key) E) as [key'|] eqn:Ef; auto. exfalso. apply find_some in Ef. destruct Ef as [Hin He].
    apply Permutation_sym in Hp. eapply Permutation_in in Hin; [|exact Hp]. apply In_keys in Hin. destruct Hin as (i & b & Hi & Hb).
    destruct (Hpl _ _ _ Hi Hb) as [Hh Hd]. rewrite (Hcompat _ _ He) in Hh, Hd. rewrite Hlen in Hr.
    pose proof (nth_error_Some_lt _ _ _ Hi) as Hlt. rewrite Hlen in Hlt.
    specialize (Hr (dist (2 ^ k) (get_bucket (2 ^ k) (hasher key)) i) b key' ltac:(lia)).
    rewrite dist_mod in Hr; auto using get_bucket_lt. specialize (Hr Hi Hb).
    rewrite Hh, N.eqb_refl, He in Hr. discriminate.
Qed.

(* ---- find_next_free ---- *)
Lemma find_next_free_ok k bs : length bs = 2 ^ k -> (exists e b, nth_error bs e = Some b /\ full b = false) ->
  forall start, start < 2 ^ k -> exists i b, find_next_free (2 ^ k) bs start = Ok i /\ nth_error bs i = Some b /\ full b = false /\
    forall m, m < dist (2 ^ k) start i -> exists b', nth_error bs ((start + m) mod 2 ^ k) = Some b' /\ full b' = true.
Proof.
  intros Hlen (e & be & He & Hbe) start Hs. pose proof (pow2_pos k) as Hpos.
  assert (H : forall fuel i, i < 2 ^ k -> dist (2 ^ k) i e < fuel ->
    exists j b, find_next_free fuel bs i = Ok j /\ nth_error bs j = Some b /\ full b = false /\
      forall m, m < dist (2 ^ k) i j -> exists b', nth_error bs ((i + m) mod 2 ^ k) = Some b' /\ full b' = true).
  { induction fuel as [|fuel IH]; intros i Hi Hd; [lia|]. cbn [find_next_free].
    destruct (vget_some bs i) as (b & Eb & ->); [lia|]. cbn [bind]. destruct (full b) eqn:Ef.
    2:{ exists i, b. splits; auto. intros m Hm. unfold dist in Hm. destruct (Nat.leb_spec i i); lia. }
    rewrite Hlen, get_bucket_nat.
    pose proof (nth_error_Some_lt _ _ _ He) as Hel. rewrite Hlen in Hel.
    assert (Hie : i <> e) by congruence.
    assert (Hstep : forall j, j < 2 ^ k -> i <> j -> dist (2 ^ k) ((i + 1) mod 2 ^ k) j = dist (2 ^ k) i j - 1 /\ 0 < dist (2 ^ k) i j).
    { intros j Hj Hij. rewrite mod_wrap by lia. unfold dist in *.
      destruct (Nat.ltb_spec (i + 1) (2 ^ k)); destruct (Nat.leb_spec i j);
        repeat match goal with |- context [?a <=? ?b] => destruct (Nat.leb_spec a b) end; lia. }
    destruct (IH ((i + 1) mod 2 ^ k)) as (j & bj & E1 & E2 & E3 & E4).
    { apply Nat.mod_upper_bound; lia. } { destruct (Hstep e Hel Hie). lia. }
    exists j, bj. splits; auto. intros m Hm.
    destruct m as [|m]; [rewrite Nat.add_0_r, Nat.mod_small by lia; eauto|].
    pose proof (nth_error_Some_lt _ _ _ E2) as Hjl. rewrite Hlen in Hjl.
    assert (Hij : i <> j) by congruence. destruct (Hstep j Hjl Hij) as [Hs1 Hs2].
    destruct (E4 m ltac:(lia)) as (b' & Hb' & Hf'). exists b'. split; auto. rewrite <- Hb'. f_equal.
    rewrite Nat.add_mod_idemp_l by lia. f_equal. lia. }
  apply H; auto. pose proof (nth_error_Some_lt _ _ _ He) as Hel. rewrite Hlen in Hel. now apply dist_lt.
Qed.

Lemma free_exists s E k : good s E k -> num_entries s < 2 ^ k -> exists e b, nth_error (buckets s) e = Some b /\ full b = false.
Proof.
  intros [Hlen Hpl Hp Hpw Hnum] Hlt.
  destruct (forallb full (buckets s)) eqn:Ea.
  - exfalso. rewrite forallb_forall in Ea. rewrite Hnum, <- (Permutation_length Hp), keys_full in Hlt; [lia|].
    intros i b Hi. apply Ea. eapply nth_error_In; eauto.
  - assert (Hex : exists b, In b (buckets s) /\ full b = false).
    { clear - Ea. induction (buckets s) as [|b l IH]; cbn in Ea; [discriminate|]. destruct (full b) eqn:Eb.
      - destruct (IH Ea) as (c & Hc & Hf). exists c. split; auto. now right.
      - exists b. split; auto. now left. }
    destruct Hex as (b & Hb & Hf). apply In_nth_error in Hb. destruct Hb as [i Hi]. eauto.
Qed.

(* ---- swaps ---- *)
Lemma swap_buckets_ok bs i j x y : nth_error bs i = Some x -> nth_error bs j = Some y ->
  swap_buckets bs i j = Ok (swap bs i j).
Proof.
  intros Hi Hj. unfold swap_buckets, swap. rewrite Hi, Hj. apply vget_ok in Hi as Hi'. apply vget_ok in Hj as Hj'.
  rewrite Hi', Hj'. cbn [bind]. unfold vset.
  apply nth_error_Some_lt in Hi, Hj. apply Nat.ltb_lt in Hi, Hj. rewrite Hi. cbn [bind]. rewrite upd_length. now rewrite Hj.
Qed.

Lemma find_swap_ok k bs free o : length bs = 2 ^ k -> free < 2 ^ k -> o < 2 ^ k ->
  exists r, find_swap o bs free = Ok r /\
    match r with
    | None => True
    | Some c => exists o' b, 1 <= o' <= o /\ c = (free + 2 ^ k - o') mod 2 ^ k /\ nth_error bs c = Some b /\
        dist (2 ^ k) (get_bucket (2 ^ k) (bhash b)) free < MAX_DISTANCE
    end.
Proof.
  intros Hlen Hf. induction o as [|o IH]; intros Ho; cbn [find_swap]; [exists None; auto|].
  rewrite Hlen. destruct (Nat.ltb_spec (S o) (2 ^ k)); [|lia]. cbn [guard bind]. rewrite get_bucket_nat.
  set (c := (free + 2 ^ k - S o) mod 2 ^ k).
  assert (Hc : c < 2 ^ k) by (apply Nat.mod_upper_bound; lia).
  destruct (vget_some bs c) as (b & Eb & ->); [lia|]. cbn [bind].
  rewrite get_distance_ok by (auto using get_bucket_lt). cbn [bind].
  destruct (Nat.ltb_spec (dist (2 ^ k) (get_bucket (2 ^ k) (bhash b)) free) MAX_DISTANCE) as [Hd|Hd].
  - exists (Some c). split; auto. exists (S o), b. splits; auto; lia.
  - destruct IH as (r & Er & Hr); [lia|]. exists r. split; auto. destruct r as [c'|]; auto.
    destruct Hr as (o' & b' & Ho' & R). exists o', b'. split; [lia|auto].
Qed.

Lemma swap_nth (bs : list bucket) i j m x y : nth_error bs i = Some x -> nth_error bs j = Some y ->
  nth_error (swap bs i j) m = if m =? j then Some x else if m =? i then Some y else nth_error bs m.
Proof.
  intros Hi Hj. unfold swap. rewrite Hi, Hj, !upd_nth, upd_length.
  pose proof (nth_error_Some_lt _ _ _ Hi). pose proof (nth_error_Some_lt _ _ _ Hj).
  rewrite (Nat.eqb_sym m j), (Nat.eqb_sym m i).
  destruct (Nat.eqb_spec j m); [destruct (Nat.ltb_spec j (length bs)); [auto|lia]|].
  destruct (Nat.eqb_spec i m); [destruct (Nat.ltb_spec i (length bs)); [auto|lia]|auto].
Qed.

Lemma move_free_ok k : forall fuel bs ideal free b, length bs = 2 ^ k -> placed (2 ^ k) bs ->
  ideal < 2 ^ k -> nth_error bs free = Some b -> full b = false -> dist (2 ^ k) ideal free < fuel ->
  exists bs' r, move_free fuel bs ideal free = Ok (bs', r) /\
    length bs' = 2 ^ k /\ placed (2 ^ k) bs' /\ Permutation (keys bs') (keys bs) /\
    match r with
    | None => MAX_DISTANCE <= dist (2 ^ k) ideal free
    | Some f => exists b', nth_error bs' f = Some b' /\ full b' = false /\ dist (2 ^ k) ideal f < MAX_DISTANCE
    end.
Proof.
  induction fuel as [|fuel IH]; intros bs ideal free b Hlen Hpl Hi Hfree Hb Hd; [lia|]. cbn [move_free].
  pose proof (nth_error_Some_lt _ _ _ Hfree) as Hfl. rewrite Hlen in Hfl.
  rewrite Hlen, get_distance_ok by auto. cbn [bind].
  destruct (Nat.ltb_spec (dist (2 ^ k) ideal free) MAX_DISTANCE) as [Hdd|Hdd].
  - exists bs, (Some free). splits; auto. eauto.
  - pose proof (dist_lt _ _ _ Hi Hfl) as Hdl.
    rewrite Nat.min_l by (unfold MAX_DISTANCE in *; lia).
    destruct (find_swap_ok k bs free (MAX_DISTANCE - 1) Hlen Hfl) as (r & -> & Hr); [unfold MAX_DISTANCE in *; lia|].
    cbn [bind]. destruct r as [c|]; [|exists bs, None; splits; auto].
    destruct Hr as (o & bc & Ho & Hc & Hbc & Hcd).
    rewrite (swap_buckets_ok bs c free bc b Hbc Hfree). cbn [bind].
    assert (Hcne : c <> free).
    { intros E. assert (dist (2 ^ k) ideal c = dist (2 ^ k) ideal free - o) by (rewrite Hc; apply dist_back; auto; unfold MAX_DISTANCE in *; lia).
      rewrite E in H. unfold MAX_DISTANCE in *. lia. }
    destruct (IH (swap bs c free) ideal c b) as (bs' & r & E & H1 & H2 & H3 & H4).
    + unfold swap. rewrite Hbc, Hfree, !upd_length. exact Hlen.
    + intros m bm km Hm Hk. rewrite (swap_nth bs c free m bc b Hbc Hfree) in Hm.
      destruct (Nat.eqb_spec m free) as [->|]; [|destruct (Nat.eqb_spec m c) as [->|]; [|eapply Hpl; eauto]].
      * injection Hm as <-. destruct (Hpl _ _ _ Hbc Hk) as [Hh _]. rewrite Hh in Hcd. auto.
      * injection Hm as <-. unfold full in Hb. rewrite Hk in Hb. discriminate.
    + auto.
    + rewrite (swap_nth bs c free c bc b Hbc Hfree). destruct (Nat.eqb_spec c free); [congruence|]. now rewrite Nat.eqb_refl.
    + auto.
    + rewrite Hc, dist_back; auto; unfold MAX_DISTANCE in *; lia.
    + exists bs', r. splits; auto; [eapply Permutation_trans; [exact H3|]|].
      * apply Permutation_sym. unfold keys. apply Permutation_flat_map. apply swap_perm.
      * destruct r; auto.
Qed.


(* ---- crowding ---- *)
Definition crowded (E : list nat) : Prop := forall m, 6 <= m <= 30 -> exists start, 32 <= window_count hasher m 63 start E.

Lemma crowded_incl E E' : (exists F, Permutation E' (E ++ F)) -> crowded E -> crowded E'.
Proof.
  intros [F HF] H m Hm. destruct (H m Hm) as [start Hs]. exists start. unfold window_count in *.
  assert (HP : Permutation (filter (in_window hasher m 63 start) E') (filter (in_window hasher m 63 start) (E ++ F))).
  { now apply filter_perm. }
  rewrite (Permutation_length HP), filter_app, app_length. lia.
Qed.
Lemma crowded_spread E : spread hasher E -> ~ crowded E.
Proof. intros (m & Hm & H) Hc. destruct (Hc m Hm) as [start Hs]. specialize (H start). lia. Qed.

Lemma keys_inj bs i j b b' a : pairwise (keys bs) -> nth_error bs i = Some b -> nth_error bs j = Some b' ->
  bkey b = Some a -> bkey b' = Some a -> i = j.
Proof.
  intros Hpw.
  assert (H : forall i j b b', i < j -> nth_error bs i = Some b -> nth_error bs j = Some b' -> bkey b = Some a -> bkey b' = Some a -> False).
  { clear i j b b'. intros i j b b' Hij Hi Hj Hb Hb'.
    destruct (nth_error_split _ _ Hi) as (l1 & l2 & E & Hl). subst bs.
    rewrite nth_error_app2 in Hj by lia. destruct (j - length l1) as [|d] eqn:Ed; [lia|]. cbn in Hj.
    unfold keys in Hpw. rewrite flat_map_app in Hpw. cbn [flat_map] in Hpw. unfold key_of at 2 in Hpw. rewrite Hb in Hpw.
    apply (pairwise_perm _ (a :: flat_map key_of l1 ++ flat_map key_of l2)) in Hpw; [|apply Permutation_sym, Permutation_middle].
    apply pairwise_cons in Hpw. destruct Hpw as [Hpw _]. specialize (Hpw a).
    destruct Heq as (Hr & _). rewrite Hr in Hpw. discriminate Hpw. apply in_app_iff. right. apply (In_keys l2). eauto. }
  intros Hi Hj Hb Hb'. destruct (Nat.lt_trichotomy i j) as [Hlt|[?|Hlt]]; auto; exfalso; eapply H; eauto.
Qed.

Lemma run_crowded s E k ideal : good s E k -> 6 <= k -> ideal < 2 ^ k ->
  (forall j, j < 32 -> exists b, nth_error (buckets s) ((ideal + j) mod 2 ^ k) = Some b /\ full b = true) ->
  forall m, 6 <= m <= k -> exists start, 32 <= window_count hasher m 63 start E.
Proof.
  intros [Hlen Hpl Hp Hpw Hnum] Hk Hid Hrun m Hm.
  assert (Hn : 64 <= 2 ^ k) by (change 64 with (2 ^ 6); apply Nat.pow_le_mono_r; lia).
  set (start := ideal + 2 ^ k - 31). exists start.
  assert (Hall : forall c, c <= 32 -> exists l, length l = c /\ NoDup l /\
    (forall a, In a l -> exists j b, j < c /\ nth_error (buckets s) ((ideal + j) mod 2 ^ k) = Some b /\ bkey b = Some a)).
  { induction c as [|c IH]; intros Hc; [exists []; splits; auto; [constructor|intros a []]|].
    destruct IH as (l & Hl & Hnd & Hin); [lia|]. destruct (Hrun c ltac:(lia)) as (b & Hb & Hf).
    unfold full in Hf. destruct (bkey b) as [a|] eqn:Ea; [|discriminate]. exists (a :: l). splits.
    - cbn. lia.
    - constructor; auto. intros Ha. destruct (Hin a Ha) as (j & b' & Hj & Hb' & Ea').
      assert (E' : (ideal + c) mod 2 ^ k = (ideal + j) mod 2 ^ k).
      { eapply (keys_inj (buckets s)); eauto. eapply pairwise_perm; [apply Permutation_sym; exact Hp|auto]. }
      rewrite !mod_wrap in E' by lia.
      destruct (Nat.ltb_spec (ideal + c) (2 ^ k)), (Nat.ltb_spec (ideal + j) (2 ^ k)); lia.
    - intros a' [<-|Ha']; [exists c, b; splits; auto|]. destruct (Hin a' Ha') as (j & b' & Hj & R). exists j, b'. split; auto. }
  destruct (Hall 32 (le_n _)) as (l & Hl & Hnd & Hin). rewrite <- Hl. unfold window_count. apply NoDup_incl_length; auto.
  intros a Ha. destruct (Hin a Ha) as (j & b & Hj & Hb & Ea). apply filter_In. split.
  - eapply Permutation_in; [exact Hp|]. apply In_keys. eauto.
  - destruct (Hpl _ _ _ Hb Ea) as [_ Hd].
    set (h := get_bucket (2 ^ k) (hasher a)) in *.
    assert (Hh : h < 2 ^ k) by apply get_bucket_lt.
    pose proof (dist_mod (2 ^ k) h ((ideal + j) mod 2 ^ k) Hh ltac:(apply Nat.mod_upper_bound; lia)) as Hdm.
    set (d := dist (2 ^ k) h ((ideal + j) mod 2 ^ k)) in *. unfold MAX_DISTANCE in Hd.
    assert (Ehx : h = (start + (31 + j - d)) mod 2 ^ k).
    { unfold start. replace (ideal + 2 ^ k - 31 + (31 + j - d)) with (ideal + j + 2 ^ k - d) by lia.
      assert (Hh2 : (h + d) mod 2 ^ k = (ideal + j) mod 2 ^ k) by auto.
      rewrite !mod_wrap in Hh2 by lia.
      destruct (Nat.lt_ge_cases (ideal + j + 2 ^ k - d) (2 * 2 ^ k)) as [Hw|Hw].
      - rewrite mod_wrap by lia. destruct (Nat.ltb_spec (h + d) (2 ^ k)), (Nat.ltb_spec (ideal + j) (2 ^ k)), (Nat.ltb_spec (ideal + j + 2 ^ k - d) (2 ^ k)); lia.
      - replace (ideal + j + 2 ^ k - d) with ((ideal + j - d - 2 ^ k) + 2 * 2 ^ k) by lia. rewrite Nat.mod_add by lia.
        rewrite Nat.mod_small by lia.
        destruct (Nat.ltb_spec (h + d) (2 ^ k)), (Nat.ltb_spec (ideal + j) (2 ^ k)); lia. }
    unfold in_window. apply existsb_exists. exists (31 + j - d). split; [apply in_seq; lia|]. apply N.eqb_eq.
    assert (Eh : (hasher a mod 2 ^ N.of_nat k)%N = N.of_nat h) by (unfold h; rewrite get_bucket_mod, N2Nat.id; reflexivity).
    assert (Hdiv : forall x, ((x mod 2 ^ N.of_nat k) mod 2 ^ N.of_nat m)%N = (x mod 2 ^ N.of_nat m)%N).
    { intros x.
      apply N.bits_inj. intros q. rewrite <- !N.land_ones, !N.land_spec.
      destruct (N.lt_ge_cases q (N.of_nat m)).
      - rewrite (N.ones_spec_low (N.of_nat k)) by lia. now rewrite andb_true_r.
      - rewrite (N.ones_spec_high (N.of_nat m)) by lia. now rewrite !andb_false_r. }
    rewrite <- Hdiv, Eh, Ehx. rewrite Nat2N.inj_mod.
    replace (N.of_nat (2 ^ k)) with (2 ^ N.of_nat k)%N by (rewrite Nat2N.inj_pow; reflexivity). apply Hdiv.
Qed.

(* ---- insertion ---- *)
Definition insert_result (r : outcome (hset * (nat * bool))) (E : list nat) (k key : nat) : Prop :=
  (r = Exit abort_exit /\ crowded (fst (keyset_insert equal E key))) \/
  exists s' k', r = Ok (s', snd (keyset_insert equal E key)) /\ k <= k' <= 30 /\
    good s' (fst (keyset_insert equal E key)) k'.

Definition insert_spec (f : nat) : Prop := forall s E k key,
  good s E k -> k <= 30 -> 31 <= k + f -> insert_result (insert_rec hasher equal f s key (hasher key)) E k key.

Lemma find_none_pairwise E key : find (fun k' => equal k' key) E = None -> forall y, In y E -> equal y key = false.
Proof. intros H y Hy. exact (find_none _ _ H y Hy). Qed.

Lemma rehash_loop f : insert_spec f -> forall old s E k, good s E k -> k <= 30 -> 31 <= k + f ->
  (forall b key, In b old -> bkey b = Some key -> bhash b = hasher key) ->
  pairwise (E ++ keys old) ->
  let r := fold_outcome (fun s b =>
      match bkey b with
      | Some k => let* r := insert_rec hasher equal f s k (bhash b) in Ok (fst r)
      | None => Ok s
      end) old s in
  (r = Exit abort_exit /\ crowded (E ++ keys old)) \/ exists s' k', r = Ok s' /\ k <= k' <= 30 /\ good s' (E ++ keys old) k'.
Proof.
  intros IHf. induction old as [|b old IH]; intros s E k Hg Hk Hkf Hh Hpw; cbn [fold_outcome keys flat_map].
  - right. exists s, k. rewrite app_nil_r. splits; auto.
  - destruct (bkey b) as [key|] eqn:Eb.
    + assert (Hko : key_of b = [key]) by (unfold key_of; now rewrite Eb). rewrite !Hko.
      rewrite (Hh b key ltac:(now left) Eb).
      assert (Hpw' : pairwise ((E ++ [key]) ++ keys old)).
      { rewrite <- app_assoc. cbn [keys flat_map] in Hpw. unfold key_of at 1 in Hpw. rewrite Eb in Hpw. exact Hpw. }
      assert (Hnone : find (fun k' => equal k' key) E = None).
      { destruct (find (fun k' => equal k' key) E) as [e|] eqn:Ef; auto. apply find_some in Ef. destruct Ef as [Hin He].
        apply (pairwise_perm _ (key :: E ++ keys old)) in Hpw'.
        - apply pairwise_cons in Hpw'. destruct Hpw' as [H1 _]. specialize (H1 e ltac:(apply in_app_iff; auto)).
          apply equal_sym_false in H1. congruence.
        - rewrite <- app_assoc. cbn. apply Permutation_sym, Permutation_middle. }
      destruct (IHf s E k key Hg Hk Hkf) as [[-> Hcr]|(s1 & k1 & E1 & Hk1 & Hg1)].
      { left. split; [reflexivity|]. unfold keyset_insert in Hcr. rewrite Hnone in Hcr. cbn [fst] in Hcr.
        eapply crowded_incl; [|exact Hcr]. exists (keys old). rewrite <- app_assoc. reflexivity. }
      rewrite E1. cbn [bind fst]. unfold keyset_insert in Hg1. rewrite Hnone in Hg1. cbn [fst] in Hg1.
      destruct (IH s1 (E ++ [key]) k1 Hg1) as [Hx|(s2 & k2 & E2 & Hk2 & Hg2)]; auto; try lia.
      * intros c kc Hc. apply Hh. now right.
      * left. rewrite <- app_assoc in Hx. cbn [app] in Hx; exact Hx.
      * right. exists s2, k2. rewrite <- app_assoc in Hg2. splits; [exact E2|lia|lia|exact Hg2].
    + assert (Hko : key_of b = []) by (unfold key_of; now rewrite Eb). rewrite !Hko.
      cbn [bind app]. apply IH; auto.
      * intros c kc Hc. apply Hh. now right.
      * cbn [keys flat_map] in Hpw. unfold key_of at 1 in Hpw. rewrite Eb in Hpw. exact Hpw.
Qed.

Lemma good_empty k n : good {| buckets := repeat empty_bucket (2 ^ k); num_entries := 0; num_resizes := n |} [] k.
Proof.
  constructor; cbn [buckets num_entries].
  - apply repeat_length.
  - intros i b key Hi Hb. apply nth_error_In, repeat_spec in Hi. subst. discriminate.
  - unfold keys. assert (H : forall m, flat_map key_of (repeat empty_bucket m) = []) by (induction m; cbn; auto). now rewrite H.
  - constructor.
  - reflexivity.
Qed.

Lemma is_power_of_2_ok k : is_power_of_2 (N.of_nat (2 ^ k)) = true.
Proof.
  unfold is_power_of_2. apply N.eqb_eq.
  assert (Hpow : N.of_nat (2 ^ k) = (2 ^ N.of_nat k)%N) by (rewrite Nat2N.inj_pow; reflexivity). rewrite Hpow.
  replace (2 ^ N.of_nat k - 1)%N with (N.ones (N.of_nat k)) by (rewrite N.ones_equiv; lia).
  rewrite N.land_ones. apply N.mod_same. apply N.pow_nonzero. lia.
Qed.

Lemma enlarge_ok f : insert_spec f -> forall s E k, good s E k -> k <= 30 -> 30 <= k + f -> (k = 30 -> crowded E) ->
  (enlarge (insert_rec hasher equal f) s = Exit abort_exit /\ crowded E) \/
  exists s' k', enlarge (insert_rec hasher equal f) s = Ok s' /\ k < k' <= 30 /\ good s' E k'.
Proof.
  intros IHf s E k Hg Hk Hkf Hcrowd. unfold enlarge, capacity. rewrite (g_len _ _ _ Hg), is_power_of_2_ok. cbn [guard bind].
  assert (Hpow : N.of_nat (2 ^ k) = (2 ^ N.of_nat k)%N) by (rewrite Nat2N.inj_pow; reflexivity).
  assert (Hle : (2 ^ N.of_nat k <= 2 ^ 30)%N) by (apply N.pow_le_mono_r; lia).
  change (MAX_BUCKETS / 2)%N with 2147483647%N. change (2 ^ 30)%N with 1073741824%N in Hle.
  rewrite Hpow. destruct (N.ltb_spec 2147483647 (2 ^ N.of_nat k)); [lia|].
  unfold INT_MAX. destruct (N.ltb_spec 2147483647 (2 ^ N.of_nat k * 2)) as [Hb|Hb].
  { left. split; auto. apply Hcrowd. destruct (Nat.eq_dec k 30); auto. exfalso.
    assert (2 ^ N.of_nat k <= 2 ^ 29)%N by (apply N.pow_le_mono_r; lia). change (2 ^ 29)%N with 536870912%N in *. lia. }
  assert (Hk30 : k < 30).
  { destruct (Nat.eq_dec k 30) as [->|]; [|lia]. exfalso. revert Hb. vm_compute. intros Hb. apply Hb. reflexivity. }
  unfold rehash. cbn [num_entries buckets].
  replace (2 * 2 ^ k) with (2 ^ S k) by (cbn; lia).
  destruct (rehash_loop f IHf (buckets s) _ [] (S k) (good_empty (S k) (num_resizes s))) as [Hx|(s' & k' & Es & Hk' & Hg')]; try lia.
  - intros b key Hb' Hkey. apply In_nth_error in Hb'. destruct Hb' as [i Hi]. eapply g_placed; eauto.
  - cbn. eapply pairwise_perm; [apply Permutation_sym; exact (g_perm _ _ _ Hg)|apply Hg].
  - left. cbn zeta in Hx. destruct Hx as [Hx Hc]. rewrite Hx. split; [reflexivity|].
    eapply crowded_incl; [|exact Hc]. exists []. rewrite app_nil_r. cbn. apply Permutation_sym, Hg.
  - right. cbn zeta in Es. rewrite Es. cbn [bind]. cbn [app] in Hg'. rewrite (g_num _ _ _ Hg').
    rewrite (g_num _ _ _ Hg), (Permutation_length (g_perm _ _ _ Hg)), Nat.eqb_refl. cbn [guard bind].
    eexists _, k'. split; [reflexivity|]. split; [lia|]. destruct Hg' as [A1 A2 A3 A4 A5].
    constructor; cbn [buckets num_entries]; auto.
    + eapply Permutation_trans; [exact A3|]. apply Hg.
    + apply Hg.
Qed.

Lemma insert_ok : forall f, insert_spec f.
Proof.
  induction f as [|f IHf]; intros s E k key Hg Hk Hkf; [lia|]. cbn [insert_rec]. unfold insert_body.
  rewrite N.eqb_refl. cbn [guard bind].
  destruct (find_equal_key_ok s E k key Hg) as (r & -> & Hr). cbn [bind].
  unfold insert_result, keyset_insert. destruct r as [k'|].
  { rewrite <- Hr. right. exists s, k. splits; auto. }
  rewrite <- Hr. cbn [fst snd]. symmetry in Hr. pose proof (find_none_pairwise _ _ Hr) as Hnew.
  assert (Hle : num_entries s <= capacity s).
  { unfold capacity. rewrite (g_num _ _ _ Hg), <- (Permutation_length (g_perm _ _ _ Hg)). apply keys_le. }
  destruct (Nat.leb_spec (num_entries s) (capacity s)); [|lia]. cbn [guard bind].
  assert (Hs1 : (if num_entries s =? capacity s then enlarge (insert_rec hasher equal f) s else Ok s) = Exit abort_exit /\ crowded E \/
     exists s1 k1, (if num_entries s =? capacity s then enlarge (insert_rec hasher equal f) s else Ok s) = Ok s1 /\
       k <= k1 <= 30 /\ good s1 E k1 /\ num_entries s1 < 2 ^ k1).
  { destruct (Nat.eqb_spec (num_entries s) (capacity s)) as [Ef|Ef].
    - destruct (enlarge_ok f IHf s E k Hg Hk ltac:(lia)) as [[-> Hc]|(s1 & k1 & -> & Hk1 & Hg1)]; [|auto|].
      { intros Hk30 m Hm. apply (run_crowded s E k 0 Hg ltac:(lia) (pow2_pos k)); [|lia].
        intros j Hj. unfold capacity in Ef. rewrite (g_len _ _ _ Hg) in Ef.
        assert (Hjl : (0 + j) mod 2 ^ k < 2 ^ k) by (apply Nat.mod_upper_bound; pose proof (pow2_pos k); lia).
        destruct (vget_some (buckets s) ((0 + j) mod 2 ^ k)) as (b & Eb & _); [rewrite (g_len _ _ _ Hg); exact Hjl|].
        exists b. split; auto. destruct (full b) eqn:Efb; auto. exfalso.
        pose proof (keys_notfull (buckets s) _ _ Eb Efb) as Hc.
        rewrite (Permutation_length (g_perm _ _ _ Hg)), <- (g_num _ _ _ Hg), Ef, (g_len _ _ _ Hg) in Hc. lia. }
      right. exists s1, k1. splits; auto; try lia. rewrite (g_num _ _ _ Hg1), <- (g_num _ _ _ Hg), Ef.
      unfold capacity. rewrite (g_len _ _ _ Hg). apply Nat.pow_lt_mono_r; lia.
    - right. exists s, k. splits; auto. unfold capacity in *. rewrite (g_len _ _ _ Hg) in *. lia. }
  destruct Hs1 as [[-> Hc]|(s1 & k1 & -> & Hk1 & Hg1 & Hlt)].
  { left. split; [reflexivity|]. eapply crowded_incl; [|exact Hc]. exists [key]. reflexivity. }
  cbn [bind].
  unfold capacity. rewrite (g_len _ _ _ Hg1). destruct (Nat.ltb_spec (num_entries s1) (2 ^ k1)); [|lia]. cbn [guard bind].
  destruct (find_next_free_ok k1 (buckets s1) (g_len _ _ _ Hg1) (free_exists _ _ _ Hg1 Hlt) (get_bucket (2 ^ k1) (hasher key)) (get_bucket_lt _ _))
    as (free & bf & -> & Hfree & Hbf & Hrun). cbn [bind].
  destruct (move_free_ok k1 (2 ^ k1) (buckets s1) (get_bucket (2 ^ k1) (hasher key)) free bf (g_len _ _ _ Hg1) (g_placed _ _ _ Hg1)
    (get_bucket_lt _ _) Hfree Hbf) as (bs' & r & -> & H1 & H2 & H3 & H4).
  { apply dist_lt; [apply get_bucket_lt|]. rewrite <- (g_len _ _ _ Hg1). eapply nth_error_Some_lt; eauto. }
  cbn [bind]. destruct r as [fi|].
  - destruct H4 as (b' & Hb' & Hfb & Hd). apply vget_ok in Hb' as Hv. rewrite Hv. cbn [bind]. rewrite Hfb. cbn [negb guard bind].
    unfold vset. pose proof (nth_error_Some_lt _ _ _ Hb') as Hfl. apply Nat.ltb_lt in Hfl as Hfl'. rewrite Hfl'. cbn [bind].
    right. eexists _, k1. split; [reflexivity|]. split; [lia|]. constructor; cbn [buckets num_entries].
    + now rewrite upd_length.
    + intros i b kk Hi Hb. rewrite upd_nth in Hi. destruct (Nat.eqb_spec fi i) as [->|]; [|eapply H2; eauto].
      rewrite Hfl' in Hi. injection Hi as <-. cbn in Hb. injection Hb as <-. cbn. auto.
    + destruct (upd_split bs' fi {| bkey := Some key; bhash := hasher key |} b' Hb') as (l1 & l2 & El & _ & Eu).
      rewrite Eu. rewrite El in H3. clear Eu El.
      unfold keys in *. rewrite flat_map_app in *. cbn [flat_map] in *.
      unfold full in Hfb. unfold key_of at 2. unfold key_of at 2 in H3. cbn [bkey]. destruct (bkey b'); [discriminate|].
      cbn [app] in H3. eapply Permutation_trans; [|apply Permutation_cons_append].
      cbn [app]. apply Permutation_sym, Permutation_cons_app, Permutation_sym.
      eapply Permutation_trans; [exact H3|apply Hg1].
    + apply pairwise_snoc; [apply Hg1|auto].
    + rewrite app_length, (g_num _ _ _ Hg1). cbn. lia.
  - set (s1' := {| buckets := bs'; num_entries := num_entries s1; num_resizes := num_resizes s1 |}).
    assert (Hg1' : good s1' E k1).
    { constructor; cbn [buckets num_entries s1']; auto; try apply Hg1.
      eapply Permutation_trans; [exact H3|apply Hg1]. }
    destruct (enlarge_ok f IHf s1' E k1 Hg1' ltac:(lia) ltac:(lia)) as [[-> Hc]|(s2 & k2 & -> & Hk2 & Hg2)].
    { intros Hk30 m Hm. apply (run_crowded s1 E k1 (get_bucket (2 ^ k1) (hasher key)) Hg1 ltac:(lia) (get_bucket_lt _ _)); [|lia].
      intros j Hj. apply Hrun. unfold MAX_DISTANCE in H4. lia. }
    { left. split; [reflexivity|]. eapply crowded_incl; [|exact Hc]. exists [key]. reflexivity. }
    cbn [bind]. destruct (IHf s2 E k2 key Hg2 ltac:(lia) ltac:(lia)) as [[-> Hc]|(s3 & k3 & E3 & Hk3 & Hg3)].
    { left. split; [reflexivity|]. unfold keyset_insert in Hc. rewrite Hr in Hc. exact Hc. }
    right. exists s3, k3. unfold keyset_insert in *. rewrite Hr in *. cbn [fst snd] in *. splits; auto; lia.
Qed.

Lemma good_make : good hset_make [] 0.
Proof. exact (good_empty 0 0). Qed.

Lemma keyset_run_ext ks : forall E, exists F, fst (keyset_run equal E ks) = E ++ F.
Proof.
  induction ks as [|k ks IH]; intros E; cbn [keyset_run]; [exists []; now rewrite app_nil_r|].
  unfold keyset_insert. destruct (find (fun k' => equal k' k) E).
  - destruct (IH E) as [F HF]. destruct (keyset_run equal E ks). eauto.
  - destruct (IH (E ++ [k])) as [F HF]. destruct (keyset_run equal (E ++ [k]) ks). cbn [fst] in *. exists (k :: F). rewrite HF, <- app_assoc. reflexivity.
Qed.

Lemma hset_run_ok ks : forall s E k, good s E k -> k <= 30 ->
  (hset_run hasher equal s ks = Exit abort_exit /\ crowded (fst (keyset_run equal E ks))) \/
  exists s' k', hset_run hasher equal s ks = Ok (s', snd (keyset_run equal E ks)) /\ k <= k' <= 30 /\
    good s' (fst (keyset_run equal E ks)) k'.
Proof.
  induction ks as [|key ks IH]; intros s E k Hg Hk; cbn [hset_run keyset_run].
  - right. exists s, k. splits; auto.
  - unfold hset_insert. destruct (insert_ok 32 s E k key Hg Hk ltac:(lia)) as [[-> Hc]|(s1 & k1 & -> & Hk1 & Hg1)].
    { left. split; [reflexivity|]. destruct (keyset_insert equal E key) as [E1 a]. cbn [fst] in *.
      destruct (keyset_run_ext ks E1) as [F HF]. destruct (keyset_run equal E1 ks) as [E2 l]. cbn [fst] in *.
      eapply crowded_incl; [|exact Hc]. exists F. rewrite HF. reflexivity. }
    cbn [bind]. destruct (keyset_insert equal E key) as [E1 a]. cbn [fst snd] in *.
    destruct (IH s1 E1 k1 Hg1 ltac:(lia)) as [[-> Hc]|(s2 & k2 & -> & Hk2 & Hg2)].
    { left. split; [reflexivity|]. destruct (keyset_run equal E1 ks). exact Hc. }
    cbn [bind]. destruct (keyset_run equal E1 ks) as [E2 l]. cbn [fst snd] in *.
    right. exists s2, k2. splits; auto; lia.
Qed.

Lemma int_hash_set_history ks :
  hset_run hasher equal hset_make ks = Exit abort_exit /\ ~ spread hasher (fst (keyset_run equal [] ks)) \/
  exists s, hset_run hasher equal hset_make ks = Ok (s, snd (keyset_run equal [] ks)) /\
    num_entries s = length (fst (keyset_run equal [] ks)).
Proof.
  destruct (hset_run_ok ks _ _ _ good_make ltac:(lia)) as [[H Hc]|(s & k & H & _ & Hg)]; auto.
  - left. split; auto. intros Hs. eapply crowded_spread; eauto.
  - right. exists s. split; auto. apply Hg.
Qed.

(** More than 32 keys with one hash value cannot be stored. *)
Lemma collisions_abort ks h : (forall k, In k (fst (keyset_run equal [] ks)) -> hasher k = h) ->
  32 < length (fst (keyset_run equal [] ks)) -> hset_run hasher equal hset_make ks = Exit abort_exit.
Proof.
  intros Hh Hlen. destruct (hset_run_ok ks _ _ _ good_make ltac:(lia)) as [[H Hc]|(s & k & H & _ & Hg)]; auto.
  exfalso. set (E := fst (keyset_run equal [] ks)) in *. destruct Hg as [Hl Hpl Hp Hpw Hnum].
  assert (Hx : forall L, NoDup L -> incl L E -> exists ds, length ds = length L /\ NoDup ds /\
    forall d, In d ds -> d < 32 /\ exists a b, In a L /\ nth_error (buckets s) ((get_bucket (2 ^ k) h + d) mod 2 ^ k) = Some b /\ bkey b = Some a).
  { induction L as [|a L IH]; intros Hnd Hin.
    - exists []. split; [reflexivity|]. split; [constructor|]. intros d [].
    - inv Hnd. destruct IH as (ds & H1 & H4 & H5); auto. { intros x Hx. apply Hin. now right. }
      assert (Ha : In a E) by (apply Hin; now left).
      assert (Hak : In a (keys (buckets s))) by (eapply Permutation_in; [apply Permutation_sym; exact Hp|auto]).
      apply In_keys in Hak. destruct Hak as (i & b & Hi & Hb). destruct (Hpl _ _ _ Hi Hb) as [_ Hd]. rewrite (Hh a Ha) in Hd.
      pose proof (nth_error_Some_lt _ _ _ Hi) as Hil. rewrite Hl in Hil.
      pose proof (dist_mod (2 ^ k) (get_bucket (2 ^ k) h) i (get_bucket_lt _ _) Hil) as Hdm.
      exists (dist (2 ^ k) (get_bucket (2 ^ k) h) i :: ds). splits.
      + cbn. lia.
      + constructor; auto. intros Hin'. destruct (H5 _ Hin') as (_ & a' & b' & Ha' & Hb' & Hk'). rewrite Hdm, Hi in Hb'.
        injection Hb' as <-. rewrite Hb in Hk'. injection Hk' as <-. contradiction.
      + intros d [<-|Hd']; [|destruct (H5 _ Hd') as (? & a' & b' & ? & R); split; auto; exists a', b'; split; [now right|auto]].
        split; [exact Hd|]. exists a, b. rewrite Hdm. split; [now left|auto]. }
  assert (HndE : NoDup E).
  { clear - Hpw Heq. induction E as [|e E IH]; constructor; apply pairwise_cons in Hpw; destruct Hpw as [H1 H2]; auto.
    intros Hin. apply H1 in Hin. destruct Heq as (Hr & _). rewrite Hr in Hin. discriminate. }
  destruct (Hx E HndE (incl_refl _)) as (ds & H1 & H2 & H3).
  assert (length ds <= length (seq 0 32)).
  { apply NoDup_incl_length; auto. intros d Hd. apply in_seq. destruct (H3 d Hd). lia. }
  rewrite seq_length in H0. lia.
Qed.
End P.

Lemma spread_history hasher equal : equivalence equal -> (forall x y, equal x y = true -> hasher x = hasher y) ->
  forall ks, spread hasher (fst (keyset_run equal [] ks)) ->
  exists s, hset_run hasher equal hset_make ks = Ok (s, snd (keyset_run equal [] ks)) /\
    num_entries s = length (fst (keyset_run equal [] ks)).
Proof. intros He Hc ks Hs. destruct (int_hash_set_history hasher equal He Hc ks) as [[_ Hn]|H]; [contradiction|exact H]. Qed.

Lemma never_else hasher equal : equivalence equal -> (forall x y, equal x y = true -> hasher x = hasher y) ->
  forall ks, hset_run hasher equal hset_make ks = Exit abort_exit \/
  exists s, hset_run hasher equal hset_make ks = Ok (s, snd (keyset_run equal [] ks)) /\
    num_entries s = length (fst (keyset_run equal [] ks)).
Proof. intros He Hc ks. destruct (int_hash_set_history hasher equal He Hc ks) as [[H _]|H]; auto. Qed.

Lemma few_spread hasher K : length K < 32 -> spread hasher K.
Proof.
  intros H. exists 6. split; [lia|]. intros start. unfold window_count.
  enough (forall (p : nat -> bool) l, length (filter p l) <= length l) as Hf by (pose proof (Hf (in_window hasher 6 63 start) K); lia).
  clear. intros p l. induction l as [|x l IH]; cbn; auto. destruct (p x); cbn; lia.
Qed.

Lemma refuted : exists hasher equal ks, equivalence equal /\ (forall x y, equal x y = true -> hasher x = hasher y) /\
  length ks = 33 /\ hset_run hasher equal hset_make ks = Exit abort_exit.
Proof.
  assert (He : equivalence Nat.eqb).
  { unfold equivalence. splits; intros *; rewrite ?Nat.eqb_eq; congruence. }
  exists (fun _ => 0%N), Nat.eqb, (seq 0 33). split; [exact He|]. split; [reflexivity|]. split; [reflexivity|].
  apply (collisions_abort (fun _ => 0%N) Nat.eqb He ltac:(reflexivity) _ 0%N).
  - reflexivity.
  - replace (length (fst (keyset_run Nat.eqb [] (seq 0 33)))) with 33 by (vm_compute; reflexivity). lia.
Qed.
