(** DynamicBitset represents a finite set of positions. *)
From Verif Require Import Outcome Spec_Bitset Model_DynamicBitset.

Section P.
Variable B : nat.
Hypothesis HB : 0 < B.

Definition blk_ok (n : nat) (f : nat -> bool) (i : nat) (b : N) : Prop :=
  forall k, N.testbit b (N.of_nat k) = (k <? B) && ((i * B + k <? n) && f (i * B + k)).

Definition bs_rep (s : bitset) (n : nat) (f : nat -> bool) : Prop :=
  bs_num_bits s = n /\ length (bs_blocks s) = compute_num_blocks B n /\
  forall i b, nth_error (bs_blocks s) i = Some b -> blk_ok n f i b.

Lemma num_blocks_spec n i : i < compute_num_blocks B n <-> i * B < n.
Proof.
  unfold compute_num_blocks. pose proof (Nat.div_mod n B ltac:(lia)) as H.
  pose proof (Nat.mod_upper_bound n B ltac:(lia)) as H1.
  destruct (Nat.eqb_spec (n mod B) 0) as [E|E]; split; intros; nia.
Qed.

Lemma pos_split p : block_index B p * B + bit_index B p = p /\ bit_index B p < B.
Proof.
  unfold block_index, bit_index. split; [|apply Nat.mod_upper_bound; lia].
  pose proof (Nat.div_mod p B ltac:(lia)). lia.
Qed.

Lemma testbit_N_of_nat b : (forall k, N.testbit b (N.of_nat k) = false) -> b = 0%N.
Proof. intros H. apply N.bits_inj_0. intros k. rewrite <- (N2Nat.id k). apply H. Qed.

Lemma testbit_shl1 m k : N.testbit (N.shiftl 1 (N.of_nat m)) (N.of_nat k) = (k =? m).
Proof.
  rewrite N.shiftl_1_l, N.pow2_bits_eqb.
  destruct (Nat.eqb_spec k m), (N.eqb_spec (N.of_nat m) (N.of_nat k)); auto; lia.
Qed.

Lemma testbit_trunc x k : N.testbit (trunc B x) (N.of_nat k) = (k <? B) && N.testbit x (N.of_nat k).
Proof.
  unfold trunc. destruct (Nat.ltb_spec k B).
  - rewrite N.mod_pow2_bits_low by lia. reflexivity.
  - rewrite N.mod_pow2_bits_high by lia. reflexivity.
Qed.

Lemma testbit_ones k : N.testbit (bs_ones B) (N.of_nat k) = (k <? B).
Proof.
  unfold bs_ones. rewrite N.sub_1_r, <- N.ones_equiv.
  destruct (Nat.ltb_spec k B); [apply N.ones_spec_low|apply N.ones_spec_high]; lia.
Qed.

Lemma testbit_mask p k : N.testbit (bit_mask B p) (N.of_nat k) = (k =? bit_index B p).
Proof.
  unfold bit_mask. rewrite testbit_trunc, testbit_shl1. destruct (pos_split p) as [_ Hp].
  destruct (Nat.eqb_spec k (bit_index B p)), (Nat.ltb_spec k B); auto. lia.
Qed.

Lemma testbit_not x k : N.testbit (block_not B x) (N.of_nat k) = xorb (N.testbit x (N.of_nat k)) (k <? B).
Proof. unfold block_not. now rewrite N.lxor_spec, testbit_ones. Qed.

Lemma land_mask b p : negb (N.eqb (N.land b (bit_mask B p)) 0) = N.testbit b (N.of_nat (bit_index B p)).
Proof.
  destruct (N.testbit b (N.of_nat (bit_index B p))) eqn:E.
  - destruct (N.eqb_spec (N.land b (bit_mask B p)) 0) as [H|H]; auto.
    apply (f_equal (fun x => N.testbit x (N.of_nat (bit_index B p)))) in H.
    rewrite N.land_spec, testbit_mask, E, Nat.eqb_refl, N.bits_0 in H. discriminate.
  - destruct (N.eqb_spec (N.land b (bit_mask B p)) 0) as [H|H]; auto. exfalso. apply H.
    apply testbit_N_of_nat. intros k. rewrite N.land_spec, testbit_mask.
    destruct (Nat.eqb_spec k (bit_index B p)); subst; [now rewrite E|apply andb_false_r].
Qed.

Lemma bs_make_rep n : bs_rep (bs_make B n) n (fun _ => false).
Proof.
  splits; auto. split; auto. cbn. rewrite repeat_length. split; auto. intros i b Hi.
  apply nth_error_In, repeat_spec in Hi. rewrite Hi. intros k. cbn. now rewrite !andb_false_r.
Qed.

Lemma bs_reset_all_rep s n f : bs_rep s n f -> exists s', bs_reset_all s = Ok s' /\ bs_rep s' n (fun _ => false).
Proof.
  intros (H1 & H2 & H3). eexists; split; [reflexivity|]. split; auto. cbn. rewrite repeat_length. split; auto.
  intros i b Hi. apply nth_error_In, repeat_spec in Hi. rewrite Hi. intros k. cbn. now rewrite !andb_false_r.
Qed.

Lemma bs_set_all_rep s n f : bs_rep s n f -> exists s', bs_set_all B s = Ok s' /\ bs_rep s' n (fun _ => true).
Proof.
  intros (H1 & H2 & H3). unfold bs_set_all, zero_unused_bits. cbn [bs_num_bits bs_blocks]. rewrite H1, repeat_length, H2.
  destruct (Nat.eqb_spec (bit_index B n) 0) as [E|E].
  - eexists; split; [reflexivity|]. split; auto. cbn. rewrite repeat_length. split; auto.
    intros i b Hi. pose proof (nth_error_Some_lt _ _ _ Hi) as Hl. rewrite repeat_length in Hl.
    apply nth_error_In, repeat_spec in Hi. subst b. apply num_blocks_spec in Hl. intros k.
    rewrite testbit_ones, andb_true_r. destruct (Nat.ltb_spec k B); auto. cbn.
    symmetry. apply Nat.ltb_lt. destruct (pos_split n) as [P1 P2]. rewrite E, Nat.add_0_r in P1.
    assert (i < block_index B n) by nia. assert ((i + 1) * B <= block_index B n * B) by (apply Nat.mul_le_mono_r; lia). lia.
  - set (last := compute_num_blocks B n - 1).
    assert (Hpos : 0 < compute_num_blocks B n).
    { apply num_blocks_spec. unfold bit_index in E. destruct n; [rewrite Nat.mod_0_l in E; lia|lia]. }
    destruct (Nat.eqb_spec (compute_num_blocks B n) 0); [lia|]. cbn [negb guard bind].
    assert (Hlast : last * B < n /\ n < last * B + B /\ bit_index B n = n - last * B).
    { unfold last, compute_num_blocks. unfold bit_index in E. destruct (Nat.eqb_spec (n mod B) 0); [lia|].
      unfold bit_index. pose proof (Nat.div_mod n B ltac:(lia)). pose proof (Nat.mod_upper_bound n B ltac:(lia)).
      rewrite Nat.add_sub. nia. }
    assert (Hg : vget (repeat (bs_ones B) (compute_num_blocks B n)) last = Ok (bs_ones B)).
    { destruct (vget_some (repeat (bs_ones B) (compute_num_blocks B n)) last) as (x & Ex & ->).
      - rewrite repeat_length. lia.
      - apply nth_error_In, repeat_spec in Ex. now subst. }
    rewrite Hg. cbn [bind]. unfold vset. rewrite repeat_length.
    destruct (Nat.ltb_spec last (compute_num_blocks B n)); [|lia]. cbn [bind].
    eexists; split; [reflexivity|]. split; auto. cbn. rewrite upd_length, repeat_length. split; auto.
    intros i b Hi. rewrite upd_nth in Hi. destruct (Nat.eqb_spec last i) as [->|Hne].
    + rewrite repeat_length in Hi. destruct (Nat.ltb_spec i (compute_num_blocks B n)); [|lia]. injection Hi as <-. intros k.
      rewrite N.land_spec, testbit_ones, testbit_not, testbit_trunc, andb_true_r.
      destruct (Nat.ltb_spec k B); auto. cbn [andb].
      destruct (Nat.ltb_spec (i * B + k) n).
      * rewrite N.shiftl_spec_low by lia. reflexivity.
      * rewrite N.shiftl_spec_high' by lia.
        replace (N.of_nat k - N.of_nat (bit_index B n))%N with (N.of_nat (k - bit_index B n)) by lia.
        rewrite testbit_ones. destruct (Nat.ltb_spec (k - bit_index B n) B); [reflexivity|lia].
    + pose proof (nth_error_Some_lt _ _ _ Hi) as Hl. rewrite repeat_length in Hl.
      apply nth_error_In, repeat_spec in Hi. subst b. intros k. rewrite testbit_ones, andb_true_r.
      destruct (Nat.ltb_spec k B); auto. cbn. symmetry. apply Nat.ltb_lt. nia.
Qed.

Lemma bs_point_rep s n f p (v : bool) (g : N -> N) : bs_rep s n f -> p < n ->
  (forall b k, N.testbit (g b) (N.of_nat k) = if k =? bit_index B p then v else N.testbit b (N.of_nat k)) ->
  exists s', (let* b := vget (bs_blocks s) (block_index B p) in
     let* bl := vset (bs_blocks s) (block_index B p) (g b) in
     Ok {| bs_blocks := bl; bs_num_bits := bs_num_bits s |}) = Ok s' /\
     bs_rep s' n (fun q => if q =? p then v else f q).
Proof.
  intros (H1 & H2 & H3) Hp Hg. destruct (pos_split p) as [P1 P2].
  assert (Hi : block_index B p < compute_num_blocks B n) by (apply num_blocks_spec; lia).
  destruct (vget_some (bs_blocks s) (block_index B p)) as (b & Eb & ->); [lia|]. cbn [bind].
  unfold vset. destruct (Nat.ltb_spec (block_index B p) (length (bs_blocks s))); [|lia]. cbn [bind].
  eexists; split; [reflexivity|]. split; auto. cbn. rewrite upd_length. split; auto.
  intros i b' Hb'. rewrite upd_nth in Hb'. destruct (Nat.eqb_spec (block_index B p) i) as [E|E].
  - destruct (Nat.ltb_spec (block_index B p) (length (bs_blocks s))); [|lia]. injection Hb' as <-. intros k. rewrite Hg, (H3 _ _ Eb k).
    destruct (Nat.eqb_spec k (bit_index B p)) as [Ek|Ek].
    + subst i k. rewrite P1, Nat.eqb_refl. destruct (Nat.ltb_spec (bit_index B p) B); [|lia].
      destruct (Nat.ltb_spec p n); [reflexivity|lia].
    + rewrite <- E. destruct (Nat.eqb_spec (block_index B p * B + k) p); [lia|reflexivity].
  - intros k. rewrite (H3 _ _ Hb' k). destruct (Nat.ltb_spec k B); auto.
    destruct (Nat.eqb_spec (i * B + k) p) as [E2|E2]; auto.
    exfalso. apply E. unfold block_index. rewrite <- E2. rewrite Nat.div_add_l, Nat.div_small; lia.
Qed.

Lemma bs_set_rep s n f p : bs_rep s n f -> p < n ->
  exists s', bs_set B s p = Ok s' /\ bs_rep s' n (fun q => if q =? p then true else f q).
Proof.
  intros HR Hp. unfold bs_set. destruct (Nat.ltb_spec p (bs_num_bits s)); [|rewrite (proj1 HR) in *; lia]. cbn [guard bind].
  apply (bs_point_rep s n f p true (fun b => N.lor b (bit_mask B p)) HR Hp).
  intros b k. rewrite N.lor_spec, testbit_mask. destruct (k =? bit_index B p); [apply orb_true_r|apply orb_false_r].
Qed.
Lemma bs_reset_rep s n f p : bs_rep s n f -> p < n ->
  exists s', bs_reset B s p = Ok s' /\ bs_rep s' n (fun q => if q =? p then false else f q).
Proof.
  intros HR Hp. unfold bs_reset. destruct (Nat.ltb_spec p (bs_num_bits s)); [|rewrite (proj1 HR) in *; lia]. cbn [guard bind].
  destruct (pos_split p) as [P1 P2].
  assert (HX : exists s', (let* b := vget (bs_blocks s) (block_index B p) in
     let* bl := vset (bs_blocks s) (block_index B p) (N.land b (block_not B (bit_mask B p))) in
     Ok {| bs_blocks := bl; bs_num_bits := bs_num_bits s |}) = Ok s' /\
     bs_rep s' n (fun q => if q =? p then false else f q)); [|exact HX].
  destruct HR as (H1 & H2 & H3).
  assert (Hi : block_index B p < compute_num_blocks B n) by (apply num_blocks_spec; lia).
  destruct (vget_some (bs_blocks s) (block_index B p)) as (b & Eb & Ev); [lia|].
  destruct (bs_point_rep s n f p false
    (fun x => if N.eqb x b then N.land b (block_not B (bit_mask B p)) else N.clearbit x (N.of_nat (bit_index B p))))
    as (s' & Es & Hs'); [split; auto|auto| |].
  - intros x k. destruct (N.eqb_spec x b) as [->|].
    + rewrite N.land_spec, testbit_not, testbit_mask.
      pose proof (H3 _ _ Eb k) as Hk.
      destruct (Nat.eqb_spec k (bit_index B p)) as [->|]; [destruct (Nat.ltb_spec (bit_index B p) B); [apply andb_false_r|lia]|].
      rewrite xorb_false_l. destruct (Nat.ltb_spec k B); [apply andb_true_r|]. rewrite Hk. reflexivity.
    + rewrite N.clearbit_eqb. destruct (Nat.eqb_spec k (bit_index B p)) as [->|].
      * now rewrite N.eqb_refl, andb_false_r.
      * destruct (N.eqb_spec (N.of_nat (bit_index B p)) (N.of_nat k)); [lia|apply andb_true_r].
  - exists s'. split; auto. rewrite <- Es, Ev. cbn [bind]. now rewrite N.eqb_refl.
Qed.

Lemma bs_test_rep s n f p : bs_rep s n f -> p < n -> bs_test B s p = Ok (f p).
Proof.
  intros (H1 & H2 & H3) Hp. unfold bs_test. rewrite H1. destruct (Nat.ltb_spec p n); [|lia]. cbn [guard bind].
  destruct (pos_split p) as [P1 P2].
  assert (Hi : block_index B p < compute_num_blocks B n) by (apply num_blocks_spec; lia).
  destruct (vget_some (bs_blocks s) (block_index B p)) as (b & Eb & ->); [lia|]. cbn [bind].
  rewrite land_mask, (H3 _ _ Eb), P1. destruct (Nat.ltb_spec (bit_index B p) B); [|lia].
  destruct (Nat.ltb_spec p n); [reflexivity|lia].
Qed.

Lemma bs_count_rep s n f : bs_rep s n f -> bs_count B s = Ok (length (filter f (seq 0 n))).
Proof.
  intros HR. unfold bs_count. rewrite (proj1 HR).
  assert (H : forall m k a, k + m <= n ->
    fold_outcome (fun r p => let* b := bs_test B s p in Ok (r + (if b then 1 else 0))) (seq k m) a
    = Ok (a + length (filter f (seq k m)))).
  { induction m as [|m IH]; intros k a Hk; cbn [seq fold_outcome filter length].
    - now rewrite Nat.add_0_r.
    - rewrite (bs_test_rep s n f k HR ltac:(lia)). cbn [bind]. rewrite IH by lia. f_equal.
      destruct (f k); cbn; lia. }
  apply H. lia.
Qed.

Lemma bs_run_rep n ops : bits_legal n ops = true ->
  exists s, bs_run B n ops = Ok s /\ bs_rep s n (bits_run ops).
Proof.
  unfold bs_run, bits_run.
  assert (H : forall ops s f, bs_rep s n f -> bits_legal n ops = true ->
    exists s', fold_outcome (bs_step B) ops s = Ok s' /\ bs_rep s' n (fold_left bits_step ops f)).
  { induction ops0 as [|op ops0 IH]; intros s f HR Hl; cbn [fold_outcome fold_left]; [eauto|].
    cbn in Hl. apply andb_true_iff in Hl. destruct Hl as [Ho Hl].
    assert (Hs : exists s1, bs_step B s op = Ok s1 /\ bs_rep s1 n (bits_step f op)).
    { destruct op as [| |p|p]; cbn [bs_step bits_step].
      - eapply bs_set_all_rep; eauto.
      - eapply bs_reset_all_rep; eauto.
      - apply bs_set_rep; auto. now apply Nat.ltb_lt.
      - apply bs_reset_rep; auto. now apply Nat.ltb_lt. }
    destruct Hs as (s1 & -> & HR1). cbn [bind]. eauto. }
  intros Hl. apply H; auto. apply bs_make_rep.
Qed.

Lemma blocks_intersect_spec n f g : forall l1 l2 i,
  (forall j b, nth_error l1 j = Some b -> blk_ok n f (i + j) b) ->
  (forall j b, nth_error l2 j = Some b -> blk_ok n g (i + j) b) -> length l1 = length l2 ->
  exists r, blocks_intersect l1 l2 = Ok r /\
    (r = true <-> exists j k, j < length l1 /\ k < B /\ (i + j) * B + k < n /\ f ((i + j) * B + k) = true /\ g ((i + j) * B + k) = true).
Proof.
  induction l1 as [|b1 l1 IH]; intros l2 i H1 H2 Hl.
  - exists false. split; auto. split; [discriminate|]. intros (j & k & Hj & _). cbn in Hj. lia.
  - destruct l2 as [|b2 l2]; [discriminate|]. cbn [blocks_intersect].
    destruct (N.eqb_spec (N.land b1 b2) 0) as [E|E]; cbn [negb].
    + destruct (IH l2 (S i)) as (r & Er & Hr).
      { intros j b Hj. specialize (H1 (S j) b Hj). now rewrite Nat.add_succ_r in H1. }
      { intros j b Hj. specialize (H2 (S j) b Hj). now rewrite Nat.add_succ_r in H2. }
      { auto. }
      exists r. split; auto. rewrite Hr. split.
      * intros (j & k & Hj & Hk & R). exists (S j), k. cbn [length]. rewrite Nat.add_succ_r. split; [lia|]. auto.
      * intros ([|j] & k & Hj & Hk & Hn & Hf & Hg).
        { exfalso. rewrite Nat.add_0_r in *. apply (f_equal (fun x => N.testbit x (N.of_nat k))) in E.
          rewrite N.land_spec, N.bits_0 in E. specialize (H1 0 b1 eq_refl k). specialize (H2 0 b2 eq_refl k).
          rewrite Nat.add_0_r in *. rewrite H1, H2, Hf, Hg in E. apply Nat.ltb_lt in Hk, Hn. rewrite Hk, Hn in E. discriminate. }
        exists j, k. rewrite Nat.add_succ_r in *. cbn in Hj. split; [lia|]. auto.
    + exists true. split; auto. split; auto. intros _.
      assert (Hex : exists k, N.testbit (N.land b1 b2) (N.of_nat k) = true).
      { pose proof (N.bit_log2 _ E) as Hb. exists (N.to_nat (N.log2 (N.land b1 b2))). now rewrite N2Nat.id. }
      destruct Hex as (k & Hk). rewrite N.land_spec in Hk. apply andb_true_iff in Hk. destruct Hk as [Hk1 Hk2].
      rewrite (H1 0 b1 eq_refl k) in Hk1. rewrite (H2 0 b2 eq_refl k) in Hk2. rewrite !andb_true_iff, !Nat.ltb_lt in *.
      exists 0, k. cbn [length]. splits; try tauto; lia.
Qed.

Lemma blocks_subset_spec n f g : forall l1 l2 i,
  (forall j b, nth_error l1 j = Some b -> blk_ok n f (i + j) b) ->
  (forall j b, nth_error l2 j = Some b -> blk_ok n g (i + j) b) -> length l1 = length l2 ->
  exists r, blocks_subset B l1 l2 = Ok r /\
    (r = true <-> forall j k, j < length l1 -> k < B -> (i + j) * B + k < n -> f ((i + j) * B + k) = true -> g ((i + j) * B + k) = true).
Proof.
  induction l1 as [|b1 l1 IH]; intros l2 i H1 H2 Hl.
  - exists true. split; auto. split; auto. intros _ j k Hj. cbn in Hj. lia.
  - destruct l2 as [|b2 l2]; [discriminate|]. cbn [blocks_subset].
    destruct (N.eqb_spec (N.land b1 (block_not B b2)) 0) as [E|E]; cbn [negb].
    + destruct (IH l2 (S i)) as (r & Er & Hr).
      { intros j b Hj. specialize (H1 (S j) b Hj). now rewrite Nat.add_succ_r in H1. }
      { intros j b Hj. specialize (H2 (S j) b Hj). now rewrite Nat.add_succ_r in H2. }
      { auto. }
      exists r. split; auto. rewrite Hr. split.
      * intros H [|j] k Hj Hk Hn Hf.
        { rewrite Nat.add_0_r in *. apply (f_equal (fun x => N.testbit x (N.of_nat k))) in E.
          rewrite N.land_spec, N.bits_0, testbit_not in E. specialize (H1 0 b1 eq_refl k). specialize (H2 0 b2 eq_refl k).
          rewrite Nat.add_0_r in *. rewrite H1, H2, Hf in E. apply Nat.ltb_lt in Hk, Hn. rewrite Hk, Hn in E.
          destruct (g (i * B + k)); auto. }
        rewrite Nat.add_succ_r in *. cbn in Hj. apply H; auto. lia.
      * intros H j k Hj Hk Hn Hf. specialize (H (S j) k). cbn [length] in H. rewrite Nat.add_succ_r in H. apply H; auto. lia.
    + exists false. split; auto. split; [discriminate|]. intros H. exfalso.
      assert (Hex : exists k, N.testbit (N.land b1 (block_not B b2)) (N.of_nat k) = true).
      { pose proof (N.bit_log2 _ E) as Hb. exists (N.to_nat (N.log2 (N.land b1 (block_not B b2)))). now rewrite N2Nat.id. }
      destruct Hex as (k & Hk). rewrite N.land_spec, testbit_not in Hk. apply andb_true_iff in Hk. destruct Hk as [Hk1 Hk2].
      rewrite (H1 0 b1 eq_refl k) in Hk1. rewrite (H2 0 b2 eq_refl k) in Hk2. rewrite !andb_true_iff, !Nat.ltb_lt in Hk1.
      destruct Hk1 as (Ha & Hb & Hc). specialize (H 0 k). cbn [length] in H. specialize (H ltac:(lia) Ha Hb Hc).
      rewrite H in Hk2. apply Nat.ltb_lt in Ha, Hb. rewrite Ha, Hb in Hk2. discriminate.
Qed.

Lemma bs_intersects_rep s1 s2 n f g : bs_rep s1 n f -> bs_rep s2 n g ->
  exists r, bs_intersects s1 s2 = Ok r /\ (r = true <-> exists p, p < n /\ f p = true /\ g p = true).
Proof.
  intros (H1 & H2 & H3) (H1' & H2' & H3'). unfold bs_intersects. rewrite H1, H1', Nat.eqb_refl. cbn [guard bind].
  destruct (blocks_intersect_spec n f g (bs_blocks s1) (bs_blocks s2) 0) as (r & Er & Hr); auto; try lia.
  exists r. split; auto. rewrite Hr. split.
  - intros (j & k & _ & _ & R). eauto.
  - intros (p & Hp & Hf & Hg). destruct (pos_split p) as [P1 P2]. exists (block_index B p), (bit_index B p).
    cbn [Nat.add]. rewrite P1. splits; auto. rewrite H2. apply num_blocks_spec. lia.
Qed.
Lemma bs_subset_rep s1 s2 n f g : bs_rep s1 n f -> bs_rep s2 n g ->
  exists r, bs_is_subset_of B s1 s2 = Ok r /\ (r = true <-> forall p, p < n -> f p = true -> g p = true).
Proof.
  intros (H1 & H2 & H3) (H1' & H2' & H3'). unfold bs_is_subset_of. rewrite H1, H1', Nat.eqb_refl. cbn [guard bind].
  destruct (blocks_subset_spec n f g (bs_blocks s1) (bs_blocks s2) 0) as (r & Er & Hr); auto; try lia.
  exists r. split; auto. rewrite Hr. split.
  - intros H p Hp Hf. destruct (pos_split p) as [P1 P2]. specialize (H (block_index B p) (bit_index B p)).
    cbn [Nat.add] in H. rewrite P1 in H. apply H; auto. rewrite H2. apply num_blocks_spec. lia.
  - intros H j k _ _ Hn Hf. auto.
Qed.

Lemma bitset_history n ops : bits_legal n ops = true ->
  exists s, bs_run B n ops = Ok s /\ bs_num_bits s = n /\
    (forall p, bs_test B s p = if p <? n then Ok (bits_run ops p) else UB) /\
    bs_count B s = Ok (length (filter (bits_run ops) (seq 0 n))) /\
    (forall ops', bits_legal n ops' = true ->
       exists s' r1 r2, bs_run B n ops' = Ok s' /\
         bs_intersects s s' = Ok r1 /\
         (r1 = true <-> exists p, p < n /\ bits_run ops p = true /\ bits_run ops' p = true) /\
         bs_is_subset_of B s s' = Ok r2 /\
         (r2 = true <-> forall p, p < n -> bits_run ops p = true -> bits_run ops' p = true)).
Proof.
  intros Hl. destruct (bs_run_rep n ops Hl) as (s & Es & HR). exists s. splits; auto.
  - apply HR.
  - intros p. destruct (Nat.ltb_spec p n); [eapply bs_test_rep; eauto|].
    unfold bs_test. rewrite (proj1 HR). destruct (Nat.ltb_spec p n); [lia|reflexivity].
  - now apply bs_count_rep.
  - intros ops' Hl'. destruct (bs_run_rep n ops' Hl') as (s' & Es' & HR').
    destruct (bs_intersects_rep _ _ _ _ _ HR HR') as (r1 & ? & ?).
    destruct (bs_subset_rep _ _ _ _ _ HR HR') as (r2 & ? & ?).
    exists s', r1, r2. auto.
Qed.
End P.
