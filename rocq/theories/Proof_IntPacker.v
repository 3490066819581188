(** Lemmas about the IntPacker model. *)
From Verif Require Import Outcome Spec_Store Model_IntPacker.
From Coq Require Import Permutation.
Local Open Scope nat_scope.

(* ---------- bit level ---------- *)

Lemma shl32_testbit x n y i :
  shl32 x n = Ok y ->
  N.testbit y i = (N.ltb i 32 && N.leb (N.of_nat n) i && N.testbit x (i - N.of_nat n))%bool.
Proof.
  unfold shl32. destruct (Nat.ltb_spec n BITS_PER_BIN); [|discriminate].
  intros Hy; inv Hy. unfold WORD.
  destruct (N.ltb_spec i 32) as [Hi|Hi].
  - rewrite N.mod_pow2_bits_low by exact Hi. cbn [andb].
    destruct (N.leb_spec (N.of_nat n) i) as [H1|H1]; cbn [andb].
    + now rewrite N.shiftl_spec_high'.
    + now rewrite N.shiftl_spec_low.
  - rewrite N.mod_pow2_bits_high by exact Hi. reflexivity.
Qed.

Lemma not32_testbit x i : (x < WORD)%N -> N.testbit (not32 x) i = (N.ltb i 32 && negb (N.testbit x i))%bool.
Proof.
  intros Hx. unfold not32. rewrite N.lxor_spec.
  destruct (N.ltb_spec i 32) as [Hi|Hi]; cbn [andb].
  - rewrite N.ones_spec_low by exact Hi. now destruct (N.testbit x i).
  - rewrite N.ones_spec_high by exact Hi.
    destruct (N.testbit x i) eqn:E; [|reflexivity].
    exfalso. assert (x = x mod 2 ^ 32)%N as E2 by (symmetry; apply N.mod_small; exact Hx).
    rewrite E2, N.mod_pow2_bits_high in E by exact Hi. discriminate.
Qed.

Definition mask_of (from len : nat) : N := N.shiftl (N.ones (N.of_nat len)) (N.of_nat from).

Lemma mask_of_testbit from len i :
  N.testbit (mask_of from len) i =
  (N.leb (N.of_nat from) i && N.ltb i (N.of_nat (from + len)))%bool.
Proof.
  unfold mask_of. destruct (N.leb_spec (N.of_nat from) i) as [H|H]; cbn [andb].
  - rewrite N.shiftl_spec_high' by exact H.
    destruct (N.ltb_spec i (N.of_nat (from + len))).
    + rewrite N.ones_spec_low by lia. reflexivity.
    + rewrite N.ones_spec_high by lia. reflexivity.
  - now rewrite N.shiftl_spec_low.
Qed.

Lemma bits_lt_pow2 x n : (forall i, (n <= i)%N -> N.testbit x i = false) -> (x < 2 ^ n)%N.
Proof.
  intros H. assert (x = x mod 2 ^ n)%N as ->.
  { apply N.bits_inj; intros i. destruct (N.lt_ge_cases i n).
    - now rewrite N.mod_pow2_bits_low.
    - rewrite N.mod_pow2_bits_high by assumption. auto. }
  apply N.mod_lt. apply N.pow_nonzero. lia.
Qed.

Lemma lt_pow2_bits x n i : (x < 2 ^ n)%N -> (n <= i)%N -> N.testbit x i = false.
Proof.
  intros H Hi. rewrite <- (N.mod_small x (2 ^ n)) by exact H.
  now apply N.mod_pow2_bits_high.
Qed.

Lemma mask_of_lt from len : from + len <= 32 -> (mask_of from len < WORD)%N.
Proof.
  intros H. apply (bits_lt_pow2 _ 32). intros i Hi. rewrite mask_of_testbit.
  destruct (N.ltb_spec i (N.of_nat (from + len))); [lia|]. apply andb_false_r.
Qed.

Lemma get_bit_mask_spec from len :
  1 <= len -> from + len <= 32 -> get_bit_mask from (from + len) = Ok (mask_of from len).
Proof.
  intros Hl Hb. unfold get_bit_mask.
  replace (from <=? from + len) with true by (symmetry; apply Nat.leb_le; lia).
  replace (from + len <=? BITS_PER_BIN) with true by (symmetry; apply Nat.leb_le; unfold BITS_PER_BIN; lia).
  cbn [andb guard bind]. replace (from + len - from) with len by lia.
  destruct (Nat.eqb_spec len BITS_PER_BIN) as [E|E].
  - unfold BITS_PER_BIN in E. assert (from = 0) by lia. subst. cbn [Nat.eqb guard bind].
    f_equal.
  - assert (len < 32) by (unfold BITS_PER_BIN in E; lia).
    unfold shl32. destruct (Nat.ltb_spec len BITS_PER_BIN) as [Hlt|Hlt]; [|unfold BITS_PER_BIN in Hlt; lia].
    cbn [bind]. destruct (Nat.ltb_spec from BITS_PER_BIN) as [Hf|Hf]; [|unfold BITS_PER_BIN in Hf; lia].
    f_equal. unfold mask_of. rewrite N.mod_small.
    + f_equal. rewrite N.mod_small.
      * rewrite N.ones_equiv. rewrite N.shiftl_1_l. lia.
      * rewrite N.shiftl_1_l. unfold WORD. apply N.pow_lt_mono_r; lia.
    + apply (bits_lt_pow2 _ 32). intros i Hi.
      assert (Hs : (N.shiftl 1 (N.of_nat len) mod WORD - 1 = N.ones (N.of_nat len))%N).
      { rewrite N.mod_small. rewrite N.ones_equiv, N.shiftl_1_l. lia.
        rewrite N.shiftl_1_l. unfold WORD. apply N.pow_lt_mono_r; lia. }
      rewrite Hs. change (N.shiftl (N.ones (N.of_nat len)) (N.of_nat from)) with (mask_of from len).
      rewrite mask_of_testbit. destruct (N.ltb_spec i (N.of_nat (from + len))); [lia|]. apply andb_false_r.
Qed.

Lemma bit_size_loop_spec fuel k r :
  (1 < r <= 2 ^ 31)%N -> (k = 0 \/ (2 ^ N.of_nat (k - 1) < r)%N) -> k <= 31 -> fuel + k = 33 ->
  exists sz, bit_size_loop fuel k r = Ok sz /\ k <= sz <= 31 /\ (r <= 2 ^ N.of_nat sz)%N.
Proof.
  revert k; induction fuel as [|f IH]; intros k Hr Hk Hk31 Hf; [lia|].
  cbn [bit_size_loop]. unfold shl32.
  destruct (Nat.ltb_spec k BITS_PER_BIN) as [Hlt|Hlt]; [|unfold BITS_PER_BIN in Hlt; lia].
  cbn [bind]. rewrite N.shiftl_1_l, N.mod_small
    by (unfold WORD; apply N.pow_lt_mono_r; lia).
  destruct (N.ltb_spec (2 ^ N.of_nat k) r) as [H|H].
  - assert (k < 31).
    { destruct (Nat.eq_dec k 31) as [->|]; [|lia]. change (N.of_nat 31) with 31%N in H. lia. }
    destruct (IH (S k)) as (sz & E & Hsz & Hp); try lia.
    { right. replace (S k - 1) with k by lia. exact H. }
    exists sz; repeat split; auto; lia.
  - exists k; repeat split; auto; lia.
Qed.

Definition INT_MAX_RANGE : N := (2 ^ 31)%N.

Lemma bit_size_spec r :
  (1 <= r <= 2 ^ 31)%N ->
  exists sz, get_bit_size_for_range r = Ok sz /\ 1 <= sz <= 31 /\ (r <= 2 ^ N.of_nat sz)%N.
Proof.
  intros Hr. unfold get_bit_size_for_range.
  destruct (N.leb_spec 1 r); [|lia]. cbn [guard bind].
  destruct (N.eqb_spec r 1) as [->|Hne].
  - exists 1. repeat split; auto; lia.
  - destruct (bit_size_loop_spec 33 0 r) as (sz & E & Hsz & Hp); try lia.
    exists sz; repeat split; auto; try lia.
    destruct sz; [|lia]. change (2 ^ N.of_nat 0)%N with 1%N in Hp. lia.
Qed.

(* ---------- layout ---------- *)

(** Variable [v] with range [r] occupies bits [s, s+sz) of word [b]. *)
Definition placed (ranges : list N) (infos : list VariableInfo) (v b s sz : nat) : Prop :=
  exists r, nth_error ranges v = Some r /\ get_bit_size_for_range r = Ok sz /\
    nth_error infos v = Some {| vi_range := r; vi_bin := Some b; vi_shift := s;
       vi_read_mask := mask_of s sz; vi_clear_mask := not32 (mask_of s sz) |}.

Definition ranges_ok (ranges : list N) : Prop := Forall (fun r => (1 <= r <= 2 ^ 31)%N) ranges.

Lemma ranges_ok_nth ranges v r : ranges_ok ranges -> nth_error ranges v = Some r -> (1 <= r <= 2 ^ 31)%N.
Proof. intros H E. unfold ranges_ok in H. rewrite Forall_forall in H. apply H. eapply nth_error_In; eauto. Qed.

Definition bucket_inv (ranges : list N) (b2v : list (list nat)) : Prop :=
  length b2v = 33 /\
  NoDup (concat b2v) /\
  forall k bucket v, nth_error b2v k = Some bucket -> In v bucket ->
    exists r, nth_error ranges v = Some r /\ get_bit_size_for_range r = Ok k.

Lemma concat_upd_cons (b2v : list (list nat)) k bucket v :
  nth_error b2v k = Some bucket ->
  Permutation (concat (upd b2v k (v :: bucket))) (v :: concat b2v).
Proof.
  intros H. destruct (upd_split _ _ (v :: bucket) _ H) as (l1 & l2 & E1 & _ & E2).
  rewrite E2, E1, !concat_app. cbn [concat]. rewrite <- app_comm_cons.
  symmetry. apply Permutation_middle.
Qed.

Lemma concat_upd_tail (b2v : list (list nat)) k rest v :
  nth_error b2v k = Some (v :: rest) ->
  Permutation (concat b2v) (v :: concat (upd b2v k rest)).
Proof.
  intros H. destruct (upd_split _ _ rest _ H) as (l1 & l2 & E1 & _ & E2).
  rewrite E2, E1, !concat_app. cbn [concat]. rewrite <- app_comm_cons.
  symmetry. apply Permutation_middle.
Qed.

Lemma fill_buckets_spec ranges n b2v :
  ranges_ok ranges -> n <= length ranges ->
  bucket_inv ranges b2v ->
  (forall v, In v (concat b2v) <-> n <= v < length ranges) ->
  exists b2v', fill_buckets ranges n b2v = Ok b2v' /\ bucket_inv ranges b2v' /\
    (forall v, In v (concat b2v') <-> v < length ranges).
Proof.
  intros Hr. revert b2v; induction n as [|n IH]; intros b2v Hn Hinv Hin.
  - exists b2v; repeat split; try apply Hinv; intros; rewrite Hin in *; lia.
  - cbn [fill_buckets].
    destruct (vget_some ranges n) as (r & Er & ->); [lia|]. cbn [bind].
    destruct (bit_size_spec r) as (sz & Esz & Hsz & _).
    { eapply ranges_ok_nth; eauto. }
    rewrite Esz; cbn [bind].
    destruct Hinv as (Hlen & Hnd & Hb).
    destruct (vget_some b2v sz) as (bucket & Eb & ->); [lia|]. cbn [bind].
    unfold vset. destruct (Nat.ltb_spec sz (length b2v)); [|lia]. cbn [bind].
    pose proof (concat_upd_cons b2v sz bucket n Eb) as HP.
    apply IH; [lia| |].
    + split; [now rewrite upd_length|]. split.
      * eapply Permutation_NoDup; [symmetry; exact HP|]. constructor; auto.
        rewrite Hin; lia.
      * intros k bk v Hk Hv. rewrite upd_nth in Hk.
        destruct ((sz =? k) && (sz <? length b2v)) eqn:E.
        { apply andb_true_iff in E. destruct E as [E _]. apply Nat.eqb_eq in E; subst k.
          inv Hk. destruct Hv as [->|Hv]; eauto. }
        { eauto. }
    + intros v. rewrite HP. cbn [In]. rewrite Hin. lia.
Qed.

Lemma largest_fit_spec b2v m :
  length b2v = 33 -> m <= 32 ->
  exists bits, largest_fit b2v m = Ok bits /\ bits <= m /\
    (bits = 0 -> forall k, 1 <= k <= m -> nth_error b2v k = Some []) /\
    (bits <> 0 -> exists v rest, nth_error b2v bits = Some (v :: rest)).
Proof.
  intros Hlen. induction m as [|m IH]; intros Hm.
  - exists 0; repeat split; auto; try congruence; intros; lia.
  - cbn [largest_fit]. destruct (vget_some b2v (S m)) as (bucket & Eb & ->); [lia|]. cbn [bind].
    destruct bucket as [|v rest].
    + destruct IH as (bits & E & Hle & H0 & H1); [lia|].
      exists bits; repeat split; auto.
      intros Hz k Hk. destruct (Nat.eq_dec k (S m)) as [->|]; auto. apply H0; auto; lia.
    + exists (S m); repeat split; auto; try congruence. eauto.
Qed.

(** Packing state: [nb] words complete or open; the open word [nb-1] is filled up to [used]. *)
Definition pack_inv (ranges : list N) (infos : list VariableInfo) (b2v : list (list nat))
    (cur used : nat) : Prop :=
  length infos = length ranges /\
  bucket_inv ranges b2v /\
  (forall v, v < length ranges ->
     In v (concat b2v) \/
     exists b s sz, placed ranges infos v b s sz /\ s + sz <= 32 /\
        (b < cur \/ (b = cur /\ s + sz <= used))) /\
  (forall v b s sz v' b' s' sz',
     v <> v' -> ~ In v (concat b2v) -> ~ In v' (concat b2v) ->
     placed ranges infos v b s sz -> placed ranges infos v' b' s' sz' ->
     b = b' -> s + sz <= s' \/ s' + sz' <= s).

Lemma placed_upd_neq ranges infos v b s sz w x :
  v <> w -> placed ranges (upd infos w x) v b s sz <-> placed ranges infos v b s sz.
Proof.
  intros Hne. unfold placed. split; intros (r & H1 & H2 & H3); exists r; repeat split; auto.
  - rewrite upd_nth_neq in H3; auto.
  - rewrite upd_nth_neq; auto.
Qed.

Lemma placed_fun ranges infos v b s sz b' s' sz' :
  placed ranges infos v b s sz -> placed ranges infos v b' s' sz' -> b = b' /\ s = s' /\ sz = sz'.
Proof.
  intros (r & H1 & H2 & H3) (r' & H1' & H2' & H3').
  rewrite H1 in H1'; inv H1'. rewrite H2 in H2'; inv H2'.
  rewrite H3 in H3'. inv H3'. auto.
Qed.

Lemma pack_one_bin_loop_spec ranges fuel cur used infos b2v count :
  ranges_ok ranges ->
  pack_inv ranges infos b2v cur used ->
  used <= 32 -> 33 - used <= fuel -> 1 <= fuel ->
  exists infos' b2v' n,
    pack_one_bin_loop fuel ranges cur used infos b2v count = Ok (infos', b2v', count + n) /\
    pack_inv ranges infos' b2v' cur 32 /\
    length (concat b2v) = length (concat b2v') + n /\
    (used = 0 -> concat b2v <> [] -> 1 <= n).
Proof.
  intros Hr. revert used infos b2v count.
  induction fuel as [|f IH]; intros used infos b2v count Hinv Hu Hf Hf1; [lia|].
  cbn [pack_one_bin_loop].
  pose proof Hinv as (Hlen & (Hblen & Hnd & Hb) & Hcov & Hdis).
  destruct (largest_fit_spec b2v (BITS_PER_BIN - used)) as (bits & Ebits & Hle & H0 & H1);
    [assumption|unfold BITS_PER_BIN; lia|].
  unfold BITS_PER_BIN in *. rewrite Ebits; cbn [bind].
  destruct (Nat.eqb_spec bits 0) as [Hz|Hnz].
  - exists infos, b2v, 0. rewrite Nat.add_0_r. split; [reflexivity|]. split; [|split; [lia|]].
    + split; [auto|]. split; [repeat split; auto|]. split; [|assumption].
      intros v Hv. destruct (Hcov v Hv) as [Hin|(b & s & sz & Hp & Hs & Hc)]; auto.
      right; exists b, s, sz; repeat split; auto. destruct Hc; [auto|right; lia].
    + intros -> Hne. exfalso. apply Hne.
      destruct (concat b2v) as [|x l] eqn:Ec; [reflexivity|exfalso].
      assert (In x (concat b2v)) as Hx by (rewrite Ec; left; auto).
      apply in_concat in Hx. destruct Hx as (bk & Hbk & Hx).
      apply In_nth_error in Hbk. destruct Hbk as (k & Hk).
      pose proof (nth_error_Some_lt _ _ _ Hk).
      destruct (Hb _ _ _ Hk Hx) as (r & Er & Esz).
      destruct (bit_size_spec r) as (sz & Esz' & Hsz & _); [eapply ranges_ok_nth; eauto|].
      rewrite Esz in Esz'; inv Esz'.
      rewrite (H0 eq_refl sz) in Hk by lia. inv Hk. inv Hx.
  - destruct (H1 Hnz) as (v & rest & Ev).
    unfold vget at 1; rewrite Ev; cbn [bind].
    unfold vset at 1. destruct (Nat.ltb_spec bits (length b2v)); [|lia]. cbn [bind].
    destruct (Hb _ _ v Ev (or_introl eq_refl)) as (r & Er & Esz).
    unfold vget at 1; rewrite Er; cbn [bind].
    unfold mk_info; rewrite Esz; cbn [bind].
    rewrite get_bit_mask_spec by lia. cbn [bind].
    set (vi := {| vi_range := r; vi_bin := Some cur; vi_shift := used;
                  vi_read_mask := mask_of used bits; vi_clear_mask := not32 (mask_of used bits) |}).
    assert (Hvlt : v < length ranges) by (eapply nth_error_Some_lt; eauto).
    unfold vset at 1. destruct (Nat.ltb_spec v (length infos)); [|lia]. cbn [bind].
    pose proof (concat_upd_tail _ _ _ _ Ev) as HP.
    assert (Hnd' : NoDup (v :: concat (upd b2v bits rest))) by (eapply Permutation_NoDup; eauto).
    inversion Hnd' as [|? ? Hvn Hnd2]; subst.
    destruct (IH (used + bits) (upd infos v vi) (upd b2v bits rest) (S count))
      as (infos' & b2v' & n & E & Hpi & Hc & _); try lia.
    + split; [now rewrite upd_length|]. split; [|split].
      * split; [now rewrite upd_length|]. split; [assumption|].
        intros k bk w Hk Hw. rewrite upd_nth in Hk.
        destruct ((bits =? k) && (bits <? length b2v)) eqn:E.
        { apply andb_true_iff in E. destruct E as [E _]. apply Nat.eqb_eq in E; subst k.
          inv Hk. eapply Hb; eauto. right; auto. }
        { eauto. }
      * intros w Hw. destruct (Nat.eq_dec w v) as [->|Hne].
        { right. exists cur, used, bits. split; [|split; [lia|right; lia]].
          exists r; repeat split; auto. apply upd_nth_eq; lia. }
        destruct (Hcov w Hw) as [Hin|(b & s & sz & Hp & Hs & Hcc)].
        { left. eapply Permutation_in in Hin; [|exact HP]. destruct Hin; [congruence|auto]. }
        { right; exists b, s, sz. split; [now apply placed_upd_neq|].
          split; auto. destruct Hcc; [auto|right; lia]. }
      * assert (Hnew : forall w b s sz, w <> v -> ~ In w (concat (upd b2v bits rest)) ->
                  placed ranges (upd infos v vi) w b s sz -> b = cur -> s + sz <= used).
        { intros w b s sz Hne Hnin Hp Hbe. apply placed_upd_neq in Hp; auto.
          assert (Hwl : w < length ranges).
          { destruct Hp as (r0 & Hr0 & _). eapply nth_error_Some_lt; eauto. }
          destruct (Hcov w Hwl) as [Hin|(b2 & s2 & sz2 & Hp2 & Hs2 & Hcc)].
          - exfalso. apply Hnin. eapply Permutation_in in Hin; [|exact HP].
            destruct Hin; [congruence|auto].
          - destruct (placed_fun _ _ _ _ _ _ _ _ _ Hp Hp2) as (-> & -> & ->). lia. }
        assert (Hself : forall b s sz, placed ranges (upd infos v vi) v b s sz ->
                   b = cur /\ s = used /\ sz = bits).
        { intros b s sz Hp. eapply placed_fun; [exact Hp|].
          exists r; repeat split; auto. apply upd_nth_eq; lia. }
        intros w b s sz w' b' s' sz' Hww Hn1 Hn2 Hp1 Hp2 Hbe.
        destruct (Nat.eq_dec w v) as [->|Hw1].
        { destruct (Hself _ _ _ Hp1) as (-> & -> & ->).
          right. eapply Hnew; [|exact Hn2|exact Hp2|]; auto. }
        destruct (Nat.eq_dec w' v) as [->|Hw2].
        { destruct (Hself _ _ _ Hp2) as (-> & -> & ->).
          left. eapply Hnew; [|exact Hn1|exact Hp1|]; auto. }
        apply placed_upd_neq in Hp1; auto. apply placed_upd_neq in Hp2; auto.
        eapply Hdis; [exact Hww| | |exact Hp1|exact Hp2|exact Hbe].
        { intros Hin. apply Hn1. eapply Permutation_in in Hin; [|exact HP]. destruct Hin; [congruence|auto]. }
        { intros Hin. apply Hn2. eapply Permutation_in in Hin; [|exact HP]. destruct Hin; [congruence|auto]. }
    + exists infos', b2v', (S n). split; [rewrite E; f_equal; f_equal; lia|].
      split; [assumption|]. split; [|lia].
      rewrite (Permutation_length HP). cbn [length]. lia.
Qed.

Definition layout_ok (ranges : list N) (p : IntPacker) : Prop :=
  length (var_infos p) = length ranges /\
  (forall v, v < length ranges -> exists b s sz,
      placed ranges (var_infos p) v b s sz /\ s + sz <= 32 /\ b < num_bins p) /\
  (forall v b s sz v' b' s' sz', v <> v' ->
     placed ranges (var_infos p) v b s sz -> placed ranges (var_infos p) v' b' s' sz' ->
     b = b' -> s + sz <= s' \/ s' + sz' <= s).

Lemma pack_loop_spec ranges fuel nb packed infos b2v :
  ranges_ok ranges ->
  pack_inv ranges infos b2v nb 0 ->
  packed + length (concat b2v) = length ranges ->
  length (concat b2v) < fuel ->
  exists p, pack_loop fuel ranges nb packed infos b2v = Ok p /\ layout_ok ranges p /\
            num_bins p <= nb + length (concat b2v).
Proof.
  intros Hr. revert nb packed infos b2v.
  induction fuel as [|f IH]; intros nb packed infos b2v Hinv Hcnt Hf; [lia|].
  cbn [pack_loop]. destruct (Nat.eqb_spec packed (length ranges)) as [He|Hne].
  - eexists; split; [reflexivity|].
    assert (Hnil : concat b2v = []) by (destruct (concat b2v); [auto|cbn [length] in Hcnt; lia]).
    destruct Hinv as (Hlen & _ & Hcov & Hdis). split; [|cbn; lia]. repeat split; cbn [var_infos num_bins]; auto.
    + intros v Hv. destruct (Hcov v Hv) as [Hin|(b & s & sz & Hp & Hs & Hc)].
      * rewrite Hnil in Hin; inv Hin.
      * exists b, s, sz; repeat split; auto. destruct Hc as [|[-> Hc]]; auto.
        exfalso. destruct Hp as (r & Er & Esz & _).
        destruct (bit_size_spec r) as (sz' & Esz' & Hsz & _); [eapply ranges_ok_nth; eauto|].
        rewrite Esz in Esz'; inv Esz'. lia.
    + intros v b s sz v' b' s' sz' Hvv Hp1 Hp2 Hb. eapply Hdis; eauto; rewrite Hnil; intros [].
  - destruct (pack_one_bin_loop_spec ranges (S BITS_PER_BIN) nb 0 infos b2v 0)
      as (infos' & b2v' & n & E & Hpi & Hc & Hn); auto; try (unfold BITS_PER_BIN; lia).
    rewrite E; cbn [bind].
    assert (1 <= n).
    { apply Hn; auto. intros Hnil. rewrite Hnil in Hcnt. cbn [length] in Hcnt. lia. }
    destruct (IH (S nb) (packed + (0 + n)) infos' b2v') as (p & Ep & Hl & Hnb); try lia.
    + destruct Hpi as (H1 & H2 & H3 & H4). split; [auto|]. split; [auto|]. split; [|auto].
      intros v Hv. destruct (H3 v Hv) as [|(b & s & sz & Hp & Hs & Hcc)]; auto.
      right; exists b, s, sz; repeat split; auto. left. lia.
    + exists p; split; [exact Ep|]. split; [exact Hl|lia].
Qed.

Lemma make_packer_spec ranges :
  ranges_ok ranges -> exists p, make_packer ranges = Ok p /\ layout_ok ranges p /\
            num_bins p <= length ranges.
Proof.
  intros Hr. unfold make_packer.
  destruct (fill_buckets_spec ranges (length ranges) (repeat [] (S BITS_PER_BIN)))
    as (b2v & E & Hb & Hin); auto.
  - split; [apply repeat_length|]. split; [cbn; constructor|].
    intros k bk v Hk Hv. apply nth_error_In, repeat_spec in Hk. subst; inv Hv.
  - intros v. cbn. split; [tauto|lia].
  - rewrite E; cbn [bind].
    assert (Hlc : length (concat b2v) = length ranges).
    { rewrite <- (seq_length (length ranges) 0). apply Permutation_length.
      apply NoDup_Permutation; [apply Hb|apply seq_NoDup|].
      intros v. rewrite Hin, in_seq. lia. }
    destruct (pack_loop_spec ranges (S (length ranges)) 0 0
                (repeat default_info (length ranges)) b2v) as (p & Ep & Hl & Hn); auto; try lia.
    + split; [apply repeat_length|]. split; [auto|]. split.
      * intros v Hv. left. now apply Hin.
      * intros v b s sz v' b' s' sz' _ Hn _ (r & Hr' & _) _ _.
        exfalso; apply Hn. apply Hin. eapply nth_error_Some_lt; eauto.
    + exists p; repeat split; auto; try apply Hl. lia.
Qed.

(* ---------- get / set ---------- *)

(** The value stored in bits [s, s+sz) of a word. *)
Lemma field_testbit w s sz i :
  N.testbit (N.shiftr (N.land w (mask_of s sz)) (N.of_nat s)) i =
  (N.ltb i (N.of_nat sz) && N.testbit w (i + N.of_nat s))%bool.
Proof.
  rewrite N.shiftr_spec'. rewrite N.land_spec, mask_of_testbit.
  destruct (N.leb_spec (N.of_nat s) (i + N.of_nat s)); [|lia]. cbn [andb].
  rewrite andb_comm. f_equal.
  destruct (N.ltb_spec (i + N.of_nat s) (N.of_nat (s + sz))), (N.ltb_spec i (N.of_nat sz)); auto; lia.
Qed.

Lemma packer_get_spec ranges p buf v b s sz w :
  placed ranges (var_infos p) v b s sz -> nth_error buf b = Some w ->
  packer_get p buf v = Ok (N.shiftr (N.land w (mask_of s sz)) (N.of_nat s)).
Proof.
  intros (r & _ & _ & Hi) Hb. unfold packer_get, vget. rewrite Hi. cbn [bind].
  unfold vi_get; cbn. unfold vget; rewrite Hb. reflexivity.
Qed.

Lemma packer_set_spec ranges p buf v value b s sz w r :
  ranges_ok ranges ->
  placed ranges (var_infos p) v b s sz -> s + sz <= 32 -> nth_error buf b = Some w ->
  nth_error ranges v = Some r -> (value < r)%N ->
  exists w', packer_set p buf v value = Ok (upd buf b w') /\
    forall i, N.testbit w' i =
      if (N.leb (N.of_nat s) i && N.ltb i (N.of_nat (s + sz)))%bool
      then N.testbit value (i - N.of_nat s)
      else (N.testbit w i && N.ltb i 32)%bool.
Proof.
  intros Hr (r' & Er & Esz & Hi) Hs Hb Er' Hv. rewrite Er in Er'; inv Er'.
  destruct (bit_size_spec r) as (sz' & Esz' & Hsz & Hp); [eapply ranges_ok_nth; eauto|].
  rewrite Esz in Esz'; inv Esz'.
  unfold packer_set, vget. rewrite Hi; cbn [bind]. unfold vi_set; cbn [vi_range vi_bin vi_shift vi_clear_mask].
  destruct (N.ltb_spec value r); [|lia]. cbn [guard bind].
  unfold vget; rewrite Hb; cbn [bind].
  destruct (shl32 value s) as [x| | |] eqn:Ex;
    try (unfold shl32 in Ex; destruct (Nat.ltb_spec s BITS_PER_BIN) as [|Hx]; [discriminate|unfold BITS_PER_BIN in Hx; lia]).
  cbn [bind]. unfold vset. pose proof (nth_error_Some_lt _ _ _ Hb).
  destruct (Nat.ltb_spec b (length buf)); [|lia].
  eexists; split; [reflexivity|].
  intros i. rewrite N.lor_spec, N.land_spec, (shl32_testbit _ _ _ _ Ex).
  rewrite not32_testbit by (apply mask_of_lt; lia). rewrite mask_of_testbit.
  destruct (N.leb_spec (N.of_nat s) i); cbn [andb negb].
  - destruct (N.ltb_spec i (N.of_nat (s + sz'))); cbn [andb negb].
    + destruct (N.ltb_spec i 32); [|lia]. cbn [andb]. now rewrite andb_false_r.
    + rewrite (lt_pow2_bits value (N.of_nat sz')) by lia.
      rewrite andb_false_r, orb_false_r. now rewrite andb_true_r.
  - rewrite andb_false_r. cbn [andb]. rewrite orb_false_r. now rewrite andb_true_r.
Qed.

Lemma packer_set_get ranges p buf v value r :
  ranges_ok ranges -> layout_ok ranges p -> num_bins p <= length buf ->
  nth_error ranges v = Some r -> (value < r)%N ->
  exists buf', packer_set p buf v value = Ok buf' /\ length buf' = length buf /\
    packer_get p buf' v = Ok value /\
    (forall v', v' < length ranges -> v' <> v -> packer_get p buf' v' = packer_get p buf v').
Proof.
  intros Hr (Hlen & Hpl & Hdis) Hb Er Hv.
  destruct (Hpl v) as (b & s & sz & Hp & Hs & Hbn); [eapply nth_error_Some_lt; eauto|].
  destruct (vget_some buf b) as (w & Ew & _); [lia|].
  destruct (packer_set_spec ranges p buf v value b s sz w r) as (w' & Eset & Hw'); auto.
  exists (upd buf b w'). split; [exact Eset|]. split; [apply upd_length|].
  assert (Hwb : nth_error (upd buf b w') b = Some w')
    by (apply upd_nth_eq; eapply nth_error_Some_lt; eauto).
  split.
  - erewrite packer_get_spec; [|exact Hp|exact Hwb]. f_equal.
    apply N.bits_inj; intros i. rewrite field_testbit, Hw'.
    destruct (N.leb_spec (N.of_nat s) (i + N.of_nat s)); [|lia]. cbn [andb].
    replace (i + N.of_nat s - N.of_nat s)%N with i by lia.
    destruct (N.ltb_spec i (N.of_nat sz)); cbn [andb].
    + destruct (N.ltb_spec (i + N.of_nat s) (N.of_nat (s + sz))); [reflexivity|lia].
    + symmetry. destruct Hp as (r' & Er' & Esz & _). rewrite Er in Er'; inv Er'.
      destruct (bit_size_spec r') as (sz' & Esz' & Hsz & Hpw); [eapply ranges_ok_nth; eauto|].
      rewrite Esz in Esz'; inv Esz'. apply (lt_pow2_bits value (N.of_nat sz')); lia.
  - intros v' Hv' Hne. destruct (Hpl v' Hv') as (b' & s' & sz' & Hp' & Hs' & Hbn').
    destruct (vget_some buf b') as (x & Ex & _); [lia|].
    destruct (Nat.eq_dec b' b) as [->|Hbb].
    + rewrite Ex in Ew; inv Ew.
      erewrite packer_get_spec by (eauto). erewrite packer_get_spec by eauto. f_equal.
      apply N.bits_inj; intros i. rewrite !field_testbit.
      destruct (N.ltb_spec i (N.of_nat sz')); cbn [andb]; [|reflexivity].
      rewrite Hw'. specialize (Hdis v' b s' sz' v b s sz Hne Hp' Hp eq_refl).
      destruct (N.leb_spec (N.of_nat s) (i + N.of_nat s')); cbn [andb].
      * destruct (N.ltb_spec (i + N.of_nat s') (N.of_nat (s + sz))); [lia|].
        destruct (N.ltb_spec (i + N.of_nat s') 32); [|lia]. now rewrite andb_true_r.
      * destruct (N.ltb_spec (i + N.of_nat s') 32); [|lia]. now rewrite andb_true_r.
    + assert (nth_error (upd buf b w') b' = Some x) by (rewrite upd_nth_neq; auto).
      erewrite packer_get_spec by eauto. erewrite packer_get_spec by eauto. reflexivity.
Qed.

Lemma packer_get_total ranges p buf v :
  layout_ok ranges p -> num_bins p <= length buf -> v < length ranges ->
  exists x, packer_get p buf v = Ok x.
Proof.
  intros (Hlen & Hpl & Hdis) Hb Hv.
  destruct (Hpl v Hv) as (b & s & sz & Hp & Hs & Hbn).
  destruct (vget_some buf b) as (w & Ew & _); [lia|].
  eexists. eapply packer_get_spec; eauto.
Qed.

Lemma packer_sets_spec ranges p writes buf :
  ranges_ok ranges -> layout_ok ranges p -> num_bins p <= length buf ->
  Forall (fun '(v, x) => exists r, nth_error ranges v = Some r /\ (x < r)%N) writes ->
  exists buf', packer_sets p buf writes = Ok buf' /\ length buf' = length buf /\
    forall v, v < length ranges ->
      packer_get p buf' v =
      match last_write writes v with Some x => Ok x | None => packer_get p buf v end.
Proof.
  intros Hr Hl. revert buf; induction writes as [|[w x] rest IH]; intros buf Hb Hw.
  - exists buf; repeat split; auto.
  - inv Hw. destruct H1 as (r & Er & Hx).
    destruct (packer_set_get ranges p buf w x r) as (b1 & E1 & L1 & G1 & G2); auto.
    destruct (IH b1) as (b2 & E2 & L2 & G3); auto; [lia|].
    exists b2. unfold packer_sets in *. cbn [fold_outcome]. rewrite E1. cbn [bind].
    split; [exact E2|]. split; [lia|].
    intros v Hv. rewrite G3 by auto. cbn [last_write].
    destruct (last_write rest v); [reflexivity|].
    destruct (Nat.eqb_spec w v) as [->|]; [exact G1|]. apply G2; auto.
Qed.

(* ---------- layout, observably ---------- *)

Lemma bit_field_testbit w s sz i :
  N.testbit (bit_field w s sz) i = (N.ltb i (N.of_nat sz) && N.testbit w (i + N.of_nat s))%bool.
Proof.
  unfold bit_field. rewrite <- N.shiftr_div_pow2. destruct (N.ltb_spec i (N.of_nat sz)); cbn [andb].
  - rewrite N.mod_pow2_bits_low by assumption. apply N.shiftr_spec'.
  - now rewrite N.mod_pow2_bits_high.
Qed.

Lemma packer_get_bit_field ranges p buf v b s sz w :
  placed ranges (var_infos p) v b s sz -> nth_error buf b = Some w ->
  packer_get p buf v = Ok (bit_field w s sz).
Proof.
  intros Hp Hb. erewrite packer_get_spec by eauto. f_equal.
  apply N.bits_inj; intros i. now rewrite field_testbit, bit_field_testbit.
Qed.

Lemma finite_choice {A} (P : nat -> A -> Prop) n :
  (forall v, v < n -> exists a, P v a) ->
  exists l, length l = n /\ forall v a, nth_error l v = Some a -> P v a.
Proof.
  induction n as [|n IH]; intros H.
  - exists []; split; auto. intros [|v] a E; discriminate.
  - destruct IH as (l & Hl & Hp); [intros; apply H; lia|].
    destruct (H n) as (a & Ha); [lia|].
    exists (l ++ [a]). split; [rewrite app_length; cbn; lia|].
    intros v x E. destruct (Nat.lt_ge_cases v n).
    + rewrite nth_error_app1 in E by lia. auto.
    + rewrite nth_error_app2 in E by lia. rewrite Hl in E.
      destruct (v - n) as [|k] eqn:Ek; [|destruct k; discriminate].
      cbn in E. injection E as <-. replace v with n by lia. exact Ha.
Qed.

Lemma make_packer_layout ranges :
  Forall (fun r => (1 <= r <= 2 ^ 31)%N) ranges ->
  exists p (fields : list (nat * nat * nat)),
    make_packer ranges = Ok p /\ num_bins p <= length ranges /\ length fields = length ranges /\
    (forall v b s sz r, nth_error fields v = Some (b, s, sz) -> nth_error ranges v = Some r ->
       b < num_bins p /\ s + sz <= 32 /\ (r <= 2 ^ N.of_nat sz)%N /\
       forall buf w, nth_error buf b = Some w -> packer_get p buf v = Ok (bit_field w s sz)) /\
    (forall v b s sz v' s' sz', v <> v' ->
       nth_error fields v = Some (b, s, sz) -> nth_error fields v' = Some (b, s', sz') ->
       s + sz <= s' \/ s' + sz' <= s).
Proof.
  intros Hr. destruct (make_packer_spec ranges Hr) as (p & Ep & (Hlen & Hpl & Hdis) & Hnb).
  destruct (finite_choice (fun v f => placed ranges (var_infos p) v (fst (fst f)) (snd (fst f)) (snd f) /\
     snd (fst f) + snd f <= 32 /\ fst (fst f) < num_bins p) (length ranges)) as (fields & Hf & HP).
  { intros v Hv. destruct (Hpl v Hv) as (b & s & sz & H1 & H2 & H3). exists (b, s, sz); auto. }
  exists p, fields. repeat split; auto.
  - apply HP in H. cbn in H. apply H.
  - apply HP in H. cbn in H. apply H.
  - apply HP in H. cbn in H. destruct H as ((r' & Er & Esz & _) & _).
    rewrite Er in H0; inv H0. destruct (bit_size_spec r) as (sz' & E' & _ & Hp); [eapply ranges_ok_nth; eauto|].
    rewrite Esz in E'; inv E'. exact Hp.
  - intros buf w Hw. apply HP in H. cbn in H. eapply packer_get_bit_field; [apply H|exact Hw].
  - intros v b s sz v' s' sz' Hne H1 H2. apply HP in H1, H2. cbn in *.
    eapply Hdis; [exact Hne|apply H1|apply H2|reflexivity].
Qed.

Lemma make_packer_readback ranges :
  Forall (fun r => (1 <= r <= 2 ^ 31)%N) ranges ->
  exists p, make_packer ranges = Ok p /\
    forall buf writes, length buf = num_bins p ->
      Forall (fun '(v, x) => exists r, nth_error ranges v = Some r /\ (x < r)%N) writes ->
      exists buf', packer_sets p buf writes = Ok buf' /\ length buf' = num_bins p /\
        forall v, v < length ranges ->
          (exists x, packer_get p buf v = Ok x) /\
          packer_get p buf' v =
            match last_write writes v with Some x => Ok x | None => packer_get p buf v end.
Proof.
  intros Hr. destruct (make_packer_spec ranges Hr) as (p & Ep & Hl & _).
  exists p; split; [exact Ep|]. intros buf writes Hb Hw.
  destruct (packer_sets_spec ranges p writes buf) as (buf' & E & L & G); auto; [lia|].
  exists buf'. split; [exact E|]. split; [lia|]. intros v Hv. split; [|auto].
  eapply packer_get_total; eauto. lia.
Qed.
