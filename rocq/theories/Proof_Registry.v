(** The concrete registry refines a growing list of distinct states. *)
From Coq Require Import Permutation.
From Verif Require Import Outcome Spec_Task Model_Task Proof_Task Model_Axioms Proof_Axioms Spec_Vector Spec_KeySet
  Model_IntPacker Proof_IntPacker Model_SegmentedVector Proof_SegmentedVector Model_IntHashSet Proof_IntHashSet Model_Registry.

(* ---------- canonical buffers ---------- *)
Section Packed.
Variable ranges : list N.
Variable p : IntPacker.
Hypothesis Hr : ranges_ok ranges.
Hypothesis Hl : layout_ok ranges p.

(** no bit outside the fields of the variables is set *)
Definition clean (buf : list N) : Prop :=
  forall b w i, nth_error buf b = Some w -> N.testbit w i = true ->
    exists v s sz, v < length ranges /\ Proof_IntPacker.placed ranges (var_infos p) v b s sz /\ (N.of_nat s <= i < N.of_nat (s + sz))%N.

Definition packs (buf : list N) (s : state) : Prop :=
  length buf = num_bins p /\ clean buf /\ length s = length ranges /\
  forall v x, nth_error s v = Some x -> packer_get p buf v = Ok (N.of_nat x).

Lemma clean_zero n : clean (repeat 0%N n).
Proof. intros b w i Hb Hi. apply nth_error_In, repeat_spec in Hb. subst. rewrite N.bits_0 in Hi. discriminate. Qed.

Lemma set_clean buf v value r buf' : num_bins p <= length buf -> nth_error ranges v = Some r -> (value < r)%N ->
  clean buf -> packer_set p buf v value = Ok buf' -> clean buf'.
Proof.
  intros Hb Er Hv Hc E. pose proof Hl as (_ & Hpl & _).
  destruct (Hpl v) as (b & s & sz & Hp & Hs & Hbn); [eapply nth_error_Some_lt; eauto|].
  destruct (vget_some buf b) as (w & Ew & _); [lia|].
  destruct (packer_set_spec ranges p buf v value b s sz w r) as (w' & Eset & Hw'); auto.
  rewrite E in Eset. injection Eset as ->. intros b1 w1 i Hb1 Hi.
  rewrite upd_nth in Hb1. destruct (Nat.eqb_spec b b1) as [->|Hne]; cbn [andb] in Hb1; [|eapply Hc; eauto].
  destruct (Nat.ltb_spec b1 (length buf)); [|lia]. injection Hb1 as <-.
  rewrite Hw' in Hi. destruct (N.leb_spec (N.of_nat s) i), (N.ltb_spec i (N.of_nat (s + sz))); cbn [andb] in Hi.
  - exists v, s, sz. splits; auto. eapply nth_error_Some_lt; eauto.
  - apply andb_true_iff in Hi. eapply Hc; [exact Ew|tauto].
  - apply andb_true_iff in Hi. eapply Hc; [exact Ew|tauto].
  - apply andb_true_iff in Hi. eapply Hc; [exact Ew|tauto].
Qed.

Lemma clean_half b1 b2 b w1 w2 i : clean b1 -> nth_error b1 b = Some w1 -> nth_error b2 b = Some w2 ->
  (forall v, v < length ranges -> packer_get p b1 v = packer_get p b2 v) ->
  N.testbit w1 i = true -> N.testbit w2 i = true.
Proof.
  intros C1 H1 H2 Hg Hi. destruct (C1 b w1 i H1 Hi) as (v & s & sz & Hv & Hp & Hs).
  specialize (Hg v Hv). rewrite (packer_get_spec _ _ _ _ _ _ _ _ Hp H1), (packer_get_spec _ _ _ _ _ _ _ _ Hp H2) in Hg.
  injection Hg as Hg. apply (f_equal (fun x => N.testbit x (i - N.of_nat s))) in Hg. rewrite !field_testbit in Hg.
  replace (i - N.of_nat s + N.of_nat s)%N with i in Hg by lia. rewrite Hi in Hg.
  destruct (N.ltb_spec (i - N.of_nat s) (N.of_nat sz)); [|lia]. cbn [andb] in Hg. auto.
Qed.

Lemma packs_inj b1 b2 s : packs b1 s -> packs b2 s -> b1 = b2.
Proof.
  intros (L1 & C1 & N1 & G1) (L2 & C2 & N2 & G2).
  assert (Hg : forall v, v < length ranges -> packer_get p b1 v = packer_get p b2 v).
  { intros v Hv. destruct (nth_error s v) as [x|] eqn:E; [|apply nth_error_None in E; lia].
    rewrite (G1 v x E), (G2 v x E). reflexivity. }
  apply nth_error_ext. intros b. destruct (nth_error b1 b) as [w1|] eqn:E1.
  - destruct (vget_some b2 b) as (w2 & E2 & _); [apply nth_error_Some_lt in E1; lia|]. rewrite E2. f_equal.
    apply N.bits_inj. intros i. apply eq_true_iff_eq. split.
    + now apply (clean_half b1 b2 b w1 w2 i).
    + apply (clean_half b2 b1 b w2 w1 i); auto. intros v Hv. symmetry. auto.
  - apply nth_error_None in E1. symmetry. apply nth_error_None. lia.
Qed.

Lemma packs_fun b s1 s2 : packs b s1 -> packs b s2 -> s1 = s2.
Proof.
  intros (L1 & C1 & N1 & G1) (L2 & C2 & N2 & G2). apply nth_error_ext. intros v.
  destruct (nth_error s1 v) as [x|] eqn:E1, (nth_error s2 v) as [y|] eqn:E2; auto.
  - specialize (G1 v x E1). specialize (G2 v y E2). f_equal. assert (H : N.of_nat x = N.of_nat y) by congruence. lia.
  - apply nth_error_None in E2. apply nth_error_Some_lt in E1. lia.
  - apply nth_error_None in E1. apply nth_error_Some_lt in E2. lia.
Qed.

Lemma packs_set buf s v x r : packs buf s -> nth_error ranges v = Some r -> (N.of_nat x < r)%N ->
  exists buf', packer_set p buf v (N.of_nat x) = Ok buf' /\ packs buf' (upd s v x).
Proof.
  intros (L & C & N0 & G) Er Hx.
  destruct (packer_set_get ranges p buf v (N.of_nat x) r) as (buf' & E & L' & G1 & G2); auto; [lia|].
  exists buf'. split; auto. unfold packs. rewrite upd_length. splits; auto; [lia| |].
  - eapply set_clean; [|exact Er|exact Hx|exact C|exact E]. lia.
  - intros v' y Hy. rewrite upd_nth in Hy. destruct (Nat.eqb_spec v v') as [->|Hne]; cbn [andb] in Hy.
    + destruct (Nat.ltb_spec v' (length s)); [injection Hy as <-; auto|]. apply nth_error_Some_lt in Hy. lia.
    + rewrite G2; auto. rewrite <- N0. eapply nth_error_Some_lt; eauto.
Qed.

Lemma packs_repr buf : length buf = num_bins p -> clean buf -> exists s, packs buf s.
Proof.
  intros L C. assert (H : forall n, n <= length ranges -> exists s : list nat, length s = n /\ forall v x, nth_error s v = Some x -> packer_get p buf v = Ok (N.of_nat x)).
  { induction n as [|n IH]; intros Hn.
    - exists []. split; auto. intros [|v] x; discriminate.
    - destruct IH as (s & S1 & S2); [lia|]. destruct (packer_get_total ranges p buf n Hl) as (x & Ex); [lia|lia|].
      exists (s ++ [N.to_nat x]). split; [rewrite app_length; cbn; lia|].
      intros v y Hy. destruct (Nat.lt_ge_cases v (length s)).
      + rewrite nth_error_app1 in Hy by auto. auto.
      + rewrite nth_error_app2 in Hy by auto. destruct (v - length s) eqn:E; [|destruct n0; discriminate].
        cbn in Hy. injection Hy as <-. assert (v = n) by lia. subst v. rewrite Ex. f_equal. lia. }
  destruct (H (length ranges) (le_n _)) as (s & S1 & S2). exists s. unfold packs. splits; auto.
Qed.
End Packed.

(* ---------- reading and writing the pool ---------- *)
Section Pool.
Variable p : IntPacker.
Hypothesis Hbins : 0 < bins p.
Local Notation rep := (sav_rep (A:=N) word_bytes (bins p)).

Lemma skipn_cons_nth {A} (l : list A) j x : nth_error l j = Some x -> skipn j l = x :: skipn (S j) l.
Proof. revert l; induction j as [|j IH]; intros [|y l] H; cbn in *; try discriminate; [congruence|]. rewrite (IH l H). destruct l; auto. Qed.

Lemma read_words_rep pool bufs id buf : rep pool bufs -> nth_error bufs id = Some buf -> length buf = bins p ->
  forall k j, j + k = bins p -> read_words p pool id j k = Ok (skipn j buf).
Proof.
  intros HR Hi Hb. induction k as [|k IH]; intros j Hj; cbn [read_words].
  - rewrite skipn_all2; auto. lia.
  - destruct (sav_get_rep word_bytes (bins p) Hbins pool bufs id j buf HR Hi) as (w & W1 & W2); [lia|].
    rewrite W2. cbn [bind]. rewrite IH by lia. cbn [bind]. now rewrite (skipn_cons_nth _ _ _ W1).
Qed.
Lemma rep_length pool bufs id buf : rep pool bufs -> nth_error bufs id = Some buf -> length buf = bins p.
Proof. intros (_ & _ & H) Hi. rewrite Forall_forall in H. apply H. eapply nth_error_In; eauto. Qed.
Lemma read_buffer_rep pool bufs id buf : rep pool bufs -> nth_error bufs id = Some buf -> read_buffer p pool id = Ok buf.
Proof. intros HR Hi. unfold read_buffer. apply (read_words_rep pool bufs id buf HR Hi (rep_length _ _ _ _ HR Hi) (bins p) 0). lia. Qed.

Lemma vec_set_upd {A} (l : list A) i x : i < length l -> vec_set l i x = upd l i x.
Proof.
  unfold vec_set. revert i; induction l as [|y l IH]; intros [|i] H; cbn in *; try lia; auto.
  f_equal. apply IH. lia.
Qed.

Lemma write_words_rep pool : forall l bufs id buf j, rep pool bufs -> nth_error bufs id = Some buf -> j + length l = bins p ->
  exists pool', write_words p pool id j l = Ok pool' /\ rep pool' (upd bufs id (firstn j buf ++ l)).
Proof.
  intros l. revert pool. induction l as [|w l IH]; intros pool bufs id buf j HR Hi Hj; cbn [write_words].
  - exists pool. split; auto. rewrite app_nil_r, firstn_all2, upd_same; auto.
    rewrite (rep_length pool bufs id buf); auto. cbn in Hj. lia.
  - cbn in Hj. pose proof (rep_length _ _ _ _ HR Hi) as Hb.
    destruct (sav_set_rep word_bytes (bins p) Hbins pool bufs id j buf w HR Hi) as (pool1 & E1 & R1); [lia|].
    rewrite E1. cbn [bind]. pose proof (nth_error_Some_lt _ _ _ Hi) as Hlt.
    rewrite (vec_set_upd bufs) in R1 by auto. rewrite vec_set_upd in R1 by lia.
    destruct (IH pool1 (upd bufs id (upd buf j w)) id (upd buf j w) (S j) R1) as (pool2 & E2 & R2); [apply upd_nth_eq; auto|lia|].
    exists pool2. split; auto.
    replace (upd bufs id (firstn j buf ++ w :: l)) with (upd (upd bufs id (upd buf j w)) id (firstn (S j) (upd buf j w) ++ l)); auto.
    replace (firstn (S j) (upd buf j w)) with (firstn j buf ++ [w]).
    + rewrite <- app_assoc. cbn [app]. apply nth_error_ext. intros i. rewrite !upd_nth, upd_length.
      destruct (Nat.eqb_spec id i) as [->|]; cbn [andb]; auto. destruct (Nat.ltb_spec i (length bufs)); auto.
    + assert (Hjb : j < length buf) by lia. clear - Hjb. revert j Hjb. induction buf as [|y buf IH]; intros [|j] H; cbn in *; try lia; auto.
      f_equal. apply IH. lia.
Qed.

Lemma set_in_pool_rep pool bufs id buf v x buf' : rep pool bufs -> nth_error bufs id = Some buf ->
  packer_set p buf v (N.of_nat x) = Ok buf' -> length buf' = bins p ->
  exists pool', set_in_pool p pool id v x = Ok pool' /\ rep pool' (upd bufs id buf').
Proof.
  intros HR Hi E Hb. unfold set_in_pool. rewrite (read_buffer_rep _ _ _ _ HR Hi). cbn [bind]. rewrite E. cbn [bind].
  destruct (write_words_rep pool buf' bufs id buf 0 HR Hi) as (pool' & E' & R'); [lia|]. exists pool'. split; auto.
Qed.
End Pool.

Lemma words_eqb_spec a b : words_eqb a b = true <-> a = b.
Proof.
  revert b; induction a as [|x a IH]; intros [|y b]; cbn; try (split; congruence).
  rewrite andb_true_iff, N.eqb_eq, IH. split; [intros [-> ->]; auto | intros H; inv H; auto].
Qed.

Lemma insert_found hasher equal : equivalence equal -> (forall x y, equal x y = true -> hasher x = hasher y) ->
  forall f s E k key i, good hasher equal s E k -> find (fun k' => equal k' key) E = Some i ->
  insert_rec hasher equal (S f) s key (hasher key) = Ok (s, (i, false)).
Proof.
  intros He Hc f s E k key i Hg Hf. cbn [insert_rec]. unfold insert_body. rewrite N.eqb_refl. cbn [guard bind].
  destruct (find_equal_key_ok hasher equal He Hc s E k key Hg) as (res & Eres & Hres).
  rewrite Eres. cbn [bind]. rewrite Hf in Hres. subst res. reflexivity.
Qed.

(* ---------- the registry ---------- *)
Section Registry.
Variable hash : list N -> N.
Variable t : task.
Variable p : IntPacker.
Variable ax : axeval.
Let ranges := map (fun x => N.of_nat (vdom x)) (t_vars t).
Hypothesis Ht : task_ok t.
Hypothesis Hr : ranges_ok ranges.
Hypothesis Hl : layout_ok ranges p.
Hypothesis Hne : t_vars t <> [].
Hypothesis Hax : make_axeval t = Ok ax.
Hypothesis Hinit : stratified_model t (t_init t) (t_init t).

Lemma bins_pos : 0 < bins p.
Proof.
  destruct Hl as (_ & H & _). destruct (H 0) as (b & s & sz & _ & _ & Hb).
  - unfold ranges. rewrite map_length. destruct (t_vars t); [congruence|cbn; lia].
  - unfold bins. lia.
Qed.
Local Notation rep := (sav_rep (A:=N) word_bytes (bins p)).
Local Notation packs := (packs ranges p).

Lemma id_equal_equiv pool : equivalence (id_equal p pool).
Proof.
  unfold equivalence, id_equal. splits.
  - intros x. destruct (read_buffer p pool x); auto. now apply words_eqb_spec.
  - intros x y. destruct (read_buffer p pool x), (read_buffer p pool y); auto. rewrite !words_eqb_spec. auto.
  - intros x y z. destruct (read_buffer p pool x), (read_buffer p pool y), (read_buffer p pool z); auto; try discriminate.
    rewrite !words_eqb_spec. congruence.
Qed.
Lemma id_hash_compat pool x y : id_equal p pool x y = true -> id_hash hash p pool x = id_hash hash p pool y.
Proof.
  unfold id_equal, id_hash. destruct (read_buffer p pool x), (read_buffer p pool y); try discriminate; auto.
  rewrite words_eqb_spec. congruence.
Qed.

(** The registry [r] stores the distinct states [L]. *)
Definition stores (r : registry) (L : list state) : Prop :=
  exists bufs k, rep (reg_pool r) bufs /\ Forall2 packs bufs L /\
    good (id_hash hash p (reg_pool r)) (id_equal p (reg_pool r)) (reg_ids r) (seq 0 (length L)) k /\ k <= 30 /\
    Forall (state_ok t) L /\ NoDup L /\ (t_rules t = [] -> Forall (fun s => stratified_model t s s) L) /\
    match reg_init r with Some h => nth_error L (h_id h) = Some (t_init t) /\ h_values h = t_init t | None => True end.

Lemma Forall2_len {A B} (P : A -> B -> Prop) l1 l2 : Forall2 P l1 l2 -> length l1 = length l2.
Proof. induction 1; cbn; auto. Qed.
Lemma Forall2_get {A B} (P : A -> B -> Prop) l1 l2 i y : Forall2 P l1 l2 -> nth_error l2 i = Some y -> exists x, nth_error l1 i = Some x /\ P x y.
Proof. intros H; revert i; induction H; intros [|i]; cbn; try discriminate; eauto. intros E; inv E; eauto. Qed.
Lemma Forall2_get_l {A B} (P : A -> B -> Prop) l1 l2 i x : Forall2 P l1 l2 -> nth_error l1 i = Some x -> exists y, nth_error l2 i = Some y /\ P x y.
Proof. intros H; revert i; induction H; intros [|i]; cbn; try discriminate; eauto. intros E; inv E; eauto. Qed.

Lemma unpack_ok buf s : packs buf s -> forall k v, v + k = length s -> unpack_from p buf v k = Ok (skipn v s).
Proof.
  intros (L & C & N0 & G). induction k as [|k IH]; intros v Hv; cbn [unpack_from].
  - rewrite skipn_all2; auto. lia.
  - destruct (vget_some s v) as (x & Ex & _); [lia|]. rewrite (G v x Ex). cbn [bind]. rewrite IH by lia. cbn [bind].
    rewrite (skipn_cons_nth s v x Ex). now rewrite Nat2N.id.
Qed.

Lemma lookup_rep r bufs L id s : rep (reg_pool r) bufs -> Forall2 packs bufs L -> nth_error L id = Some s ->
  lookup_state t p r id = Ok {| h_id := id; h_values := s |}.
Proof.
  intros HR H2 Hi. destruct (Forall2_get _ _ _ _ _ H2 Hi) as (buf & B1 & B2). unfold lookup_state.
  rewrite (read_buffer_rep p bins_pos _ _ _ _ HR B1). cbn [bind].
  assert (Hn : length (t_vars t) = length s).
  { destruct B2 as (_ & _ & N0 & _). rewrite N0. unfold ranges. now rewrite map_length. }
  rewrite Hn, (unpack_ok buf s B2) by lia. reflexivity.
Qed.

Lemma equal_rep pool bufs i j a b : rep pool bufs -> nth_error bufs i = Some a -> nth_error bufs j = Some b ->
  id_equal p pool i j = words_eqb a b.
Proof. intros HR Ha Hb. unfold id_equal. now rewrite (read_buffer_rep p bins_pos _ _ _ _ HR Ha), (read_buffer_rep p bins_pos _ _ _ _ HR Hb). Qed.

Lemma window_ext h1 h2 m w start : forall E, (forall i, In i E -> h1 i = h2 i) -> window_count h1 m w start E = window_count h2 m w start E.
Proof.
  intros E H. unfold window_count. f_equal. apply filter_ext_in. intros i Hi. unfold in_window.
  now rewrite (H i Hi).
Qed.

(** [good] depends on the pool only through the stored IDs *)
Lemma good_transfer h1 e1 h2 e2 s E k : (forall i, In i E -> h1 i = h2 i) ->
  (forall i j, In i E -> In j E -> e1 i j = e2 i j) -> good h1 e1 s E k -> good h2 e2 s E k.
Proof.
  intros Hh He [G1 G2 G3 G4 G5]. constructor; auto.
  - intros i b key Hi Hb. assert (Hin : In key E).
    { eapply Permutation_in; [exact G3|]. apply In_keys. eauto. }
    rewrite <- (Hh key Hin). eapply G2; eauto.
  - clear - G4 He. unfold pairwise in *. induction G4 as [|x E Hx HE IH]; constructor.
    + rewrite Forall_forall in *. intros y Hy. rewrite <- He; [apply Hx; auto|left; auto|right; auto].
    + apply IH. intros i j Hi Hj. apply He; right; auto.
Qed.

Lemma find_seq (f : nat -> bool) n : forall a, match find f (seq a n) with
  | Some i => a <= i < a + n /\ f i = true
  | None => forall i, a <= i < a + n -> f i = false end.
Proof.
  induction n as [|n IH]; intros a; cbn [seq find]; [intros; lia|].
  destruct (f a) eqn:E; [split; auto; lia|]. specialize (IH (S a)). destruct (find f (seq (S a) n)).
  - split; [lia|tauto].
  - intros i Hi. destruct (Nat.eq_dec i a) as [->|]; auto. apply IH. lia.
Qed.

Lemma nth_error_last {A} (l : list A) x : nth_error (l ++ [x]) (length l) = Some x.
Proof. rewrite nth_error_app2 by lia. now rewrite Nat.sub_diag. Qed.

Lemma insert_rep r bufs L buf s k : rep (reg_pool r) (bufs ++ [buf]) -> Forall2 packs bufs L -> packs buf s ->
  good (id_hash hash p (reg_pool r)) (id_equal p (reg_pool r)) (reg_ids r) (seq 0 (length L)) k -> k <= 30 ->
  (insert_id_or_pop_state hash p r = Exit abort_exit /\ ~ In s L /\
     crowded (id_hash hash p (reg_pool r)) (seq 0 (S (length L)))) \/
  exists r' id, insert_id_or_pop_state hash p r = Ok (r', id) /\ reg_init r' = reg_init r /\
    exists bufs' L' k', rep (reg_pool r') bufs' /\ Forall2 packs bufs' L' /\
      good (id_hash hash p (reg_pool r')) (id_equal p (reg_pool r')) (reg_ids r') (seq 0 (length L')) k' /\ k' <= 30 /\
      nth_error L' id = Some s /\ ((In s L /\ L' = L) \/ (~ In s L /\ L' = L ++ [s])).
Proof.
  intros HR H2 Hs Hg Hk. pose proof (Forall2_len _ _ _ H2) as Hlen.
  pose proof HR as (_ & Hsz & _). rewrite app_length, Nat.add_1_r in Hsz. cbn in Hsz.
  unfold insert_id_or_pop_state. rewrite Hsz.
  assert (Hguard : forallb (fun b => match bkey b with Some k => k <? S (length bufs) | None => true end) (buckets (reg_ids r)) = true).
  { apply forallb_forall. intros b Hb. destruct (bkey b) as [key|] eqn:Ek; auto. apply Nat.ltb_lt.
    assert (Hin : In key (seq 0 (length L))).
    { eapply Permutation_in; [apply Hg|]. apply In_keys. apply In_nth_error in Hb. destruct Hb as [i Hi]. eauto. }
    apply in_seq in Hin. lia. }
  rewrite Hguard. cbn [guard bind].
  pose proof (insert_ok (id_hash hash p (reg_pool r)) (id_equal p (reg_pool r)) (id_equal_equiv _) (id_hash_compat _) 32
    (reg_ids r) (seq 0 (length L)) k (length bufs) Hg Hk ltac:(lia)) as HI.
  unfold insert_result, keyset_insert in HI.
  pose proof (find_seq (fun k' => id_equal p (reg_pool r) k' (length bufs)) (length L) 0) as HF.
  assert (Heqb : forall i b, nth_error bufs i = Some b -> id_equal p (reg_pool r) i (length bufs) = words_eqb b buf).
  { intros i b Hi. eapply equal_rep; [exact HR| |apply nth_error_last]. rewrite nth_error_app1; auto. eapply nth_error_Some_lt; eauto. }
  unfold hset_insert. destruct (find (fun k' => id_equal p (reg_pool r) k' (length bufs)) (seq 0 (length L))) as [i|] eqn:Ef.
  - (* already there *)
    destruct HF as [HF1 HF2]. destruct (vget_some bufs i) as (b & Eb & _); [lia|].
    rewrite (Heqb i b Eb) in HF2. apply words_eqb_spec in HF2. subst b.
    destruct (Forall2_get_l _ _ _ _ _ H2 Eb) as (s' & Es' & Ps'). pose proof (packs_fun ranges p buf s s' Hs Ps') as <-.
    assert (HinL : In s L) by (eapply nth_error_In; eauto).
    destruct HI as [[HI Hc]|(s1 & k1 & HI & Hk1 & Hg1)]; cbn [fst snd] in *.
    { (* finding an equal key never enlarges *)
      exfalso. rewrite (insert_found _ _ (id_equal_equiv (reg_pool r)) (id_hash_compat (reg_pool r)) 31 _ _ k _ i Hg Ef) in HI. discriminate. }
    rewrite HI. cbn [bind].
    destruct (sav_pop_rep word_bytes (bins p) bins_pos (reg_pool r) bufs buf HR) as (pool' & E' & R').
    rewrite E'. cbn [bind]. rewrite (g_num _ _ _ _ _ Hg1), seq_length.
    pose proof R' as (_ & Hsz' & _). rewrite Hsz', Hlen, Nat.eqb_refl. cbn [guard bind].
    right. eexists _, i. split; [reflexivity|]. split; [reflexivity|]. cbn [reg_pool reg_ids].
    exists bufs, L, k1. splits; auto; [|lia].
    eapply good_transfer; [| |exact Hg1].
    + intros j Hj. apply in_seq in Hj. destruct (vget_some bufs j) as (bj & Ebj & _); [lia|]. unfold id_hash.
      rewrite (read_buffer_rep p bins_pos _ _ _ _ R' Ebj).
      rewrite (read_buffer_rep p bins_pos _ _ j bj HR); auto. rewrite nth_error_app1 by lia. auto.
    + intros j j' Hj Hj'. apply in_seq in Hj, Hj'. destruct (vget_some bufs j) as (bj & Ebj & _); [lia|].
      destruct (vget_some bufs j') as (bj' & Ebj' & _); [lia|].
      rewrite (equal_rep _ _ _ _ _ _ R' Ebj Ebj').
      apply (equal_rep _ (bufs ++ [buf]) j j' bj bj' HR); rewrite nth_error_app1; auto; lia.
  - (* new *)
    assert (Hnot : ~ In s L).
    { intros Hin. apply In_nth_error in Hin. destruct Hin as [i Hi].
      destruct (Forall2_get _ _ _ _ _ H2 Hi) as (b & Eb & Pb). pose proof (packs_inj ranges p b buf s Pb Hs) as ->.
      specialize (HF i). rewrite (Heqb i buf Eb) in HF. rewrite (proj2 (words_eqb_spec buf buf) eq_refl) in HF.
      apply nth_error_Some_lt in Hi. specialize (HF ltac:(lia)). discriminate. }
    assert (Hseq : seq 0 (length L) ++ [length bufs] = seq 0 (S (length L))).
    { rewrite Hlen. symmetry. rewrite <- Nat.add_1_r, seq_app. reflexivity. }
    destruct HI as [[HI Hc]|(s1 & k1 & HI & Hk1 & Hg1)]; cbn [fst snd] in *.
    + left. rewrite HI. cbn [bind]. splits; auto. rewrite Hseq in Hc. exact Hc.
    + rewrite HI. cbn [bind]. rewrite Hseq in Hg1. rewrite (g_num _ _ _ _ _ Hg1), seq_length, Hsz, Hlen, Nat.eqb_refl. cbn [guard bind].
      right. eexists _, (length L). split; [reflexivity|]. split; [reflexivity|]. cbn [reg_pool reg_ids].
      exists (bufs ++ [buf]), (L ++ [s]), k1. splits; auto; [|rewrite app_length, Nat.add_1_r; exact Hg1|lia|apply nth_error_last].
      apply Forall2_app; auto.
Qed.

Lemma rng_nth v x : is_var t v x -> nth_error ranges v = Some (N.of_nat (vdom x)).
Proof. unfold is_var, ranges. intros H. now rewrite nth_error_map, H. Qed.

Lemma pack_values_ok : forall values buf s v, packs buf s -> v + length values = length (t_vars t) ->
  (forall i x d, nth_error values i = Some x -> is_var t (v + i) d -> x < vdom d) ->
  exists buf', pack_values p buf v values = Ok buf' /\ packs buf' (firstn v s ++ values).
Proof.
  induction values as [|x values IH]; intros buf s v Hp Hv Hx; cbn [pack_values].
  - exists buf. split; auto. rewrite app_nil_r, firstn_all2; auto. destruct Hp as (_ & _ & N0 & _). unfold ranges in N0. rewrite map_length in N0. cbn in Hv. lia.
  - cbn in Hv. destruct (vget_some (t_vars t) v) as (d & Ed & _); [lia|].
    pose proof Hp as (_ & _ & N0 & _). unfold ranges in N0. rewrite map_length in N0.
    destruct (packs_set ranges p Hr Hl buf s v x (N.of_nat (vdom d)) Hp (rng_nth v d Ed)) as (b1 & E1 & P1).
    { assert (x < vdom d) by (apply (Hx 0); auto; now rewrite Nat.add_0_r). lia. }
    rewrite E1. cbn [bind]. destruct (IH b1 (upd s v x) (S v) P1) as (b2 & E2 & P2); [lia| |].
    { intros i y d' Hi Hd'. apply (Hx (S i)); auto. now replace (v + S i) with (S v + i) by lia. }
    exists b2. split; auto. replace (firstn v s ++ x :: values) with (firstn (S v) (upd s v x) ++ values); auto.
    replace (firstn (S v) (upd s v x)) with (firstn v s ++ [x]); [now rewrite <- app_assoc|].
    assert (Hvs : v < length s) by lia. clear - Hvs. revert v Hvs. induction s as [|y s IH]; intros [|v] H; cbn in *; try lia; auto.
    f_equal. apply IH. lia.
Qed.

Lemma upd_last {A} (l : list A) x y : upd (l ++ [x]) (length l) y = l ++ [y].
Proof. rewrite upd_app_r by lia. now rewrite Nat.sub_diag. Qed.

Lemma set_values_ok : forall values pool bufs buf s v, rep pool (bufs ++ [buf]) -> packs buf s -> v + length values = length (t_vars t) ->
  (forall i x d, nth_error values i = Some x -> is_var t (v + i) d -> x < vdom d) ->
  exists pool' buf', set_values_in_pool p pool (length bufs) v values = Ok pool' /\ rep pool' (bufs ++ [buf']) /\ packs buf' (firstn v s ++ values).
Proof.
  induction values as [|x values IH]; intros pool bufs buf s v HR Hp Hv Hx; cbn [set_values_in_pool];
    pose proof Hp as (Lb & _ & N0 & _); unfold ranges in N0; rewrite map_length in N0.
  - exists pool, buf. splits; auto. rewrite app_nil_r, firstn_all2; auto. cbn in Hv. lia.
  - cbn in Hv. destruct (vget_some (t_vars t) v) as (d & Ed & _); [lia|].
    destruct (packs_set ranges p Hr Hl buf s v x (N.of_nat (vdom d)) Hp (rng_nth v d Ed)) as (b1 & E1 & P1).
    { assert (x < vdom d) by (apply (Hx 0); auto; now rewrite Nat.add_0_r). lia. }
    destruct (set_in_pool_rep p bins_pos pool (bufs ++ [buf]) (length bufs) buf v x b1 HR (nth_error_last _ _) E1) as (pool1 & E2 & R1); [apply P1|].
    rewrite E2. cbn [bind]. rewrite upd_last in R1.
    destruct (IH pool1 bufs b1 (upd s v x) (S v) R1 P1) as (pool2 & b2 & E3 & R2 & P2); [lia| |].
    { intros i y d' Hi Hd'. apply (Hx (S i)); auto. now replace (v + S i) with (S v + i) by lia. }
    exists pool2, b2. splits; auto. replace (firstn v s ++ x :: values) with (firstn (S v) (upd s v x) ++ values); auto.
    replace (firstn (S v) (upd s v x)) with (firstn v s ++ [x]); [now rewrite <- app_assoc|].
    assert (Hvs : v < length s) by lia. clear - Hvs. revert v Hvs. induction s as [|y s IH]; intros [|v] H; cbn in *; try lia; auto.
    f_equal. apply IH. lia.
Qed.

Lemma set_effects_ok pred : forall es pool bufs buf s, rep pool (bufs ++ [buf]) -> packs buf s -> Forall (effect_ok t) es ->
  exists pool' buf', set_effects_in_pool p pool (length bufs) pred es = Ok pool' /\ rep pool' (bufs ++ [buf']) /\
    packs buf' (fold_left (fun s1 e => if all_holdb pred (eff_cond e) then upd s1 (fst (eff_fact e)) (snd (eff_fact e)) else s1) es s).
Proof.
  induction es as [|e es IH]; intros pool bufs buf s HR Hp He; cbn [set_effects_in_pool fold_left].
  - exists pool, buf. splits; auto.
  - inv He. destruct (all_holdb pred (eff_cond e)); cbn [bind]; [|apply IH with (buf := buf); auto].
    destruct H1 as (_ & (d & Ed & Hd) & _).
    destruct (packs_set ranges p Hr Hl buf s _ (snd (eff_fact e)) (N.of_nat (vdom d)) Hp (rng_nth _ d Ed)) as (b1 & E1 & P1); [lia|].
    destruct (set_in_pool_rep p bins_pos pool (bufs ++ [buf]) (length bufs) buf _ _ b1 HR (nth_error_last _ _) E1) as (pool1 & E2 & R1); [apply P1|].
    rewrite E2. cbn [bind]. rewrite upd_last in R1. apply IH with (buf := b1); auto.
Qed.

Lemma state_rng s : state_ok t s -> forall i x d, nth_error s i = Some x -> is_var t (0 + i) d -> x < vdom d.
Proof. intros Hs i x d Hi Hd. eapply (Forall2_nth _ _ _ i x d Hs); eauto. Qed.

Lemma strat_default s : t_rules t = [] -> state_ok t s -> stratified_model t s s -> forall v x, is_var t v x -> vlayer x <> None -> holds s (v, vdefault x).
Proof.
  intros H0 Hs (_ & _ & H3) v x Hx Hv. destruct (vlayer x) as [k|] eqn:Ek; [|congruence].
  destruct (state_ok_get _ _ _ _ Hs Hx) as (d & Hd & _). destruct (H3 v x k d Hx Ek Hd) as [A _].
  destruct (Nat.eq_dec d (vdefault x)) as [->|Hn]; auto. specialize (A Hn). inversion A. rewrite H0 in *. contradiction.
Qed.

(** The outcome of a call: termination for lack of space, or a handle of state [s] in the
    extended list. *)
Definition adds (L L' : list state) (s : state) : Prop := (In s L /\ L' = L) \/ (~ In s L /\ L' = L ++ [s]).
Definition aborted (L : list state) : Prop :=
  exists bufs, NoDup bufs /\ length bufs = S (length L) /\ ~ spread (fun i => hash (nth i bufs [])) (seq 0 (length bufs)).

Lemma crowded_aborted r bufs L buf s : rep (reg_pool r) (bufs ++ [buf]) -> Forall2 packs bufs L -> packs buf s -> NoDup L -> ~ In s L ->
  crowded (id_hash hash p (reg_pool r)) (seq 0 (S (length L))) -> aborted L.
Proof.
  intros HR H2 Hs Hnd Hnot Hc. pose proof (Forall2_len _ _ _ H2) as Hlen.
  exists (bufs ++ [buf]). splits.
  - assert (H2' : Forall2 packs (bufs ++ [buf]) (L ++ [s])) by (apply Forall2_app; auto).
    assert (Hnd' : NoDup (L ++ [s])).
    { apply (Permutation_NoDup (l := s :: L)); [apply Permutation_cons_append|]. constructor; auto. }
    clear - H2' Hnd' . induction H2' as [|b x bs xs Hb Hbs IH]; constructor; inv Hnd'; auto.
    intros Hin. apply In_nth_error in Hin. destruct Hin as [i Hi].
    destruct (Forall2_get_l _ _ _ _ _ Hbs Hi) as (y & Y1 & Y2). pose proof (packs_fun ranges p b x y Hb Y2). subst y.
    apply H1. eapply nth_error_In; eauto.
  - rewrite app_length. cbn. lia.
  - rewrite app_length, Nat.add_1_r, Hlen. intros (m & Hm & Hw). destruct (Hc m Hm) as [start Hst].
    specialize (Hw start). revert Hw Hst. rewrite (window_ext _ (id_hash hash p (reg_pool r))); [lia|].
    intros i Hi. apply in_seq in Hi. unfold id_hash.
    destruct (vget_some (bufs ++ [buf]) i) as (b & Eb & _); [rewrite app_length; cbn; lia|].
    rewrite (read_buffer_rep p bins_pos _ _ _ _ HR Eb). f_equal. now apply nth_error_nth.
Qed.

Lemma good_push r bufs buf pool k n : rep (reg_pool r) bufs -> rep pool (bufs ++ [buf]) -> n <= length bufs ->
  good (id_hash hash p (reg_pool r)) (id_equal p (reg_pool r)) (reg_ids r) (seq 0 n) k ->
  good (id_hash hash p pool) (id_equal p pool) (reg_ids r) (seq 0 n) k.
Proof.
  intros R0 R1 Hn. apply good_transfer.
  - intros j Hj. apply in_seq in Hj. destruct (vget_some bufs j) as (bj & Ebj & _); [lia|]. unfold id_hash.
    rewrite (read_buffer_rep p bins_pos _ _ _ _ R0 Ebj).
    rewrite (read_buffer_rep p bins_pos _ _ j bj R1); auto. rewrite nth_error_app1 by lia. auto.
  - intros j j' Hj Hj'. apply in_seq in Hj, Hj'. destruct (vget_some bufs j) as (bj & Ebj & _); [lia|].
    destruct (vget_some bufs j') as (bj' & Ebj' & _); [lia|].
    rewrite (equal_rep _ _ _ _ _ _ R0 Ebj Ebj').
    symmetry. apply (equal_rep _ (bufs ++ [buf]) j j' bj bj' R1); rewrite nth_error_app1; auto; lia.
Qed.

Lemma adds_forall (P : state -> Prop) L L' s : adds L L' s -> P s -> Forall P L -> Forall P L'.
Proof. intros [[_ ->]|[_ ->]] Hs HL; auto. apply Forall_app; auto. Qed.
Lemma adds_nodup L L' s : adds L L' s -> NoDup L -> NoDup L'.
Proof.
  intros [[_ ->]|[Hn ->]] H; auto. apply (Permutation_NoDup (l := s :: L)); [apply Permutation_cons_append|]. constructor; auto.
Qed.
Lemma adds_nth L L' s i x : adds L L' s -> nth_error L i = Some x -> nth_error L' i = Some x.
Proof. intros [[_ ->]|[Hn ->]] H; auto. rewrite nth_error_app1; auto. eapply nth_error_Some_lt; eauto. Qed.

Lemma initial_ok r L : stores r L ->
  (get_initial_state hash t p r = Exit abort_exit /\ aborted L) \/
  exists r' h L', get_initial_state hash t p r = Ok (r', h) /\ stores r' L' /\ adds L L' (t_init t) /\
    nth_error L' (h_id h) = Some (t_init t) /\ h_values h = t_init t.
Proof.
  intros (bufs & k & HR & H2 & Hg & Hk & HL & Hnd & Hst & Hc). unfold get_initial_state.
  destruct (reg_init r) as [h|] eqn:Ei.
  { right. exists r, h, L. destruct Hc as [C1 C2]. splits; auto.
    - exists bufs, k. splits; auto. rewrite Ei. auto.
    - left. split; auto. eapply nth_error_In; eauto. }
  destruct Ht as (_ & _ & _ & Hi & _).
  destruct (packs_repr ranges p Hl (repeat 0%N (bins p))) as (s0 & P0); [apply repeat_length|apply clean_zero|].
  destruct (pack_values_ok (t_init t) (repeat 0%N (bins p)) s0 0 P0) as (buf & Eb & Pb); [now apply state_ok_length|now apply state_rng|].
  cbn [firstn app] in Pb. rewrite Eb. cbn [bind].
  destruct (sav_push_rep word_bytes (bins p) bins_pos (reg_pool r) bufs buf HR) as (pool & Ep & Rp); [apply Pb|].
  rewrite Ep. cbn [bind].
  set (r0 := {| reg_pool := pool; reg_ids := reg_ids r; reg_init := None |}).
  assert (Hg0 : good (id_hash hash p pool) (id_equal p pool) (reg_ids r) (seq 0 (length L)) k).
  { apply (good_push r bufs buf); auto. rewrite (Forall2_len _ _ _ H2). auto. }
  destruct (insert_rep r0 bufs L buf (t_init t) k Rp H2 Pb Hg0 Hk) as [(E & Hn & Hcr)|(r1 & id & E & Ei1 & bufs' & L' & k' & R' & H2' & Hg' & Hk' & Hid & Hadd)].
  - left. fold r0. rewrite E. split; auto. eapply (crowded_aborted r0); eauto.
  - right. fold r0. rewrite E. cbn [bind]. rewrite (lookup_rep r1 bufs' L' id (t_init t) R' H2' Hid). cbn [bind].
    eexists _, _, L'. split; [reflexivity|]. splits; auto.
    exists bufs', k'. cbn [reg_pool reg_ids reg_init h_id h_values]. splits; auto.
    + eapply adds_forall; eauto.
    + eapply adds_nodup; eauto.
    + intros H0. eapply adds_forall; eauto.
Qed.

Lemma evaluate_apply s o op : state_ok t s -> (t_rules t = [] -> stratified_model t s s) -> nth_error (t_ops t) o = Some op ->
  exists s', evaluate ax (apply_effects s (op_effs op)) = Ok s' /\ state_ok t s' /\ stratified_model t (apply_effects s (op_effs op)) s' /\
    (t_rules t = [] -> s' = apply_effects s (op_effs op)).
Proof.
  intros Hs Hst Ho. assert (Hop : operator_ok t op).
  { destruct Ht as (_ & H & _). rewrite Forall_forall in H. apply H. eapply nth_error_In; eauto. }
  destruct (evaluate_correct t Ht) as (ax' & Ea & Hev). rewrite Hax in Ea. injection Ea as <-.
  assert (Hs1 : state_ok t (apply_effects s (op_effs op))) by (apply apply_effects_ok; auto; apply Hop).
  assert (Hd : t_rules t = [] -> forall v x, is_var t v x -> vlayer x <> None -> holds (apply_effects s (op_effs op)) (v, vdefault x)).
  { intros H0 v x Hx Hv. unfold holds. cbn [fst snd]. rewrite (apply_effects_derived t); [|apply Hop|now rewrite (layer_of_var _ _ _ Hx)].
    apply (strat_default s H0 Hs (Hst H0) v x Hx Hv). }
  destruct (Hev _ Hs1 Hd) as (s' & E & Hs' & Hm & Hu). exists s'. splits; auto.
  intros H0. symmetry. apply Hu; auto. apply no_rules_model; auto.
Qed.

Lemma strat_progress s o op s' : nth_error (t_ops t) o = Some op -> stratified_model t (apply_effects s (op_effs op)) s' -> progress t s o s'.
Proof.
  intros Ho Hm. exists op, (apply_effects s (op_effs op)). splits; auto.
  - apply apply_effects_length.
  - intros v r Hv Hev. now apply apply_effects_value.
Qed.

Lemma strat_idem s s' : stratified_model t s s' -> stratified_model t s' s'.
Proof. intros (A & B & C). split; [|split]; auto. Qed.

Lemma successor_ok r L pred o s : stores r L -> nth_error L (h_id pred) = Some s -> h_values pred = s -> o < length (t_ops t) ->
  (get_successor_state hash t p ax r pred o = Exit abort_exit /\ aborted L) \/
  exists r' h L' s', get_successor_state hash t p ax r pred o = Ok (r', h) /\ stores r' L' /\ adds L L' s' /\
    nth_error L' (h_id h) = Some s' /\ h_values h = s' /\ progress t s o s'.
Proof.
  intros (bufs & k & HR & H2 & Hg & Hk & HL & Hnd & Hst & Hc) Hid Hv Ho. unfold get_successor_state.
  destruct (vget_some (t_ops t) o Ho) as (op & Eop & Eop'). rewrite Eop'. cbn [bind].
  destruct (Forall2_get _ _ _ _ _ H2 Hid) as (buf & Eb & Pb).
  rewrite (read_buffer_rep p bins_pos _ _ _ _ HR Eb). cbn [bind].
  destruct (sav_push_rep word_bytes (bins p) bins_pos (reg_pool r) bufs buf HR) as (pool & Ep & Rp); [apply Pb|].
  rewrite Ep. cbn [bind].
  assert (Hsz : sav_size pool - 1 = length bufs).
  { destruct Rp as (_ & Hz & _). rewrite Hz, app_length. cbn. lia. }
  rewrite Hsz. clear Hsz.
  assert (Hs : state_ok t s) by (rewrite Forall_forall in HL; apply HL; eapply nth_error_In; eauto).
  assert (Hss : t_rules t = [] -> stratified_model t s s) by (intros H0; specialize (Hst H0); rewrite Forall_forall in Hst; apply Hst; eapply nth_error_In; eauto).
  destruct (evaluate_apply s o op Hs Hss Eop) as (s' & Ev & Hs' & Hm & Hnr).
  assert (Fin : forall pool' buf', rep pool' (bufs ++ [buf']) -> packs buf' s' ->
    let r0 := {| reg_pool := pool'; reg_ids := reg_ids r; reg_init := reg_init r |} in
    (insert_id_or_pop_state hash p r0 = Exit abort_exit /\ aborted L) \/
    exists r1 id L' bufs', insert_id_or_pop_state hash p r0 = Ok (r1, id) /\ stores r1 L' /\ adds L L' s' /\ nth_error L' id = Some s' /\
      rep (reg_pool r1) bufs' /\ Forall2 packs bufs' L').
  { intros pool' buf' R' P' r0.
    assert (Hg0 : good (id_hash hash p pool') (id_equal p pool') (reg_ids r) (seq 0 (length L)) k).
    { apply (good_push r bufs buf'); auto. rewrite (Forall2_len _ _ _ H2). auto. }
    destruct (insert_rep r0 bufs L buf' s' k R' H2 P' Hg0 Hk) as [(E & Hn & Hcr)|(r1 & id & E & Ei1 & bufs1 & L' & k' & R1 & H2' & Hg' & Hk' & Hid' & Hadd)].
    - left. split; auto. eapply (crowded_aborted r0); eauto.
    - right. exists r1, id, L', bufs1. splits; auto.
      exists bufs1, k'. splits; auto.
      + eapply adds_forall; eauto.
      + eapply adds_nodup; eauto.
      + intros H0. eapply adds_forall; eauto. eapply strat_idem; eauto.
      + rewrite Ei1. unfold r0. cbn [reg_init]. destruct (reg_init r); auto. destruct Hc as [C1 C2]. split; auto. eapply adds_nth; eauto. }
  rewrite Hv. destruct (has_rules t) eqn:Eh.
  - rewrite Ev. cbn [bind].
    destruct (set_values_ok s' pool bufs buf s 0 Rp Pb) as (pool' & buf' & E1 & R1 & P1); [now apply state_ok_length|now apply state_rng|].
    rewrite E1. cbn [bind]. cbn [firstn app] in P1.
    destruct (Fin pool' buf' R1 P1) as [[E A]|(r1 & id & L' & bufs' & E & A1 & A2 & A3 & A4 & A5)]; cbn zeta in E; rewrite E; [left; auto|].
    cbn [bind]. destruct (Forall2_get _ _ _ _ _ A5 A3) as (b & B1 & B2). unfold lookup_state_with.
    rewrite (read_buffer_rep p bins_pos _ _ _ _ A4 B1). cbn [bind].
    right. eexists _, _, L', s'. split; [reflexivity|]. splits; auto. eapply strat_progress; eauto.
  - assert (H0 : t_rules t = []) by (unfold has_rules in Eh; destruct (t_rules t); [auto|discriminate]).
    assert (Hop : Forall (effect_ok t) (op_effs op)).
    { destruct Ht as (_ & H & _). rewrite Forall_forall in H. apply (H op). eapply nth_error_In; eauto. }
    destruct (set_effects_ok s (op_effs op) pool bufs buf s Rp Pb Hop) as (pool' & buf' & E1 & R1 & P1).
    rewrite E1. cbn [bind]. fold (apply_effects s (op_effs op)) in P1. rewrite <- (Hnr H0) in P1.
    destruct (Fin pool' buf' R1 P1) as [[E A]|(r1 & id & L' & bufs' & E & A1 & A2 & A3 & A4 & A5)]; cbn zeta in E; rewrite E; [left; auto|].
    cbn [bind]. rewrite (lookup_rep r1 bufs' L' id s' A4 A5 A3). cbn [bind].
    right. eexists _, _, L', s'. split; [reflexivity|]. splits; auto. eapply strat_progress; eauto.
Qed.

Lemma empty_stores : stores empty_registry [].
Proof.
  exists [], 0. cbn [empty_registry reg_pool reg_ids reg_init length seq].
  split; [apply sav_empty_rep|]. split; [constructor|].
  split; [apply (good_make (id_hash hash p sav_empty) (id_equal p sav_empty))|].
  splits; auto; try constructor; lia.
Qed.

(** A history of calls: the results so far name states of [L], and every state of [L] was
    returned. *)
Definition run_inv (r : registry) (hs : list handle) (L : list state) : Prop :=
  stores r L /\ (forall h, In h hs -> nth_error L (h_id h) = Some (h_values h)) /\
  (forall id, id < length L -> exists h, In h hs /\ h_id h = id).

Definition calls_legal (n : nat) (calls : list call) : Prop :=
  forall i k o, nth_error calls i = Some (CallSuccessor k o) -> k < n + i /\ o < length (t_ops t).

Definition result_ok (hs : list handle) (c : call) (h : handle) : Prop :=
  match c with
  | CallInitial => h_values h = t_init t
  | CallSuccessor k o => exists pred, nth_error hs k = Some pred /\ progress t (h_values pred) o (h_values h)
  end.

Lemma adds_inv L L' s h hs : adds L L' s -> nth_error L' (h_id h) = Some s -> h_values h = s ->
  (forall h, In h hs -> nth_error L (h_id h) = Some (h_values h)) ->
  (forall id, id < length L -> exists h, In h hs /\ h_id h = id) -> NoDup L' ->
  (forall h', In h' (hs ++ [h]) -> nth_error L' (h_id h') = Some (h_values h')) /\
  (forall id, id < length L' -> exists h', In h' (hs ++ [h]) /\ h_id h' = id).
Proof.
  intros Ha Hn Hv H1 H2 Hnd. split.
  - intros h' Hh'. apply in_app_iff in Hh'. destruct Hh' as [Hh'|[<-|[]]]; [eapply adds_nth; eauto|congruence].
  - intros id Hid. destruct (Nat.lt_ge_cases id (length L)) as [Hlt|Hge].
    + destruct (H2 id Hlt) as (h' & A & B). exists h'. split; auto. apply in_app_iff; auto.
    + exists h. split; [apply in_app_iff; right; left; auto|].
      destruct Ha as [[_ ->]|[Hnot ->]]; [lia|]. rewrite app_length in Hid. cbn in Hid.
      assert (Hl2 : nth_error (L ++ [s]) id = Some s).
      { assert (id = length L) by lia. subst id. apply nth_error_last. }
      eapply (proj1 (NoDup_nth_error (L ++ [s])) Hnd).
      * apply nth_error_Some_lt in Hn. auto.
      * congruence.
Qed.

Lemma run_ok : forall calls r hs L, run_inv r hs L -> calls_legal (length hs) calls ->
  (run_calls hash t p ax calls (r, hs) = Exit abort_exit /\ exists L', length L' < length L + length calls /\ aborted L') \/
  exists r' new L', run_calls hash t p ax calls (r, hs) = Ok (r', hs ++ new) /\ run_inv r' (hs ++ new) L' /\
    Forall2 (result_ok (hs ++ new)) calls new.
Proof.
  induction calls as [|c calls IH]; intros r hs L (HS & H1 & H2) Hc; unfold run_calls in *; cbn [fold_outcome].
  - right. exists r, [], L. rewrite app_nil_r. splits; auto. split; auto.
  - assert (Step : (call_step hash t p ax (r, hs) c = Exit abort_exit /\ aborted L) \/
       exists r1 h L1, call_step hash t p ax (r, hs) c = Ok (r1, hs ++ [h]) /\ run_inv r1 (hs ++ [h]) L1 /\ length L1 <= S (length L) /\
         (forall new, result_ok (hs ++ new) c h)).
    { unfold call_step. cbn [fst snd]. destruct c as [|k o].
      - destruct (initial_ok r L HS) as [[E A]|(r1 & h & L1 & E & A1 & A2 & A3 & A4)]; rewrite E; cbn [bind]; [left; auto|].
        right. exists r1, h, L1. splits; auto.
        + split; auto. eapply adds_inv; eauto. destruct A1 as (? & ? & _ & _ & _ & _ & _ & ? & _); auto.
        + destruct A2 as [[_ ->]|[_ ->]]; [lia|]. rewrite app_length. cbn. lia.
      - destruct (Hc 0 k o eq_refl) as [Hk Ho]. rewrite Nat.add_0_r in Hk.
        destruct (vget_some hs k Hk) as (pred & Ek & Ek'). rewrite Ek'. cbn [bind].
        assert (Hp : nth_error L (h_id pred) = Some (h_values pred)) by (apply H1; eapply nth_error_In; eauto).
        destruct (successor_ok r L pred o (h_values pred) HS Hp eq_refl Ho) as [[E A]|(r1 & h & L1 & s' & E & A1 & A2 & A3 & A4 & A5)];
          rewrite E; cbn [bind]; [left; auto|].
        right. exists r1, h, L1. splits; auto.
        + split; auto. eapply adds_inv; eauto. destruct A1 as (? & ? & _ & _ & _ & _ & _ & ? & _); auto.
        + destruct A2 as [[_ ->]|[_ ->]]; [lia|]. rewrite app_length. cbn. lia.
        + intros new. exists pred. split; [|congruence]. rewrite nth_error_app1; auto. }
    destruct Step as [[E A]|(r1 & h & L1 & E & I1 & Hlen & Res)]; rewrite E; cbn [bind].
    + left. split; auto. exists L. split; auto. cbn. lia.
    + destruct (IH r1 (hs ++ [h]) L1 I1) as [[E2 (L' & B1 & B2)]|(r2 & new & L2 & E2 & I2 & F2)].
      { intros i k o Hi. rewrite app_length. cbn [length]. destruct (Hc (S i) k o Hi). split; auto. lia. }
      * left. split; auto. exists L'. split; auto. cbn. lia.
      * right. exists r2, (h :: new), L2. rewrite <- app_assoc in E2, I2, F2. cbn [app] in E2, I2, F2. splits; auto.
Qed.
End Registry.

Lemma task_packer t : task_ok t -> (forall v x, is_var t v x -> (N.of_nat (vdom x) <= 2 ^ 31)%N) ->
  ranges_ok (map (fun x => N.of_nat (vdom x)) (t_vars t)) /\
  exists p, state_packer t = Ok p /\ layout_ok (map (fun x => N.of_nat (vdom x)) (t_vars t)) p.
Proof.
  intros Ht Hd. assert (Hr : ranges_ok (map (fun x => N.of_nat (vdom x)) (t_vars t))).
  { unfold ranges_ok. rewrite Forall_map, Forall_forall. intros x Hx. destruct Ht as (Hv & _). rewrite Forall_forall in Hv.
    destruct (Hv x Hx) as (A & _). apply In_nth_error in Hx. destruct Hx as [v Hx]. specialize (Hd v x Hx). lia. }
  split; auto. destruct (make_packer_spec _ Hr) as (p & E & Hl & _). exists p. split; auto.
Qed.

Definition legal_calls (t : task) (calls : list call) : Prop :=
  forall i k o, nth_error calls i = Some (CallSuccessor k o) -> k < i /\ o < length (t_ops t).

Lemma registry_ok hash t calls : task_ok t -> t_vars t <> [] ->
  (forall v x, is_var t v x -> (N.of_nat (vdom x) <= 2 ^ 31)%N) ->
  stratified_model t (t_init t) (t_init t) -> legal_calls t calls ->
  (registry_history hash t calls = Exit abort_exit /\
    exists packed, NoDup packed /\ length packed <= length calls /\ ~ spread (fun i => hash (nth i packed [])) (seq 0 (length packed))) \/
  exists r hs, registry_history hash t calls = Ok (r, hs) /\ length hs = length calls /\
    (forall h h', In h hs -> In h' hs -> (h_id h = h_id h' <-> h_values h = h_values h')) /\
    (forall id, id < reg_size r <-> exists h, In h hs /\ h_id h = id) /\
    (forall h, In h hs -> with_registry t (fun p _ => lookup_state t p r (h_id h)) = Ok h) /\
    (forall h, In h hs -> state_ok t (h_values h)) /\
    Forall2 (result_ok t hs) calls hs.
Proof.
  intros Ht Hne Hd Hi Hc. destruct (task_packer t Ht Hd) as (Hr & p & Ep & Hl).
  destruct (evaluate_correct t Ht) as (ax & Ea & _).
  unfold registry_history, with_registry. rewrite Ep, Ea. cbn [bind].
  destruct (run_ok hash t p ax Ht Hr Hl Hne Ea Hi calls empty_registry [] []) as [[E (L' & A & bufs & B1 & B2 & B3)]|(r & hs & L & E & I & F)].
  - split; [apply empty_stores; auto|]. split; [intros h []|]. cbn. intros; lia.
  - exact Hc.
  - left. split; auto. exists bufs. splits; auto. cbn in A. lia.
  - right. cbn [app] in *. exists r, hs. destruct I as (S & I1 & I2).
    destruct S as (bs & k & R & F2 & G & Hk & HL & Hnd & _).
    splits; auto.
    + symmetry. eapply Forall2_len; eauto.
    + intros h h' Hh Hh'. pose proof (I1 h Hh) as N1. pose proof (I1 h' Hh') as N2. split; intros Heq.
      * rewrite Heq in N1. congruence.
      * eapply (proj1 (NoDup_nth_error L) Hnd); [eapply nth_error_Some_lt; eauto|]. congruence.
    + intros id. unfold reg_size. rewrite (g_num _ _ _ _ _ G), seq_length. split; [apply I2|].
      intros (h & Hh & <-). eapply nth_error_Some_lt. apply I1; eauto.
    + intros h Hh. rewrite (lookup_rep t p Hr Hl Hne r bs L (h_id h) (h_values h) R F2 (I1 h Hh)). destruct h; reflexivity.
    + intros h Hh. rewrite Forall_forall in HL. apply HL. eapply nth_error_In. apply I1; auto.
Qed.

Lemma effect_value_fun s es v r1 r2 : effect_value s es v r1 -> effect_value s es v r2 -> r1 = r2.
Proof.
  intros H. revert r2. induction H as [v|es e v d Hc Hf|es e v r Hn H IH]; intros r2 H2; inversion H2; subst; auto;
    try (match goal with X : ?l ++ [_] = [] |- _ => destruct l; discriminate | X : [] = ?l ++ [_] |- _ => destruct l; discriminate end);
    match goal with X : _ ++ [_] = _ ++ [_] |- _ => apply app_inj_tail in X; destruct X; subst end.
  - congruence.
  - exfalso. match goal with X : all_hold s (eff_cond e) -> _ |- _ => apply X in Hc end. rewrite Hf in Hc. cbn in Hc. congruence.
  - exfalso. match goal with X : all_hold s (eff_cond e) |- _ => apply Hn in X end. match goal with X : eff_fact e = _ |- _ => rewrite X in * end. cbn in *. congruence.
  - auto.
Qed.

Lemma progress_unique t s o s1 s2 : task_ok t -> state_ok t s1 -> state_ok t s2 -> progress t s o s1 -> progress t s o s2 -> s1 = s2.
Proof.
  intros Ht H1 H2 (op & a & E1 & L1 & V1 & M1) (op' & b & E2 & L2 & V2 & M2).
  assert (op' = op) by congruence. subst op'.
  assert (a = b).
  { apply nth_error_ext. intros v. destruct (Nat.lt_ge_cases v (length s)).
    - destruct (effect_value_total s (op_effs op) v) as (r & Hr). rewrite (V1 v r), (V2 v r); auto.
    - rewrite (proj2 (nth_error_None a v)), (proj2 (nth_error_None b v)); auto; lia. }
  subst b. eapply (stratified_unique t); eauto.
Qed.

Lemma unregistered_ok t s o : task_ok t -> state_ok t s -> stratified_model t s s -> o < length (t_ops t) ->
  exists s', get_unregistered_successor t s o = Ok s' /\ state_ok t s' /\ progress t s o s'.
Proof.
  intros Ht Hs Hm Ho. destruct (evaluate_correct t Ht) as (ax & Ea & _). unfold get_unregistered_successor.
  rewrite Ea. cbn [bind]. destruct (vget_some (t_ops t) o Ho) as (op & Eop & Eop'). rewrite Eop'. cbn [bind].
  destruct (evaluate_apply t ax Ht Ea s o op Hs (fun _ => Hm) Eop) as (s' & Ev & Hs' & Hm' & Hnr).
  exists s'. split; [|split; auto; eapply strat_progress; eauto].
  destruct (has_rules t) eqn:Eh; auto. rewrite Hnr; auto. unfold has_rules in Eh. destruct (t_rules t); [auto|discriminate].
Qed.
