(** PerStateInformation, PerStateArray: the vectors, the cache and the subscriptions implement the map. *)
From Coq Require Import List.
From Verif Require Import Outcome Spec_Vector Spec_PerState Model_SegmentedVector Proof_SegmentedVector Model_PerState.
Import ListNotations.
Local Open Scope nat_scope.

Lemma find_entries_in l r a : NoDup (map fst l) -> (find_entries l r = Some a <-> In (r, a) l).
Proof.
  intros ND. unfold find_entries. induction l as [|[r0 a0] l IH]; cbn [find map fst] in *; [split; [discriminate|intros []]|].
  inversion ND as [|? ? Hn ND']; subst. destruct (Nat.eqb_spec r0 r) as [->|Hne].
  - cbn. split; [intros [= ->]; auto|]. intros [[= ->]|H]; auto. exfalso. apply Hn. change r with (fst (r, a)). apply in_map. auto.
  - rewrite IH by auto. cbn. split; [auto|]. intros [[= ? ?]|H]; [congruence|auto].
Qed.
Lemma find_entries_none l r : find_entries l r = None -> ~ In r (map fst l).
Proof.
  unfold find_entries. destruct (find _ l) as [e|] eqn:E; [discriminate|]. intros _ H. apply in_map_iff in H as (e & <- & H).
  apply (find_none _ _ E) in H. rewrite Nat.eqb_refl in H. discriminate.
Qed.
Lemma existsb_eqb r l : existsb (Nat.eqb r) l = true <-> In r l.
Proof.
  rewrite existsb_exists. split; [intros (x & H & E); apply Nat.eqb_eq in E as ->; auto|]. intros H. exists r. split; auto. apply Nat.eqb_refl.
Qed.
Lemma nth_upd_eq {X} (l : list X) i x : i < length l -> nth_error (upd l i x) i = Some x.
Proof. revert i. induction l as [|y l IH]; intros [|i] H; cbn in *; try lia; auto. apply IH. lia. Qed.
Lemma nth_upd_ne {X} (l : list X) i k x : i <> k -> nth_error (upd l i x) k = nth_error l k.
Proof. revert i k. induction l as [|y l IH]; intros [|i] [|k] H; cbn; auto; try congruence. Qed.

Section PerState.
Context {I A V : Type}.
Variable I_eqb : I -> I -> bool.
Hypothesis I_eqb_spec : forall a b, I_eqb a b = true <-> a = b.
Variable valid : I -> Prop.
Variable default : I -> A.
Variable vmake : outcome V.
Variable vsize : V -> nat.
Variable vresize : V -> nat -> outcome V.
Variable vget : V -> nat -> I -> outcome A.
Variable vput : V -> nat -> I -> A -> outcome V.
Variable missing : I -> outcome A.
Variable good : V -> Prop.
Hypothesis make_spec : exists v, vmake = Ok v /\ good v /\ vsize v = 0.
Hypothesis resize_spec : forall v n, good v -> vsize v <= n -> exists v', vresize v n = Ok v' /\ good v' /\ vsize v' = n /\
  forall i j, valid j -> i < n -> vget v' i j = if i <? vsize v then vget v i j else Ok (default j).
Hypothesis put_spec : forall v i j x, good v -> i < vsize v -> valid j -> exists v', vput v i j x = Ok v' /\ good v' /\ vsize v' = vsize v /\
  forall i' j', i' < vsize v -> valid j' -> vget v' i' j' = if (i' =? i) && I_eqb j' j then Ok x else vget v i' j'.

Let step := wstep vmake vsize vresize vget vput missing.
Let run := wrun vmake vsize vresize vget vput missing.

Definition vec_ok (s : pspec I A) (v : V) (r : nat) : Prop :=
  good v /\ vsize v = ps_touched s r /\ forall id j, id < ps_touched s r -> valid j -> vget v id j = Ok (ps_value s r id j).
Record Rel (w : world V) (s : pspec I A) : Prop := {
  R_size : forall r, w_size w r = ps_size s r;
  R_keys : NoDup (map fst (w_entries w));
  R_addrs : NoDup (map snd (w_entries w));
  R_vec : forall r a, In (r, a) (w_entries w) -> exists v n, nth_error (w_heap w) a = Some (Some v) /\ vec_ok s v r /\
            ps_size s r = Some n /\ ps_touched s r <= n;
  R_none : forall r, ~ In r (map fst (w_entries w)) -> ps_touched s r = 0;
  R_default : forall r id j, ps_touched s r <= id -> valid j -> ps_value s r id j = default j;
  R_services : forall r, In r (w_services w) <-> In r (map fst (w_entries w));
  R_services_nodup : NoDup (w_services w);
  R_cache : forall r, w_cached_registry w = Some r -> exists a, w_cached_entries w = Some a /\ In (r, a) (w_entries w);
  R_refs_len : length (w_refs w) = length (ps_handles s);
  R_refs : forall k r id, nth_error (ps_handles s) k = Some (Some (r, id)) -> id < ps_touched s r /\
             exists a, nth_error (w_refs w) k = Some (a, id) /\ In (r, a) (w_entries w);
  R_noleak : forall a v, nth_error (w_heap w) a = Some (Some v) -> exists r, In (r, a) (w_entries w)
}.

Lemma Rel_init : Rel w_init (ps_init default).
Proof.
  constructor; cbn; try (constructor; fail); auto; try tauto; try discriminate.
  - intros [|k] r id H; discriminate.
  - intros [|a] v H; discriminate.
Qed.

Lemma cached_true (w : world V) r : is_cached w r = true <-> w_cached_registry w = Some r.
Proof. unfold is_cached. destruct (w_cached_registry w) as [c|]; [|split; discriminate]. rewrite Nat.eqb_eq. split; congruence. Qed.
Lemma key_unique (l : list (nat * nat)) r a b : NoDup (map fst l) -> In (r, a) l -> In (r, b) l -> a = b.
Proof. intros ND Ha Hb. apply (find_entries_in l r a) in Ha; auto. apply (find_entries_in l r b) in Hb; auto. congruence. Qed.
Lemma addr_unique (l : list (nat * nat)) r1 r2 a : NoDup (map snd l) -> In (r1, a) l -> In (r2, a) l -> r1 = r2.
Proof.
  induction l as [|[r0 a0] l IH]; cbn [map snd]; intros ND H1 H2; [destruct H1|]. inversion ND as [|? ? Hn ND']; subst.
  assert (P : forall r, In (r, a0) l -> False) by (intros r K; apply Hn; change a0 with (snd (r, a0)); apply in_map; auto).
  destruct H1 as [[= -> ->]|H1]; destruct H2 as [H2|H2]; try congruence; try (injection H2; intros; subst); eauto; exfalso; eauto.
Qed.

Lemma Rel_set_cache w s r a : Rel w s -> In (r, a) (w_entries w) -> Rel (set_cache w r a) s.
Proof. intros R H. destruct R. constructor; cbn; auto. intros r' [= <-]. eauto. Qed.

(** Finding or creating the vector of a live registry. *)
Lemma get_entries_spec w s r n : Rel w s -> ps_size s r = Some n ->
  exists w' a, get_entries vmake w r = Ok (w', a) /\ Rel w' s /\ In (r, a) (w_entries w').
Proof.
  intros R Hs. unfold get_entries. destruct (is_cached w r) eqn:Ec.
  - apply cached_true in Ec. destruct (R_cache _ _ R _ Ec) as (a & -> & Ha). exists w, a. auto.
  - destruct (find_entries (w_entries w) r) as [a|] eqn:Ef.
    + apply find_entries_in in Ef; [|apply R]. exists (set_cache w r a), a. splits; auto. apply Rel_set_cache; auto.
    + apply find_entries_none in Ef. destruct make_spec as (v & -> & Hg & Hv). cbn [bind]. unfold subscribe. cbn [w_services].
      assert (Hns : existsb (Nat.eqb r) (w_services w) = false).
      { apply not_true_iff_false. rewrite existsb_eqb, (R_services _ _ R). auto. }
      rewrite Hns. cbn [negb guard bind]. eexists _, _. split; [reflexivity|]. split; [|left; reflexivity].
      assert (Hlt : forall r' a', In (r', a') (w_entries w) -> a' < length (w_heap w)).
      { intros r' a' H. destruct (R_vec _ _ R _ _ H) as (v' & m & H1 & _). apply nth_error_Some. congruence. }
      destruct R as [Z1 Z2 Z3 Z4 Z5 Z6 Z7 Z8 Z9 Z10 Z11 Z12].
      constructor; cbn [w_size w_services w_heap w_entries w_cached_registry w_cached_entries w_refs map fst snd]; auto.
      * constructor; auto.
      * constructor; auto. intros K. apply in_map_iff in K as ([r' a'] & Ea & K). cbn in Ea. subst. apply Hlt in K. lia.
      * intros r' a' [[= <- <-]|H].
        -- exists v, n. rewrite nth_error_app2, Nat.sub_diag by lia. splits; auto.
           ++ split; auto. split; [rewrite Hv; symmetry; apply Z5; auto|]. intros id j Hid. rewrite Z5 in Hid by auto. lia.
           ++ rewrite Z5; auto. lia.
        -- destruct (Z4 _ _ H) as (v' & m & H1 & H2). exists v', m. rewrite nth_error_app1 by (eapply Hlt; eauto). auto.
      * intros r' H. apply Z5. intro K. apply H. right. auto.
      * intros r'. cbn. rewrite Z7. tauto.
      * constructor; auto. rewrite Z7. auto.
      * intros r' [= <-]. exists (length (w_heap w)). split; [reflexivity|left; reflexivity].
      * intros k r' id H. destruct (Z11 _ _ _ H) as (H1 & a' & H2 & H3). split; auto. exists a'. split; [auto|right; auto].
      * intros a' v' H. destruct (Nat.lt_ge_cases a' (length (w_heap w))) as [Hl|Hl].
        -- rewrite nth_error_app1 in H by auto. destruct (Z12 _ _ H) as (r' & H'). exists r'. right. auto.
        -- exists r. left. f_equal. apply nth_error_Some_lt in H. rewrite app_length in H. cbn in H. lia.
Qed.

(** Replacing a vector. *)
Lemma Rel_put w s s' r a v n : Rel w s -> In (r, a) (w_entries w) -> ps_size s r = Some n ->
  (forall r', ps_size s' r' = ps_size s r') -> ps_handles s' = ps_handles s ->
  ps_touched s r <= ps_touched s' r <= n -> (forall r', r' <> r -> ps_touched s' r' = ps_touched s r') ->
  (forall r' id j, r' <> r -> ps_value s' r' id j = ps_value s r' id j) ->
  vec_ok s' v r -> (forall id j, ps_touched s' r <= id -> valid j -> ps_value s' r id j = default j) ->
  Rel (put_vec w a (Some v)) s'.
Proof.
  intros R Hin Hn Hsz Hh Ht Hto Hvo Hv Hd.
  assert (Ha : a < length (w_heap w)).
  { destruct (R_vec _ _ R _ _ Hin) as (v' & m & H1 & _). apply nth_error_Some. congruence. }
  destruct R as [Z1 Z2 Z3 Z4 Z5 Z6 Z7 Z8 Z9 Z10 Z11 Z12].
  constructor; cbn [put_vec w_size w_services w_heap w_entries w_cached_registry w_cached_entries w_refs]; auto.
  - intros r'. rewrite Hsz. auto.
  - intros r' a' H. destruct (Nat.eq_dec r' r) as [->|Hne].
    + assert (a' = a) as -> by (eapply key_unique; eauto). exists v, n. rewrite nth_upd_eq by auto. rewrite Hsz. splits; auto. lia.
    + assert (a <> a') by (intros ->; apply Hne; eapply addr_unique; eauto).
      destruct (Z4 _ _ H) as (v' & m & H1 & (G1 & G2 & G3) & H3 & H4). exists v', m. rewrite nth_upd_ne by auto. rewrite Hsz, Hto by auto. splits; auto.
      split; auto. rewrite Hto by auto. split; auto. intros id j Hid Hj. rewrite Hvo by auto. auto.
  - intros r' H. rewrite Hto; auto. intros ->. apply H. change r with (fst (r, a)). apply in_map. auto.
  - intros r' id j H Hj. destruct (Nat.eq_dec r' r) as [->|Hne]; auto. rewrite Hvo by auto. apply Z6; auto. rewrite <- Hto; auto.
  - rewrite Hh. auto.
  - intros k r' id H. rewrite Hh in H. destruct (Z11 _ _ _ H) as (H1 & H2). split; auto. destruct (Nat.eq_dec r' r) as [->|Hne]; [lia|rewrite Hto; auto].
  - intros a' v' H. destruct (Nat.eq_dec a a') as [<-|Hne]; [eauto|]. rewrite nth_upd_ne in H by auto. eauto.
Qed.

Lemma access_spec w s r id : Rel w s -> pallowed valid s (PAccess r id : pevent I A) ->
  exists w', access vmake vsize vresize w (Some r) id = Ok w' /\ Rel w' (pstep I_eqb default s (PAccess r id)).
Proof.
  intros R (n & Hn & Hid). unfold access. rewrite (R_size _ _ R), Hn. destruct (get_entries_spec w s r n R Hn) as (w1 & a & -> & R1 & Ha).
  cbn [bind]. apply Nat.ltb_lt in Hid as Hid'. rewrite Hid'. cbn [guard bind].
  destruct (R_vec _ _ R1 _ _ Ha) as (v & n' & H1 & (G1 & G2 & G3) & H3 & H4). assert (n' = n) as -> by congruence.
  unfold vec_at at 1. rewrite H1. cbn [bind].
  assert (K : exists v', (if vsize v <? n then vresize v n else Ok v) = Ok v' /\ good v' /\ vsize v' = n /\
     forall i j, valid j -> i < n -> vget v' i j = Ok (ps_value s r i j)).
  { destruct (Nat.ltb_spec (vsize v) n) as [Hl|Hl].
    - destruct (resize_spec v n G1 ltac:(lia)) as (v' & -> & Gv & Sv & Kv). exists v'. splits; auto. intros i j Hj Hi. rewrite Kv by auto.
      destruct (Nat.ltb_spec i (vsize v)); [apply G3; auto; lia|]. f_equal. symmetry. apply (R_default _ _ R1); auto. lia.
    - exists v. assert (vsize v = n) by lia. splits; auto. intros i j Hj Hi. apply G3; auto. lia. }
  destruct K as (v' & -> & Gv & Sv & Kv). cbn [bind]. rewrite Sv, Hid'. cbn [guard bind].
  set (s1 := {| ps_size := ps_size s; ps_value := ps_value s; ps_touched := set_nat (ps_touched s) r n; ps_handles := ps_handles s |}).
  assert (R2 : Rel (put_vec w1 a (Some v')) s1).
  { apply (Rel_put w1 s s1 r a v' n); auto; unfold s1; cbn [ps_size ps_value ps_touched ps_handles]; unfold set_nat; rewrite ?Nat.eqb_refl; auto.
    - intros r' Hne. apply Nat.eqb_neq in Hne. rewrite Hne. reflexivity.
    - split; auto. cbn [ps_touched ps_value]. unfold set_nat. rewrite Nat.eqb_refl. split; auto.
    - intros i j Hi Hj. apply (R_default _ _ R1); auto. lia. }
  eexists. split; [reflexivity|]. cbn [pstep]. rewrite Hn.
  assert (Htr : ps_touched s1 r = n) by (unfold s1, set_nat; cbn; rewrite Nat.eqb_refl; auto).
  destruct R2 as [Z1 Z2 Z3 Z4 Z5 Z6 Z7 Z8 Z9 Z10 Z11 Z12].
  constructor; cbn [w_size w_services w_heap w_entries w_cached_registry w_cached_entries w_refs ps_size ps_value ps_touched ps_handles]; auto.
  - rewrite !app_length. cbn [length]. f_equal. exact Z10.
  - intros k r' id' H. change (ps_handles s) with (ps_handles s1) in H. destruct (Nat.lt_ge_cases k (length (ps_handles s1))) as [Hl|Hl].
    + rewrite nth_error_app1 in H by auto. destruct (Z11 _ _ _ H) as (K1 & a' & K2 & K3). split; auto. exists a'. split; auto.
      rewrite nth_error_app1 by (rewrite Z10; auto). auto.
    + rewrite nth_error_app2 in H by auto. destruct (k - length (ps_handles s1)) as [|q] eqn:Eq; [|destruct q; discriminate].
      injection H as <- <-. unfold s1 in Htr. cbn [ps_touched] in Htr. rewrite Htr. split; auto. exists a. split; [|exact Ha].
      rewrite nth_error_app2 by (rewrite Z10; auto). rewrite Z10, Eq. reflexivity.
Qed.

Lemma const_spec w s r id j : Rel w s -> pallowed valid s (PConst r id j : pevent I A) ->
  (forall j, valid j -> missing j = Ok (default j)) \/ id < ps_touched s r ->
  exists w', const_read vsize vget missing w (Some r) id j = Ok (w', ps_value s r id j) /\ Rel w' s.
Proof.
  intros R (Hj & n & Hn & Hid) HM. unfold const_read. rewrite (R_size _ _ R), Hn.
  assert (MISS : ps_touched s r <= id -> missing j = Ok (ps_value s r id j)).
  { intros H. destruct HM as [HM|HM]; [|lia]. rewrite HM by auto. f_equal. symmetry. apply (R_default _ _ R); auto. }
  assert (K : (exists w' a, get_entries_const w r = Ok (w', Some a) /\ Rel w' s /\ In (r, a) (w_entries w')) \/
              (get_entries_const w r = Ok (w, None) /\ ps_touched s r = 0)).
  { unfold get_entries_const. destruct (is_cached w r) eqn:Ec.
    - apply cached_true in Ec. destruct (R_cache _ _ R _ Ec) as (a & -> & Ha). left. exists w, a. auto.
    - destruct (find_entries (w_entries w) r) as [a|] eqn:Ef.
      + apply find_entries_in in Ef; [|apply R]. left. exists (set_cache w r a), a. splits; auto. apply Rel_set_cache; auto.
      + apply find_entries_none in Ef. right. split; auto. apply (R_none _ _ R). auto. }
  destruct K as [(w' & a & -> & R' & Ha)|[-> Ht]]; cbn [bind].
  - apply Nat.ltb_lt in Hid. rewrite Hid. cbn [guard bind]. destruct (R_vec _ _ R' _ _ Ha) as (v & n' & H1 & (G1 & G2 & G3) & _).
    unfold vec_at. rewrite H1. cbn [bind]. exists w'. split; auto. destruct (Nat.leb_spec (vsize v) id).
    + rewrite MISS by lia. reflexivity.
    + rewrite G3 by (auto; lia). reflexivity.
  - rewrite MISS by lia. cbn [bind]. exists w. auto.
Qed.

Lemma ref_spec w s k r id : Rel w s -> nth_error (ps_handles s) k = Some (Some (r, id)) ->
  exists a v n, nth_error (w_refs w) k = Some (a, id) /\ In (r, a) (w_entries w) /\ vec_at w a = Ok v /\ vec_ok s v r /\ id < ps_touched s r /\
    ps_size s r = Some n /\ ps_touched s r <= n.
Proof.
  intros R H. destruct (R_refs _ _ R _ _ _ H) as (H1 & a & H2 & H3). destruct (R_vec _ _ R _ _ H3) as (v & n & H4 & H5 & H6 & H7).
  exists a, v, n. splits; auto. unfold vec_at. rewrite H4. reflexivity.
Qed.
Lemma write_spec w s k j x : Rel w s -> pallowed valid s (PWrite k j x) ->
  exists w', write_ref vput w k j x = Ok w' /\ Rel w' (pstep I_eqb default s (PWrite k j x)).
Proof.
  intros R (Hj & [r id] & Hk). destruct (ref_spec _ _ _ _ _ R Hk) as (a & v & n & H1 & H2 & H3 & (G1 & G2 & G3) & H5 & H6 & H7).
  unfold write_ref. rewrite H1, H3. cbn [bind]. destruct (put_spec v id j x G1 ltac:(lia) Hj) as (v' & -> & P1 & P2 & P3). cbn [bind].
  eexists. split; [reflexivity|]. cbn [pstep]. rewrite Hk. apply (Rel_put w s _ r a v' n); auto; cbn [ps_size ps_value ps_touched ps_handles]; auto.
  - intros r' id' j' Hne. apply Nat.eqb_neq in Hne. rewrite Hne. reflexivity.
  - split; auto. cbn [ps_touched ps_value]. split; [congruence|]. intros id' j' Hid Hj'. rewrite P3 by (auto; lia). rewrite Nat.eqb_refl. cbn [andb].
    destruct ((id' =? id) && I_eqb j' j); auto.
  - intros id' j' Hid Hj'. destruct (Nat.eqb_spec id' id); [lia|]. rewrite andb_false_r. cbn [andb]. apply (R_default _ _ R); auto.
Qed.

Lemma in_filter_key r r' a (l : list (nat * nat)) : In (r', a) (filter (fun e => negb (fst e =? r)) l) <-> In (r', a) l /\ r' <> r.
Proof. rewrite filter_In. cbn [fst]. rewrite negb_true_iff, Nat.eqb_neq. tauto. Qed.
Lemma NoDup_map_filter {X Y} (f : X -> Y) p (l : list X) : NoDup (map f l) -> NoDup (map f (filter p l)).
Proof.
  induction l as [|x l IH]; cbn; intros H; auto. inversion H as [|? ? Hn Hl]; subst. destruct (p x); cbn; auto. constructor; auto.
  intros K. apply in_map_iff in K as (y & E & K). apply filter_In in K as [K _]. apply Hn. apply in_map_iff. exists y. auto.
Qed.
Lemma in_keys r (l : list (nat * nat)) : In r (map fst l) <-> exists a, In (r, a) l.
Proof.
  rewrite in_map_iff. split; [intros ([r' a] & <- & H); eauto|]. intros (a & H). exists (r, a). auto.
Qed.

Lemma destroy_spec w s r : Rel w s -> exists w', destroy_registry w r = Ok w' /\ Rel w' (pstep I_eqb default s (PDestroy r : pevent I A)).
Proof.
  intros R. unfold destroy_registry. pose proof (R_services _ _ R r) as HS.
  assert (HH : forall k r' id, nth_error (map (fun h : option (nat * nat) => match h with Some (r', id) => if r' =? r then None else Some (r', id) | None => None end) (ps_handles s)) k
       = Some (Some (r', id)) -> nth_error (ps_handles s) k = Some (Some (r', id)) /\ r' <> r).
  { intros k r' id H. rewrite nth_error_map in H. destruct (nth_error (ps_handles s) k) as [[[r1 id1]|]|]; try discriminate. cbn in H.
    destruct (Nat.eqb_spec r1 r); [discriminate|]. injection H as <- <-. auto. }
  destruct (existsb (Nat.eqb r) (w_services w)) eqn:Es.
  - apply existsb_eqb in Es. assert (Hk := proj1 HS Es). apply in_keys in Hk as (a & Ha). unfold notify_service_destroyed.
    rewrite (proj2 (find_entries_in _ r a (R_keys _ _ R)) Ha). destruct (R_vec _ _ R _ _ Ha) as (v & n & H1 & _).
    unfold vec_at. rewrite H1. cbn [bind]. unfold unsubscribe. cbn [w_services put_vec]. rewrite (proj2 (existsb_eqb r _) Es). cbn [guard bind].
    eexists. split; [reflexivity|].
    assert (Ec : is_cached (put_vec w a None) r = is_cached w r) by reflexivity. rewrite Ec.
    assert (Hlen : a < length (w_heap w)) by (apply nth_error_Some; congruence).
    destruct R as [Z1 Z2 Z3 Z4 Z5 Z6 Z7 Z8 Z9 Z10 Z11 Z12].
    constructor; cbn [put_vec w_size w_services w_heap w_entries w_cached_registry w_cached_entries w_refs pstep ps_size ps_value ps_touched ps_handles].
    + intros r'. unfold set_nat. destruct (r' =? r); auto.
    + apply NoDup_map_filter; auto.
    + apply NoDup_map_filter; auto.
    + intros r' a' H. apply in_filter_key in H as [H Hne]. destruct (Z4 _ _ H) as (v' & m & K1 & (G1 & G2 & G3) & K3 & K4). exists v', m.
      rewrite nth_upd_ne by (intros ->; apply Hne; eapply addr_unique; eauto). unfold vec_ok, set_nat. cbn [ps_touched ps_value].
      apply Nat.eqb_neq in Hne. rewrite Hne. split; [auto|]. split; [split; [auto|split; auto]|]. auto.
    + intros r' H. unfold set_nat. destruct (Nat.eqb_spec r' r) as [|Hne]; auto. apply Z5. intro K. apply H. apply in_keys in K as (a' & K).
      apply in_keys. exists a'. apply in_filter_key. auto.
    + intros r' id j. unfold set_nat. destruct (r' =? r); auto.
    + intros r'. rewrite filter_In, negb_true_iff, Nat.eqb_neq, Z7, !in_keys. split.
      * intros [(a' & K) Hne]. exists a'. apply in_filter_key. auto.
      * intros (a' & K). apply in_filter_key in K as [K1 K2]. eauto.
    + apply NoDup_filter. auto.
    + intros r' H. destruct (is_cached w r) eqn:Ecc; [discriminate|]. destruct (Z9 _ H) as (a' & K1 & K2). exists a'. split; auto.
      apply in_filter_key. split; auto. intros ->. apply cached_true in H. congruence.
    + rewrite map_length. auto.
    + intros k r' id H. apply HH in H as [H Hne]. destruct (Z11 _ _ _ H) as (K1 & a' & K2 & K3). unfold set_nat. apply Nat.eqb_neq in Hne as Hne'.
      rewrite Hne'. split; auto. exists a'. split; auto. apply in_filter_key. auto.
    + intros a' v' H. destruct (Nat.eq_dec a a') as [<-|Hne]; [rewrite nth_upd_eq in H by auto; discriminate|]. rewrite nth_upd_ne in H by auto.
      destruct (Z12 _ _ H) as (r' & K). exists r'. apply in_filter_key. split; auto. intros ->. apply Hne. eapply key_unique; eauto.
  - assert (Hk : ~ In r (map fst (w_entries w))) by (rewrite <- HS, <- existsb_eqb; congruence).
    cbn [bind]. eexists. split; [reflexivity|]. destruct R as [Z1 Z2 Z3 Z4 Z5 Z6 Z7 Z8 Z9 Z10 Z11 Z12].
    constructor; cbn [w_size w_services w_heap w_entries w_cached_registry w_cached_entries w_refs pstep ps_size ps_value ps_touched ps_handles]; auto.
    + intros r'. unfold set_nat. destruct (r' =? r); auto.
    + intros r' a' H. destruct (Z4 _ _ H) as (v' & m & K1 & (G1 & G2 & G3) & K3 & K4). exists v', m. unfold vec_ok, set_nat. cbn [ps_touched ps_value].
      assert (Hne : r' <> r) by (intros ->; apply Hk; apply in_keys; eauto). apply Nat.eqb_neq in Hne. rewrite Hne. split; [auto|]. split; [split; [auto|split; auto]|]. auto.
    + intros r' H. unfold set_nat. destruct (r' =? r); auto.
    + intros r' id j. unfold set_nat. destruct (r' =? r); auto.
    + rewrite map_length. auto.
    + intros k r' id H. apply HH in H as [H Hne]. destruct (Z11 _ _ _ H) as (K1 & K2). unfold set_nat. apply Nat.eqb_neq in Hne. rewrite Hne. auto.
Qed.

Lemma new_spec w s r : Rel w s -> ps_size s r = None -> Rel (set_size w r (Some 0)) (pstep I_eqb default s (PNew r : pevent I A)).
Proof.
  intros R Hn. destruct R as [Z1 Z2 Z3 Z4 Z5 Z6 Z7 Z8 Z9 Z10 Z11 Z12].
  constructor; cbn [set_size w_size w_services w_heap w_entries w_cached_registry w_cached_entries w_refs pstep ps_size ps_value ps_touched ps_handles]; auto.
  - intros r'. unfold set_nat. destruct (r' =? r); auto.
  - intros r' a' H. destruct (Z4 _ _ H) as (v' & m & K1 & K2 & K3 & K4). exists v', m. unfold set_nat.
    destruct (Nat.eqb_spec r' r) as [->|]; [congruence|]. splits; auto.
Qed.
Lemma grow_spec w s r : Rel w s -> Rel (set_size w r (match w_size w r with Some n => Some (S n) | None => None end)) (pstep I_eqb default s (PGrow r : pevent I A)).
Proof.
  intros R. destruct R as [Z1 Z2 Z3 Z4 Z5 Z6 Z7 Z8 Z9 Z10 Z11 Z12].
  constructor; cbn [set_size w_size w_services w_heap w_entries w_cached_registry w_cached_entries w_refs pstep ps_size ps_value ps_touched ps_handles]; auto.
  - intros r'. unfold set_nat. rewrite Z1. destruct (r' =? r); auto.
  - intros r' a' H. destruct (Z4 _ _ H) as (v' & m & K1 & K2 & K3 & K4). unfold set_nat.
    destruct (Nat.eqb_spec r' r) as [->|]; [|exists v', m; auto]. exists v', (S m). rewrite K3. splits; auto.
Qed.

Theorem step_spec w s e : Rel w s -> pallowed valid s e -> (forall j, valid j -> missing j = Ok (default j)) \/ pexists s e ->
  exists w', step w e = Ok (w', pout s e) /\ Rel w' (pstep I_eqb default s e).
Proof.
  intros R Ha Hm. destruct e as [r|r|r|r id|k j|k j x|r id j]; unfold step; cbn [wstep pout].
  - eexists. split; [reflexivity|]. apply new_spec; auto.
  - eexists. split; [reflexivity|]. apply grow_spec; auto.
  - destruct (destroy_spec w s r R) as (w' & -> & R'). cbn [bind]. eauto.
  - destruct (access_spec w s r id R Ha) as (w' & -> & R'). cbn [bind]. eauto.
  - destruct Ha as (Hj & [r id] & Hk). destruct (ref_spec _ _ _ _ _ R Hk) as (a & v & n & H1 & H2 & H3 & (G1 & G2 & G3) & H5 & _).
    unfold read_ref. rewrite H1, H3. cbn [bind]. rewrite G3 by auto. cbn [bind]. rewrite Hk. exists w. auto.
  - destruct (write_spec w s k j x R Ha) as (w' & -> & R'). cbn [bind]. eauto.
  - destruct (const_spec w s r id j R Ha Hm) as (w' & -> & R'). cbn [bind]. eauto.
Qed.
Theorem run_spec es : forall w s, Rel w s -> plegal I_eqb valid default s es ->
  (forall j, valid j -> missing j = Ok (default j)) \/ pexisting I_eqb default s es ->
  exists w', run w es = Ok (w', snd (prun I_eqb default s es)) /\ Rel w' (fst (prun I_eqb default s es)).
Proof.
  induction es as [|e es IH]; intros w s R HL HM; unfold run; cbn [wrun prun].
  - exists w. auto.
  - destruct HL as [H1 H2]. destruct (step_spec w s e R H1) as (w1 & E & R1); [destruct HM as [HM|[HM _]]; auto|].
    unfold step in E. rewrite E. cbn [bind]. destruct (IH w1 _ R1 H2) as (w2 & E2 & R2); [destruct HM as [HM|[_ HM]]; auto|].
    unfold run in E2. rewrite E2. cbn [bind]. destruct (prun I_eqb default (pstep I_eqb default s e) es) as [s' out]. exists w2. auto.
Qed.

(** The destructor frees every vector once and unsubscribes from every registry. *)
Lemma destroy_world w s : Rel w s -> exists w', destroy w = Ok w' /\ w_services w' = [] /\ forall a, nth_error (w_heap w') a = Some None \/ nth_error (w_heap w') a = None.
Proof.
  intros R. unfold destroy.
  assert (F : forall (l : list (nat * nat)) (w : world V), NoDup (map snd l) -> (forall e, In e l -> exists v, nth_error (w_heap w) (snd e) = Some (Some v)) ->
    exists w', fold_outcome (fun w e => let* _ := vec_at w (snd e) in Ok (put_vec w (snd e) (@None V))) l w = Ok w' /\ w_services w' = w_services w /\
      forall a, nth_error (w_heap w') a = (if existsb (Nat.eqb a) (map snd l) then Some None else nth_error (w_heap w) a)).
  { induction l as [|e l IH]; intros w0 ND H; cbn [fold_outcome]; [exists w0; auto|]. cbn [map] in *. inversion ND as [|? ? Hn ND']; subst.
    destruct (H e (or_introl eq_refl)) as (v & Hv). unfold vec_at at 1. rewrite Hv. cbn [bind].
    assert (Hl : snd e < length (w_heap w0)) by (apply nth_error_Some; congruence).
    destruct (IH (put_vec w0 (snd e) None)) as (w' & -> & K1 & K2); auto.
    { intros e' He'. cbn [put_vec w_heap]. rewrite nth_upd_ne; [apply H; right; auto|]. intros Eq. apply Hn. rewrite Eq. apply in_map. auto. }
    exists w'. splits; auto. intros a. rewrite K2. cbn [put_vec w_heap existsb]. destruct (Nat.eqb_spec a (snd e)) as [->|Hne].
    - cbn [orb]. rewrite nth_upd_eq by auto. destruct (existsb _ _); auto.
    - cbn [orb]. rewrite nth_upd_ne by auto. reflexivity. }
  destruct (F (w_entries w) w (R_addrs _ _ R)) as (w1 & -> & K1 & K2).
  { intros [r a] He. destruct (R_vec _ _ R _ _ He) as (v & n & H & _). eauto. }
  cbn [bind].
  assert (U : forall l (w : world V), NoDup l -> w_services w = l -> exists w', fold_outcome unsubscribe l w = Ok w' /\ w_services w' = [] /\ w_heap w' = w_heap w).
  { induction l as [|r l IH]; intros w0 ND E; cbn [fold_outcome]; [exists w0; auto|]. inversion ND as [|? ? Hn ND']; subst.
    unfold unsubscribe at 1. rewrite E. cbn [existsb]. rewrite Nat.eqb_refl. cbn [orb guard bind filter]. rewrite Nat.eqb_refl. cbn [negb].
    edestruct IH as (w' & -> & K3 & K4); [exact ND'| |exists w'; split; [reflexivity|split; [exact K3|exact K4]]]. cbn [w_services].
    clear - Hn. induction l as [|x l IHl]; cbn; auto. destruct (Nat.eqb_spec x r) as [->|]; [exfalso; apply Hn; left; auto|]. cbn. f_equal. apply IHl.
    intro K. apply Hn. right. auto. }
  assert (ND : NoDup (w_services w)) by apply R. rewrite <- K1 in ND.
  destruct (U (w_services w1) w1 ND eq_refl) as (w2 & -> & K3 & K4). exists w2. splits; auto.
  intros a. rewrite K4, K2. destruct (existsb _ _) eqn:Ee; auto. destruct (nth_error (w_heap w) a) as [[v|]|] eqn:En; auto.
  exfalso. destruct (R_noleak _ _ R _ _ En) as (r & Hr). apply not_true_iff_false in Ee. apply Ee. apply existsb_eqb. change a with (snd (r, a)). apply in_map. auto.
Qed.
End PerState.
