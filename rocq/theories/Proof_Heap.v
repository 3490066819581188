(** Heaps keep their elements and their least element in front. *)
From Verif Require Import Outcome Model_OrderedSet Proof_OrderedSet Model_Heap.
From Coq Require Import Permutation.

Lemma swap_spec {T} (l : list T) i j k x y : nth_error l i = Some x -> nth_error l j = Some y ->
  nth_error (swap l i j) k = if k =? j then Some x else if k =? i then Some y else nth_error l k.
Proof.
  intros Hi Hj. unfold swap. rewrite Hi, Hj, !upd_nth, upd_length.
  pose proof (nth_error_Some_lt _ _ _ Hi). pose proof (nth_error_Some_lt _ _ _ Hj).
  destruct (Nat.ltb_spec j (length l)), (Nat.ltb_spec i (length l)); try lia. rewrite !andb_true_r.
  rewrite (Nat.eqb_sym j k), (Nat.eqb_sym i k). reflexivity.
Qed.
Lemma swap_length {T} (l : list T) i j : length (swap l i j) = length l.
Proof. unfold swap. destruct (nth_error l i), (nth_error l j); auto. now rewrite !upd_length. Qed.

Lemma parent_lt i : 0 < i -> parent i < i.
Proof. intros. unfold parent. pose proof (Nat.div_le_upper_bound (i - 1) 2 (i - 1)). lia. Qed.
Lemma parent_child i c : 0 < c -> parent c = i <-> c = 2 * i + 1 \/ c = 2 * i + 2.
Proof.
  intros Hc. unfold parent. pose proof (Nat.div_mod (c - 1) 2 ltac:(lia)). pose proof (Nat.mod_upper_bound (c - 1) 2 ltac:(lia)).
  split; intros; [lia|]. destruct H1; subst.
  - replace (2 * i + 1 - 1) with (i * 2) by lia. apply Nat.div_mul; lia.
  - symmetry. apply Nat.div_unique with 1; lia.
Qed.

Section P.
Context {T : Type}.
Variable le : T -> T -> bool.
Hypothesis le_total : forall x y, le x y = false -> le y x = true.
Hypothesis le_trans : forall x y z, le x y = true -> le y z = true -> le x z = true.

Lemma le_refl x : le x x = true.
Proof. destruct (le x x) eqn:E; auto. exact (eq_trans (eq_sym E) (le_total _ _ E)). Qed.

Definition edge (l : list T) (i j : nat) : Prop :=
  forall x y, nth_error l i = Some x -> nth_error l j = Some y -> le x y = true.
Definition is_heap (l : list T) : Prop := forall j, 0 < j -> edge l (parent j) j.
Definition up_inv (l : list T) (i : nat) : Prop :=
  (forall j, 0 < j -> j <> i -> edge l (parent j) j) /\
  (0 < i -> forall c, 0 < c -> parent c = i -> edge l (parent i) c).
Definition down_inv (l : list T) (i : nat) : Prop :=
  (forall j, 0 < j -> j <> i -> parent j <> i -> edge l (parent j) j) /\
  (0 < i -> forall c, 0 < c -> parent c = i -> edge l (parent i) c).

Lemma heap_front l top t j x : is_heap l -> l = top :: t -> nth_error l j = Some x -> le top x = true.
Proof.
  intros H E. revert x. induction j as [j IH] using lt_wf_ind. intros x Hx.
  destruct (Nat.eq_dec j 0) as [->|Hj]; [subst; cbn in Hx; inv Hx; apply le_refl|].
  assert (Hp : parent j < j) by (apply parent_lt; lia).
  assert (Hl : parent j < length l) by (pose proof (nth_error_Some_lt _ _ _ Hx); lia).
  destruct (nth_error l (parent j)) as [p|] eqn:Ep; [|apply nth_error_None in Ep; lia].
  apply le_trans with p; [eapply IH; eauto|]. eapply (H j); eauto. lia.
Qed.

Lemma sift_up_ok : forall fuel l i, i < fuel -> i < length l -> up_inv l i ->
  exists l', sift_up le fuel l i = Ok l' /\ is_heap l' /\ Permutation l l'.
Proof.
  induction fuel as [|f IH]; intros l i Hf Hi [H1 H2]; [lia|]. cbn [sift_up].
  destruct (Nat.eqb_spec i 0) as [->|Hne].
  - exists l. splits; auto. intros j Hj. apply H1; lia.
  - assert (Hp : parent i < i) by (apply parent_lt; lia).
    destruct (vget_some l i Hi) as (x & Ex & ->). destruct (vget_some l (parent i) ltac:(lia)) as (p & Ep & ->). cbn [bind].
    destruct (le p x) eqn:E.
    + exists l. splits; auto. intros j Hj. destruct (Nat.eq_dec j i) as [->|]; [|apply H1; auto].
      intros a b Ha Hb. congruence.
    + destruct (IH (swap l i (parent i)) (parent i)) as (l' & El & Hh & Hperm).
      * lia. * rewrite swap_length. lia.
      * split.
        -- intros j Hj Hjp a b. rewrite !(swap_spec l i (parent i) _ x p Ex Ep).
           destruct (Nat.eqb_spec j (parent i)); [contradiction|].
           destruct (Nat.eqb_spec j i) as [->|Hji].
           ++ rewrite Nat.eqb_refl. intros Ha Hb. inv Ha. inv Hb. auto.
           ++ destruct (Nat.eqb_spec (parent j) (parent i)) as [Epp|Hpp].
              ** intros Ha Hb. inv Ha. apply le_trans with p; auto. apply (H1 j Hj Hji p b); auto. now rewrite Epp.
              ** destruct (Nat.eqb_spec (parent j) i) as [Epi|Hpi].
                 --- intros Ha Hb. inv Ha. apply (H2 ltac:(lia) j Hj eq_refl a b); auto.
                 --- intros Ha Hb. eapply (H1 j); eauto.
        -- intros Hpi c Hc Epc a b. rewrite !(swap_spec l i (parent i) _ x p Ex Ep).
           assert (Hpp : parent (parent i) < parent i) by now apply parent_lt.
           destruct (Nat.eqb_spec (parent (parent i)) (parent i)); [lia|].
           destruct (Nat.eqb_spec (parent (parent i)) i); [lia|].
           assert (Hcp : parent c < c) by now apply parent_lt.
           destruct (Nat.eqb_spec c (parent i)); [lia|].
           intros Ha. assert (Hap : le a p = true) by (apply (H1 (parent i) Hpi ltac:(lia) a p); auto).
           destruct (Nat.eqb_spec c i) as [->|Hci]; [intros Hb; inv Hb; auto|].
           intros Hb. apply le_trans with p; auto. apply (H1 c Hc Hci p b); auto. now rewrite Epc.
      * exists l'. splits; auto. eapply Permutation_trans; [apply swap_perm|exact Hperm].
Qed.

Lemma down_step l i child x c : nth_error l i = Some x -> nth_error l child = Some c -> 0 < child -> parent child = i ->
  (forall c', 0 < c' -> parent c' = i -> forall y, nth_error l c' = Some y -> le c y = true) ->
  down_inv l i -> down_inv (swap l i child) child.
Proof.
  intros Ex Ec Hc0 Hpc Hmin [H1 H2]. assert (Hlt : i < child) by (rewrite <- Hpc; now apply parent_lt). split.
  - intros j Hj Hjc Hpj a b. rewrite !(swap_spec l i child _ x c Ex Ec).
    destruct (Nat.eqb_spec j child); [contradiction|]. destruct (Nat.eqb_spec (parent j) child); [contradiction|].
    destruct (Nat.eqb_spec j i) as [->|Hji].
    + assert (Hpi : parent i < i) by now apply parent_lt. destruct (Nat.eqb_spec (parent i) i); [lia|].
      intros Ha Hb. inv Hb. eapply (H2 Hj child); eauto.
    + destruct (Nat.eqb_spec (parent j) i) as [Epi|Hpi].
      * intros Ha Hb. inv Ha. eapply Hmin; eauto.
      * intros Ha Hb. eapply (H1 j); eauto.
  - intros _ k Hk Epk a b. rewrite !(swap_spec l i child _ x c Ex Ec). rewrite Hpc.
    destruct (Nat.eqb_spec i child); [lia|]. rewrite Nat.eqb_refl.
    assert (Hkc : child < k) by (rewrite <- Epk; now apply parent_lt).
    destruct (Nat.eqb_spec k child); [lia|]. destruct (Nat.eqb_spec k i); [lia|].
    intros Ha Hb. inv Ha. apply (H1 k Hk); auto; try lia.
Qed.

Lemma sift_down_ok : forall fuel l i, length l - i < fuel -> i < length l -> down_inv l i ->
  exists l' j, sift_down le fuel l i = Ok (l', j) /\ j < length l' /\ up_inv l' j /\ Permutation l l'.
Proof.
  induction fuel as [|f IH]; intros l i Hf Hi Hinv; [lia|]. cbn [sift_down].
  destruct (vget_some l i Hi) as (x & Ex & _).
  destruct (Nat.ltb_spec (2 * i + 2) (length l)) as [Hlt|Hge].
  - destruct (vget_some l (2 * i + 2) Hlt) as (r & Er & ->). destruct (vget_some l (2 * i + 1) ltac:(lia)) as (c & Ec & ->).
    cbn [bind]. set (child := if le r c then 2 * i + 2 else 2 * i + 1).
    assert (Hch : exists y, nth_error l child = Some y /\ 0 < child /\ parent child = i /\ child < length l /\ i < child /\
      forall c', 0 < c' -> parent c' = i -> forall z, nth_error l c' = Some z -> le y z = true).
    { assert (Hboth : forall c', 0 < c' -> parent c' = i -> forall z, nth_error l c' = Some z -> z = r \/ z = c).
      { intros c' Hc' Hp z Hz. apply parent_child in Hp; auto. destruct Hp; subst; rewrite Hz in *; [inv Ec|inv Er]; auto. }
      unfold child. destruct (le r c) eqn:E; [exists r|exists c]; splits; auto; try lia; try (apply parent_child; lia);
        intros c' Hc' Hp z Hz; destruct (Hboth c' Hc' Hp z Hz); subst; auto using le_refl. }
    destruct Hch as (y & Ey & H0 & Hp & Hl & Hlt' & Hmin).
    destruct (IH (swap l i child) child) as (l' & j & E & Hj & Hup & Hperm).
    + rewrite swap_length. lia. + rewrite swap_length. lia. + eapply down_step; eauto.
    + exists l', j. splits; auto. eapply Permutation_trans; [apply swap_perm|exact Hperm].
  - destruct (Nat.eqb_spec (2 * i + 2) (length l)) as [He|Hne].
    + destruct (vget_some l (2 * i + 1) ltac:(lia)) as (c & Ec & _).
      assert (Hp : parent (2 * i + 1) = i) by (apply parent_child; lia).
      assert (Hd : down_inv (swap l i (2 * i + 1)) (2 * i + 1)).
      { eapply down_step; eauto; [lia|]. intros c' Hc' Hp' z Hz. apply parent_child in Hp'; auto. pose proof (nth_error_Some_lt _ _ _ Hz).
        assert (c' = 2 * i + 1) by lia. subst c'. rewrite Hz in Ec. inv Ec. apply le_refl. }
      exists (swap l i (2 * i + 1)), (2 * i + 1). splits; auto.
      * rewrite swap_length. lia.
      * destruct Hd as [H1 H2]. split; auto. intros j Hj Hji. destruct (Nat.eq_dec (parent j) (2 * i + 1)) as [Epj|]; [|apply H1; auto].
        intros a b _ Hb. apply nth_error_Some_lt in Hb. rewrite swap_length in Hb. apply parent_child in Epj; lia.
      * apply swap_perm.
    + exists l, i. splits; auto. destruct Hinv as [H1 H2]. split; auto. intros j Hj Hji.
      destruct (Nat.eq_dec (parent j) i) as [Epj|]; [|apply H1; auto].
      intros a b _ Hb. apply nth_error_Some_lt in Hb. apply parent_child in Epj; lia.
Qed.

Lemma heap_push_ok l x : is_heap l -> exists l', heap_push le l x = Ok l' /\ is_heap l' /\ Permutation (x :: l) l'.
Proof.
  intros H. unfold heap_push. destruct (sift_up_ok (S (length l)) (l ++ [x]) (length l)) as (l' & E & Hh & Hp).
  - lia. - rewrite app_length. cbn. lia.
  - split.
    + intros j Hj Hne a b Ha Hb. pose proof (nth_error_Some_lt _ _ _ Hb) as Hl. rewrite app_length in Hl. cbn in Hl.
      pose proof (parent_lt j Hj). rewrite nth_error_app1 in Ha, Hb by lia. eapply (H j); eauto.
    + intros _ c Hc Ep a b _ Hb. apply nth_error_Some_lt in Hb. rewrite app_length in Hb. cbn in Hb.
      pose proof (parent_lt c Hc). lia.
  - exists l'. splits; auto. eapply Permutation_trans; [|exact Hp]. apply Permutation_cons_append.
Qed.

Lemma heap_pop_ok l : is_heap l -> l <> [] ->
  exists top l', heap_pop le l = Ok (top, l') /\ is_heap l' /\ Permutation l (top :: l') /\ forall x, In x l -> le top x = true.
Proof.
  intros H Hne. destruct l as [|top t]; [congruence|]. clear Hne. unfold heap_pop. set (l := top :: t) in *.
  assert (Hmin : forall x, In x l -> le top x = true).
  { intros x Hx. apply In_nth_error in Hx. destruct Hx as [j Hj]. eapply heap_front; eauto. reflexivity. }
  destruct (@exists_last _ l ltac:(discriminate)) as (b & last & El).
  assert (Hlen : length l - 1 = length b) by (rewrite El, app_length; cbn; lia).
  assert (Hsw : exists l1, swap l 0 (length l - 1) = l1 ++ [top] /\ length l1 = length b /\
    (forall j, 0 < j -> j < length b -> nth_error l1 j = nth_error l j)).
  { assert (Hla : nth_error l (length l - 1) = Some last).
    { rewrite Hlen, El, nth_error_app2, Nat.sub_diag; auto. }
    assert (H0 : nth_error l 0 = Some top) by reflexivity.
    destruct (@exists_last _ (swap l 0 (length l - 1))) as (l1 & z & Ez).
    { intros E. apply (f_equal (@length T)) in E. rewrite swap_length in E. discriminate. }
    assert (Hl1 : length l1 = length b).
    { apply (f_equal (@length T)) in Ez. rewrite swap_length, app_length in Ez. change (length [z]) with 1 in Ez.
      assert (length l = S (length b)) by (rewrite El, app_length; change (length [last]) with 1; lia). lia. }
    exists l1. assert (z = top).
    { assert (Hz : nth_error (swap l 0 (length l - 1)) (length b) = Some z).
      { rewrite Ez, nth_error_app2 by lia. rewrite Hl1, Nat.sub_diag. reflexivity. }
      rewrite (swap_spec l 0 _ _ _ _ H0 Hla), <- Hlen, Nat.eqb_refl in Hz. congruence. }
    subst z. splits; auto. intros j Hj Hjb.
    assert (Hx : nth_error (swap l 0 (length l - 1)) j = nth_error l1 j) by (rewrite Ez, nth_error_app1 by lia; reflexivity).
    rewrite <- Hx, (swap_spec l 0 _ _ _ _ H0 Hla).
    destruct (Nat.eqb_spec j (length l - 1)); [lia|]. destruct (Nat.eqb_spec j 0); [lia|]. reflexivity. }
  destruct Hsw as (l1 & Es & Hl1 & Hsame). rewrite Es, removelast_last.
  assert (Hperm : Permutation l (top :: l1)).
  { eapply Permutation_trans; [apply (swap_perm l 0 (length l - 1))|]. rewrite Es. apply Permutation_sym, Permutation_cons_append. }
  destruct l1 as [|a l1'].
  - exists top, []. splits; auto. intros j Hj x y Hx. destruct (parent j); discriminate.
  - set (l1 := a :: l1') in *. destruct (sift_down_ok (S (length l1)) l1 0) as (l2 & j & -> & Hj & Hup & Hp2).
    + lia. + cbn. lia.
    + split; [|lia]. intros j Hj _ Hp x y Hx Hy. pose proof (nth_error_Some_lt _ _ _ Hy). pose proof (parent_lt j Hj).
      rewrite Hsame in Hx, Hy by lia. eapply (H j); eauto.
    + cbn [bind fst snd]. destruct (sift_up_ok (S j) l2 j) as (l3 & -> & Hh & Hp3); auto. cbn [bind].
      exists top, l3. splits; auto. eapply Permutation_trans; [exact Hperm|]. constructor. eapply Permutation_trans; eauto.
Qed.

Lemma sorted_heap l : (forall i j x y, i < j -> nth_error l i = Some x -> nth_error l j = Some y -> le x y = true) -> is_heap l.
Proof. intros H j Hj x y Hx Hy. apply (H (parent j) j); auto. now apply parent_lt. Qed.
End P.
