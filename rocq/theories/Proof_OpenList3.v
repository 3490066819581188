(** Type-based and Pareto open lists. *)
From Coq Require Import Permutation Sorted.
From Verif Require Import Outcome Spec_OpenList Model_OpenList Spec_OpenListContract Spec_RandomOpenList Proof_OpenList
  Model_Rng Model_OrderedSet Proof_OrderedSet Model_Heap Proof_Heap Model_OpenList2 Proof_OpenList2.

Lemma okey_eqb_eq a b : okey_eqb a b = true <-> a = b.
Proof. unfold okey_eqb. rewrite <- (cmp_eq _ _ lex_cmp_ok). destruct (lex_cmp a b); split; congruence. Qed.
Lemma okey_eqb_refl a : okey_eqb a a = true.
Proof. now apply okey_eqb_eq. Qed.
Lemma okey_eqb_neq a b : okey_eqb a b = false <-> a <> b.
Proof. rewrite <- okey_eqb_eq. destruct (okey_eqb a b); split; congruence. Qed.
Lemma okey_dec (a b : okey) : {a = b} + {a <> b}.
Proof. destruct (okey_eqb a b) eqn:E; [left; now apply okey_eqb_eq|right; now apply okey_eqb_neq]. Qed.

Section HM.
Context {V : Type}.
Implicit Types m : list (okey * V).
Lemma hm_find_set m k v k' : hm_find (hm_set m k v) k' = if okey_eqb k' k then Some v else hm_find m k'.
Proof.
  induction m as [|[a w] m IH]; cbn [hm_set hm_find].
  - destruct (okey_eqb k' k); auto.
  - destruct (okey_eqb k a) eqn:E1; cbn [hm_find].
    + apply okey_eqb_eq in E1. subst a. destruct (okey_eqb k' k); auto.
    + destruct (okey_eqb k' a) eqn:E2; auto. destruct (okey_eqb k' k) eqn:E3; auto. apply okey_eqb_eq in E2, E3. subst. rewrite okey_eqb_refl in E1. discriminate.
Qed.
Lemma hm_find_erase m k k' : hm_find (hm_erase m k) k' = if okey_eqb k' k then None else hm_find m k'.
Proof.
  unfold hm_erase. induction m as [|[a w] m IH]; cbn [filter hm_find fst]; [now destruct (okey_eqb k' k)|]. destruct (okey_eqb k a) eqn:E1; cbn [negb].
  - rewrite IH. apply okey_eqb_eq in E1. subst a. destruct (okey_eqb k' k); auto.
  - cbn [hm_find]. rewrite IH. destruct (okey_eqb k' a) eqn:E2; auto. destruct (okey_eqb k' k) eqn:E3; auto. apply okey_eqb_eq in E2, E3. subst. rewrite okey_eqb_refl in E1. discriminate.
Qed.
Lemma hm_find_in m k v : hm_find m k = Some v -> In (k, v) m.
Proof. induction m as [|[a w] m IH]; cbn [hm_find]; [discriminate|]. destruct (okey_eqb k a) eqn:E; [apply okey_eqb_eq in E; subst; intros H; inversion H; now left|right; auto]. Qed.
Lemma hm_in_find m k v : NoDup (map fst m) -> In (k, v) m -> hm_find m k = Some v.
Proof.
  induction m as [|[a w] m IH]; cbn [map fst]; intros Hn Hin; [destruct Hin|]. apply NoDup_cons_iff in Hn as [Ha Hn]. cbn [hm_find]. destruct Hin as [Eq|Hin].
  - inversion Eq; subst. now rewrite okey_eqb_refl.
  - destruct (okey_eqb k a) eqn:E; auto. apply okey_eqb_eq in E. subst a. destruct Ha. change k with (fst (k, v)). now apply in_map.
Qed.
Lemma hm_set_keys m k v k' : In k' (map fst (hm_set m k v)) <-> k' = k \/ In k' (map fst m).
Proof.
  induction m as [|[a w] m IH]; cbn [hm_set map fst In]; [intuition auto|]. destruct (okey_eqb k a) eqn:E; cbn [map fst In].
  - apply okey_eqb_eq in E. subst. intuition auto.
  - rewrite IH. intuition auto.
Qed.
Lemma hm_set_nd m k v : NoDup (map fst m) -> NoDup (map fst (hm_set m k v)).
Proof.
  induction m as [|[a w] m IH]; cbn [hm_set map fst]; intros Hn; [repeat constructor; intros []|]. apply NoDup_cons_iff in Hn as [Ha Hn]. destruct (okey_eqb k a) eqn:E; cbn [map fst]; constructor; auto.
  rewrite hm_set_keys. intros [->|]; auto. rewrite okey_eqb_refl in E. discriminate.
Qed.
Lemma hm_erase_keys m k k' : In k' (map fst (hm_erase m k)) <-> k' <> k /\ In k' (map fst m).
Proof.
  unfold hm_erase. rewrite !in_map_iff. split.
  - intros ([a w] & <- & Hin). apply filter_In in Hin as [Hin Hb]. cbn [fst] in *. apply negb_true_iff, okey_eqb_neq in Hb. split; auto. exists (a, w). auto.
  - intros (Hne & [a w] & <- & Hin). exists (a, w). split; auto. apply filter_In. split; auto. cbn [fst] in *. apply negb_true_iff, okey_eqb_neq. auto.
Qed.
Lemma hm_erase_nd m k : NoDup (map fst m) -> NoDup (map fst (hm_erase m k)).
Proof.
  unfold hm_erase. induction m as [|[a w] m IH]; cbn [filter map fst]; auto. intros Hn. apply NoDup_cons_iff in Hn as [Ha Hn]. destruct (negb (okey_eqb k a)); cbn [map fst]; auto. constructor; auto.
  intros Hin. apply Ha. apply in_map_iff in Hin as (p & <- & Hp). apply filter_In in Hp. apply in_map. tauto.
Qed.
End HM.

Lemma swap_and_pop_ok {T} (v : list T) pos x : nth_error v pos = Some x ->
  exists v' last, swap_and_pop v pos = Ok (x, v') /\ Permutation v (x :: v') /\ nth_error v (length v - 1) = Some last /\
    length v' = length v - 1 /\ forall i, i < length v - 1 -> nth_error v' i = if i =? pos then Some last else nth_error v i.
Proof.
  intros Hx. unfold swap_and_pop, vget. rewrite Hx. cbn [bind]. pose proof (nth_error_Some_lt _ _ _ Hx) as Hlt.
  destruct (nth_error v (length v - 1)) as [last|] eqn:El; [|apply nth_error_None in El; lia].
  exists (removelast (swap v pos (length v - 1))), last.
  assert (Hne : swap v pos (length v - 1) <> []) by (intros Eq; apply (f_equal (@length T)) in Eq; rewrite swap_length in Eq; cbn in Eq; lia).
  destruct (exists_last Hne) as (a & z & Ea). rewrite Ea, removelast_last.
  assert (Hla : length a = length v - 1) by (apply (f_equal (@length T)) in Ea; rewrite swap_length, app_length in Ea; cbn in Ea; lia).
  assert (Hz : z = x).
  { assert (nth_error (swap v pos (length v - 1)) (length v - 1) = Some z) by (rewrite Ea, nth_error_app2, Hla, Nat.sub_diag by lia; auto).
    rewrite (swap_spec _ _ _ _ _ _ Hx El), Nat.eqb_refl in H. congruence. }
  subst z. splits; auto.
  - eapply Permutation_trans; [apply (swap_perm v pos (length v - 1))|]. rewrite Ea. apply Permutation_sym, Permutation_cons_append.
  - intros i Hi. assert (Hn : nth_error a i = nth_error (swap v pos (length v - 1)) i) by (rewrite Ea, nth_error_app1 by lia; auto).
    rewrite Hn, (swap_spec _ _ _ _ _ _ Hx El). replace (i =? length v - 1) with false by (symmetry; apply Nat.eqb_neq; lia). auto.
Qed.

(* ---------- keys ---------- *)
Section Key.
Variables (reliable : nat -> bool) (evs : list nat) (pref_only : bool).
Definition vec_dead (x : ectx) : bool := if any_reliable_infinite reliable evs x then true else all_infinite evs x.
Definition vec_key (x : ectx) : option okey :=
  if pref_only && negb (x_pref x) then None else if vec_dead x then None else Some (map (x_val x) evs).
Lemma vec_dead_spec x : vec_dead x = true <-> dead_for reliable evs x.
Proof.
  unfold vec_dead, dead_for. rewrite <- any_reliable_true, <- all_infinite_true. destruct (any_reliable_infinite reliable evs x); [tauto|]. intuition congruence.
Qed.
Lemma vec_key_spec : vector_key reliable evs pref_only vec_key.
Proof.
  intros x. unfold vec_key. rewrite <- vec_dead_spec. destruct pref_only, (x_pref x), (vec_dead x); cbn [andb negb]; split; intuition congruence.
Qed.
Lemma vec_dead_ex : evs <> [] -> forall x, vec_dead x = true -> exists ev, x_val x ev = None.
Proof. intros He x Hx. apply vec_dead_spec in Hx as [(ev & _ & H & _)|H]; eauto. destruct evs as [|ev r]; [congruence|]. exists ev. apply H. now left. Qed.
Lemma rel_dead_ex x : any_reliable_infinite reliable evs x = true -> exists ev, x_val x ev = None.
Proof. intros H. apply any_reliable_true in H as (ev & _ & H & _). eauto. Qed.
Lemma vec_key_finite : evs <> [] -> pref_only = false -> forall x, (forall ev, x_val x ev <> None) -> vec_key x <> None.
Proof.
  intros He Hpo x Hx H. unfold vec_key in H. rewrite Hpo in H. cbn [andb] in H. destruct (vec_dead x) eqn:Ed; [|discriminate]. destruct (vec_dead_ex He x Ed) as (ev & Hev). now apply (Hx ev).
Qed.
End Key.

(* ---------- type-based ---------- *)
Section TB.
Context {E : Type}.
Definition pairs (kb : list (okey * list E)) : list (okey * E) := flat_map (fun p => map (pair (fst p)) (snd p)) kb.
Record tbR (q : tb_state E) (l : list (okey * E)) : Prop := {
  tb_nd : NoDup (map fst (tb_kb E q));
  tb_ne : forall p, In p (tb_kb E q) -> snd p <> [];
  tb_ix : forall k i, hm_find (tb_idx E q) k = Some i <-> exists b, nth_error (tb_kb E q) i = Some (k, b);
  tb_pm : Permutation l (pairs (tb_kb E q)) }.

Lemma pairs_app a b : pairs (a ++ b) = pairs a ++ pairs b.
Proof. unfold pairs. apply flat_map_app. Qed.
Lemma pairs_perm a b : Permutation a b -> Permutation (pairs a) (pairs b).
Proof. unfold pairs. intros H. now apply Permutation_flat_map. Qed.
Lemma nd_key (kb : list (okey * list E)) i j k b b' : NoDup (map fst kb) -> nth_error kb i = Some (k, b) -> nth_error kb j = Some (k, b') -> i = j.
Proof.
  intros Hn Hi Hj. eapply NoDup_nth_error; [exact Hn|rewrite map_length; eapply nth_error_Some_lt; eauto|]. now rewrite (map_nth_error fst _ _ Hi), (map_nth_error fst _ _ Hj).
Qed.
Lemma upd_keys (kb : list (okey * list E)) i k b b' : nth_error kb i = Some (k, b) -> map fst (upd kb i (k, b')) = map fst kb.
Proof. intros Hi. destruct (upd_split kb i (k, b') (k, b) Hi) as (a & c & -> & Ha & ->). now rewrite !map_app. Qed.

Lemma tb_insert_R evs q l x e : tbR q l -> exists q', tb_insert E evs q x e = Ok q' /\ tbR q' (l ++ [(map (x_val x) evs, e)]).
Proof.
  intros [H1 H2 H3 H4]. unfold tb_insert. set (k := map (x_val x) evs). destruct (hm_find (tb_idx E q) k) as [i|] eqn:Ef.
  - pose proof Ef as Ef0. apply H3 in Ef as (b & Hb). unfold vget. rewrite Hb. cbn [bind]. unfold vset. pose proof (nth_error_Some_lt _ _ _ Hb) as Hlt. replace (i <? length (tb_kb E q)) with true by (symmetry; now apply Nat.ltb_lt). cbn [bind fst snd].
    eexists. split; [reflexivity|]. pose proof (upd_keys _ _ _ _ (b ++ [e]) Hb) as Hk. destruct (upd_split _ i (k, b ++ [e]) _ Hb) as (a & c & Ea & Hla & Eu). constructor; cbn [tb_kb tb_idx].
    + now rewrite Hk.
    + intros p Hp. rewrite Eu in Hp. apply in_app_or in Hp. cbn [In] in Hp. destruct Hp as [Hp|[<-|Hp]]; [apply H2; rewrite Ea; apply in_or_app; auto|cbn [snd]; now destruct b|apply H2; rewrite Ea; apply in_or_app; right; now right].
    + intros k' j. rewrite H3. destruct (Nat.eq_dec j i) as [->|Hne].
      * rewrite upd_nth_eq by auto. rewrite Hb. split; intros (b' & Eb); inversion Eb; subst; eauto.
      * rewrite upd_nth_neq by auto. reflexivity.
    + rewrite Eu. rewrite Ea in H4. rewrite pairs_app in *. change (pairs ((k, b) :: c)) with (map (pair k) b ++ pairs c) in H4. change (pairs ((k, b ++ [e]) :: c)) with (map (pair k) (b ++ [e]) ++ pairs c). rewrite map_app. cbn [map].
      eapply Permutation_trans; [apply Permutation_app_tail; exact H4|]. rewrite <- !app_assoc. apply Permutation_app_head. apply Permutation_app_head. apply Permutation_app_comm.
  - eexists. split; [reflexivity|]. assert (Hnk : ~ In k (map fst (tb_kb E q))).
    { intros Hin. apply in_map_iff in Hin as ([k' b] & Ek & Hin). cbn [fst] in Ek. subst k'. apply In_nth_error in Hin as (i & Hi). assert (hm_find (tb_idx E q) k = Some i) by (apply H3; eauto). congruence. }
    constructor; cbn [tb_kb tb_idx].
    + rewrite map_app. cbn [map fst]. apply (Permutation_NoDup (Permutation_cons_append _ _)). now constructor.
    + intros p Hp. apply in_app_or in Hp as [Hp|[<-|[]]]; auto. discriminate.
    + intros k' i. rewrite hm_find_set. destruct (okey_eqb k' k) eqn:Ek.
      * apply okey_eqb_eq in Ek. subst k'. split.
        -- intros Eq. inversion Eq; subst i. exists [e]. rewrite nth_error_app2, Nat.sub_diag by lia. reflexivity.
        -- intros (b & Hb). destruct (Nat.lt_ge_cases i (length (tb_kb E q))) as [Hi|Hi].
           ++ rewrite nth_error_app1 in Hb by auto. destruct Hnk. change k with (fst (k, b)). apply in_map. eapply nth_error_In; eauto.
           ++ pose proof (nth_error_Some_lt _ _ _ Hb) as Hl. rewrite app_length in Hl. cbn in Hl. f_equal. lia.
      * apply okey_eqb_neq in Ek. rewrite H3. split; intros (b & Hb); exists b.
        -- rewrite nth_error_app1; auto. eapply nth_error_Some_lt; eauto.
        -- destruct (Nat.lt_ge_cases i (length (tb_kb E q))) as [Hi|Hi]; [now rewrite nth_error_app1 in Hb by auto|]. rewrite nth_error_app2 in Hb by auto. destruct (i - length (tb_kb E q)) as [|[|n]]; cbn in Hb; try discriminate. inversion Hb. congruence.
    + rewrite pairs_app. cbn [pairs flat_map map fst snd app]. now apply Permutation_app_tail.
Qed.

Variable r : nat -> nat.
(** The entry at the drawn position of the drawn bucket is taken out. *)
Lemma tb_remove_R q l : tbR q l -> l <> [] ->
  exists k b e q', nth_error (tb_kb E q) (r (tb_rng E q) mod length (tb_kb E q)) = Some (k, b) /\
    nth_error b (r (S (tb_rng E q)) mod length b) = Some e /\
    tb_remove E r q = Ok (e, q') /\ forall l', Permutation l ((k, e) :: l') -> tbR q' l'.
Proof.
  intros [H1 H2 H3 H4] Hl. unfold tb_remove. assert (Hk : tb_kb E q <> []) by (intros Ek; rewrite Ek in H4; apply Permutation_sym, Permutation_nil in H4; auto).
  unfold random_int at 1. destruct (Nat.eqb_spec (length (tb_kb E q)) 0) as [E0|E0]; [destruct (tb_kb E q); [congruence|discriminate]|]. cbn [bind].
  set (bid := r (tb_rng E q) mod length (tb_kb E q)). assert (Hbid : bid < length (tb_kb E q)) by (apply Nat.mod_upper_bound; auto).
  destruct (nth_error (tb_kb E q) bid) as [[K b]|] eqn:Eb; [|apply nth_error_None in Eb; lia]. unfold vget at 1. rewrite Eb. cbn [bind snd fst].
  assert (Hb : b <> []) by (apply (H2 (K, b)); eapply nth_error_In; eauto).
  unfold random_int at 1. destruct (Nat.eqb_spec (length b) 0) as [E1|E1]; [destruct b; [congruence|discriminate]|]. cbn [bind].
  set (pos := r (S (tb_rng E q)) mod length b). assert (Hpos : pos < length b) by (apply Nat.mod_upper_bound; auto).
  destruct (nth_error b pos) as [e|] eqn:Ee; [|apply nth_error_None in Ee; lia].
  destruct (swap_and_pop_ok b pos e Ee) as (b' & lastb & -> & Hpb & _ & Hlb & _). cbn [bind].
  unfold vset at 1. replace (bid <? length (tb_kb E q)) with true by (symmetry; now apply Nat.ltb_lt). cbn [bind].
  set (kbs := upd (tb_kb E q) bid (K, b')). destruct (upd_split _ bid (K, b') _ Eb) as (a & c & Ea & Hla & Eu). fold kbs in Eu.
  assert (Hpp : Permutation (pairs (tb_kb E q)) ((K, e) :: pairs kbs)).
  { rewrite Ea, Eu, !pairs_app. change (pairs ((K, b) :: c)) with (map (pair K) b ++ pairs c). change (pairs ((K, b') :: c)) with (map (pair K) b' ++ pairs c).
    eapply Permutation_trans; [apply Permutation_app_head, Permutation_app_tail, (Permutation_map (pair K)), Hpb|]. cbn [map app]. apply Permutation_sym, Permutation_middle. }
  assert (Hkk : map fst kbs = map fst (tb_kb E q)) by (eapply upd_keys; eauto).
  assert (Hpl : forall l', Permutation l ((K, e) :: l') -> Permutation l' (pairs kbs)).
  { intros l' Hp. apply Permutation_cons_inv with (a := (K, e)). eapply Permutation_trans; [apply Permutation_sym; exact Hp|]. eapply Permutation_trans; [exact H4|exact Hpp]. }
  exists K, b, e. destruct b' as [|e' b'].
  - assert (Hkl : length kbs = length (tb_kb E q)) by apply upd_length.
    assert (Ekb : nth_error kbs bid = Some (K, [])) by (apply upd_nth_eq; auto).
    destruct (swap_and_pop_ok kbs bid (K, []) Ekb) as (kbs' & back & Esp & Hpk & Hback & Hlk & Hnth). unfold vget at 1. rewrite Hback. cbn [bind]. rewrite Esp. cbn [bind].
    eexists. splits; [reflexivity|exact Ee|reflexivity|]. intros l' Hp. destruct back as [kl bl]. cbn [fst].
    assert (Hnd' : NoDup (K :: map fst kbs')).
    { apply (Permutation_NoDup (Permutation_map fst Hpk)). now rewrite Hkk. }
    apply NoDup_cons_iff in Hnd' as [HK Hnd'].
    constructor; cbn [tb_kb tb_idx].
    + exact Hnd'.
    + intros p Hp' Hs. assert (Hin : In p kbs) by (eapply Permutation_in; [apply Permutation_sym; exact Hpk|]; now right). rewrite Eu in Hin. apply in_app_or in Hin. cbn [In] in Hin. destruct Hin as [Hin|[Hin|Hin]].
      * apply (H2 p); auto. rewrite Ea. apply in_or_app. auto.
      * subst p. destruct HK. change K with (fst (K, @nil E)). now apply in_map.
      * apply (H2 p); auto. rewrite Ea. apply in_or_app. right. now right.
    + intros k i. rewrite hm_find_erase. destruct (okey_eqb k K) eqn:EkK.
      * apply okey_eqb_eq in EkK. subst k. split; [discriminate|]. intros (b0 & Hb0). destruct HK. change K with (fst (K, b0)). apply in_map. eapply nth_error_In; eauto.
      * apply okey_eqb_neq in EkK. rewrite hm_find_set. 
        assert (Hold : forall j b0, j <> bid -> nth_error kbs j = Some (k, b0) <-> nth_error (tb_kb E q) j = Some (k, b0)) by (intros j b0 Hj; unfold kbs; rewrite upd_nth_neq by auto; reflexivity).
        assert (Hndk : NoDup (map fst kbs)) by now rewrite Hkk.
        destruct (okey_eqb k kl) eqn:Ekl.
        -- apply okey_eqb_eq in Ekl. subst kl.
           assert (Hbl : bid <> length kbs - 1) by (intros Eq; rewrite <- Eq, Ekb in Hback; inversion Hback; congruence). split.
           ++ intros Eq. inversion Eq; subst i. exists bl. rewrite Hnth by lia. now rewrite Nat.eqb_refl.
           ++ intros (b0 & Hb0). pose proof (nth_error_Some_lt _ _ _ Hb0) as Hi. rewrite Hlk in Hi. rewrite Hnth in Hb0 by auto. destruct (Nat.eqb_spec i bid) as [->|Hne]; auto.
              exfalso. assert (i = length kbs - 1) by (eapply nd_key; eauto). lia.
        -- apply okey_eqb_neq in Ekl. rewrite H3. split.
           ++ intros (b0 & Hb0). assert (Hib : i <> bid) by (intros ->; rewrite Eb in Hb0; inversion Hb0; congruence). apply Hold in Hb0; auto.
              assert (Hil : i <> length kbs - 1) by (intros ->; rewrite Hback in Hb0; inversion Hb0; congruence).
              pose proof (nth_error_Some_lt _ _ _ Hb0). exists b0. rewrite Hnth by lia. replace (i =? bid) with false by (symmetry; now apply Nat.eqb_neq). auto.
           ++ intros (b0 & Hb0). pose proof (nth_error_Some_lt _ _ _ Hb0) as Hi. rewrite Hlk in Hi. rewrite Hnth in Hb0 by auto. destruct (Nat.eqb_spec i bid) as [->|Hne]; [inversion Hb0; congruence|]. exists b0. now apply Hold.
    + eapply Permutation_trans; [now apply Hpl|]. exact (pairs_perm _ _ Hpk).
  - eexists. splits; [reflexivity|exact Ee|reflexivity|]. intros l' Hp. constructor; cbn [tb_kb tb_idx].
    + now rewrite Hkk.
    + intros p Hp'. rewrite Eu in Hp'. apply in_app_or in Hp'. cbn [In] in Hp'. destruct Hp' as [Hin|[<-|Hin]]; [apply H2; rewrite Ea; apply in_or_app; auto|cbn [snd]; discriminate|apply H2; rewrite Ea; apply in_or_app; right; now right].
    + intros k i. rewrite H3. unfold kbs. destruct (Nat.eq_dec i bid) as [->|Hne].
      * rewrite upd_nth_eq by auto. rewrite Eb. split; intros (b0 & Eq); inversion Eq; subst; eauto.
      * rewrite upd_nth_neq by auto. reflexivity.
    + now apply Hpl.
Qed.

Definition tb_ents (q : tb_state E) : list E := map snd (pairs (tb_kb E q)).
Lemma any_pick_perm {K X} (l : list (K * X)) k e l' : any_pick l k e l' -> Permutation l ((k, e) :: l').
Proof. intros (l1 & l2 & -> & ->). apply Permutation_sym, Permutation_middle. Qed.
Lemma tb_any q l : tbR q l -> l <> [] -> exists k e q' l', tb_remove E r q = Ok (e, q') /\ any_pick l k e l' /\ tbR q' l'.
Proof.
  intros HR Hl. destruct (tb_remove_R q l HR Hl) as (k & b & e & q' & H1 & H2 & H3 & H4).
  assert (Hin : In (k, e) l).
  { eapply Permutation_in; [apply Permutation_sym, (tb_pm _ _ HR)|]. unfold pairs. apply in_flat_map. exists (k, b). split; [eapply nth_error_In; eauto|]. cbn [fst snd]. apply in_map. eapply nth_error_In; eauto. }
  apply in_split in Hin as (l1 & l2 & ->). exists k, e, q', (l1 ++ l2). splits; auto; [exists l1, l2; auto|]. apply H4. apply Permutation_sym, Permutation_middle.
Qed.
End TB.

Section TBlist.
Variables (E : Type) (r : nat -> nat) (reliable : nat -> bool) (evs : list nat).
Notation L := (type_based E r reliable evs).
Notation key := (vec_key reliable evs false).
Lemma tbl_init : tbR (ol_init L) [].
Proof. constructor; cbn; [constructor|intros p []| |constructor]. intros k i. split; [discriminate|]. intros (b & Hb). destruct i; discriminate. Qed.
Lemma tbl_insert q l x e : tbR q l -> exists q', ol_insert L q x e = Ok q' /\ tbR q' (match key x with Some k => l ++ [(k, e)] | None => l end).
Proof.
  intros HR. unfold ol_insert, vec_key. cbn [ol_only_pref type_based andb ol_dead ol_do_insertion]. fold (vec_dead reliable evs x). destruct (vec_dead reliable evs x); [eauto|]. now apply tb_insert_R.
Qed.
Lemma tbl_remove_nil q : tbR q [] -> ol_remove_min L q = UB.
Proof.
  intros [_ H2 _ H4]. cbn [ol_remove_min type_based]. unfold tb_remove. destruct (tb_kb E q) as [|[k b] kb] eqn:Ek; auto. exfalso. apply Permutation_nil in H4. cbn in H4. apply app_eq_nil in H4 as [H4 _]. apply map_eq_nil in H4. apply (H2 (k, b)); auto. now left.
Qed.
Lemma tbl_empty q l : tbR q l -> (ol_empty L q = true <-> l = []).
Proof.
  intros [_ H2 _ H4]. cbn [ol_empty type_based]. destruct (tb_kb E q) as [|[k b] kb] eqn:Ek.
  - split; auto. intros _. apply Permutation_sym, Permutation_nil in H4. auto.
  - split; [discriminate|]. intros ->. apply Permutation_nil in H4. cbn in H4. apply app_eq_nil in H4 as [H4 _]. apply map_eq_nil in H4. destruct (H2 (k, b)); auto. now left.
Qed.
Lemma tbl_clear q l : tbR q l -> tbR (ol_clear L q) [].
Proof. intros _. constructor; cbn; [constructor|intros p []| |constructor]. intros k i. split; [discriminate|]. intros (b & Hb). destruct i; discriminate. Qed.
Lemma tbl_ents (q : tb_state E) l : tbR q l -> Permutation (tb_ents q) (map snd l).
Proof. intros H. unfold tb_ents. apply Permutation_map. apply Permutation_sym. apply H. Qed.
Lemma tbl_behaves : behaves_like L any_pick key.
Proof.
  apply (run_behaves L tbR); auto using tbl_init, tbl_insert, tbl_remove_nil, tbl_empty. - intros q l HR Hl. exact (tb_any r q l HR Hl). - exact tbl_clear.
Qed.
Lemma tbl_contract : evs <> [] -> ol_contract L (fun q => exists l, tbR q l) tb_ents.
Proof.
  intros He. apply (run_contract L tbR any_pick key); auto using tbl_init, tbl_insert, tbl_empty, tbl_ents. - intros q l HR Hl. exact (tb_any r q l HR Hl). - exact tbl_clear. - apply any_pick_perm. - now apply vec_dead_ex. - apply rel_dead_ex.
Qed.
Lemma tbl_accepting : evs <> [] -> ol_accepting L (fun q => exists l, tbR q l) tb_ents.
Proof. intros He. apply (run_accepting L tbR key); auto using tbl_insert, tbl_ents. now apply vec_key_finite. Qed.
End TBlist.
