(** The Pareto open list. *)
From Coq Require Import Permutation Sorted.
From Verif Require Import Outcome Spec_OpenList Model_OpenList Spec_OpenListContract Spec_RandomOpenList Proof_OpenList
  Model_Rng Model_OpenList2 Proof_OpenList2 Proof_OpenList3.

(* ---------- dominance ---------- *)
Lemma dominates_from_spec d v w : length v = length w ->
  (dominates_from d v w = true <-> Forall2 (fun a b => ~ val_lt b a) v w /\ (d = true \/ v <> w)).
Proof.
  revert d w. induction v as [|a v IH]; intros d [|b w] Hl; try discriminate; cbn [dominates_from].
  - split; [intros ->; auto|]. intros [_ [H|H]]; congruence.
  - cbn in Hl. destruct (val_cmp a b) eqn:Ec.
    + apply val_cmp_eq in Ec. subst b. rewrite IH by lia. split.
      * intros [H1 H2]. split; [constructor; auto using val_lt_irrefl|]. destruct H2 as [H2|H2]; auto. right. congruence.
      * intros [H1 H2]. inversion H1; subst. split; auto. destruct H2 as [H2|H2]; auto. right. intros ->. auto.
    + apply val_cmp_lt in Ec. rewrite IH by lia. split.
      * intros [H1 _]. split; [constructor; auto; intros Hb; exact (val_lt_irrefl _ (val_lt_trans _ _ _ Ec Hb))|]. right. intros Eq. inversion Eq; subst. exact (val_lt_irrefl _ Ec).
      * intros [H1 _]. inversion H1; subst. auto.
    + apply val_cmp_gt in Ec. split; [discriminate|]. intros [H1 _]. inversion H1; subst. contradiction.
Qed.
Lemma dominates_spec v w : length v = length w -> (dominates v w = true <-> dom v w).
Proof. intros Hl. unfold dominates, dom. rewrite dominates_from_spec by auto. intuition congruence. Qed.
Lemma val_le_trans a b c : ~ val_lt b a -> ~ val_lt c b -> ~ val_lt c a.
Proof. unfold val_lt. destruct a, b, c; cbn; intuition lia. Qed.
Lemma val_le_antisym a b : ~ val_lt b a -> ~ val_lt a b -> a = b.
Proof. unfold val_lt. destruct a as [a|], b as [b|]; cbn; intros; try tauto. f_equal. lia. Qed.
Lemma le_trans' u v w : Forall2 (fun a b => ~ val_lt b a) u v -> Forall2 (fun a b => ~ val_lt b a) v w -> Forall2 (fun a b => ~ val_lt b a) u w.
Proof. intros H. revert w. induction H; intros w' H'; inversion H'; subst; constructor; auto. eapply val_le_trans; eauto. Qed.
Lemma le_antisym' u v : Forall2 (fun a b => ~ val_lt b a) u v -> Forall2 (fun a b => ~ val_lt b a) v u -> u = v.
Proof. induction 1; intros H'; inversion H'; subst; auto. f_equal; auto. now apply val_le_antisym. Qed.
Lemma dom_trans u v w : dom u v -> dom v w -> dom u w.
Proof.
  intros [H1 N1] [H2 N2]. split; [eapply le_trans'; eauto|]. intros ->. apply N1. now apply le_antisym'.
Qed.
Lemma dom_irrefl u : ~ dom u u.
Proof. intros [_ H]. congruence. Qed.

(** Below every dominating element of a list there is an undominated one. *)
Lemma minimal_exists (ks : list okey) (P : okey -> Prop) : (forall k, P k \/ ~ P k) -> (forall a b, dom a b \/ ~ dom a b) ->
  forall k, In k ks -> P k -> exists m, In m ks /\ P m /\ (m = k \/ dom m k) /\ forall y, In y ks -> P y -> ~ dom y m.
Proof.
  intros HP HD. induction ks as [|a ks IH]; intros k Hin Hk; [destruct Hin|].
  assert (Hstep : forall m, In m (a :: ks) -> P m -> (m = k \/ dom m k) -> (forall y, In y ks -> P y -> ~ dom y m) ->
    exists m, In m (a :: ks) /\ P m /\ (m = k \/ dom m k) /\ forall y, In y (a :: ks) -> P y -> ~ dom y m).
  { intros m H1 H2 H3 H4. destruct (HP a) as [Pa|Pa]; [destruct (HD a m) as [D|D]|].
    - exists a. splits; [now left|auto|right; destruct H3 as [->|H3]; auto; eapply dom_trans; eauto|]. intros y [<-|Hy] Py Dy; [exact (dom_irrefl _ Dy)|]. apply (H4 y Hy Py). eapply dom_trans; eauto.
    - exists m. splits; auto. intros y [<-|Hy] Py; auto.
    - exists m. splits; auto. intros y [<-|Hy] Py; auto. }
  destruct Hin as [->|Hin].
  - (* the element itself comes first *)
    destruct (in_dec okey_dec k ks) as [Hin|Hni].
    + destruct (IH k Hin Hk) as (m & H1 & H2 & H3 & H4). apply (Hstep m); auto. now right.
    + assert (Hc : (exists y, In y ks /\ P y /\ dom y k) \/ forall y, In y ks -> P y -> ~ dom y k).
      { clear - HP HD. induction ks as [|b ks IH]; [right; intros y []|]. destruct IH as [(y & H1 & H2 & H3)|IH]; [left; exists y; cbn; auto|]. destruct (HP b) as [Pb|Pb]; [destruct (HD b k) as [D|D]|].
        - left. exists b. cbn. auto.
        - right. intros y [<-|Hy]; auto.
        - right. intros y [<-|Hy]; auto; tauto. }
      destruct Hc as [(y & H1 & H2 & H3)|Hc].
      * destruct (IH y H1 H2) as (m & M1 & M2 & M3 & M4). apply (Hstep m); auto; [now right|]. right. destruct M3 as [->|M3]; auto. eapply dom_trans; eauto.
      * apply (Hstep k); auto. now left.
  - destruct (IH k Hin Hk) as (m & H1 & H2 & H3 & H4). apply (Hstep m); auto. now right.
Qed.

(* ---------- ordered sets ---------- *)
Lemma ss_filter {A} (Rl : A -> A -> Prop) f s : StronglySorted Rl s -> StronglySorted Rl (filter f s).
Proof.
  induction 1 as [|a s Hs IH Hf]; cbn [filter]; [constructor|]. destruct (f a); auto. constructor; auto. rewrite Forall_forall in *. intros x Hx. apply filter_In in Hx. apply Hf. tauto.
Qed.
Lemma set_insert_sorted k s : StronglySorted lex_lt s -> StronglySorted lex_lt (set_insert k s).
Proof.
  induction 1 as [|a s Hs IH Hf]; cbn [set_insert]; [repeat constructor|]. destruct (lex_cmp k a) eqn:Ec.
  - constructor; auto.
  - apply (cmp_lt _ _ lex_cmp_ok) in Ec. constructor; [now constructor|]. constructor; auto. rewrite Forall_forall in *. intros x Hx. eapply (lt_trans_k _ _ lex_cmp_ok); eauto.
  - constructor; auto. apply (cmp_gt _ _ lex_cmp_ok) in Ec. rewrite Forall_forall in *. intros x Hx.
    assert (Hx' : x = k \/ In x s). { clear - Hx. induction s as [|b s IH]; cbn [set_insert In] in *; [intuition auto|]. destruct (lex_cmp k b); cbn [In] in Hx; intuition auto. }
    destruct Hx' as [->|Hx']; auto.
Qed.
Lemma sorted_nd s : StronglySorted lex_lt s -> NoDup s.
Proof.
  induction 1 as [|a s Hs IH Hf]; constructor; auto. intros Ha. rewrite Forall_forall in Hf. pose proof (Hf a Ha) as Hl. apply (cmp_lt _ _ lex_cmp_ok) in Hl. assert (lex_cmp a a = Eq) by now apply (cmp_eq _ _ lex_cmp_ok). congruence.
Qed.
Lemma set_insert_in k s x : In x (set_insert k s) <-> x = k \/ In x s.
Proof.
  induction s as [|a s IH]; cbn [set_insert In]; [intuition auto|]. destruct (lex_cmp k a) eqn:Ec; cbn [In].
  - apply (cmp_eq _ _ lex_cmp_ok) in Ec. subst. intuition auto.
  - intuition auto.
  - rewrite IH. intuition auto.
Qed.
Lemma set_erase_in k s x : In x (set_erase k s) <-> x <> k /\ In x s.
Proof. unfold set_erase. rewrite filter_In, negb_true_iff, okey_eqb_neq. intuition auto. Qed.
Lemma set_count_true k s : set_count k s = true <-> In k s.
Proof. unfold set_count. rewrite existsb_exists. split; [intros (x & Hx & E); apply okey_eqb_eq in E; now subst|]. intros H. exists k. split; auto. now apply okey_eqb_eq. Qed.

Lemma adds_sorted cands cs nd : StronglySorted lex_lt nd -> StronglySorted lex_lt (fold_left (fun nd c => if is_nondominated c cands then set_insert c nd else nd) cs nd).
Proof. revert nd. induction cs as [|c cs IH]; intros nd H; cbn [fold_left]; auto. apply IH. destruct (is_nondominated c cands); auto using set_insert_sorted. Qed.

Section PA.
Context {E : Type}.
Variable n : nat.     (* number of evaluators *)
Notation content := (@Proof_OpenList.content okey E lex_cmp).
Implicit Types l : list (okey * E).

Record paR (q : pa_state E) (l : list (okey * E)) : Prop := {
  pa_len : forall x, In x l -> length (fst x) = n;
  pa_keys : NoDup (map fst (pa_buckets E q));
  pa_bk : forall k, hm_find (pa_buckets E q) k = match content l k with [] => None | b => Some b end;
  pa_srt : StronglySorted lex_lt (pa_nd E q);
  pa_ndc : forall k, In k (pa_nd E q) <-> undominated l k }.

Lemma content_in l k : content l k <> [] <-> In k (map fst l).
Proof.
  split.
  - intros H. destruct (content l k) as [|e b] eqn:Ec; [congruence|]. destruct (content_split _ _ lex_cmp_ok _ _ _ _ Ec) as (l1 & l2 & -> & _). apply in_map_iff. exists (k, e). split; auto. apply in_or_app. right. now left.
  - intros H. apply in_map_iff in H as ([k' e] & <- & Hin). eapply (in_content _ _ lex_cmp_ok); eauto.
Qed.
Lemma pa_stored q l k : paR q l -> (In k (map fst (pa_buckets E q)) <-> In k (map fst l)).
Proof.
  intros HR. rewrite <- content_in. split.
  - intros Hin. apply in_map_iff in Hin as ([k' b] & <- & Hin). cbn [fst]. apply (hm_in_find _ _ _ (pa_keys _ _ HR)) in Hin. rewrite (pa_bk _ _ HR) in Hin. destruct (content l k'); congruence.
  - intros Hc. assert (Hf := pa_bk _ _ HR k). destruct (content l k) as [|e b] eqn:Ec; [congruence|]. apply hm_find_in in Hf. change k with (fst (k, e :: b)). now apply in_map.
Qed.
Lemma dom_dec (a b : okey) : dom a b \/ ~ dom a b.
Proof.
  destruct (Nat.eq_dec (length a) (length b)) as [Hl|Hl].
  - rewrite <- (dominates_spec _ _ Hl). destruct (dominates a b); auto.
  - right. intros [H _]. apply Hl. clear Hl. induction H; cbn; auto.
Qed.
Lemma undom_exists l : (forall x, In x l -> length (fst x) = n) -> forall k, In k (map fst l) -> exists m, undominated l m /\ (m = k \/ dom m k).
Proof.
  intros _ k Hk. destruct (minimal_exists (map fst l) (fun _ => True)) with (k := k) as (m & H1 & _ & H3 & H4); auto using dom_dec.
  exists m. split; auto. split; auto. intros x Hx. apply H4; auto. now apply in_map.
Qed.
Lemma is_nondominated_spec k cs : (forall c, In c cs -> length c = length k) -> (is_nondominated k cs = true <-> forall c, In c cs -> ~ dom c k).
Proof.
  intros Hl. unfold is_nondominated. rewrite negb_true_iff. split.
  - intros H c Hc Hd. apply (dominates_spec _ _ (Hl c Hc)) in Hd. assert (existsb (fun c => dominates c k) cs = true) by (apply existsb_exists; eauto). congruence.
  - intros H. apply not_true_iff_false. intros He. apply existsb_exists in He as (c & Hc & Hd). apply (dominates_spec _ _ (Hl c Hc)) in Hd. exact (H c Hc Hd).
Qed.
Lemma undom_len l k : (forall x, In x l -> length (fst x) = n) -> In k (map fst l) -> length k = n.
Proof. intros Hl Hk. apply in_map_iff in Hk as (x & <- & Hx). auto. Qed.

Lemma pa_insert_R evs q l x e : n = length evs -> paR q l -> exists q', pa_insert E evs q x e = Ok q' /\ paR q' (l ++ [(map (x_val x) evs, e)]).
Proof.
  intros Hn HR. pose proof HR as [H1 H2 H3 HS H4]. unfold pa_insert. set (k := map (x_val x) evs). assert (Hk : length k = n) by (unfold k; now rewrite map_length).
  eexists. split; [reflexivity|].
  assert (Hlen : forall x0, In x0 (l ++ [(k, e)]) -> length (fst x0) = n) by (intros x0 Hx0; apply in_app_or in Hx0 as [Hx0|[<-|[]]]; auto).
  assert (Hck : match hm_find (pa_buckets E q) k with Some b => b | None => [] end = content l k) by (rewrite H3; now destruct (content l k)).
  rewrite Hck. constructor; cbn [pa_buckets pa_nd]; auto.
  - now apply hm_set_nd.
  - intros k'. rewrite hm_find_set, (content_app lex_cmp), H3. destruct (okey_eqb k' k) eqn:Ek.
    + apply okey_eqb_eq in Ek. subst k'. assert (Ec : content [(k, e)] k = [e]) by (unfold Proof_OpenList.content; cbn; rewrite (keqb_refl _ _ lex_cmp_ok); reflexivity).
      rewrite Ec. destruct (content l k); reflexivity.
    + apply okey_eqb_neq in Ek. rewrite (content_cons_other _ _ lex_cmp_ok) by auto. change (content [] k') with (@nil E). rewrite app_nil_r. reflexivity.
  - destruct (match content l k with [] => true | _ => false end && is_nondominated k (pa_nd E q)); auto. apply set_insert_sorted. now apply ss_filter.
  - intros k'.
    assert (Hund : undominated (l ++ [(k, e)]) k' <-> (k' = k \/ In k' (map fst l)) /\ (forall x0, In x0 l -> ~ dom (fst x0) k') /\ ~ dom k k').
    { unfold undominated. rewrite map_app, in_app_iff. cbn [map fst In]. split.
      - intros [Ha Hb]. splits; [intuition auto|intros; apply Hb; apply in_or_app; auto|apply (Hb (k, e)); apply in_or_app; right; now left].
      - intros (Ha & Hb & Hc). split; [intuition auto|]. intros x0 Hx0. apply in_app_or in Hx0 as [Hx0|[<-|[]]]; auto. }
    rewrite Hund. clear Hund.
    destruct (content l k) as [|e0 b] eqn:Ec; cbn [andb].
    + assert (Hnk : ~ In k (map fst l)) by (rewrite <- content_in; congruence).
      assert (Hlc : forall c, In c (pa_nd E q) -> length c = length k) by (intros c Hc; apply H4 in Hc as [Hc _]; rewrite Hk; exact (undom_len l c H1 Hc)).
      pose proof (is_nondominated_spec k (pa_nd E q) Hlc) as Hin.
      assert (Hall : (forall c, In c (pa_nd E q) -> ~ dom c k) <-> forall x0, In x0 l -> ~ dom (fst x0) k).
      { split; [|intros H c Hc; apply H4 in Hc as [Hc _]; apply in_map_iff in Hc as (x0 & <- & Hx0); auto]. intros H x0 Hx0 Hd. destruct (undom_exists l H1 (fst x0)) as (m & Hm & Hd'); [now apply in_map|]. apply H4 in Hm. apply (H m Hm). destruct Hd' as [->|Hd']; auto. eapply dom_trans; eauto. }
      destruct (is_nondominated k (pa_nd E q)) eqn:En.
      * pose proof (proj1 Hall (proj1 Hin eq_refl)) as Hno. rewrite set_insert_in, filter_In, negb_true_iff. split.
        -- intros [->|[Hk' Hd]]; [splits; auto using dom_irrefl|]. pose proof (proj1 (H4 k') Hk') as [Ha Hb]. splits; auto. intros Hdd. apply dominates_spec in Hdd; [congruence|]. symmetry; auto.
        -- intros ([->|Ha] & Hb & Hc); auto. right. split; [apply H4; split; auto|]. apply not_true_iff_false. intros Hd. apply dominates_spec in Hd; auto. rewrite Hk. symmetry. exact (undom_len l k' H1 Ha).
      * assert (Hsd : exists c, In c (pa_nd E q) /\ dom c k).
        { unfold is_nondominated in En. apply negb_false_iff, existsb_exists in En as (c & Hc & Hd). exists c. split; auto. apply dominates_spec; auto. }
        destruct Hsd as (c & Hc & Hd). rewrite H4. unfold undominated. split.
        -- intros [Ha Hb]. splits; auto. intros Hdd. apply H4 in Hc as [Hc _]. apply in_map_iff in Hc as (x0 & <- & Hx0). apply (Hb x0 Hx0). eapply dom_trans; eauto.
        -- intros ([->|Ha] & Hb & _); [|split; auto]. exfalso. apply H4 in Hc as [Hc _]. apply in_map_iff in Hc as (x0 & <- & Hx0). exact (Hb x0 Hx0 Hd).
    + assert (Hik : In k (map fst l)) by (rewrite <- content_in; congruence). rewrite H4. unfold undominated. split.
      * intros [Ha Hb]. splits; auto. apply in_map_iff in Hik as (x0 & <- & Hx0). now apply Hb.
      * intros ([->|Ha] & Hb & _); split; auto.
Qed.

(* candidates of remove_key *)
Lemma cands_in key nd (bs : list (okey * list E)) c0 c :
  In c (fold_left (fun cs kb => if negb (set_count (fst kb) nd) && dominates key (fst kb) && is_nondominated (fst kb) nd then set_insert (fst kb) cs else cs) bs c0) <->
  In c c0 \/ (In c (map fst bs) /\ ~ In c nd /\ dominates key c = true /\ is_nondominated c nd = true).
Proof.
  revert c0. induction bs as [|[k b] bs IH]; intros c0; cbn [fold_left map fst In]; [tauto|]. rewrite IH.
  destruct (set_count k nd) eqn:E1; cbn [negb andb].
  - apply set_count_true in E1. split; [intuition auto|]. intros [H|([<-|H] & H2)]; try tauto.
  - assert (H1 : ~ In k nd) by (rewrite <- set_count_true; congruence). destruct (dominates key k) eqn:E2; cbn [andb]; [destruct (is_nondominated k nd) eqn:E3|].
    + rewrite set_insert_in. split; [intros [[->|H]|H]; tauto|]. intros [H|([<-|H] & H2)]; tauto.
    + split; [tauto|]. intros [H|([<-|H] & H2 & H3 & H4)]; try tauto. congruence.
    + split; [tauto|]. intros [H|([<-|H] & H2 & H3 & H4)]; try tauto. congruence.
Qed.
Lemma adds_in cs cands nd c : In c (fold_left (fun nd c => if is_nondominated c cands then set_insert c nd else nd) cs nd) <->
  In c nd \/ (In c cs /\ is_nondominated c cands = true).
Proof.
  revert nd. induction cs as [|k cs IH]; intros nd; cbn [fold_left In]; [tauto|]. rewrite IH. destruct (is_nondominated k cands) eqn:E1.
  - rewrite set_insert_in. split; [intros [[->|H]|H]; tauto|]. intros [H|([<-|H] & H2)]; tauto.
  - split; [tauto|]. intros [H|([<-|H] & H2)]; try tauto. congruence.
Qed.

Variable r : nat -> nat.
Variable su : bool.
Lemma pa_select_in keys : (forall k, In k keys -> length k = n) -> n <> 0 -> forall sel seen k, exists s k', pa_select r su keys sel seen k = Ok (s, k') /\ (s = sel \/ In s keys).
Proof.
  intros Hl Hn. induction keys as [|a keys IH]; intros sel seen k; cbn [pa_select]; [eauto|]. assert (Ha : length a = n) by (apply Hl; now left).
  unfold random_int. destruct (Nat.eqb_spec (seen + (if su then length a else 1)) 0) as [E0|E0]; [destruct su; lia|]. cbn [bind].
  destruct (IH (fun k Hk => Hl k (or_intror Hk)) (if r k mod (seen + (if su then length a else 1)) <? (if su then length a else 1) then a else sel) (seen + (if su then length a else 1)) (S k)) as (s & k' & Eq & Hs). exists s, k'. split; [exact Eq|]. destruct Hs as [->|Hs]; [|right; now right]. match goal with |- context [if ?c then _ else _] => destruct c end; [right; now left|now left].
Qed.

Lemma content_len l k : In k (map fst l) -> exists e b l1 l2, content l k = e :: b /\ l = l1 ++ (k, e) :: l2 /\ content (l1 ++ l2) k = b /\ (forall x, In x l1 -> fst x <> k) /\ (forall k', k' <> k -> content (l1 ++ l2) k' = content l k').
Proof.
  intros Hk. apply content_in in Hk. destruct (content l k) as [|e b] eqn:Ec; [congruence|]. destruct (content_split _ _ lex_cmp_ok _ _ _ _ Ec) as (l1 & l2 & El & Hc & Hn). exists e, b, l1, l2. splits; auto.
  - rewrite (content_app lex_cmp), (content_none _ _ lex_cmp_ok l1 k Hn). exact Hc.
  - intros k' Hk'. rewrite El, !(content_app lex_cmp). f_equal. now rewrite (content_cons_other _ _ lex_cmp_ok).
Qed.

Lemma pa_take q l s kk : paR q l -> In s (pa_nd E q) -> exists e q' l1 l2,
  (match hm_find (pa_buckets E q) s with
      | Some (result :: bucket) =>
          match bucket with
          | [] => let '(buckets, nd) := remove_key E (hm_set (pa_buckets E q) s []) (pa_nd E q) s in
                  Ok (result, {| pa_buckets := buckets; pa_nd := nd; pa_rng := kk |})
          | _ => Ok (result, {| pa_buckets := hm_set (pa_buckets E q) s bucket; pa_nd := pa_nd E q; pa_rng := kk |})
          end
      | _ => UB
      end) = Ok (e, q') /\ l = l1 ++ (s, e) :: l2 /\ (forall x, In x l1 -> fst x <> s) /\ (forall x, In x l -> ~ dom (fst x) s) /\ paR q' (l1 ++ l2) /\ pa_rng E q' = kk.
Proof.
  intros HR Hs. pose proof HR as [H1 H2 H3 HS H4]. pose proof (proj1 (H4 s) Hs) as [Hin Hund].
  destruct (content_len l s Hin) as (e & b & l1 & l2 & Ec & El & Ec' & Hl1 & Hoth). rewrite H3, Ec.
  assert (Hlen : forall x, In x (l1 ++ l2) -> length (fst x) = n) by (intros x Hx; apply H1; rewrite El; apply in_app_or in Hx as [Hx|Hx]; apply in_or_app; [auto|right; now right]).
  assert (Hkeys : forall k', k' <> s -> In k' (map fst (l1 ++ l2)) <-> In k' (map fst l)) by (intros k' Hk'; rewrite <- !content_in, (Hoth _ Hk'); reflexivity).
  destruct b as [|e' b].
  - assert (Hns : ~ In s (map fst (l1 ++ l2))) by (rewrite <- content_in; congruence).
    destruct (remove_key E (hm_set (pa_buckets E q) s []) (pa_nd E q) s) as [bs nd] eqn:Er. unfold remove_key in Er. inversion Er; subst bs nd; clear Er.
    eexists _, _, l1, l2. splits; [reflexivity|exact El|exact Hl1|exact Hund| |reflexivity].
    set (bs := hm_erase (hm_set (pa_buckets E q) s []) s). set (nd0 := set_erase s (pa_nd E q)).
    assert (Hbs : forall k, In k (map fst bs) <-> In k (map fst (l1 ++ l2))).
    { intros k. unfold bs. rewrite hm_erase_keys, hm_set_keys, (pa_stored _ _ _ HR). destruct (okey_dec k s) as [->|Hne]; [tauto|]. rewrite (Hkeys k Hne). tauto. }
    constructor; cbn [pa_buckets pa_nd]; auto.
    + apply hm_erase_nd. now apply hm_set_nd.
    + intros k. unfold bs. rewrite hm_find_erase, hm_find_set. destruct (okey_eqb k s) eqn:Ek; [apply okey_eqb_eq in Ek; subst k; now rewrite Ec'|]. apply okey_eqb_neq in Ek. now rewrite (Hoth _ Ek), H3.
    + apply adds_sorted. now apply ss_filter.
    + intros k. rewrite adds_in, !cands_in. cbn [In].
      set (cand := fun c => In c (map fst bs) /\ ~ In c nd0 /\ dominates s c = true /\ is_nondominated c nd0 = true).
      assert (Hsl : length s = n) by exact (undom_len l s H1 Hin).
      assert (Hkl : forall c, In c (map fst (l1 ++ l2)) -> length c = n) by (intros c Hc; exact (undom_len _ c Hlen Hc)).
      assert (Hndl : forall c, In c nd0 -> length c = n) by (intros c Hc; apply set_erase_in in Hc as [_ Hc]; apply H4 in Hc as [Hc _]; exact (undom_len l c H1 Hc)).
      assert (Hcand : forall c, cand c <-> In c (map fst (l1 ++ l2)) /\ ~ In c nd0 /\ dom s c /\ forall y, In y nd0 -> ~ dom y c).
      { intros c. unfold cand. rewrite Hbs. split; intros (A & B & C & D); splits; auto.
        - apply dominates_spec; auto. rewrite Hsl. symmetry; auto.
        - apply is_nondominated_spec; auto. intros y Hy. rewrite (Hkl c A). auto.
        - apply dominates_spec; auto. rewrite Hsl. symmetry; auto.
        - apply is_nondominated_spec; auto. intros y Hy. rewrite (Hkl c A). auto. }
      assert (Hnd0 : forall c, In c nd0 <-> In c (map fst (l1 ++ l2)) /\ forall x, In x l -> ~ dom (fst x) c).
      { intros c. unfold nd0. rewrite set_erase_in, H4. unfold undominated. destruct (okey_dec c s) as [->|Hne]; [tauto|]. rewrite (Hkeys c Hne). tauto. }
      assert (Hsub : forall x, In x (l1 ++ l2) -> In x l) by (intros x Hx; rewrite El; apply in_app_or in Hx as [Hx|Hx]; apply in_or_app; [auto|right; now right]).
      assert (Hspl : forall x, In x l -> fst x = s \/ In x (l1 ++ l2)) by (intros x Hx; rewrite El in Hx; apply in_app_or in Hx as [Hx|[<-|Hx]]; [right; apply in_or_app; auto|now left|right; apply in_or_app; auto]).
      (* an undominated remaining key is in nd0 or a candidate *)
      assert (Hcls : forall m, undominated (l1 ++ l2) m -> In m nd0 \/ cand m).
      { intros m [Ma Mb]. destruct (dom_dec s m) as [D|D].
        - right. apply Hcand. splits; auto.
          + intros Hm. apply Hnd0 in Hm as [_ Hm]. apply (Hm (s, e)); auto. rewrite El. apply in_or_app. right. now left.
          + intros y Hy. apply Hnd0 in Hy as [Hy _]. apply in_map_iff in Hy as (x & <- & Hx). auto.
        - left. apply Hnd0. split; auto. intros x Hx. destruct (Hspl x Hx) as [->|Hx']; auto. }
      set (cs := fold_left _ bs []). 
      assert (Hcs : forall c, In c cs <-> cand c) by (intros c; unfold cs; rewrite cands_in; cbn [In]; unfold cand; tauto).
      assert (Hcl : forall c, cand c -> length c = n) by (intros c Hc; apply Hcand in Hc as [Hc _]; auto).
      change (In k nd0 \/ (False \/ cand k) /\ is_nondominated k cs = true <-> undominated (l1 ++ l2) k). split.
      * intros [Hk|[[[]|Hk] Hk2]].
        -- apply Hnd0 in Hk as [A B]. split; auto.
        -- pose proof (proj1 (is_nondominated_spec k cs (fun c Hc => eq_trans (Hcl c (proj1 (Hcs c) Hc)) (eq_sym (Hcl k Hk)))) Hk2) as Hno.
           pose proof (proj1 (Hcand k) Hk) as (A & B & C & D). split; auto. intros x Hx Hd.
           destruct (undom_exists (l1 ++ l2) Hlen (fst x)) as (m & Hm & Hmd); [now apply in_map|]. assert (Hmk : dom m k) by (destruct Hmd as [->|Hmd]; auto; eapply dom_trans; eauto).
           destruct (Hcls m Hm) as [Hm'|Hm']; [exact (D m Hm' Hmk)|]. apply (Hno m); auto. now apply Hcs.
      * intros Hk. destruct (Hcls k Hk) as [Hk'|Hk']; auto. right. split; auto. apply is_nondominated_spec.
        -- intros c Hc. apply Hcs in Hc. rewrite (Hcl c Hc), (Hcl k Hk'). reflexivity.
        -- intros c Hc. apply Hcs, Hcand in Hc as [Hc _]. apply in_map_iff in Hc as (x & <- & Hx). now apply Hk.
  - eexists _, _, l1, l2. splits; [reflexivity|exact El|exact Hl1|exact Hund| |reflexivity].
    assert (His : In s (map fst (l1 ++ l2))) by (rewrite <- content_in; congruence).
    assert (Hsub : forall x, In x (l1 ++ l2) -> In x l) by (intros x Hx; rewrite El; apply in_app_or in Hx as [Hx|Hx]; apply in_or_app; [auto|right; now right]).
    constructor; cbn [pa_buckets pa_nd]; auto.
    + now apply hm_set_nd.
    + intros k. rewrite hm_find_set. destruct (okey_eqb k s) eqn:Ek; [apply okey_eqb_eq in Ek; subst k; now rewrite Ec'|]. apply okey_eqb_neq in Ek. now rewrite (Hoth _ Ek), H3.
    + intros k. rewrite H4. unfold undominated. assert (Hkk : In k (map fst (l1 ++ l2)) <-> In k (map fst l)) by (destruct (okey_dec k s) as [->|Hne]; [tauto|auto]). rewrite Hkk. split; intros [A B]; split; auto.
      intros x Hx. assert (Hf : In (fst x) (map fst (l1 ++ l2))). { destruct (okey_dec (fst x) s) as [->|Hne]; auto. apply Hkeys; auto. now apply in_map. }
      apply in_map_iff in Hf as (y & <- & Hy). auto.
Qed.

Lemma pa_remove_R q l : n <> 0 -> paR q l -> l <> [] -> exists k e q' l', pa_remove E r su q = Ok (e, q') /\ pareto_pick l k e l' /\ paR q' l'.
Proof.
  intros Hn HR Hl. unfold pa_remove. destruct (pa_nd E q) as [|first rest] eqn:En.
  - exfalso. destruct l as [|[k e] l]; [congruence|]. destruct (undom_exists _ (pa_len _ _ HR) k) as (m & Hm & _); [now left|]. apply (pa_ndc _ _ HR) in Hm. rewrite En in Hm. destruct Hm.
  - rewrite <- En. destruct (pa_select_in (pa_nd E q)) with (sel := first) (seen := 0) (k := pa_rng E q) as (s & kk & -> & Hs); auto.
    { intros k Hk. apply (pa_ndc _ _ HR) in Hk as [Hk _]. exact (undom_len l k (pa_len _ _ HR) Hk). }
    cbn [bind]. assert (Hs' : In s (pa_nd E q)) by (destruct Hs as [->|Hs]; auto; rewrite En; now left).
    destruct (pa_take q l s kk HR Hs') as (e & q' & l1 & l2 & Eq & El & Ha & Hb & Hc & _). exists s, e, q', (l1 ++ l2). splits; [exact Eq| |exact Hc]. exists l1, l2. splits; auto.
Qed.
End PA.

(** A stream that makes the selection loop choose the key at a given position. *)
Definition steer (start num pos : nat) (i : nat) : nat := if i <=? start + pos then 0 else (i - start + 1) * num - 1.
Lemma steer_select n (su : bool) start pos : n <> 0 -> forall keys : list okey, (forall k, In k keys -> length k = n) -> forall j (sel : okey),
  exists s k', pa_select (steer start (if su then n else 1) pos) su keys sel (j * (if su then n else 1)) (start + j) = Ok (s, k') /\
   (j <= pos -> forall t, nth_error keys (pos - j) = Some t -> s = t) /\ (pos < j -> s = sel).
Proof.
  intros Hn. set (num := if su then n else 1). assert (Hnum : num <> 0) by (unfold num; destruct su; lia).
  induction keys as [|a keys IH]; intros Hl j sel; cbn [pa_select].
  - exists sel, (start + j). splits; auto. intros _ t Ht. destruct (pos - j); discriminate.
  - assert (Ha : (if su then length a else 1) = num) by (unfold num; destruct su; auto; apply Hl; now left). rewrite Ha.
    assert (Hs : j * num + num <> 0) by lia. unfold random_int. destruct (Nat.eqb_spec (j * num + num) 0) as [E0|_]; [lia|]. cbn [bind].
    replace (j * num + num) with (S j * num) by lia. replace (S (start + j)) with (start + S j) by lia.
    destruct (IH (fun k Hk => Hl k (or_intror Hk)) (S j) (if steer start num pos (start + j) mod (S j * num) <? num then a else sel)) as (s & k' & Eq & H1 & H2).
    exists s, k'. split; [exact Eq|]. unfold steer at 1 in H2. destruct (Nat.leb_spec (start + j) (start + pos)) as [Hle|Hgt].
    + rewrite Nat.mod_0_l in H2 by lia. replace (0 <? num) with true in H2 by (symmetry; apply Nat.ltb_lt; lia). split; [|lia]. intros _ t Ht. destruct (Nat.eq_dec j pos) as [->|Hne].
      * rewrite Nat.sub_diag in Ht. cbn in Ht. rewrite H2 by lia. congruence.
      * apply H1; [lia|]. replace (pos - j) with (S (pos - S j)) in Ht by lia. exact Ht.
    + split; [lia|]. intros _. rewrite H2 by lia. replace (start + j - start + 1) with (S j) by lia.
      rewrite Nat.mod_small by lia. replace (S j * num - 1 <? num) with false; auto. symmetry. apply Nat.ltb_ge. destruct j; [lia|]. cbn [Nat.mul]. destruct num; [lia|]. lia.
Qed.

Section PAlist.
Variables (E : Type) (r : nat -> nat) (reliable : nat -> bool) (evs : list nat) (su pref_only : bool).
Notation L := (pareto E r reliable evs su pref_only).
Notation key := (vec_key reliable evs pref_only).
Notation R := (@paR E (length evs)).
Lemma pal_nil kk : R {| pa_buckets := []; pa_nd := []; pa_rng := kk |} [].
Proof. constructor; cbn; [intros x []|constructor|reflexivity|constructor|]. intros k. unfold undominated. cbn. tauto. Qed.
Lemma pal_init : R (ol_init L) [].
Proof. apply pal_nil. Qed.
Lemma pal_clear q l : R q l -> R (ol_clear L q) [].
Proof. intros _. apply pal_nil. Qed.
Lemma pal_insert q l x e : R q l -> exists q', ol_insert L q x e = Ok q' /\ R q' (match key x with Some k => l ++ [(k, e)] | None => l end).
Proof.
  intros HR. unfold ol_insert, vec_key. cbn [ol_only_pref pareto ol_dead ol_do_insertion]. destruct (pref_only && negb (x_pref x)); [eauto|]. fold (vec_dead reliable evs x). destruct (vec_dead reliable evs x); [eauto|]. now apply pa_insert_R.
Qed.
Lemma pal_empty q l : R q l -> (ol_empty L q = true <-> l = []).
Proof.
  intros HR. cbn [ol_empty pareto]. destruct (pa_nd E q) as [|k nd] eqn:En.
  - split; auto. intros _. destruct l as [|[k e] l]; auto. destruct (undom_exists _ _ (pa_len _ _ _ HR) k) as (m & Hm & _); [now left|]. apply (pa_ndc _ _ _ HR) in Hm. rewrite En in Hm. destruct Hm.
  - split; [discriminate|]. intros ->. assert (Hk : In k (pa_nd E q)) by (rewrite En; now left). apply (pa_ndc _ _ _ HR) in Hk as [[] _].
Qed.
Lemma pal_remove_nil q : R q [] -> ol_remove_min L q = UB.
Proof. intros HR. cbn [ol_remove_min pareto]. unfold pa_remove. assert (He := proj2 (pal_empty q [] HR) eq_refl). cbn [ol_empty pareto] in He. destruct (pa_nd E q); auto; discriminate. Qed.
Definition pa_ents (q : pa_state E) : list E := flat_map snd (pa_buckets E q).
Hypothesis He : evs <> [].
Lemma evs_pos : length evs <> 0.
Proof. destruct evs; [congruence|discriminate]. Qed.
Lemma pal_remove q l : R q l -> l <> [] -> exists k e q' l', ol_remove_min L q = Ok (e, q') /\ pareto_pick l k e l' /\ R q' l'.
Proof. intros HR Hl. exact (pa_remove_R (length evs) r su q l evs_pos HR Hl). Qed.
Lemma pareto_pick_perm (l : list (okey * E)) k e l' : pareto_pick l k e l' -> Permutation l ((k, e) :: l').
Proof. intros (l1 & l2 & -> & -> & _). apply Permutation_sym, Permutation_middle. Qed.
Lemma flat_content (ks : list okey) (l : list (okey * E)) : NoDup ks -> (forall x, In x l -> In (fst x) ks) -> Permutation (flat_map (Proof_OpenList.content lex_cmp l) ks) (map snd l).
Proof.
  intros Hn. induction l as [|[k e] l IH]; intros Hin; cbn [map snd].
  - replace (flat_map _ ks) with (@nil E); auto. clear. induction ks; auto.
  - eapply Permutation_trans; [|apply perm_skip, IH; intros x Hx; apply Hin; now right].
    assert (Hk : In k ks) by (apply (Hin (k, e)); now left). apply in_split in Hk as (a & b & ->). rewrite !flat_map_app. cbn [flat_map].
    assert (Hab : forall z, (In z a \/ In z b) -> z <> k) by (intros z Hz ->; apply NoDup_remove_2 in Hn; apply Hn; apply in_or_app; tauto).
    assert (Ho : forall zs, (forall z, In z zs -> z <> k) -> flat_map (Proof_OpenList.content lex_cmp ((k, e) :: l)) zs = flat_map (Proof_OpenList.content lex_cmp l) zs).
    { induction zs as [|z zs IHz]; intros Hz; cbn [flat_map]; auto. rewrite (content_cons_other _ _ lex_cmp_ok) by (apply Hz; now left). f_equal. apply IHz. intros y Hy. apply Hz. now right. }
    rewrite (Ho a), (Ho b) by auto. assert (Hc : Proof_OpenList.content lex_cmp ((k, e) :: l) k = e :: Proof_OpenList.content lex_cmp l k) by (unfold Proof_OpenList.content; cbn [filter fst]; rewrite (keqb_refl _ _ lex_cmp_ok); reflexivity).
    rewrite Hc. cbn [app]. apply Permutation_sym, Permutation_middle.
Qed.
Lemma pal_ents q l : R q l -> Permutation (pa_ents q) (map snd l).
Proof.
  intros HR. eapply Permutation_trans; [|apply (flat_content (map fst (pa_buckets E q))); [apply HR|]].
  - unfold pa_ents. rewrite flat_map_concat_map, (flat_map_concat_map _ (map fst _)), map_map. erewrite map_ext_in; [apply Permutation_refl|]. intros [k b] Hin. cbn [fst snd]. apply (hm_in_find _ _ _ (pa_keys _ _ _ HR)) in Hin. rewrite (pa_bk _ _ _ HR) in Hin. destruct (Proof_OpenList.content lex_cmp l k); congruence.
  - intros x Hx. apply (pa_stored _ _ _ _ HR). now apply in_map.
Qed.
Lemma pal_contract : ol_contract L (fun q => exists l, R q l) pa_ents.
Proof.
  apply (run_contract L R pareto_pick key); auto using pal_init, pal_insert, pal_remove, pal_empty, pal_ents. - exact pal_clear. - apply pareto_pick_perm. - now apply vec_dead_ex. - apply rel_dead_ex.
Qed.
Lemma pal_accepting : pref_only = false -> ol_accepting L (fun q => exists l, R q l) pa_ents.
Proof. intros Hp. apply (run_accepting L R key); auto using pal_insert, pal_ents. now apply vec_key_finite. Qed.
Lemma pal_behaves : behaves_like L pareto_pick key.
Proof. apply (run_behaves L R); auto using pal_init, pal_insert, pal_remove, pal_remove_nil, pal_empty. exact pal_clear. Qed.
Lemma pal_run ops outs q : ol_run L (ol_init L) ops = Ok (outs, q) -> exists l, rq_history pareto_pick key [] ops outs l /\ R q l.
Proof.
  intros H. pose proof (run_history L R pareto_pick key pal_insert pal_remove pal_remove_nil pal_clear ops _ _ pal_init) as Hh. rewrite H in Hh. exact Hh.
Qed.
End PAlist.

(** Any undominated key can be chosen. *)
Lemma pa_choose E (evs : list nat) su (q : pa_state E) l k : evs <> [] -> paR (length evs) q l -> undominated l k ->
  exists r e q' l', pa_remove E r su q = Ok (e, q') /\ pareto_pick l k e l'.
Proof.
  intros He HR Hk. apply (pa_ndc _ _ _ HR) in Hk. pose proof Hk as Hin. apply In_nth_error in Hk as (pos & Hpos).
  assert (Hn : length evs <> 0) by (destruct evs; [congruence|discriminate]).
  assert (Hlen : forall c, In c (pa_nd E q) -> length c = length evs) by (intros c Hc; apply (pa_ndc _ _ _ HR) in Hc as [Hc _]; exact (undom_len _ l c (pa_len _ _ _ HR) Hc)).
  destruct (pa_nd E q) as [|first rest] eqn:En; [destruct Hin|]. rewrite <- En in *.
  destruct (steer_select (length evs) su (pa_rng E q) pos Hn (pa_nd E q) Hlen 0 first) as (s & k' & Eq & Hs & _). rewrite Nat.mul_0_l, Nat.add_0_r in Eq.
  assert (s = k) by (apply Hs; [lia|now rewrite Nat.sub_0_r]). subst s.
  destruct (pa_take (length evs) (fun _ => 0) q l k k' HR Hin) as (e & q' & l1 & l2 & Et & El & Ha & Hb & _). exists (steer (pa_rng E q) (if su then length evs else 1) pos), e, q', (l1 ++ l2). split.
  - unfold pa_remove. rewrite En. rewrite <- En, Eq. cbn [bind]. exact Et.
  - exists l1, l2. splits; auto.
Qed.

(* ---------- uniform choice ---------- *)
Fixpoint psel {A} (ds : list nat) (keys : list A) (cur : A) : A :=
  match keys, ds with k :: keys, d :: ds => psel ds keys (if d =? 0 then k else cur) | _, _ => cur end.
Lemma draws_length s m ds : In ds (draws_from s m) -> length ds = m.
Proof.
  revert s ds. induction m as [|m IH]; intros s ds; cbn [draws_from].
  - intros [<-|[]]. reflexivity.
  - intros H. apply in_flat_map in H as (d & _ & H). apply in_map_iff in H as (t & <- & Ht). cbn. f_equal. eapply IH; eauto.
Qed.
Lemma draws_bound s m ds i : In ds (draws_from s m) -> i < m -> nth i ds 0 < s + i + 1.
Proof.
  revert s ds i. induction m as [|m IH]; intros s ds i H Hi; [lia|]. cbn [draws_from] in H. apply in_flat_map in H as (d & Hd & H). apply in_map_iff in H as (t & <- & Ht). apply in_seq in Hd. destruct i as [|i]; cbn [nth]; [lia|]. pose proof (IH (S s) t i Ht). lia.
Qed.
Lemma pa_select_psel (keys : list okey) : forall start ds cur seen k, length ds = seen + length keys -> k = start + seen ->
  (forall i, i < length ds -> nth i ds 0 < i + 1) ->
  pa_select (stream_of start ds) false keys cur seen k = Ok (psel (skipn seen ds) keys cur, k + length keys).
Proof.
  induction keys as [|a keys IH]; intros start ds cur seen k Hl -> Hb; cbn [pa_select length].
  - rewrite Nat.add_0_r in *. now destruct (skipn seen ds).
  - cbn [length] in Hl. unfold random_int. destruct (Nat.eqb_spec (seen + 1) 0); [lia|]. cbn [bind]. rewrite IH; [|lia|lia|auto].
    assert (Hsk : skipn seen ds = nth seen ds 0 :: skipn (S seen) ds).
    { assert (Hlt : seen < length ds) by lia. clear - Hlt. revert seen Hlt. induction ds as [|d ds IH]; intros seen Hlt; [cbn in Hlt; lia|]. destruct seen as [|seen]; cbn [skipn nth]; auto. apply IH. cbn in Hlt. lia. }
    rewrite Hsk. cbn [psel]. replace (seen + 1) with (S seen) by lia. f_equal. f_equal; [|lia]. f_equal. unfold stream_of. replace (start + seen - start) with seen by lia.
    rewrite Nat.mod_small by (pose proof (Hb seen); lia). destruct (nth seen ds 0); reflexivity.
Qed.
Definition cnt (s m : nat) (keys : list okey) (cur t : okey) : nat := length (filter (fun ds => okey_eqb (psel ds keys cur) t) (draws_from s m)).
Lemma cnt_cons s m k keys cur t : cnt s (S m) (k :: keys) cur t = cnt (S s) m keys k t + s * cnt (S s) m keys cur t.
Proof.
  unfold cnt. cbn [draws_from]. change (seq 0 (S s)) with (0 :: seq 1 s). cbn [flat_map]. rewrite filter_app, app_length.
  assert (Hm : forall d, length (filter (fun ds => okey_eqb (psel ds (k :: keys) cur) t) (map (cons d) (draws_from (S s) m))) = length (filter (fun ds => okey_eqb (psel ds keys (if d =? 0 then k else cur)) t) (draws_from (S s) m))).
  { intros d. induction (draws_from (S s) m) as [|x xs IH]; cbn [map filter]; auto. cbn [psel]. match goal with |- context [if ?c then _ :: filter _ (map _ _) else _] => destruct c end; cbn [length]; auto. }
  f_equal; [rewrite (Hm 0); reflexivity|].
  assert (Hs : forall n a, 1 <= a -> length (filter (fun ds => okey_eqb (psel ds (k :: keys) cur) t) (flat_map (fun d => map (cons d) (draws_from (S s) m)) (seq a n))) = n * length (filter (fun ds => okey_eqb (psel ds keys cur) t) (draws_from (S s) m))).
  { induction n as [|n IH]; intros a Ha; cbn [seq flat_map Nat.mul]; auto. rewrite filter_app, app_length, (Hm a), IH by lia. replace (a =? 0) with false by (symmetry; apply Nat.eqb_neq; lia). reflexivity. }
  apply Hs. lia.
Qed.
Lemma draws_count s m : length (draws_from s (S m)) = (s + 1) * length (draws_from (S s) m).
Proof.
  cbn [draws_from]. assert (H : forall n a, length (flat_map (fun d => map (cons d) (draws_from (S s) m)) (seq a n)) = n * length (draws_from (S s) m)).
  { induction n as [|n IH]; intros a; cbn [seq flat_map Nat.mul]; auto. rewrite app_length, map_length, IH. reflexivity. }
  rewrite H. f_equal. lia.
Qed.
Lemma cnt_uniform keys : forall s cur, NoDup (cur :: keys) ->
  cnt s (length keys) keys cur cur * (s + length keys) = s * length (draws_from s (length keys)) /\
  (forall t, In t keys -> cnt s (length keys) keys cur t * (s + length keys) = length (draws_from s (length keys))) /\
  (forall t, ~ In t (cur :: keys) -> cnt s (length keys) keys cur t = 0).
Proof.
  induction keys as [|k keys IH]; intros s cur Hn; cbn [length].
  - cbn [draws_from]. unfold cnt. cbn [draws_from filter psel length]. rewrite okey_eqb_refl. cbn [length]. splits; [lia|intros t []|]. intros t Ht. assert (okey_eqb cur t = false) as -> by (apply okey_eqb_neq; intros ->; apply Ht; now left). reflexivity.
  - apply NoDup_cons_iff in Hn as [Hc Hn]. assert (Hck : cur <> k) by (intros ->; apply Hc; now left).
    assert (Hn2 : NoDup (cur :: keys)) by (constructor; [intros H; apply Hc; now right|now apply NoDup_cons_iff in Hn]). assert (Hk : ~ In k keys) by now apply NoDup_cons_iff in Hn.
    destruct (IH (S s) k Hn) as (A1 & A2 & A3). destruct (IH (S s) cur Hn2) as (B1 & B2 & B3). rewrite draws_count. set (N := length (draws_from (S s) (length keys))) in *. set (m := length keys) in *. splits.
    + rewrite cnt_cons. rewrite A3 by (intros [H|H]; [congruence|apply Hc; now right]). rewrite Nat.add_0_l, <- Nat.mul_assoc. f_equal. replace (s + S m) with (S s + m) by lia. replace (s + 1) with (S s) by lia. exact B1.
    + intros t [<-|Ht]; rewrite cnt_cons.
      * rewrite B3 by (intros [H|H]; [congruence|auto]). rewrite Nat.mul_0_r, Nat.add_0_r. replace (s + S m) with (S s + m) by lia. replace (s + 1) with (S s) by lia. exact A1.
      * pose proof (A2 t Ht) as E1. pose proof (B2 t Ht) as E2. replace (s + S m) with (S s + m) by lia. rewrite Nat.mul_add_distr_r, <- Nat.mul_assoc, E1, E2. lia.
    + intros t Ht. rewrite cnt_cons. rewrite A3, B3; [lia| |]; intros [H|H]; apply Ht; cbn; auto.
Qed.
Lemma pa_uniform E (evs : list nat) (q : pa_state E) l : evs <> [] -> paR (length evs) q l -> l <> [] ->
  exists ks choose, NoDup ks /\ (forall k, In k ks <-> undominated l k) /\
    (forall ds, In ds (draws_from 0 (length ks)) -> exists e q' l', pa_remove E (stream_of (pa_rng E q) ds) false q = Ok (e, q') /\ pareto_pick l (choose ds) e l') /\
    (forall k, In k ks -> length (filter (fun ds => okey_eqb (choose ds) k) (draws_from 0 (length ks))) * length ks = length (draws_from 0 (length ks))).
Proof.
  intros He HR Hl. destruct (pa_nd E q) as [|first rest] eqn:En.
  { exfalso. destruct l as [|[k e] l]; [congruence|]. destruct (undom_exists _ _ (pa_len _ _ _ HR) k) as (m & Hm & _); [now left|]. apply (pa_ndc _ _ _ HR) in Hm. rewrite En in Hm. destruct Hm. }
  assert (Hnd : NoDup (first :: rest)) by (rewrite <- En; apply sorted_nd, HR).
  exists (first :: rest), (fun ds => psel ds (first :: rest) first). splits; auto.
  - intros k. rewrite <- En. apply HR.
  - intros ds Hds. pose proof (draws_length _ _ _ Hds) as Hlen.
    assert (Hsel : pa_select (stream_of (pa_rng E q) ds) false (first :: rest) first 0 (pa_rng E q) = Ok (psel ds (first :: rest) first, pa_rng E q + length (first :: rest))).
    { change ds with (skipn 0 ds) at 2. apply pa_select_psel; [cbn [Nat.add]; auto|lia|]. intros i Hi. apply (draws_bound 0 (length (first :: rest)) ds i Hds). now rewrite <- Hlen. }
    assert (Hin : In (psel ds (first :: rest) first) (pa_nd E q)).
    { rewrite En. clear. assert (H : forall keys ds cur (S0 : list okey), In cur S0 -> incl keys S0 -> In (psel ds keys cur) S0).
      { induction keys as [|k keys IH]; intros ds' cur S0 Hc Hi; [now destruct ds'|]. destruct ds' as [|d ds']; cbn [psel]; auto. apply IH; [destruct (d =? 0); auto; apply Hi; now left|]. intros z Hz. apply Hi. now right. }
      apply H; [now left|apply incl_refl]. }
    destruct (pa_take (length evs) (fun _ => 0) q l _ (pa_rng E q + length (first :: rest)) HR Hin) as (e & q' & l1 & l2 & Et & El & Ha & Hb & _). exists e, q', (l1 ++ l2). split.
    + unfold pa_remove. rewrite En, Hsel. cbn [bind]. rewrite En in Et. exact Et.
    + exists l1, l2. splits; auto.
  - intros k Hk. change (cnt 0 (length (first :: rest)) (first :: rest) first k * length (first :: rest) = length (draws_from 0 (length (first :: rest)))). cbn [length]. rewrite cnt_cons, draws_count. cbn [Nat.mul Nat.add]. rewrite !Nat.add_0_r.
    destruct (cnt_uniform rest 1 first Hnd) as (A1 & A2 & _). destruct Hk as [<-|Hk]; [rewrite Nat.mul_1_l in A1; exact A1|now apply A2].
Qed.
