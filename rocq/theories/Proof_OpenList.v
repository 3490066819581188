(** Bucket queues are stable priority queues. *)
From Coq Require Import Permutation Sorting.Sorted.
From Verif Require Import Outcome Spec_OpenList Model_OpenList Spec_OpenListContract.

Record cmp_ok {K} (cmp : K -> K -> comparison) (lt : K -> K -> Prop) : Prop := {
  cmp_eq : forall a b, cmp a b = Eq <-> a = b;
  cmp_lt : forall a b, cmp a b = Lt <-> lt a b;
  cmp_gt : forall a b, cmp a b = Gt <-> lt b a;
  lt_trans_k : forall a b c, lt a b -> lt b c -> lt a c;
  lt_irrefl_k : forall a, ~ lt a a
}.

Section BQ.
Context {K E : Type}.
Variable cmp : K -> K -> comparison.
Variable lt : K -> K -> Prop.
Hypothesis HC : cmp_ok cmp lt.
Implicit Types m : list (K * list E).
Implicit Types l : list (K * E).
Implicit Types e : E.

Definition keqb (a b : K) : bool := match cmp a b with Eq => true | _ => false end.

Lemma keqb_eq a b : keqb a b = true <-> a = b.
Proof. unfold keqb. rewrite <- (cmp_eq _ _ HC). destruct (cmp a b); split; congruence. Qed.
Lemma keqb_refl a : keqb a a = true.
Proof. now apply keqb_eq. Qed.
Lemma keqb_neq a b : keqb a b = false <-> a <> b.
Proof. rewrite <- keqb_eq. destruct (keqb a b); split; congruence. Qed.

Fixpoint bucket (m : list (K * list E)) (k : K) : list E :=
  match m with
  | [] => []
  | (k', b) :: rest => if keqb k k' then b else bucket rest k
  end.

Definition below (k : K) (m : list (K * list E)) : Prop := forall k' b, In (k', b) m -> lt k k'.

Inductive sorted : list (K * list E) -> Prop :=
| sorted_nil : sorted []
| sorted_cons : forall k b m, b <> [] -> below k m -> sorted m -> sorted ((k, b) :: m).

Definition content (l : list (K * E)) (k : K) : list E :=
  map snd (filter (fun x => keqb k (fst x)) l).

Definition rep (m : list (K * list E)) (l : list (K * E)) : Prop :=
  sorted m /\ forall k, bucket m k = content l k.

Lemma bucket_below m k : below k m -> bucket m k = [].
Proof.
  induction m as [|[k' b] m IH]; cbn; auto. intros H.
  destruct (keqb k k') eqn:Ek.
  - apply keqb_eq in Ek; subst. exfalso. eapply (lt_irrefl_k _ _ HC). apply (H k' b). cbn; auto.
  - apply IH. intros k2 b2 H2. apply (H k2 b2). cbn; auto.
Qed.

Lemma bm_push_in m k e k' b : In (k', b) (bm_push cmp m k e) -> k' = k \/ exists b', In (k', b') m.
Proof.
  induction m as [|[k1 b1] m IH]; cbn.
  - intros [H|[]]. inv H; auto.
  - destruct (cmp k k1) eqn:Ec; cbn.
    + intros [H|H]; [inv H|]; eauto.
    + intros [H|[H|H]]; [inv H|inv H|]; eauto.
    + intros [H|H]; [inv H; eauto|]. destruct (IH H) as [|[b' Hb]]; eauto.
Qed.

Lemma bm_push_sorted m k e : sorted m -> sorted (bm_push cmp m k e).
Proof.
  induction 1 as [|k1 b1 m Hb Hbl Hs IH]; cbn.
  - constructor; [discriminate|intros ? ? []|constructor].
  - destruct (cmp k k1) eqn:Ec.
    + constructor; auto. destruct b1; discriminate.
    + apply (cmp_lt _ _ HC) in Ec. constructor; [discriminate| |constructor; auto].
      intros k' b' [H|H]; [inv H; auto|]. eapply (lt_trans_k _ _ HC); eauto.
    + apply (cmp_gt _ _ HC) in Ec. constructor; auto.
      intros k' b' H. apply bm_push_in in H. destruct H as [->|[b2 H]]; eauto.
Qed.

Lemma bm_push_bucket m k e k' : sorted m ->
  bucket (bm_push cmp m k e) k' = if keqb k' k then bucket m k ++ [e] else bucket m k'.
Proof.
  induction 1 as [|k1 b1 m Hb Hbl Hs IH]; cbn.
  - destruct (keqb k' k); auto.
  - destruct (cmp k k1) eqn:Ec; cbn.
    + apply (cmp_eq _ _ HC) in Ec; subst. rewrite keqb_refl. destruct (keqb k' k1); auto.
    + apply (cmp_lt _ _ HC) in Ec.
      destruct (keqb k' k) eqn:E1; auto.
      destruct (keqb k k1) eqn:E2.
      { apply keqb_eq in E2; subst. exfalso; eapply (lt_irrefl_k _ _ HC); eauto. }
      rewrite bucket_below; auto.
      intros k2 b2 H. eapply (lt_trans_k _ _ HC); eauto.
    + apply (cmp_gt _ _ HC) in Ec.
      assert (E2 : keqb k k1 = false).
      { apply keqb_neq. intros ->. eapply (lt_irrefl_k _ _ HC); eauto. }
      rewrite E2. destruct (keqb k' k1) eqn:E1.
      * apply keqb_eq in E1; subst. destruct (keqb k1 k) eqn:E3; auto.
        apply keqb_eq in E3; subst. rewrite keqb_refl in E2; discriminate.
      * exact IH.
Qed.

Lemma content_app l1 l2 k : content (l1 ++ l2) k = content l1 k ++ content l2 k.
Proof. unfold content. now rewrite filter_app, map_app. Qed.

Lemma rep_push m l k e : rep m l -> rep (bm_push cmp m k e) (l ++ [(k, e)]).
Proof.
  intros [Hs Hb]. split; [now apply bm_push_sorted|].
  intros k'. rewrite bm_push_bucket by auto. rewrite content_app. unfold content at 2; cbn.
  destruct (keqb k' k) eqn:Ek; cbn.
  - apply keqb_eq in Ek; subst. now rewrite Hb.
  - rewrite app_nil_r. auto.
Qed.

Lemma rep_nil : rep [] [].
Proof. split; [constructor|reflexivity]. Qed.

Lemma content_split l k e b : content l k = e :: b ->
  exists l1 l2, l = l1 ++ (k, e) :: l2 /\ content l2 k = b /\ forall x, In x l1 -> fst x <> k.
Proof.
  induction l as [|[k1 e1] l IH]; cbn; [discriminate|].
  unfold content; cbn. destruct (keqb k k1) eqn:Ek; cbn; intros H.
  - apply keqb_eq in Ek; subst. inv H. exists [], l; splits; auto; intros x [].
  - apply keqb_neq in Ek. destruct (IH H) as (l1 & l2 & -> & Hc & Hn).
    exists ((k1, e1) :: l1), l2. splits; auto. intros x [<-|Hx]; cbn; auto.
Qed.

Lemma content_none l1 k : (forall x, In x l1 -> fst x <> k) -> content l1 k = [].
Proof.
  induction l1 as [|[k1 e1] l1 IH]; cbn; auto. intros H. unfold content; cbn.
  destruct (keqb k k1) eqn:Ek.
  - apply keqb_eq in Ek; subst. exfalso. apply (H (k1, e1)); cbn; auto.
  - apply IH. intros x Hx. apply H; auto.
Qed.

Lemma content_cons_other k e l k' : k' <> k -> content ((k, e) :: l) k' = content l k'.
Proof. intros H. unfold content; cbn. apply keqb_neq in H. now rewrite H. Qed.

Lemma in_content l k e : In (k, e) l -> content l k <> [].
Proof.
  intros H. unfold content. intros Hn.
  assert (Hin : In (k, e) (filter (fun x => keqb k (fst x)) l)).
  { apply filter_In. split; auto. cbn. apply keqb_refl. }
  apply (in_map snd) in Hin. rewrite Hn in Hin. destruct Hin.
Qed.

Lemma bucket_in m k : bucket m k <> [] -> exists b, In (k, b) m.
Proof.
  induction m as [|[k1 b1] m IH]; cbn; [congruence|]. destruct (keqb k k1) eqn:Ek.
  - apply keqb_eq in Ek; subst. eauto.
  - intros H. destruct (IH H) as [b Hb]; eauto.
Qed.

Lemma lt_or_eq a b : a = b \/ lt a b \/ lt b a.
Proof.
  destruct (cmp a b) eqn:Ec.
  - left. now apply (cmp_eq _ _ HC).
  - right; left. now apply (cmp_lt _ _ HC).
  - right; right. now apply (cmp_gt _ _ HC).
Qed.

Lemma rep_pop m l : rep m l -> l <> [] ->
  exists k e m' l', bm_pop m = Ok (e, m') /\ stable_min lt l k e l' /\ rep m' l'.
Proof.
  intros [Hs Hb] Hne. destruct m as [|[k b] m].
  { exfalso. destruct l as [|[k e] l]; [congruence|].
    assert (In (k, e) ((k, e) :: l)) as Hi by (cbn; auto). apply in_content in Hi.
    rewrite <- Hb in Hi. cbn in Hi. congruence. }
  inversion Hs as [|? ? ? Hbn Hbl Hsm]; subst.
  pose proof (Hb k) as Hk. cbn in Hk. rewrite keqb_refl in Hk.
  destruct b as [|e b]; [congruence|]. symmetry in Hk.
  destruct (content_split _ _ _ _ Hk) as (l1 & l2 & -> & Hc & Hn).
  assert (Hmin : forall x, In x (l1 ++ (k, e) :: l2) -> ~ lt (fst x) k).
  { intros [kx ex] Hx Hlt. cbn in Hlt. pose proof (in_content _ _ _ Hx) as Hnn.
    rewrite <- Hb in Hnn. cbn in Hnn. destruct (keqb kx k) eqn:Ex.
    - apply keqb_eq in Ex; subst. eapply (lt_irrefl_k _ _ HC); eauto.
    - destruct (bucket_in _ _ Hnn) as [bx Hbx]. apply Hbl in Hbx.
      eapply (lt_irrefl_k _ _ HC). eapply (lt_trans_k _ _ HC); eauto. }
  assert (Hst : stable_min lt (l1 ++ (k, e) :: l2) k e (l1 ++ l2)).
  { exists l1, l2. splits; auto.
    - intros x Hx. destruct (lt_or_eq k (fst x)) as [He|[|Hl]]; auto.
      + exfalso. apply (Hn x Hx). auto.
      + exfalso. apply (Hmin x); auto. apply in_or_app; auto.
    - intros x Hx. apply Hmin. apply in_or_app; cbn; auto. }
  assert (Hoth : forall k', k' <> k -> bucket m k' = content (l1 ++ l2) k').
  { intros k' Hk'. pose proof (Hb k') as H'. cbn in H'. apply keqb_neq in Hk' as Hk2. rewrite Hk2 in H'.
    rewrite H'. rewrite !content_app. f_equal. now apply content_cons_other. }
  assert (Hsame : content (l1 ++ l2) k = b).
  { rewrite content_app, (content_none l1 k Hn). exact Hc. }
  destruct b as [|e2 b].
  - exists k, e, m, (l1 ++ l2). splits; auto.
    split; auto. intros k'. destruct (keqb k' k) eqn:Ek.
    + apply keqb_eq in Ek; subst. rewrite Hsame. now apply bucket_below.
    + apply Hoth. now apply keqb_neq.
  - exists k, e, ((k, e2 :: b) :: m), (l1 ++ l2). splits; auto.
    split.
    + constructor; auto. discriminate.
    + intros k'. cbn. destruct (keqb k' k) eqn:Ek.
      * apply keqb_eq in Ek; subst. auto.
      * apply Hoth. now apply keqb_neq.
Qed.

Definition bqrep (q : bucket_queue K E) (l : list (K * E)) : Prop :=
  rep (bq_map q) l /\ bq_size q = length l.

Lemma bqrep_insert q l k e : bqrep q l -> bqrep (bq_insert cmp q k e) (l ++ [(k, e)]).
Proof.
  intros [H1 H2]. split; cbn; [now apply rep_push|]. rewrite app_length; cbn. lia.
Qed.

Lemma stable_min_length l k e l' : stable_min lt l k e l' -> length l = S (length l').
Proof. intros (l1 & l2 & -> & -> & _). rewrite !app_length; cbn; lia. Qed.

Lemma bqrep_remove q l : bqrep q l -> l <> [] ->
  exists k e q' l', bq_remove q = Ok (e, q') /\ stable_min lt l k e l' /\ bqrep q' l'.
Proof.
  intros [H1 H2] Hne. destruct (rep_pop _ _ H1 Hne) as (k & e & m' & l' & Hp & Hst & Hr).
  pose proof (stable_min_length _ _ _ _ Hst) as Hl.
  unfold bq_remove. rewrite H2, Hl, Hp; cbn. eexists k, e, _, l'. splits; eauto. split; auto.
Qed.

Lemma bqrep_empty q l : bqrep q l -> ((bq_size q =? 0) = true <-> l = []).
Proof.
  intros [_ ->]. rewrite Nat.eqb_eq. destruct l; cbn; split; congruence || lia.
Qed.

Lemma bqrep_init : bqrep {| bq_map := []; bq_size := 0 |} [].
Proof. split; [apply rep_nil|reflexivity]. Qed.

(** stable minima are unique *)
Lemma stable_min_det l k e l' k2 e2 l2 :
  stable_min lt l k e l' -> stable_min lt l k2 e2 l2 -> k = k2 /\ e = e2 /\ l' = l2.
Proof.
  intros (a1 & a2 & E1 & -> & A1 & A2) (b1 & b2 & E2 & -> & B1 & B2). subst l.
  revert b1 E2 B1. induction a1 as [|x a1 IH]; intros [|y b1] E2 B1; cbn in *.
  - inv E2. auto.
  - inv E2. exfalso. assert (In (k2, e2) (b1 ++ (k2, e2) :: b2)) as Hi by (apply in_or_app; cbn; auto).
    apply A2 in Hi. apply Hi. cbn. apply (B1 (k, e)). auto.
  - inv E2. exfalso. assert (In (k, e) (a1 ++ (k, e) :: a2)) as Hi by (apply in_or_app; cbn; auto).
    apply B2 in Hi. apply Hi. cbn. apply (A1 (k2, e2)). auto.
  - inv E2. destruct (IH (fun z Hz => A1 z (or_intror Hz)) b1 H1 (fun z Hz => B1 z (or_intror Hz))) as (-> & -> & Eq0).
    splits; auto. congruence.
Qed.
End BQ.

Lemma nat_cmp_ok : cmp_ok Nat.compare lt.
Proof.
  constructor; intros.
  - apply Nat.compare_eq_iff.
  - apply Nat.compare_lt_iff.
  - apply Nat.compare_gt_iff.
  - lia.
  - lia.
Qed.

Lemma val_cmp_eq a b : val_cmp a b = Eq <-> a = b.
Proof.
  destruct a, b; cbn; try (split; congruence). rewrite Nat.compare_eq_iff. split; congruence.
Qed.
Lemma val_cmp_lt a b : val_cmp a b = Lt <-> val_lt a b.
Proof. destruct a, b; cbn; try (split; (congruence || tauto)). apply Nat.compare_lt_iff. Qed.
Lemma val_cmp_gt a b : val_cmp a b = Gt <-> val_lt b a.
Proof. destruct a, b; cbn; try (split; (congruence || tauto)). apply Nat.compare_gt_iff. Qed.
Lemma val_lt_trans a b c : val_lt a b -> val_lt b c -> val_lt a c.
Proof. destruct a, b, c; cbn; try tauto. lia. Qed.
Lemma val_lt_irrefl a : ~ val_lt a a.
Proof. destruct a; cbn; lia. Qed.

Lemma lex_irrefl a : ~ lex_lt a a.
Proof. induction a; intros H; inv H; auto. eapply val_lt_irrefl; eauto. Qed.
Lemma lex_trans a b : lex_lt a b -> forall c, lex_lt b c -> lex_lt a c.
Proof.
  induction 1; intros c Hc; inv Hc; try (now constructor).
  - constructor 2. eapply val_lt_trans; eauto.
  - constructor 3. auto.
Qed.

Lemma lex_cmp_ok : cmp_ok lex_cmp lex_lt.
Proof.
  constructor.
  - induction a as [|x a IH]; intros [|y b]; cbn; try (split; congruence).
    destruct (val_cmp x y) eqn:Ev.
    + rewrite IH. apply val_cmp_eq in Ev; subst. split; congruence.
    + split; [discriminate|]. intros Hx; inv Hx. assert (val_cmp y y = Eq) by (now apply val_cmp_eq). congruence.
    + split; [discriminate|]. intros Hx; inv Hx. assert (val_cmp y y = Eq) by (now apply val_cmp_eq). congruence.
  - induction a as [|x a IH]; intros [|y b]; cbn.
    + split; [discriminate|intros H; inv H].
    + split; auto. constructor.
    + split; [discriminate|intros H; inv H].
    + destruct (val_cmp x y) eqn:Ev.
      * rewrite IH. apply val_cmp_eq in Ev; subst. split; [now constructor 3|].
        intros H; inv H; auto. exfalso; eapply val_lt_irrefl; eauto.
      * split; auto. intros _. constructor 2. now apply val_cmp_lt.
      * split; [discriminate|]. intros H. exfalso. apply val_cmp_gt in Ev. inv H.
        -- eapply val_lt_irrefl. eapply val_lt_trans; eauto.
        -- eapply val_lt_irrefl; eauto.
  - induction a as [|x a IH]; intros [|y b]; cbn.
    + split; [discriminate|intros H; inv H].
    + split; [discriminate|intros H; inv H].
    + split; auto. constructor.
    + destruct (val_cmp x y) eqn:Ev.
      * rewrite IH. apply val_cmp_eq in Ev; subst. split; [now constructor 3|].
        intros H; inv H; auto. exfalso; eapply val_lt_irrefl; eauto.
      * split; [discriminate|]. intros H. exfalso. apply val_cmp_lt in Ev. inv H.
        -- eapply val_lt_irrefl. eapply val_lt_trans; eauto.
        -- eapply val_lt_irrefl; eauto.
      * split; auto. intros _. constructor 2. now apply val_cmp_gt.
  - intros a b c H. now apply lex_trans.
  - apply lex_irrefl.
Qed.

(** Histories. *)
Section History.
Context {K E : Type}.
Variable cmp : K -> K -> comparison.
Variable lt : K -> K -> Prop.
Hypothesis HC : cmp_ok cmp lt.
Variable L : open_list E.
Variable R : OL L -> list (K * E) -> Prop.
Variable key : ectx -> option K.
Hypothesis R_insert : forall q l x e, R q l ->
  exists q', ol_insert L q x e = Ok q' /\
    R q' (match key x with Some k => l ++ [(k, e)] | None => l end).
Hypothesis R_remove : forall q l, R q l -> l <> [] ->
  exists k e q' l', ol_remove_min L q = Ok (e, q') /\ stable_min lt l k e l' /\ R q' l'.
Hypothesis R_remove_nil : forall q, R q [] -> ol_remove_min L q = UB.
Hypothesis R_clear : forall q l, R q l -> R (ol_clear L q) [].
Hypothesis R_empty : forall q l, R q l -> (ol_empty L q = true <-> l = []).

Lemma history_refines ops : forall q l, R q l ->
  match ol_run L q ops with
  | Ok (outs, q') => exists l', pq_history lt key l ops outs l' /\ (ol_empty L q' = true <-> l' = [])
  | _ => forall outs l', ~ pq_history lt key l ops outs l'
  end.
Proof.
  induction ops as [|op ops IH]; intros q l HR; cbn [ol_run].
  - exists l. split; [constructor|eauto].
  - destruct op as [x e| |].
    + destruct (R_insert q l x e HR) as (q' & E1 & R'). rewrite E1; cbn [bind].
      specialize (IH _ _ R'). destruct (key x) as [k|] eqn:Ek.
      * destruct (ol_run L q' ops) as [[outs q2]| | |].
        -- destruct IH as (l' & H1 & H2). exists l'. split; auto. eapply pqh_insert; eauto.
        -- intros outs l' Hh. inv Hh; [|congruence]. match goal with H : key x = Some _ |- _ => rewrite Ek in H; inv H end. eapply IH; eauto.
        -- intros outs l' Hh. inv Hh; [|congruence]. match goal with H : key x = Some _ |- _ => rewrite Ek in H; inv H end. eapply IH; eauto.
        -- intros outs l' Hh. inv Hh; [|congruence]. match goal with H : key x = Some _ |- _ => rewrite Ek in H; inv H end. eapply IH; eauto.
      * destruct (ol_run L q' ops) as [[outs q2]| | |].
        -- destruct IH as (l' & H1 & H2). exists l'. split; auto. eapply pqh_refuse; eauto.
        -- intros outs l' Hh. inv Hh; [congruence|]. eapply IH; eauto.
        -- intros outs l' Hh. inv Hh; [congruence|]. eapply IH; eauto.
        -- intros outs l' Hh. inv Hh; [congruence|]. eapply IH; eauto.
    + destruct l as [|p l].
      * rewrite R_remove_nil by auto. cbn [bind]. intros outs l' Hh. inv Hh.
        match goal with H : stable_min _ [] _ _ _ |- _ => destruct H as (? & ? & Hx & _) end.
        destruct x; discriminate.
      * destruct (R_remove q (p :: l) HR) as (k & e & q' & l1 & E1 & Hst & R'); [discriminate|].
        rewrite E1; cbn [bind]. specialize (IH _ _ R').
        destruct (ol_run L q' ops) as [[outs q2]| | |]; cbn [bind].
        -- destruct IH as (l' & H1 & H2). exists l'. split; auto. econstructor; eauto.
        -- intros outs l' Hh. inv Hh.
           match goal with H : stable_min _ _ _ _ _ |- _ => destruct (stable_min_det lt _ _ _ _ _ _ _ Hst H) as (<- & <- & <-) end.
           eapply IH; eauto.
        -- intros outs l' Hh. inv Hh.
           match goal with H : stable_min _ _ _ _ _ |- _ => destruct (stable_min_det lt _ _ _ _ _ _ _ Hst H) as (<- & <- & <-) end.
           eapply IH; eauto.
        -- intros outs l' Hh. inv Hh.
           match goal with H : stable_min _ _ _ _ _ |- _ => destruct (stable_min_det lt _ _ _ _ _ _ _ Hst H) as (<- & <- & <-) end.
           eapply IH; eauto.
    + specialize (IH _ _ (R_clear _ _ HR)).
      destruct (ol_run L (ol_clear L q) ops) as [[outs q2]| | |].
      * destruct IH as (l' & H1 & H2). exists l'. split; auto. now constructor.
      * intros outs l' Hh. inv Hh. eapply IH; eauto.
      * intros outs l' Hh. inv Hh. eapply IH; eauto.
      * intros outs l' Hh. inv Hh. eapply IH; eauto.
Qed.
End History.

(** Keys under which entries are accepted. *)
Lemma best_first_history E reliable ev pref_only ops :
  match ol_run (best_first E reliable ev pref_only) (ol_init (best_first E reliable ev pref_only)) ops with
  | Ok (outs, q') => exists l', pq_history lt (bf_key ev pref_only) [] ops outs l' /\
                       (ol_empty (best_first E reliable ev pref_only) q' = true <-> l' = [])
  | _ => forall outs l', ~ pq_history lt (bf_key ev pref_only) [] ops outs l'
  end.
Proof.
  apply (history_refines lt (best_first E reliable ev pref_only) (@bqrep nat E Nat.compare lt)).
  - intros q l x e HR. unfold ol_insert, bf_key; cbn [ol_only_pref ol_dead best_first ol_do_insertion].
    destruct (pref_only && negb (x_pref x)); [eauto|].
    unfold is_infinite. destruct (x_val x ev) as [k|] eqn:Ek; [|eauto].
    eexists; split; eauto. apply bqrep_insert; auto. apply nat_cmp_ok.
  - intros q l HR Hne. cbn. eapply bqrep_remove; eauto. apply nat_cmp_ok.
  - intros q [_ Hs]. cbn. unfold bq_remove. rewrite Hs. reflexivity.
  - intros q l HR. cbn. apply bqrep_init.
  - intros q l HR. cbn [ol_empty best_first]. eapply bqrep_empty; eauto.
  - apply bqrep_init.
Qed.

Definition tb_key (reliable : nat -> bool) (evs : list nat) (unsafe pref_only : bool) (x : ectx)
  : option (list (option nat)) :=
  if pref_only && negb (x_pref x) then None
  else if ol_dead (tie_breaking nat reliable evs unsafe pref_only) x then None
  else Some (map (x_val x) evs).

Lemma is_infinite_true x ev : is_infinite x ev = true <-> x_val x ev = None.
Proof. unfold is_infinite. destruct (x_val x ev); split; congruence. Qed.

Lemma any_reliable_true reliable evs x : any_reliable_infinite reliable evs x = true <->
  exists ev, In ev evs /\ x_val x ev = None /\ reliable ev = true.
Proof.
  unfold any_reliable_infinite. rewrite existsb_exists. split.
  - intros (ev & H & Hb). apply andb_true_iff in Hb. rewrite is_infinite_true in Hb. exists ev; tauto.
  - intros (ev & H & Hb). exists ev. rewrite andb_true_iff, is_infinite_true. tauto.
Qed.

Lemma all_infinite_true evs x : all_infinite evs x = true <-> forall ev, In ev evs -> x_val x ev = None.
Proof.
  unfold all_infinite. rewrite forallb_forall. split; intros H ev Hev; apply is_infinite_true; auto.
Qed.

Lemma tb_dead_spec E reliable evs unsafe pref_only x :
  ol_dead (tie_breaking E reliable evs unsafe pref_only) x = true <-> tb_dead reliable evs unsafe x.
Proof.
  cbn [ol_dead tie_breaking]. unfold tb_dead.
  rewrite <- any_reliable_true, <- all_infinite_true.
  destruct (any_reliable_infinite reliable evs x); [tauto|].
  destruct unsafe, evs as [|ev evs]; cbn [andb]; try tauto.
  - destruct (is_infinite x ev) eqn:Ei.
    + apply is_infinite_true in Ei. split; auto. intros _. right; left. split; auto. eauto.
    + split; auto. intros [|[(_ & ev' & rest & Hx & Hi)|]]; try congruence.
      inv Hx. apply is_infinite_true in Hi. congruence.
  - split; auto. intros [|[[]|]]; congruence.
Qed.

Lemma tie_breaking_history E reliable evs unsafe pref_only ops :
  match ol_run (tie_breaking E reliable evs unsafe pref_only)
               (ol_init (tie_breaking E reliable evs unsafe pref_only)) ops with
  | Ok (outs, q') => exists l', pq_history lex_lt (tb_key reliable evs unsafe pref_only) [] ops outs l' /\
                       (ol_empty (tie_breaking E reliable evs unsafe pref_only) q' = true <-> l' = [])
  | _ => forall outs l', ~ pq_history lex_lt (tb_key reliable evs unsafe pref_only) [] ops outs l'
  end.
Proof.
  apply (history_refines lex_lt (tie_breaking E reliable evs unsafe pref_only)
           (@bqrep (list (option nat)) E lex_cmp lex_lt)).
  - intros q l x e HR. unfold ol_insert, tb_key.
    cbn [ol_only_pref tie_breaking ol_do_insertion].
    destruct (pref_only && negb (x_pref x)); [eauto|].
    change (ol_dead (tie_breaking nat reliable evs unsafe pref_only) x) with
      (ol_dead (tie_breaking E reliable evs unsafe pref_only) x).
    destruct (ol_dead (tie_breaking E reliable evs unsafe pref_only) x); [eauto|].
    eexists; split; eauto. apply bqrep_insert; auto. apply lex_cmp_ok.
  - intros q l HR Hne. cbn. eapply bqrep_remove; eauto. apply lex_cmp_ok.
  - intros q [_ Hs]. cbn. unfold bq_remove. rewrite Hs. reflexivity.
  - intros q l HR. cbn. apply bqrep_init.
  - intros q l HR. cbn [ol_empty tie_breaking]. eapply bqrep_empty; eauto.
  - apply bqrep_init.
Qed.

Lemma tb_key_spec reliable evs unsafe pref_only x :
  (tb_key reliable evs unsafe pref_only x = None <->
     (pref_only = true /\ x_pref x = false) \/ tb_dead reliable evs unsafe x) /\
  (forall k, tb_key reliable evs unsafe pref_only x = Some k -> k = map (x_val x) evs).
Proof.
  unfold tb_key. rewrite <- (tb_dead_spec nat reliable evs unsafe pref_only x).
  destruct pref_only, (x_pref x); cbn [andb negb]; destruct (ol_dead _ x);
    (split; [split; try congruence; intuition congruence | intros k H; congruence]).
Qed.

Lemma tie_breaking_history_spec E reliable evs unsafe pref_only :
  exists key : ectx -> option (list (option nat)),
    (forall x, (key x = None <-> (pref_only = true /\ x_pref x = false) \/ tb_dead reliable evs unsafe x) /\
               (forall k, key x = Some k -> k = map (x_val x) evs)) /\
    forall ops : list (pq_op ectx E),
      match ol_run (tie_breaking E reliable evs unsafe pref_only)
                   (ol_init (tie_breaking E reliable evs unsafe pref_only)) ops with
      | Ok (outs, q') => exists l', pq_history lex_lt key [] ops outs l' /\
                           (ol_empty (tie_breaking E reliable evs unsafe pref_only) q' = true <-> l' = [])
      | _ => forall outs l', ~ pq_history lex_lt key [] ops outs l'
      end.
Proof.
  exists (tb_key reliable evs unsafe pref_only). split.
  - apply tb_key_spec.
  - intros ops. apply tie_breaking_history.
Qed.
