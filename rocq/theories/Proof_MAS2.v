(** Merging builds the synchronized product. *)
From Coq Require Import Permutation.
From Verif Require Import Outcome Spec_FTS Model_MAS Proof_MAS1.

Record twf (L : label_costs) (maxl : nat) (T : tsys) : Prop := {
  w_g : gwf L (ts_n T) (ts_l2l T) (ts_infos T);
  w_max : length (ts_l2l T) = maxl;
  w_goals : length (ts_goals T) = ts_n T;
  w_init : forall s, ts_init T = Some s -> s < ts_n T
}.

(** ** Buckets *)
Lemma add_to_bucket_key bs k l : map fst (add_to_bucket bs k l) = if existsb (fun b => fst b =? k) bs then map fst bs else map fst bs ++ [k].
Proof.
  induction bs as [|[k' ls] r IH]; [reflexivity|]. cbn [add_to_bucket existsb fst map]. destruct (k' =? k); cbn [orb map fst]; [reflexivity|].
  rewrite IH. now destruct (existsb _ r).
Qed.
Lemma add_to_bucket_NoDup bs k l : NoDup (map fst bs) -> NoDup (map fst (add_to_bucket bs k l)).
Proof.
  intros H. rewrite add_to_bucket_key. destruct (existsb (fun b => fst b =? k) bs) eqn:E; auto.
  assert (Hn : ~ In k (map fst bs)).
  { intros Hin. apply in_map_iff in Hin as (b & <- & Hb). assert (existsb (fun b0 => fst b0 =? fst b) bs = true) by (apply existsb_exists; exists b; split; auto; apply Nat.eqb_refl). congruence. }
  clear E. induction bs as [|b r IH]; cbn [map app] in *; [repeat constructor; auto|]. inversion H; subst. constructor.
  - rewrite in_app_iff. cbn [In]. intros [Hx|[Hx|[]]]; auto. apply Hn. now left.
  - apply IH; auto. intros Hx. apply Hn. now right.
Qed.
Lemma add_to_bucket_In bs k l : NoDup (map fst bs) -> forall k' l', (exists ls, In (k', ls) (add_to_bucket bs k l) /\ In l' ls) <-> (exists ls, In (k', ls) bs /\ In l' ls) \/ (k' = k /\ l' = l).
Proof.
  induction bs as [|[k0 ls0] r IH]; intros Hnd k' l'; cbn [add_to_bucket].
  - split.
    + intros (ls & [E|[]] & H). inversion E; subst. destruct H as [<-|[]]. auto.
    + intros [(ls & [] & _)|[-> ->]]. exists [l]. split; left; auto.
  - inversion Hnd as [|? ? Hk0 Hnd']; subst. destruct (Nat.eqb_spec k0 k) as [->|Hne].
    + split.
      * intros (ls & [E|H1] & H); [inversion E; subst; apply in_app_or in H as [H|[<-|[]]]; auto; left; exists ls0; split; auto; now left|left; exists ls; split; auto; now right].
      * intros [(ls & [E|H1] & H)|[-> ->]]; [inversion E; subst; exists (ls ++ [l]); split; [now left|apply in_or_app; auto]|exists ls; split; auto; now right|exists (ls0 ++ [l]); split; [now left|apply in_or_app; right; now left]].
    + specialize (IH Hnd' k' l'). split.
      * intros (ls & [E|H1] & H); [inversion E; subst; left; exists ls; split; auto; now left|]. destruct (proj1 IH (ex_intro _ ls (conj H1 H))) as [(ls' & A & B)|]; auto. left. exists ls'. split; auto. now right.
      * intros [(ls & [E|H1] & H)|H]; [inversion E; subst; exists ls; split; auto; now left| |].
        -- destruct (proj2 IH (or_introl (ex_intro _ ls (conj H1 H)))) as (ls' & A & B). exists ls'. split; auto. now right.
        -- destruct (proj2 IH (or_intror H)) as (ls' & A & B). exists ls'. split; auto. now right.
Qed.
Lemma add_to_bucket_ne bs k l : (forall b, In b bs -> snd b <> []) -> forall b, In b (add_to_bucket bs k l) -> snd b <> [].
Proof.
  induction bs as [|[k0 ls0] r IH]; intros H b; cbn [add_to_bucket].
  - intros [<-|[]]. discriminate.
  - destruct (k0 =? k).
    + intros [<-|Hb]; [cbn [snd]; destruct ls0; discriminate|apply H; now right].
    + intros [<-|Hb]; [apply H; now left|]. apply IH; auto. intros b' Hb'. apply H. now right.
Qed.

Lemma distribute_ok T2 group : (forall l, In l group -> exists k, nth_error (ts_l2l T2) l = Some (Some k)) ->
  exists bs, distribute T2 group = Ok bs /\ NoDup (map fst bs) /\ (forall b, In b bs -> snd b <> []) /\
    forall k l, (exists ls, In (k, ls) bs /\ In l ls) <-> In l group /\ nth_error (ts_l2l T2) l = Some (Some k).
Proof.
  unfold distribute. intros H.
  assert (G : forall rest pre bs, (forall l, In l rest -> exists k, nth_error (ts_l2l T2) l = Some (Some k)) -> NoDup (map fst bs) -> (forall b, In b bs -> snd b <> []) ->
     (forall k l, (exists ls, In (k, ls) bs /\ In l ls) <-> In l pre /\ nth_error (ts_l2l T2) l = Some (Some k)) ->
     exists bs', fold_outcome (fun bs l => let* k := vget (ts_l2l T2) l in match k with Some k => Ok (add_to_bucket bs k l) | None => UB end) rest bs = Ok bs' /\
       NoDup (map fst bs') /\ (forall b, In b bs' -> snd b <> []) /\ forall k l, (exists ls, In (k, ls) bs' /\ In l ls) <-> In l (pre ++ rest) /\ nth_error (ts_l2l T2) l = Some (Some k)).
  { induction rest as [|x rest IH]; intros pre bs Hr Hnd Hne Hiff; cbn [fold_outcome].
    - exists bs. rewrite app_nil_r. auto.
    - destruct (Hr x (or_introl eq_refl)) as [k Hk]. unfold vget. rewrite Hk. cbn [bind].
      destruct (IH (pre ++ [x]) (add_to_bucket bs k x)) as (bs' & E & A & B & C).
      + intros l Hl. apply Hr. now right.
      + now apply add_to_bucket_NoDup.
      + now apply add_to_bucket_ne.
      + intros k' l'. rewrite add_to_bucket_In, Hiff by auto. rewrite in_app_iff. cbn [In]. split; [intros [[? ?]|[-> ->]]; auto|]. intros [[?|[<-|[]]] E]; auto. right. split; auto. congruence.
      + unfold vget in E. exists bs'. splits; auto. rewrite <- app_assoc in C. exact C. }
  destruct (G group [] []) as (bs & E & A & B & C); auto; [apply NoDup_nil|intros k l; split; [intros (ls & [] & _)|intros [[] _]]|]. exists bs. auto.
Qed.

Section MERGE.
Variable L : label_costs.
Variable maxl : nat.
Variables T1 T2 : tsys.
Hypothesis W1 : twf L maxl T1.
Hypothesis W2 : twf L maxl T2.
Notation n1 := (ts_n T1).
Notation n2 := (ts_n T2).
Notation step1 := (gstep (ts_l2l T1) (ts_infos T1)).
Notation step2 := (gstep (ts_l2l T2) (ts_infos T2)).
Definition prod (l x y : nat) : Prop :=
  exists s1 s2 t1 t2, x = s1 * n2 + s2 /\ y = t1 * n2 + t2 /\ s2 < n2 /\ t2 < n2 /\ step1 l s1 t1 /\ step2 l s2 t2.

Record MInv (Done : nat -> Prop) (st : merge_state) : Prop := {
  mi_len : length (fst (fst st)) = maxl;
  mi_done : forall l, Done l -> (In l (snd st) /\ forall x y, ~ prod l x y) \/
     exists k i, nth_error (fst (fst st)) l = Some (Some k) /\ nth_error (snd (fst st)) k = Some i /\ In l (i_labels i) /\ forall x y, In (x, y) (i_trans i) <-> prod l x y;
  mi_group : forall k i l, nth_error (snd (fst st)) k = Some i -> In l (i_labels i) -> nth_error (fst (fst st)) l = Some (Some k) /\ Done l /\ ~ In l (snd st);
  mi_dead : forall l, In l (snd st) -> Done l;
  mi_active : forall l, Done l -> exists c, active L l c;
  mi_cost : forall k i, nth_error (snd (fst st)) k = Some i -> cost_ok L (i_labels i) (i_cost i);
  mi_trans : forall k i s t, nth_error (snd (fst st)) k = Some i -> In (s, t) (i_trans i) -> s < n1 * n2 /\ t < n1 * n2
}.
Lemma MInv_ext D D' st : (forall l, D l <-> D' l) -> MInv D st -> MInv D' st.
Proof.
  intros H [A B C E F G I]. constructor; auto.
  - intros l Hl. apply B. now apply H.
  - intros k i l Hk Hl. destruct (C k i l Hk Hl) as (X & Y & Z). splits; auto. now apply H.
  - intros l Hl. apply H. auto.
  - intros l Hl. apply F. now apply H.
Qed.

Lemma product_In a b x y : In (x, y) (product_trans n2 a b) <-> exists s1 t1 s2 t2, In (s1, t1) a /\ In (s2, t2) b /\ x = s1 * n2 + s2 /\ y = t1 * n2 + t2.
Proof.
  unfold product_trans. rewrite in_flat_map. split.
  - intros ([s1 t1] & H1 & H). apply in_map_iff in H as ([s2 t2] & E & H2). cbn [fst snd] in E. inversion E; subst. exists s1, t1, s2, t2. auto.
  - intros (s1 & t1 & s2 & t2 & H1 & H2 & -> & ->). exists (s1, t1). split; auto. apply in_map_iff. exists (s2, t2). auto.
Qed.

Lemma merge_bucket_ok D st k1 i1 k2 ls : MInv D st -> nth_error (ts_infos T1) k1 = Some i1 -> ls <> [] ->
  (forall l, In l ls -> In l (i_labels i1) /\ ~ D l /\ nth_error (ts_l2l T2) l = Some (Some k2)) ->
  exists st', merge_bucket L T2 (i_trans i1) st (k2, ls) = Ok st' /\ MInv (fun l => D l \/ In l ls) st'.
Proof.
  intros [A B C E F G I] Hi1 Hne Hls. destruct st as [[l2l infos] dead]. unfold merge_bucket. cbn [fst snd] in *.
  assert (Hact : forall l, In l ls -> exists c, active L l c) by (intros l Hl; eapply (g_group _ _ _ _ (w_g _ _ _ W1)); [exact Hi1|now apply Hls]).
  destruct ls as [|l0 ls0] eqn:Els; [congruence|]. rewrite <- Els in *. assert (Hl0 : In l0 ls) by (rewrite Els; now left).
  assert (exists i2, nth_error (ts_infos T2) k2 = Some i2 /\ forall l, In l ls -> In l (i_labels i2)) as (i2 & Hi2 & Hin2).
  { destruct (Hact l0 Hl0) as [c0 Hc0]. destruct (g_label _ _ _ _ (w_g _ _ _ W2) l0 c0 Hc0) as (k & i & X & Y & Z). destruct (Hls l0 Hl0) as (_ & _ & K). rewrite K in X. inversion X; subst k.
    exists i. split; auto. intros l Hl. destruct (Hact l Hl) as [c Hc]. destruct (g_label _ _ _ _ (w_g _ _ _ W2) l c Hc) as (k & i' & X' & Y' & Z'). destruct (Hls l Hl) as (_ & _ & K'). rewrite K' in X'. inversion X'; subst k. congruence. }
  unfold vget. rewrite Hi2. cbn [bind].
  assert (Hprod : forall l x y, In l ls -> (In (x, y) (product_trans n2 (i_trans i1) (i_trans i2)) <-> prod l x y)).
  { intros l x y Hl. rewrite product_In. unfold prod.
    assert (S1 : forall s t, step1 l s t <-> In (s, t) (i_trans i1)) by (intros; eapply gstep_info; [exact (w_g _ _ _ W1)|exact Hi1|now apply Hls]).
    assert (S2 : forall s t, step2 l s t <-> In (s, t) (i_trans i2)) by (intros; eapply gstep_info; [exact (w_g _ _ _ W2)|exact Hi2|auto]).
    split.
    - intros (s1 & t1 & s2 & t2 & H1 & H2 & -> & ->). destruct (g_trans _ _ _ _ (w_g _ _ _ W2) _ _ _ _ Hi2 H2). exists s1, s2, t1, t2. splits; auto; [now apply S1|now apply S2].
    - intros (s1 & s2 & t1 & t2 & -> & -> & _ & _ & H1 & H2). exists s1, t1, s2, t2. splits; auto; [now apply S1|now apply S2]. }
  destruct (product_trans n2 (i_trans i1) (i_trans i2)) as [|p0 pr] eqn:Ep.
  - exists (l2l, infos, dead ++ ls). split; [reflexivity|]. constructor; cbn [fst snd]; auto.
    + intros l [Hl|Hl].
      * destruct (B l Hl) as [[X Y]|Y]; auto. left. split; auto. apply in_or_app; auto.
      * left. split; [apply in_or_app; auto|]. intros x y Hp. apply (Hprod l x y Hl) in Hp. destruct Hp.
    + intros k i l Hk Hl. destruct (C k i l Hk Hl) as (X & Y & Z). splits; auto. intros Hd. apply in_app_or in Hd as [Hd|Hd]; auto. now apply (proj1 (proj2 (Hls l Hd))).
    + intros l Hl. apply in_app_or in Hl as [Hl|Hl]; auto.
    + intros l [Hl|Hl]; auto.
  - assert (Hs : forall l, In l (sort Nat.leb ls) <-> In l ls) by (intros l; apply sort_In).
    destruct (min_cost_ok L (sort Nat.leb ls)) as (c & -> & Hc); [intros l Hl; apply Hact, Hs, Hl|]. cbn [bind].
    destruct (set_local_ok (Some (length infos)) (sort Nat.leb ls) l2l) as (l2l' & -> & Hlen & Hget).
    { intros l Hl. apply Hs in Hl. rewrite A, <- (w_max _ _ _ W2). eapply nth_error_Some_lt. apply (Hls l Hl). }
    cbn [bind]. eexists. split; [reflexivity|]. set (i := {| i_labels := _; i_trans := _; i_cost := _ |}).
    assert (Hmem : forall l, member l (sort Nat.leb ls) = true <-> In l ls) by (intros l; rewrite member_In; apply Hs).
    assert (Hnew : nth_error (infos ++ [i]) (length infos) = Some i) by (rewrite nth_error_app2, Nat.sub_diag; auto).
    assert (Hold : forall k i', nth_error infos k = Some i' -> nth_error (infos ++ [i]) k = Some i') by (intros k i' Hk; rewrite nth_error_app1; auto; eapply nth_error_Some_lt; eauto).
    assert (Hcase : forall k i', nth_error (infos ++ [i]) k = Some i' -> (k = length infos /\ i' = i) \/ nth_error infos k = Some i').
    { intros k i' Hk. destruct (Nat.ltb_spec k (length infos)); [rewrite nth_error_app1 in Hk by auto; auto|]. rewrite nth_error_app2 in Hk by auto. destruct (k - length infos) as [|d] eqn:Ed; cbn [nth_error] in Hk; [inversion Hk; left; split; auto; lia|destruct d; discriminate]. }
    constructor; cbn [fst snd]; auto.
    + congruence.
    + intros l [Hl|Hl].
      * assert (Hm : member l (sort Nat.leb ls) = false) by (destruct (member l (sort Nat.leb ls)) eqn:Em; auto; apply Hmem in Em; exfalso; now apply (proj1 (proj2 (Hls l Em)))).
        destruct (B l Hl) as [X|(k & i' & X & Y & Z & V)]; auto. right. exists k, i'. rewrite Hget, Hm. splits; auto. 
      * right. exists (length infos), i. rewrite Hget, (proj2 (Hmem l) Hl). splits; auto; [now apply Hs|]. intros x y. cbn [i i_trans]. rewrite sort_In. now apply Hprod.
    + intros k i' l Hk Hl. destruct (Hcase k i' Hk) as [[-> ->]|Hk'].
      * apply Hs in Hl. rewrite Hget, (proj2 (Hmem l) Hl). splits; auto. intros Hd. apply E in Hd. now apply (proj1 (proj2 (Hls l Hl))).
      * destruct (C k i' l Hk' Hl) as (X & Y & Z). rewrite Hget. destruct (member l (sort Nat.leb ls)) eqn:Em; [apply Hmem in Em; exfalso; now apply (proj1 (proj2 (Hls l Em)))|]. splits; auto.
    + intros l [Hl|Hl]; auto.
    + intros k i' Hk. destruct (Hcase k i' Hk) as [[-> ->]|Hk']; eauto.
    + intros k i' s t Hk Hin. destruct (Hcase k i' Hk) as [[-> ->]|Hk']; eauto. cbn [i i_trans] in Hin. apply sort_In in Hin. rewrite <- Ep in Hin. apply product_In in Hin as (s1 & t1 & s2 & t2 & H1 & H2 & -> & ->).
      destruct (g_trans _ _ _ _ (w_g _ _ _ W1) _ _ _ _ Hi1 H1). destruct (g_trans _ _ _ _ (w_g _ _ _ W2) _ _ _ _ Hi2 H2). split; nia.
Qed.

Lemma merge_buckets_ok k1 i1 : nth_error (ts_infos T1) k1 = Some i1 -> forall bs D st, MInv D st -> NoDup (map fst bs) ->
  (forall k2 ls, In (k2, ls) bs -> ls <> [] /\ forall l, In l ls -> In l (i_labels i1) /\ ~ D l /\ nth_error (ts_l2l T2) l = Some (Some k2)) ->
  exists st', fold_outcome (merge_bucket L T2 (i_trans i1)) bs st = Ok st' /\ MInv (fun l => D l \/ exists k2 ls, In (k2, ls) bs /\ In l ls) st'.
Proof.
  intros Hi1. induction bs as [|[k2 ls] bs IH]; intros D st HM Hnd Hb; cbn [fold_outcome].
  - exists st. split; auto. eapply MInv_ext; [|exact HM]. intros l. split; [auto|]. intros [?|(k2 & ls & [] & _)]; auto.
  - inversion Hnd as [|? ? Hk Hnd']; subst. destruct (Hb k2 ls (or_introl eq_refl)) as [Hne Hls].
    destruct (merge_bucket_ok D st k1 i1 k2 ls HM Hi1 Hne Hls) as (st1 & -> & M1). cbn [bind].
    destruct (IH _ st1 M1 Hnd') as (st2 & -> & M2).
    + intros k2' ls' Hin. destruct (Hb k2' ls' (or_intror Hin)) as [Hne' Hls']. split; auto. intros l Hl. destruct (Hls' l Hl) as (X & Y & Z). splits; auto.
      intros [HD|Hin2]; auto. destruct (Hls l Hin2) as (_ & _ & Z2). rewrite Z in Z2. inversion Z2; subst k2'. apply Hk. apply in_map_iff. exists (k2, ls'). auto.
    + exists st2. split; auto. eapply MInv_ext; [|exact M2]. intros l. split.
      * intros [[?|?]|(k & ls' & ? & ?)]; auto; right; [exists k2, ls|exists k, ls']; split; auto; [now left|now right].
      * intros [?|(k & ls' & [E|?] & ?)]; auto; [inversion E; subst; auto|right; exists k, ls'; auto].
Qed.

Variable ord : list (nat * list nat) -> list (nat * list nat).
Hypothesis Hord : forall b, Permutation (ord b) b.

Lemma merge_groups_ok : forall rest pre st, ts_infos T1 = pre ++ rest ->
  MInv (fun l => exists k i, k < length pre /\ nth_error (ts_infos T1) k = Some i /\ In l (i_labels i)) st ->
  exists st', fold_outcome (merge_group ord L T2) rest st = Ok st' /\ MInv (fun l => exists k i, nth_error (ts_infos T1) k = Some i /\ In l (i_labels i)) st'.
Proof.
  induction rest as [|i1 rest IH]; intros pre st Hsp HM; cbn [fold_outcome].
  - exists st. split; auto. eapply MInv_ext; [|exact HM]. intros l. split; [intros (k & i & _ & ?); eauto|]. intros (k & i & Hk & Hin). exists k, i. splits; auto. apply nth_error_Some_lt in Hk. rewrite Hsp, app_nil_r in Hk. auto.
  - assert (Hi1 : nth_error (ts_infos T1) (length pre) = Some i1) by (rewrite Hsp, nth_error_app2, Nat.sub_diag; auto).
    assert (Next : forall st', MInv (fun l => (exists k i, k < length pre /\ nth_error (ts_infos T1) k = Some i /\ In l (i_labels i)) \/ In l (i_labels i1)) st' ->
      exists st'', fold_outcome (merge_group ord L T2) rest st' = Ok st'' /\ MInv (fun l => exists k i, nth_error (ts_infos T1) k = Some i /\ In l (i_labels i)) st'').
    { intros st' HM'. apply (IH (pre ++ [i1])); [now rewrite <- app_assoc|]. eapply MInv_ext; [|exact HM']. intros l. rewrite app_length. cbn [length]. split.
      - intros [(k & i & ? & ? & ?)|Hin]; [exists k, i; splits; auto; lia|exists (length pre), i1; splits; auto; lia].
      - intros (k & i & Hk & E & Hin). destruct (Nat.eq_dec k (length pre)) as [->|]; [right; congruence|left; exists k, i; splits; auto; lia]. }
    unfold merge_group at 1. destruct (is_active i1) eqn:Ea.
    + assert (Hact : forall l, In l (i_labels i1) -> exists k, nth_error (ts_l2l T2) l = Some (Some k)).
      { intros l Hl. destruct (g_group _ _ _ _ (w_g _ _ _ W1) _ _ _ Hi1 Hl) as [_ [c Hc]]. destruct (g_label _ _ _ _ (w_g _ _ _ W2) l c Hc) as (k & i & X & _). eauto. }
      destruct (distribute_ok T2 (i_labels i1) Hact) as (bs & -> & Hnd & Hne & Hiff). cbn [bind].
      destruct (merge_buckets_ok (length pre) i1 Hi1 (ord bs) _ st HM) as (st' & -> & M').
      * eapply Permutation_NoDup; [|exact Hnd]. apply Permutation_map, Permutation_sym, Hord.
      * intros k2 ls Hin. apply (Permutation_in _ (Hord bs)) in Hin. split; [exact (Hne _ Hin)|]. intros l Hl. destruct (proj1 (Hiff k2 l) (ex_intro _ ls (conj Hin Hl))) as [X Y]. splits; auto.
        intros (k & i & Hk & E & Hli). destruct (g_group _ _ _ _ (w_g _ _ _ W1) _ _ _ E Hli) as [E1 _]. destruct (g_group _ _ _ _ (w_g _ _ _ W1) _ _ _ Hi1 X) as [E2 _]. rewrite E1 in E2. inversion E2. lia.
      * cbn [bind]. apply Next. eapply MInv_ext; [|exact M']. intros l. split.
        -- intros [?|(k2 & ls & Hin & Hl)]; auto. apply (Permutation_in _ (Hord bs)) in Hin. right. apply (proj1 (Hiff k2 l)). eauto.
        -- intros [?|Hin]; auto. right. destruct (Hact l Hin) as [k Hk]. destruct (proj2 (Hiff k l) (conj Hin Hk)) as (ls & A & B). exists k, ls. split; auto. apply (Permutation_in _ (Permutation_sym (Hord bs))); auto.
    + cbn [bind]. apply Next. eapply MInv_ext; [|exact HM]. intros l. split; auto. intros [?|Hin]; auto. exfalso. assert (is_active i1 = true) by (apply active_In; eauto). congruence.
Qed.

Lemma goals_product (g1 g2 : list bool) s1 s2 : s1 < length g1 -> s2 < length g2 ->
  (nth_error (flat_map (fun a => map (fun b => a && b) g2) g1) (s1 * length g2 + s2) = Some true <-> nth_error g1 s1 = Some true /\ nth_error g2 s2 = Some true).
Proof.
  revert s1. induction g1 as [|a g1 IH]; intros s1 H1 H2; cbn [length] in H1; [lia|]. cbn [flat_map]. destruct s1 as [|s1].
  - cbn [Nat.mul Nat.add nth_error]. rewrite nth_error_app1 by (now rewrite map_length). rewrite nth_error_map. destruct (nth_error g2 s2) as [b|] eqn:Eb; [|apply nth_error_None in Eb; lia].
    cbn [option_map]. destruct a, b; cbn [andb]; intuition congruence.
  - rewrite nth_error_app2 by (rewrite map_length; cbn [Nat.mul]; lia). rewrite map_length. replace (S s1 * length g2 + s2 - length g2) with (s1 * length g2 + s2) by (cbn [Nat.mul]; lia). cbn [nth_error]. apply IH; auto. lia.
Qed.

Theorem merge_ts_ok : exists T, merge_ts ord L maxl T1 T2 = Ok T /\ twf L maxl T /\ is_product (active L) (the_lts T1) (the_lts T2) (the_lts T).
Proof.
  unfold merge_ts.
  assert (M0 : MInv (fun l => exists k i, k < length (@nil info) /\ nth_error (ts_infos T1) k = Some i /\ In l (i_labels i)) (repeat None maxl, [], [])).
  { constructor; cbn [fst snd].
    - apply repeat_length.
    - intros l (k & i & Hk & _). cbn [length] in Hk. lia.
    - intros [|k] i l Hk; discriminate.
    - intros l [].
    - intros l (k & i & Hk & _). cbn [length] in Hk. lia.
    - intros [|k] i Hk; discriminate.
    - intros [|k] i s t Hk; discriminate. }
  destruct (merge_groups_ok (ts_infos T1) [] _ eq_refl M0) as ([[l2l infos] dead] & -> & HM). cbn [bind].
  assert (Hall : forall l c, active L l c -> exists k i, nth_error (ts_infos T1) k = Some i /\ In l (i_labels i)).
  { intros l c Hc. destruct (g_label _ _ _ _ (w_g _ _ _ W1) l c Hc) as (k & i & _ & X & Y). eauto. }
  assert (Fin : exists l2l' infos', match dead with
      | [] => Ok (l2l, infos)
      | _ :: _ => let* c := min_cost L (sort Nat.leb dead) in let* l2l := set_local l2l (sort Nat.leb dead) (Some (length infos)) in
             Ok (l2l, infos ++ [{| i_labels := sort Nat.leb dead; i_trans := []; i_cost := c |}]) end = Ok (l2l', infos') /\
      length l2l' = maxl /\ gwf L (n1 * n2) l2l' infos' /\ forall l c x y, active L l c -> (gstep l2l' infos' l x y <-> prod l x y)).
  { destruct HM as [A B C E F G I]. cbn [fst snd] in *. destruct dead as [|d0 dr] eqn:Ed.
    - exists l2l, infos.
      assert (Wg : gwf L (n1 * n2) l2l infos).
      { constructor; auto.
        - intros l c Hc. destruct (B l (Hall l c Hc)) as [[[] _]|(k & i & X & Y & Z & _)]. eauto.
        - intros k i l Hk Hl. destruct (C k i l Hk Hl) as (X & Y & _). split; auto.
        - intros k i Hk _. eauto. }
      splits; auto. intros l c x y Hc. destruct (B l (Hall l c Hc)) as [[[] _]|(k & i & X & Y & Z & V)]. rewrite (gstep_info _ _ _ _ k i l x y Wg Y Z). apply V.
    - rewrite <- Ed in *. destruct (min_cost_ok L (sort Nat.leb dead)) as (c & -> & Hc); [intros l Hl; apply sort_In in Hl; auto|]. cbn [bind].
      destruct (set_local_ok (Some (length infos)) (sort Nat.leb dead) l2l) as (l2l' & -> & Hlen & Hget).
      { intros l Hl. apply sort_In in Hl. rewrite A, <- (w_max _ _ _ W1). destruct (F l (E l Hl)) as [c' Hc']. destruct (g_label _ _ _ _ (w_g _ _ _ W1) l c' Hc') as (k & i & X & _). eapply nth_error_Some_lt; eauto. }
      cbn [bind]. eexists _, _. split; [reflexivity|]. split; [congruence|]. set (i := {| i_labels := _; i_trans := _; i_cost := _ |}).
      assert (Hmem : forall l, member l (sort Nat.leb dead) = true <-> In l dead) by (intros l; rewrite member_In; apply sort_In).
      assert (Hnew : nth_error (infos ++ [i]) (length infos) = Some i) by (rewrite nth_error_app2, Nat.sub_diag; auto).
      assert (Hold : forall k i', nth_error infos k = Some i' -> nth_error (infos ++ [i]) k = Some i') by (intros k i' Hk; rewrite nth_error_app1; auto; eapply nth_error_Some_lt; eauto).
      assert (Hcase : forall k i', nth_error (infos ++ [i]) k = Some i' -> (k = length infos /\ i' = i) \/ nth_error infos k = Some i').
      { intros k i' Hk. destruct (Nat.ltb_spec k (length infos)); [rewrite nth_error_app1 in Hk by auto; auto|]. rewrite nth_error_app2 in Hk by auto. destruct (k - length infos) as [|d] eqn:Ed'; cbn [nth_error] in Hk; [inversion Hk; left; split; auto; lia|destruct d; discriminate]. }
      assert (Wg : gwf L (n1 * n2) l2l' (infos ++ [i])).
      { constructor.
        - intros l c' Hc'. destruct (B l (Hall l c' Hc')) as [[X _]|(k & i' & X & Y & Z & _)].
          + exists (length infos), i. rewrite Hget, (proj2 (Hmem l) X). splits; auto. now apply sort_In.
          + exists k, i'. rewrite Hget. destruct (member l (sort Nat.leb dead)) eqn:Em; [exfalso; apply Hmem in Em; eapply C; eauto|]. splits; auto.
        - intros k i' l Hk Hl. rewrite Hget. destruct (Hcase k i' Hk) as [[-> ->]|Hk'].
          + cbn [i i_labels] in Hl. apply sort_In in Hl. rewrite (proj2 (Hmem l) Hl). auto.
          + destruct (C k i' l Hk' Hl) as (X & Y & Z). destruct (member l (sort Nat.leb dead)) eqn:Em; [exfalso; apply Hmem in Em; auto|]. auto.
        - intros k i' Hk _. destruct (Hcase k i' Hk) as [[-> ->]|Hk']; eauto.
        - intros k i' s t Hk Hin. destruct (Hcase k i' Hk) as [[-> ->]|Hk']; eauto. destruct Hin. }
      split; auto. intros l c' x y Hc'. destruct (B l (Hall l c' Hc')) as [[X Y]|(k & i' & X & Y & Z & V)].
      + rewrite (gstep_info _ _ _ _ (length infos) i l x y Wg Hnew) by (now apply sort_In). split; [intros []|intros Hp; exfalso; now apply (Y x y)].
      + rewrite (gstep_info _ _ _ _ k i' l x y Wg (Hold _ _ Y) Z). apply V. }
  destruct Fin as (l2l' & infos' & -> & Hlen & Wg & Hst). cbn [bind fst snd]. eexists. split; [reflexivity|]. split.
  - constructor; cbn [ts_l2l ts_infos ts_n ts_goals ts_init]; auto.
    + rewrite <- (w_goals _ _ _ W1), <- (w_goals _ _ _ W2). induction (ts_goals T1) as [|g r IH]; [reflexivity|]. cbn [flat_map length]. rewrite app_length, map_length, IH. reflexivity.
    + intros s Hs. destruct (ts_init T1) as [a|] eqn:Ea; [|discriminate]. destruct (ts_init T2) as [b|] eqn:Eb; [|discriminate]. inversion Hs; subst. apply (w_init _ _ _ W1) in Ea. apply (w_init _ _ _ W2) in Eb. nia.
  - unfold is_product, the_lts. cbn [l_n l_step l_goal l_init ts_n ts_l2l ts_infos ts_goals ts_init]. splits; auto.
    + intros s1 s2 H1 H2. rewrite <- (w_goals _ _ _ W1) in H1. rewrite <- (w_goals _ _ _ W2) in *. now apply goals_product.
Qed.
End MERGE.
