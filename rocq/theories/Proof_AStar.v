(** Optimality of eager best-first search with admissible f-values (A-star). *)
From Coq Require Import Permutation Wf_nat.
From Verif Require Import Outcome Spec_Plan Spec_Controller Model_SearchSpace Model_Eager
  Proof_SearchSpace Proof_Eager Proof_EagerComplete Proof_EagerTerm.

Section AStar.
Variable T : TS.
Variable ct : controller T.
Variable cfg : eager_config.
Variable I : C ct -> Prop.
Variable kentries : C ct -> list (nat * nat).
Let entries (c : C ct) : list nat := map fst (kentries c).
Let ac := adj T cfg.
Hypothesis Hwf : ts_wf T.
Hypothesis HK : controller_ok ct I entries.
Hypothesis HS : controller_safe ct I entries.
Hypothesis HA : controller_astar ac ct I kentries.
Hypothesis Hnolazy : c_has_lazy ct = false.
Hypothesis Hreopen : ec_reopen cfg = true.
Hypothesis Hmode : ec_bound cfg = None \/ ec_cost_type cfg = NORMAL.

Lemma Hmode' : ec_bound cfg = None \/ (ec_cost_type cfg = NORMAL /\ ec_reopen cfg = true).
Proof. destruct Hmode; auto. Qed.

Notation SInv := (SInv T ct cfg I entries).
Notation gres := (gres T ct cfg).
Notation gseq := (gseq T ct cfg).
Notation pres := (pres T ct I entries).
Notation sres := (sres T ct cfg I entries).
Notation FInv := (FInv T ct cfg entries).

Record AInv (sp : space T) (c : C ct) : Prop := {
  ai_open : forall i s n g, nth_error sp i = Some (s, n) -> ni_status n = OPEN -> ni_g n = Some g ->
    ~ solvable_from T s \/
    exists k, In (i, k) (kentries c) /\ forall os, is_plan_from T s os -> k <= g + sum_cost ac os;
  ai_key : forall i k, In (i, k) (kentries c) ->
    exists s n g, nth_error sp i = Some (s, n) /\ ni_g n = Some g /\ g <= k
}.

Lemma AInv_same sp c c' : AInv sp c -> kentries c' = kentries c -> AInv sp c'.
Proof. intros [A B] E. constructor; rewrite E; auto. Qed.

(** Inserting node [id] with its current g-value into an open list that was fine except
    possibly for an entry of [id]. *)
Lemma AInv_insert sp c s n g p id :
  I c -> nth_error sp id = Some (s, n) -> ni_g n = Some g ->
  (forall i s n g, i <> id -> nth_error sp i = Some (s, n) -> ni_status n = OPEN -> ni_g n = Some g ->
    ~ solvable_from T s \/
    exists k, In (i, k) (kentries c) /\ forall os, is_plan_from T s os -> k <= g + sum_cost ac os) ->
  (forall i k, In (i, k) (kentries c) ->
    exists s n g, nth_error sp i = Some (s, n) /\ ni_g n = Some g /\ g <= k) ->
  AInv sp (c_insert ct c s g p id).
Proof.
  intros HI Hid Hg Hoth Hkey.
  destruct (a_insert _ _ _ _ HA c s g p id HI) as [(k & P & Hgk & Hk)|[P Hns]].
  - constructor.
    + intros i s0 n0 g0 Hi Hst Hg0. destruct (Nat.eq_dec i id) as [->|Hne].
      * rewrite Hid in Hi; inv Hi. rewrite Hg in Hg0; inv Hg0. right. exists k. split; auto.
        eapply Permutation_in; [symmetry; exact P|cbn; auto].
      * destruct (Hoth _ _ _ _ Hne Hi Hst Hg0) as [?|(k0 & Hin & Hk0)]; auto.
        right. exists k0; split; auto. eapply Permutation_in; [symmetry; exact P|cbn; auto].
    + intros i k0 Hin. apply (Permutation_in _ P) in Hin. destruct Hin as [Hin|Hin]; auto.
      inv Hin. eauto 10.
  - constructor.
    + intros i s0 n0 g0 Hi Hst Hg0. destruct (Nat.eq_dec i id) as [->|Hne].
      * rewrite Hid in Hi; inv Hi. auto.
      * destruct (Hoth _ _ _ _ Hne Hi Hst Hg0) as [?|(k0 & Hin & Hk0)]; auto.
        right. exists k0; split; auto. eapply Permutation_in; [symmetry; exact P|auto].
    + intros i k0 Hin. apply (Permutation_in _ P) in Hin. auto.
Qed.

Lemma gres_AInv id s n g op sp c sp' c' :
  SInv sp c -> AInv sp c -> nth_error sp id = Some (s, n) -> ni_g n = Some g ->
  gres id s n g op sp c sp' c' -> AInv sp' c'.
Proof.
  intros Inv [A B] Hid Hg R. pose proof (si_I _ _ _ _ _ _ _ Inv) as HI.
  assert (HI1 : I (c_notify ct c s op (ts_succ T s op))) by (apply (k_notify _ _ _ HK); auto).
  pose proof (a_notify _ _ _ _ HA c s op (ts_succ T s op) HI) as E1.
  destruct R as [Hb|sid sn Hb Hsid Hsn|pref c2 Hb Hf Hd|pref c2 Hb Hf Hd
                 |pref sid sn sg Hb Hsid Hsg Hlt Hst|sid sn sg Hb Hsid Hsg Hlt Hst Hro].
  - constructor; auto.
  - constructor; rewrite E1; auto.
  - pose proof (a_dead _ _ _ _ HA (c_notify ct c s op (ts_succ T s op)) (ts_succ T s op) (g + adj T cfg op) pref HI1) as E2.
    rewrite Hd in E2; cbn in E2. constructor; rewrite E2, E1.
    + intros i s0 n0 g0 Hi Hst Hg0. apply nth_app_inv in Hi. destruct Hi as [Hi|[-> Hi]]; [eauto|].
      inv Hi; discriminate.
    + intros i k Hin. destruct (B i k Hin) as (s0 & n0 & g0 & H & H' & H''). exists s0, n0, g0. splits; auto.
      now apply nth_app_old.
  - pose proof (a_dead _ _ _ _ HA (c_notify ct c s op (ts_succ T s op)) (ts_succ T s op) (g + adj T cfg op) pref HI1) as E2.
    rewrite Hd in E2; cbn in E2.
    destruct (same_dead T ct I entries HK _ _ _ _ _ _ HI1 Hd) as [HI2 _].
    eapply AInv_same; [|apply (a_progress _ _ _ _ HA)].
    + eapply AInv_insert; auto.
      * apply nth_app_last.
      * reflexivity.
      * intros i s0 n0 g0 Hne Hi Hst Hg0. apply nth_app_inv in Hi. destruct Hi as [Hi|[-> Hi]]; [|congruence].
        rewrite E2, E1. eauto.
      * intros i k Hin. rewrite E2, E1 in Hin. destruct (B i k Hin) as (s0 & n0 & g0 & H & H' & H'').
        exists s0, n0, g0. splits; auto. now apply nth_app_old.
    + eapply insert_I; eauto.
  - eapply AInv_insert; auto.
    + apply upd_nth_eq. eapply nth_error_Some_lt; eauto.
    + reflexivity.
    + intros i s0 n0 g0 Hne Hi Hst0 Hg0. apply nth_upd_inv in Hi. destruct Hi as [[-> Hi]|[_ Hi]]; [congruence|].
      rewrite E1. eauto.
    + intros i k Hin. rewrite E1 in Hin. destruct (B i k Hin) as (s0 & n0 & g0 & H & H' & H'').
      destruct (Nat.eq_dec sid i) as [->|Hne].
      * rewrite Hsid in H; inv H. rewrite Hsg in H'; inv H'. eexists _, _, _.
        split; [apply upd_nth_eq; eapply nth_error_Some_lt; eauto|]. split; [reflexivity|]. lia.
      * exists s0, n0, g0. splits; auto. rewrite upd_nth_neq; auto.
  - congruence.
Qed.

Lemma gseq_AInv id s n g ops sp c sp' c' : gseq id s n g ops sp c sp' c' ->
  SInv sp c -> AInv sp c -> nth_error sp id = Some (s, n) -> ni_g n = Some g -> AInv sp' c'.
Proof.
  induction 1 as [sp c|op ops sp c sp1 c1 sp2 c2 Hop R Hs IH]; intros Inv AI Hid Hg; auto.
  apply IH; auto.
  - eapply gres_SInv; eauto.
  - eapply gres_AInv; eauto.
  - eapply gres_self; eauto.
Qed.

Lemma pop_AInv sp c id c1 s n : I c -> AInv sp c -> c_pop ct c = Some (id, c1) ->
  nth_error sp id = Some (s, n) -> ni_status n <> OPEN -> AInv sp c1.
Proof.
  intros HI [A B] Ep Hid Hst. destruct (a_pop _ _ _ _ HA _ _ _ HI Ep) as (k & P & _).
  constructor.
  - intros i s0 n0 g0 Hi Hst0 Hg0. destruct (A _ _ _ _ Hi Hst0 Hg0) as [?|(k0 & Hin & Hk0)]; auto.
    right. exists k0; split; auto. apply (Permutation_in _ P) in Hin. destruct Hin as [Hin|]; auto.
    inv Hin. rewrite Hid in Hi; inv Hi. congruence.
  - intros i k0 Hin. apply B. eapply Permutation_in; [symmetry; exact P|cbn; auto].
Qed.

Lemma status_AInv sp c id s n : AInv sp c -> nth_error sp id = Some (s, n) ->
  AInv (upd sp id (s, set_status n CLOSED)) c.
Proof.
  intros [A B] Hid. constructor.
  - intros i s0 n0 g0 Hi Hst0 Hg0. apply nth_upd_inv in Hi. destruct Hi as [[-> Hi]|[_ Hi]]; eauto.
    inv Hi; discriminate.
  - intros i k Hin. destruct (B i k Hin) as (s0 & n0 & g0 & H & H' & H'').
    destruct (Nat.eq_dec id i) as [->|Hne].
    + rewrite Hid in H; inv H. eexists _, _, _.
      split; [apply upd_nth_eq; eapply nth_error_Some_lt; eauto|]. split; [exact H'|auto].
    + exists s0, n0, g0. splits; auto. rewrite upd_nth_neq; auto.
Qed.

Lemma sres_AInv sp c st' : SInv sp c -> AInv sp c -> sres sp c (IN_PROGRESS st') ->
  AInv (es_space st') (es_c st').
Proof.
  intros Inv AI R. pose proof (si_I _ _ _ _ _ _ _ Inv) as HI.
  inversion R as [|st1 P|
     |id st1 s n g ops prefs c1 c2 st2 P Hid Hg Hcl Hgoal Epr Epf Hseq Inv1 Inv2 Hid2]; subst.
  - inversion P as [|id c1 s n E Hid Hst|id c1 c3 s n g El E Hid Hst Hg Hs
                 |id c1 c2 c3 s n g El E Hid Hst Hg Hs Hd|]; subst; cbn [es_space es_c]; try congruence.
    eapply pop_AInv; eauto. destruct Hst; congruence.
  - inversion P as [| | | |id0 c1' c2' s0 n0 g0 E Hid0 Hst0 Hg0 Hs Hlz]; subst; cbn [es_space es_c] in *.
    specialize (Hlz Hnolazy). subst c2'.
    pose proof (a_prune _ _ _ _ HA c1' s (ts_app T s) (proj1 Hs)) as E1. rewrite Epr in E1; cbn in E1.
    pose proof (same_prune T ct I entries HK _ _ _ _ _ (proj1 Hs) Epr) as S1.
    pose proof (a_preferred _ _ _ _ HA c1 s g (proj1 S1)) as E2. rewrite Epf in E2; cbn in E2.
    eapply gseq_AInv; eauto.
    eapply AInv_same with (c := c1'); [|congruence].
    eapply pop_AInv with (c := c) (n := set_status n0 CLOSED); eauto.
    + apply status_AInv; auto.
    + apply upd_nth_eq. eapply nth_error_Some_lt; eauto.
    + cbn. discriminate.
Qed.

Lemma init_AInv c : I c -> kentries c = [] ->
  AInv [(ts_init T, opened_initial)] (c_insert ct c (ts_init T) 0 true 0).
Proof.
  intros HI He. eapply AInv_insert; auto; try reflexivity.
  - intros [|[|i]] s n g Hne H; inv H. congruence.
  - rewrite He. intros i k [].
Qed.

Definition OInv sp c := FInv sp c /\ AInv sp c.

Lemma astar_optimal fuel c0 plan st : I c0 -> kentries c0 = [] ->
  eager_search T ct cfg fuel c0 = Ok (SOLVED plan st) ->
  forall os, is_plan T os -> (forall b, ec_bound cfg = Some b -> sum_cost (ts_cost T) os < b) ->
  sum_cost ac plan <= sum_cost ac os.
Proof.
  intros HI He Hs os Hos Hb.
  assert (He' : entries c0 = []) by (unfold entries; now rewrite He).
  unfold eager_search in Hs.
  destruct (init_spec T ct c0) as (st0 & E & R). rewrite E in Hs; cbn [bind] in Hs.
  destruct R as [c2 Hd|c2 Hd].
  - exfalso. eapply (k_dead_safe _ _ _ HS); [|rewrite Hd; reflexivity|exists os; exact Hos].
    apply (k_notify_initial _ _ _ HK); auto.
  - pose proof (ires_open_SInv T ct cfg I entries HK _ _ HI He' Hd) as Inv.
    pose proof (init_same T ct I entries HK _ _ _ HI Hd) as S2.
    pose proof (same_progress T ct I entries HK c2 (ts_init T) 0 false (proj1 S2)) as S3.
    set (st1 := {| es_space := [(ts_init T, opened_initial)];
                   es_c := c_insert ct (c_progress ct c2 (ts_init T) 0 false) (ts_init T) 0 true 0 |}) in *.
    assert (HI1 : I (c_notify_initial ct c0 (ts_init T))) by (apply (k_notify_initial _ _ _ HK); auto).
    assert (F0 : OInv (es_space st1) (es_c st1)).
    { split; [split; [eapply init_CInv; eauto; apply S3|apply init_root]|].
      apply init_AInv; [apply S3|].
      rewrite (a_progress _ _ _ _ HA) by apply S2.
      pose proof (a_dead _ _ _ _ HA (c_notify_initial ct c0 (ts_init T)) (ts_init T) 0 true HI1) as E2.
      rewrite Hd in E2; cbn in E2. rewrite E2, (a_notify_initial _ _ _ _ HA) by auto. auto. }
    destruct (loop_ind T ct cfg I entries Hwf HK OInv) with (fuel := fuel) (st := st1) as (r & Er & Hr); auto.
    { intros sp c st' Inv' [[F1 F2] F3] R. split; [split; [eapply sres_CInv|eapply sres_root]|eapply sres_AInv];
        eauto using Hmode'. }
    rewrite Hs in Er. inv Er. destruct Hr as (st' & Inv' & [[F1 F2] [FA FB]] & R).
    inversion R as [| |id st2 s n g pl ids Hp Hid Hg Hgoal Hch|]; subst.
    inversion Hp as [| | | |id0 c1' c2' s0 n0 g0 Epop Hid0 Hst0 Hg0 Hss Hlz]; subst; cbn [es_space es_c] in *.
    destruct F2 as (n1 & Hn1 & Hg1 & Hu). destruct Hu as [Hu|Hu]; [|exfalso; apply Hu; exists os; auto].
    destruct (open_on_path T ct cfg I entries Hmode' _ _ Inv' F1 os 0 (ts_init T) n1 0 Hn1 Hu Hg1 Hos Hb)
      as (j & s' & n' & g' & os1 & os2 & -> & Hj & Hjo & Hjg & Hjp & Hin & Hle).
    specialize (Hle Hreopen). cbn in Hle.
    destruct (FA _ _ _ _ Hj Hjo Hjg) as [Hns|(k & Hk & Hkb)]; [exfalso; apply Hns; eexists; eauto|].
    destruct (a_pop _ _ _ _ HA _ _ _ (si_I _ _ _ _ _ _ _ Inv') Epop) as (kp & P & Hmin).
    specialize (Hmin _ _ Hk). specialize (Hkb _ Hjp).
    destruct (FB id kp) as (s2 & n2 & g2 & A & B & D).
    { eapply Permutation_in; [symmetry; exact P|cbn; auto]. }
    rewrite Hid0 in A; inv A. rewrite Hg0 in B; inv B.
    destruct (chain_g T (adj T cfg) _ _ _ _ Hch) as (s3 & n3 & g3 & Hid3 & Hg3 & Hcost & _).
    rewrite upd_nth_eq in Hid3 by (eapply nth_error_Some_lt; eauto). inv Hid3. cbn in Hg3.
    rewrite Hg0 in Hg3; inv Hg3.
    rewrite sum_cost_app. unfold ac in *. lia.
Qed.
End AStar.
