(** Termination of eager search on finite state spaces. *)
From Coq Require Import Permutation Wf_nat.
From Verif Require Import Outcome Spec_Plan Spec_Controller Model_SearchSpace Model_Eager
  Proof_SearchSpace Proof_Eager.

Section Term.
Variable T : TS.
Variable ct : controller T.
Variable cfg : eager_config.
Variable I : C ct -> Prop.
Variable entries : C ct -> list nat.
Hypothesis Hwf : ts_wf T.
Hypothesis HK : controller_ok ct I entries.
Hypothesis Hnolazy : c_has_lazy ct = false.
Variable univ : list (ts_state T).
Hypothesis Huniv : forall s o, In s univ -> In o (ts_app T s) -> In (ts_succ T s o) univ.
Hypothesis Hinit : In (ts_init T) univ.

Notation SInv := (SInv T ct cfg I entries).
Notation gres := (gres T ct cfg).
Notation gseq := (gseq T ct cfg).
Notation pres := (pres T ct I entries).
Notation sres := (sres T ct cfg I entries).

Definition inuniv (sp : space T) : Prop := forall i s n, nth_error sp i = Some (s, n) -> In s univ.

Lemma gres_univ id s n g op sp c sp' c' :
  nth_error sp id = Some (s, n) -> In op (ts_app T s) -> gres id s n g op sp c sp' c' ->
  inuniv sp -> inuniv sp'.
Proof.
  intros Hid Hop R U.
  destruct R as [Hb|sid sn Hb Hsid Hsn|pref c2 Hb Hf Hd|pref c2 Hb Hf Hd
                 |pref sid sn sg Hb Hsid Hsg Hlt Hst|sid sn sg Hb Hsid Hsg Hlt Hst Hro]; auto;
    intros i s0 n0 H.
  - apply nth_app_inv in H. destruct H as [H|[-> H]]; [eauto|]. inv H. eauto.
  - apply nth_app_inv in H. destruct H as [H|[-> H]]; [eauto|]. inv H. eauto.
  - apply nth_upd_inv in H. destruct H as [[-> H]|[_ H]]; [inv H|]; eauto.
  - apply nth_upd_inv in H. destruct H as [[-> H]|[_ H]]; [inv H|]; eauto.
Qed.

Definition gval (x : ts_state T * node_info) : nat :=
  match ni_g (snd x) with Some g => g | None => 0 end.
Definition sumg (sp : space T) : nat := list_sum (map gval sp).

Lemma list_sum_upd l i x y : nth_error l i = Some y -> list_sum (upd l i x) + y = list_sum l + x.
Proof.
  intros H. destruct (upd_split l i x y H) as (l1 & l2 & -> & _ & ->).
  rewrite !list_sum_app; cbn. lia.
Qed.

Lemma map_upd {A B} (f : A -> B) l i x : map f (upd l i x) = upd (map f l) i (f x).
Proof. revert i; induction l as [|h t IH]; intros [|i]; cbn; auto. now rewrite IH. Qed.

Lemma sumg_upd sp i x y : nth_error sp i = Some y -> sumg (upd sp i x) + gval y = sumg sp + gval x.
Proof.
  intros H. unfold sumg. rewrite map_upd. apply list_sum_upd. now apply map_nth_error.
Qed.

Definition smaller (sp : space T) (c : C ct) (sp' : space T) (c' : C ct) : Prop :=
  length sp < length sp' \/ (length sp' = length sp /\ sumg sp' < sumg sp) \/
  (length sp' = length sp /\ sumg sp' = sumg sp /\ entries c' = entries c).

Lemma smaller_trans sp c sp1 c1 sp2 c2 :
  smaller sp c sp1 c1 -> smaller sp1 c1 sp2 c2 -> smaller sp c sp2 c2.
Proof.
  unfold smaller. intros [A|[[A A2]|(A & A2 & A3)]] [B|[[B B2]|(B & B2 & B3)]]; try lia.
  right; right. splits; try lia. congruence.
Qed.

Lemma gres_smaller id s n g op sp c sp' c' :
  SInv sp c -> gres id s n g op sp c sp' c' -> smaller sp c sp' c'.
Proof.
  intros Inv R. pose proof (si_I _ _ _ _ _ _ _ Inv) as HI.
  destruct R as [Hb|sid sn Hb Hsid Hsn|pref c2 Hb Hf Hd|pref c2 Hb Hf Hd
                 |pref sid sn sg Hb Hsid Hsg Hlt Hst|sid sn sg Hb Hsid Hsg Hlt Hst Hro].
  - right; right; auto.
  - right; right. splits; auto. apply (k_notify _ _ _ HK); auto.
  - left. rewrite app_length; cbn; lia.
  - left. rewrite app_length; cbn; lia.
  - right; left. rewrite upd_length. split; auto.
    pose proof (sumg_upd sp sid (ts_succ T s op, update_parent OPEN g (ni_real_g n) id op (adj T cfg op) (ts_cost T op)) _ Hsid) as E.
    unfold gval in E; cbn in E. rewrite Hsg in E. lia.
  - right; left. rewrite upd_length. split; auto.
    pose proof (sumg_upd sp sid (ts_succ T s op, update_parent CLOSED g (ni_real_g n) id op (adj T cfg op) (ts_cost T op)) _ Hsid) as E.
    unfold gval in E; cbn in E. rewrite Hsg in E. lia.
Qed.

Lemma gseq_smaller id s n g ops sp c sp' c' : gseq id s n g ops sp c sp' c' ->
  SInv sp c -> inuniv sp -> nth_error sp id = Some (s, n) -> ni_g n = Some g ->
  smaller sp c sp' c' /\ inuniv sp'.
Proof.
  induction 1 as [sp c|op ops sp c sp1 c1 sp2 c2 Hop R Hs IH]; intros Inv U Hid Hg.
  - split; auto. right; right; auto.
  - destruct IH as [A B]; auto.
    + eapply gres_SInv; eauto.
    + eapply gres_univ; eauto.
    + eapply gres_self; eauto.
    + split; auto. eapply smaller_trans; eauto. eapply gres_smaller; eauto.
Qed.

Lemma sumg_status sp id s n st : nth_error sp id = Some (s, n) ->
  sumg (upd sp id (s, set_status n st)) = sumg sp.
Proof.
  intros H. pose proof (sumg_upd sp id (s, set_status n st) _ H) as E. unfold gval in E; cbn in E. lia.
Qed.

Lemma inuniv_status sp id s n n' : nth_error sp id = Some (s, n) -> inuniv sp ->
  inuniv (upd sp id (s, n')).
Proof.
  intros H U i s0 n0 Hi. apply nth_upd_inv in Hi. destruct Hi as [[-> Hi]|[_ Hi]]; [inv Hi|]; eauto.
Qed.

Lemma sres_decreases sp c st' : SInv sp c -> inuniv sp -> sres sp c (IN_PROGRESS st') ->
  inuniv (es_space st') /\
  (length sp < length (es_space st') \/
   (length (es_space st') = length sp /\ sumg (es_space st') < sumg sp) \/
   (length (es_space st') = length sp /\ sumg (es_space st') = sumg sp /\
    length (entries (es_c st')) < length (entries c))).
Proof.
  intros Inv U R. pose proof (si_I _ _ _ _ _ _ _ Inv) as HI.
  inversion R as [|st1 P|
     |id st1 s n g ops prefs c1 c2 st2 P Hid Hg Hcl Hgoal Epr Epf Hseq Inv1 Inv2 Hid2]; subst.
  - inversion P as [|id c1 s n E Hid Hst|id c1 c3 s n g El E Hid Hst Hg Hs
                 |id c1 c2 c3 s n g El E Hid Hst Hg Hs Hd|]; subst; cbn [es_space es_c]; try congruence.
    split; auto. right; right. splits; auto.
    destruct (k_pop_some _ _ _ HK _ _ _ HI E) as [_ Pm]. apply Permutation_length in Pm. cbn in Pm. lia.
  - inversion P as [| | | |id0 c1' c2' s0 n0 g0 E Hid0 Hst0 Hg0 Hs Hlz]; subst; cbn [es_space es_c] in *.
    destruct (k_pop_some _ _ _ HK _ _ _ HI E) as [_ Pm]. apply Permutation_length in Pm. cbn in Pm.
    pose proof (same_prune T ct I entries HK _ _ _ _ _ (proj1 Hs) Epr) as S1.
    pose proof (same_preferred T ct I entries HK _ _ _ _ _ (proj1 S1) Epf) as S2.
    assert (Eall : entries c2 = entries c1').
    { destruct S2 as [_ ->], S1 as [_ ->], Hs as [_ ->]. reflexivity. }
    destruct (gseq_smaller _ _ _ _ _ _ _ _ _ Hseq Inv1) as [Sm U2]; auto.
    { eapply inuniv_status; eauto. }
    split; auto. unfold smaller in Sm. rewrite upd_length in Sm.
    erewrite sumg_status in Sm by eauto.
    destruct Sm as [A|[A|(A & B & D)]]; auto. right; right. splits; auto. rewrite D, Eall. lia.
Qed.

Lemma space_small sp c : SInv sp c -> inuniv sp -> length sp <= length univ.
Proof.
  intros Inv U. rewrite <- (map_length fst sp). apply NoDup_incl_length.
  - apply NoDup_nth_error. intros i j Hi Hij. rewrite map_length in Hi.
    destruct (nth_error sp i) as [[s n]|] eqn:Ei.
    2:{ apply nth_error_None in Ei. lia. }
    rewrite (map_nth_error fst _ _ Ei) in Hij. cbn in Hij. symmetry in Hij.
    destruct (nth_error sp j) as [[s' n']|] eqn:Ej.
    + rewrite (map_nth_error fst _ _ Ej) in Hij. inv Hij. eapply (si_uniq _ _ _ _ _ _ _ Inv); eauto.
    + exfalso. assert (nth_error (map fst sp) j = None).
      { apply nth_error_None. rewrite map_length. now apply nth_error_None. }
      congruence.
  - intros s Hs. apply In_nth_error in Hs. destruct Hs as [i Hi].
    destruct (nth_error sp i) as [[s' n]|] eqn:Ei.
    + rewrite (map_nth_error fst _ _ Ei) in Hi. inv Hi. eauto.
    + exfalso. assert (nth_error (map fst sp) i = None).
      { apply nth_error_None. rewrite map_length. now apply nth_error_None. }
      congruence.
Qed.

Definition finished {X} (r : search_result X) : Prop :=
  match r with IN_PROGRESS _ => False | _ => True end.

Lemma loop_terminates : forall a b d st,
  SInv (es_space st) (es_c st) -> inuniv (es_space st) ->
  length univ - length (es_space st) = a -> sumg (es_space st) = b ->
  length (entries (es_c st)) = d ->
  exists fuel r, eager_loop T ct cfg fuel st = Ok r /\ finished r.
Proof.
  induction a as [a IHa] using (well_founded_induction lt_wf).
  induction b as [b IHb] using (well_founded_induction lt_wf).
  induction d as [d IHd] using (well_founded_induction lt_wf).
  intros st Inv U Ha Hb Hd.
  destruct (step_spec T ct cfg I entries Hwf HK st Inv) as (r & E & R).
  destruct r as [st'|st'|plan st'].
  - pose proof (sres_SInv T ct cfg I entries HK _ _ _ Inv R) as Inv'. cbn in Inv'.
    destruct (sres_decreases _ _ _ Inv U R) as [U' D].
    pose proof (space_small _ _ Inv' U') as Hsm.
    assert (exists fuel r, eager_loop T ct cfg fuel st' = Ok r /\ finished r) as (f & r & Ef & Hr).
    { destruct D as [D|[[D1 D2]|(D1 & D2 & D3)]].
      - eapply IHa; eauto. lia.
      - eapply IHb; eauto; lia.
      - eapply IHd; eauto; lia. }
    exists (S f), r. cbn [eager_loop]. rewrite E; cbn [bind]. auto.
  - exists 1, (FAILED st'). cbn [eager_loop]. rewrite E; cbn. auto.
  - exists 1, (SOLVED plan st'). cbn [eager_loop]. rewrite E; cbn. auto.
Qed.

Lemma eager_terminates c0 : I c0 -> entries c0 = [] ->
  exists fuel r, eager_search T ct cfg fuel c0 = Ok r /\ finished r.
Proof.
  intros HI He. unfold eager_search.
  destruct (init_spec T ct c0) as (st & E & R). rewrite E; cbn [bind].
  destruct R as [c2 Hd|c2 Hd].
  - pose proof (init_same T ct I entries HK _ _ _ HI Hd) as [HI2 E2].
    exists 1. rewrite dead_loop with (I := I) (entries := entries); auto; try congruence.
    eexists; split; [reflexivity|exact Logic.I].
  - pose proof (ires_open_SInv T ct cfg I entries HK _ _ HI He Hd) as Inv.
    eapply loop_terminates; [exact Inv| |reflexivity|reflexivity|reflexivity].
    intros [|[|i]] s n H; inv H. auto.
Qed.

(** More fuel never changes a finished run. *)
Lemma loop_more fuel st r k : eager_loop T ct cfg fuel st = Ok r -> finished r ->
  eager_loop T ct cfg (fuel + k) st = Ok r.
Proof.
  revert st; induction fuel as [|f IH]; intros st H Hr; cbn [eager_loop Nat.add] in *.
  - inv H. destruct Hr.
  - destruct (eager_pop_step T ct cfg st) as [[st'|st'|plan st']| | |]; cbn [bind] in *; auto.
Qed.
End Term.
