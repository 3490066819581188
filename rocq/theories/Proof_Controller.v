(** Open lists satisfy the contracts used by the search algorithms. *)
From Coq Require Import Permutation.
From Verif Require Import Outcome Spec_Plan Spec_OpenList Spec_Controller Spec_OpenListContract
  Model_SearchSpace Model_OpenList Model_Eager Model_Controller Proof_OpenList.

(* ---------- bucket maps as multisets ---------- *)
Section Kents.
Context {K E : Type}.
Variable cmp : K -> K -> comparison.
Variable lt : K -> K -> Prop.
Hypothesis HC : cmp_ok cmp lt.

Definition kents (m : list (K * list E)) : list (K * E) :=
  flat_map (fun p => map (pair (fst p)) (snd p)) m.

Lemma kents_push m k e : Permutation (kents (bm_push cmp m k e)) ((k, e) :: kents m).
Proof.
  induction m as [|[k1 b1] m IH]; cbn; auto.
  destruct (cmp k k1) eqn:Ec; cbn.
  - apply (cmp_eq _ _ HC) in Ec; subst. rewrite map_app; cbn.
    rewrite <- app_assoc. cbn. symmetry. apply Permutation_middle.
  - auto.
  - rewrite IH. symmetry. apply Permutation_middle.
Qed.

Lemma kents_pop m : sorted lt m -> kents m <> [] ->
  exists k e m', bm_pop m = Ok (e, m') /\ kents m = (k, e) :: kents m' /\ sorted lt m' /\
    forall k' e', In (k', e') (kents m) -> ~ lt k' k.
Proof.
  intros Hs Hne. destruct Hs as [|k b m Hb Hbl Hs]; [cbn in Hne; congruence|].
  assert (Hmin : forall k' e', In (k', e') (kents ((k, b) :: m)) -> ~ lt k' k).
  { intros k' e' Hin Hlt. unfold kents in Hin. apply in_flat_map in Hin.
    destruct Hin as ([k1 b1] & Hin & He). cbn in He. apply in_map_iff in He. destruct He as (e1 & He & _).
    inv He. destruct Hin as [Hin|Hin]; [inv Hin|apply Hbl in Hin].
    - eapply (lt_irrefl_k _ _ HC); eauto.
    - eapply (lt_irrefl_k _ _ HC). eapply (lt_trans_k _ _ HC); eauto. }
  destruct b as [|e [|e2 b]]; [congruence| |].
  - exists k, e, m. splits; auto.
  - exists k, e, ((k, e2 :: b) :: m). splits; auto. constructor; auto. discriminate.
Qed.

Definition bqJ (q : bucket_queue K E) : Prop :=
  sorted lt (bq_map q) /\ bq_size q = length (kents (bq_map q)).
Definition bqents (q : bucket_queue K E) : list E := map snd (kents (bq_map q)).

Lemma bqJ_init : bqJ {| bq_map := []; bq_size := 0 |}.
Proof. split; [constructor|reflexivity]. Qed.

Lemma bqJ_insert q k e : bqJ q ->
  bqJ (bq_insert cmp q k e) /\ Permutation (bqents (bq_insert cmp q k e)) (e :: bqents q).
Proof.
  intros [H1 H2]. unfold bqents. pose proof (kents_push (bq_map q) k e) as P. split.
  - split; cbn [bq_map bq_size bq_insert]; [eapply bm_push_sorted; eauto|]. rewrite (Permutation_length P). cbn [length]. lia.
  - change (e :: map snd (kents (bq_map q))) with (map snd ((k, e) :: kents (bq_map q))).
    now apply Permutation_map.
Qed.

Lemma bqJ_remove q : bqJ q -> (bq_size q =? 0) = false ->
  exists k e q', bq_remove q = Ok (e, q') /\ bqJ q' /\
    kents (bq_map q) = (k, e) :: kents (bq_map q') /\
    forall k' e', In (k', e') (kents (bq_map q)) -> ~ lt k' k.
Proof.
  intros [H1 H2] Hne. apply Nat.eqb_neq in Hne. unfold bq_remove.
  destruct (bq_size q) as [|n] eqn:Es; [lia|].
  destruct (kents_pop (bq_map q) H1) as (k & e & m' & Hp & Hk & Hs' & Hmin).
  { intros Hk. rewrite Hk in H2. cbn in H2. lia. }
  rewrite Hp; cbn [bind]. eexists k, e, _. split; [reflexivity|]. split; [split|]; cbn [bq_map bq_size]; auto.
  rewrite Hk in H2. cbn [length] in H2. lia.
Qed.

Lemma bqJ_empty q : bqJ q -> ((bq_size q =? 0) = true <-> bqents q = []).
Proof.
  intros [_ ->]. unfold bqents. rewrite Nat.eqb_eq. destruct (kents (bq_map q)); cbn; split; congruence || lia.
Qed.
End Kents.

Lemma best_first_contract E reliable ev pref_only :
  ol_contract (best_first E reliable ev pref_only) (@bqJ nat E lt) bqents.
Proof.
  constructor; cbn [ol_init best_first ol_insert ol_remove_min ol_empty ol_clear ol_boost ol_dead ol_rel_dead].
  - split; [apply bqJ_init|reflexivity].
  - intros q x e HJ. unfold ol_insert; cbn [ol_only_pref ol_dead ol_do_insertion best_first].
    assert (Hno : exists q', Ok q = Ok q' /\ bqJ lt q' /\ exists n, Permutation (bqents q') (repeat e n ++ bqents q)).
    { exists q. splits; auto. exists 0. reflexivity. }
    destruct (pref_only && negb (x_pref x)); auto.
    unfold is_infinite. destruct (x_val x ev) as [k|]; auto.
    destruct (bqJ_insert Nat.compare lt nat_cmp_ok q k e HJ) as [H1 H2].
    eexists. splits; eauto. exists 1. exact H2.
  - intros q HJ Hne. destruct (bqJ_remove Nat.compare lt nat_cmp_ok q HJ Hne) as (k & e & q' & H1 & H2 & H3 & _).
    exists e, q'. splits; auto. unfold bqents. rewrite H3. reflexivity.
  - apply bqJ_empty.
  - intros q _. split; [apply bqJ_init|reflexivity].
  - auto.
  - intros x H. exists ev. now apply is_infinite_true.
  - intros x H. exists ev. apply andb_true_iff in H. now apply is_infinite_true.
Qed.

Lemma best_first_accepting E reliable ev :
  ol_accepting (best_first E reliable ev false) (@bqJ nat E lt) bqents.
Proof.
  intros q x e q' HJ Hfin. unfold ol_insert; cbn [ol_only_pref ol_dead ol_do_insertion best_first andb].
  unfold is_infinite. destruct (x_val x ev) as [k|] eqn:Ek; [|exfalso; eapply Hfin; eauto].
  intros H; inv H. destruct (bqJ_insert Nat.compare lt nat_cmp_ok q k e HJ) as [_ H2].
  eapply Permutation_in; [symmetry; exact H2|cbn; auto].
Qed.

Lemma tie_breaking_contract E reliable evs unsafe pref_only : evs <> [] ->
  ol_contract (tie_breaking E reliable evs unsafe pref_only) (@bqJ (list (option nat)) E lex_lt) bqents.
Proof.
  intros Hevs.
  assert (Hdead : forall x, tb_dead reliable evs unsafe x -> exists ev, x_val x ev = None).
  { intros x [(ev & _ & H & _)|[(_ & ev & rest & _ & H)|H]]; eauto.
    destruct evs as [|ev evs]; [congruence|]. exists ev. apply H; cbn; auto. }
  constructor.
  - split; [apply bqJ_init|reflexivity].
  - intros q x e HJ. unfold ol_insert.
    assert (Hno : exists q', Ok q = Ok q' /\ bqJ lex_lt q' /\ exists n, Permutation (bqents q') (repeat e n ++ bqents q)).
    { exists q. splits; auto. exists 0. reflexivity. }
    destruct (_ && _); auto. destruct (ol_dead _ x); auto.
    destruct (bqJ_insert lex_cmp lex_lt lex_cmp_ok q (map (x_val x) evs) e HJ) as [H1 H2].
    eexists. split; [reflexivity|]. split; [exact H1|]. exists 1. exact H2.
  - intros q HJ Hne. destruct (bqJ_remove lex_cmp lex_lt lex_cmp_ok q HJ Hne) as (k & e & q' & H1 & H2 & H3 & _).
    exists e, q'. splits; auto. unfold bqents. rewrite H3. reflexivity.
  - intros q. apply bqJ_empty.
  - intros q _. split; [apply bqJ_init|reflexivity].
  - auto.
  - intros x H. apply tb_dead_spec in H. eauto.
  - intros x H. apply any_reliable_true in H. destruct H as (ev & _ & H & _). eauto.
Qed.

Lemma tie_breaking_accepting E reliable evs unsafe : evs <> [] ->
  ol_accepting (tie_breaking E reliable evs unsafe false) (@bqJ (list (option nat)) E lex_lt) bqents.
Proof.
  intros Hevs q x e q' HJ Hfin. unfold ol_insert.
  destruct (ol_dead _ x) eqn:Ed.
  { exfalso. apply (oc_dead _ _ _ (tie_breaking_contract E reliable evs unsafe false Hevs)) in Ed.
    destruct Ed as [ev H]. eapply Hfin; eauto. }
  cbn. intros H; inv H.
  destruct (bqJ_insert lex_cmp lex_lt lex_cmp_ok q (map (x_val x) evs) e HJ) as [_ H2].
  eapply Permutation_in; [symmetry; exact H2|cbn; auto].
Qed.

(* ---------- alternation ---------- *)
(** Sublists with their contracts. *)
Inductive subs_ok {E} : forall (Ls : list (open_list E)),
  (sub_states Ls -> Prop) -> (sub_states Ls -> list E) -> Prop :=
| so_nil : subs_ok [] (fun _ => True) (fun _ => [])
| so_cons : forall L Ls J ents Js entss,
    ol_contract L J ents -> subs_ok Ls Js entss ->
    subs_ok (L :: Ls) (fun st => J (fst st) /\ Js (snd st)) (fun st => ents (fst st) ++ entss (snd st)).

Lemma subs_init_ok {E} (Ls : list (open_list E)) J ents : subs_ok Ls J ents ->
  J (subs_init Ls) /\ ents (subs_init Ls) = [].
Proof.
  induction 1 as [|L Ls J ents Js entss HL HS [IH1 IH2]]; cbn; auto.
  destruct (oc_init _ _ _ HL) as [A B]. splits; auto. now rewrite B, IH2.
Qed.

Lemma subs_clear_ok {E} (Ls : list (open_list E)) J ents : subs_ok Ls J ents ->
  forall st, J st -> J (subs_clear Ls st) /\ ents (subs_clear Ls st) = [].
Proof.
  induction 1 as [|L Ls J ents Js entss HL HS IH]; cbn; auto.
  intros [q st] [H1 H2]; cbn in *. destruct (oc_clear _ _ _ HL q H1) as [A B]. destruct (IH st H2) as [A' B'].
  splits; auto. now rewrite B, B'.
Qed.

Lemma subs_insert_ok {E} (Ls : list (open_list E)) J ents : subs_ok Ls J ents ->
  forall st x e, J st -> exists st', subs_insert Ls st x e = Ok st' /\ J st' /\
    exists n, Permutation (ents st') (repeat e n ++ ents st).
Proof.
  induction 1 as [|L Ls J ents Js entss HL HS IH]; cbn.
  - intros st x e _. exists st. splits; auto. exists 0. reflexivity.
  - intros [q st] x e [H1 H2]; cbn in *.
    destruct (oc_insert _ _ _ HL q x e H1) as (q' & E1 & J1 & n1 & P1).
    destruct (IH st x e H2) as (st' & E2 & J2 & n2 & P2).
    rewrite E1; cbn [bind]. rewrite E2; cbn [bind]. eexists. split; [reflexivity|]. cbn. splits; auto.
    exists (n1 + n2). rewrite repeat_app. rewrite P1, P2.
    rewrite <- !app_assoc. apply Permutation_app_head.
    rewrite !app_assoc. apply Permutation_app_tail. apply Permutation_app_comm.
Qed.

Lemma subs_empty_ok {E} (Ls : list (open_list E)) J ents : subs_ok Ls J ents ->
  forall st, J st -> (forallb (fun b => b) (subs_empty Ls st) = true <-> ents st = []).
Proof.
  induction 1 as [|L Ls J ents Js entss HL HS IH]; cbn.
  - tauto.
  - intros [q st] [H1 H2]; cbn in *. rewrite andb_true_iff, (IH st H2), (oc_empty _ _ _ HL q H1).
    split; [intros [-> ->]; auto|]. intros H. now apply app_eq_nil in H.
Qed.

Lemma subs_empty_length {E} (Ls : list (open_list E)) st : length (subs_empty Ls st) = length Ls.
Proof. induction Ls; cbn; auto. Qed.

Lemma subs_remove_ok {E} (Ls : list (open_list E)) J ents : subs_ok Ls J ents ->
  forall st i, J st -> nth_error (subs_empty Ls st) i = Some false ->
  exists e st', subs_remove Ls st i = Ok (e, st') /\ J st' /\ Permutation (ents st) (e :: ents st').
Proof.
  induction 1 as [|L Ls J ents Js entss HL HS IH]; intros st i HJ Hi.
  - destruct i; discriminate.
  - destruct st as [q st]; cbn in HJ. destruct HJ as [H1 H2]. destruct i as [|i]; cbn in Hi.
    + injection Hi as Hi. destruct (oc_remove _ _ _ HL q H1 Hi) as (e & q' & E1 & J1 & P1).
      cbn. rewrite E1; cbn [bind]. eexists e, _. split; [reflexivity|]. cbn. splits; auto.
      rewrite P1. reflexivity.
    + destruct (IH st i H2 Hi) as (e & st' & E1 & J1 & P1).
      cbn. rewrite E1; cbn [bind]. eexists e, _. split; [reflexivity|]. cbn. splits; auto.
      rewrite P1. symmetry. apply Permutation_middle.
Qed.

(** The selected sublist. *)
Lemma alt_best_spec es : forall ps i best,
  length ps = length es ->
  (forall b0 p0, best = Some (b0, p0) -> b0 < i) ->
  match alt_best i es ps best with
  | None => best = None /\ forall j, nth_error es j <> Some false
  | Some (b, p) =>
      (best = Some (b, p) \/ exists j, b = i + j /\ nth_error es j = Some false /\ nth_error ps j = Some p) /\
      (forall j q, nth_error es j = Some false -> nth_error ps j = Some q -> (p <= q)%Z) /\
      (forall b0 p0, best = Some (b0, p0) -> (p <= p0)%Z /\ (p = p0 -> b = b0)) /\
      (forall j q, nth_error es j = Some false -> nth_error ps j = Some q -> i + j < b -> (p < q)%Z)
  end.
Proof.
  induction es as [|e es IH]; intros [|p ps] i best Hlen Hbi; try discriminate; cbn [alt_best].
  - destruct best as [[b p]|].
    + splits; auto.
      * intros [|j] q H; discriminate.
      * intros b0 p0 H; inv H. split; auto. lia.
      * intros [|j] q H; discriminate.
    + split; auto. intros [|j]; discriminate.
  - cbn in Hlen. injection Hlen as Hlen.
    set (best' := if negb e && _ then Some (i, p) else best).
    specialize (IH ps (S i) best' Hlen).
    assert (Hbi' : forall b0 p0, best' = Some (b0, p0) -> b0 < S i).
    { subst best'. intros b0 p0. destruct (_ && _); [intros Hx; inv Hx; lia|intros Hx; apply Hbi in Hx; lia]. }
    specialize (IH Hbi'). clear Hbi'.
    destruct (alt_best (S i) es ps best') as [[b pb]|] eqn:Eb.
    + destruct IH as (H1 & H2 & H3 & H4).
      destruct e; cbn [negb andb] in best'.
      * subst best'. splits.
        -- destruct H1 as [|(j & -> & Hj & Hp)]; auto. right. exists (S j). splits; auto. lia.
        -- intros [|j] q Hj Hq; [discriminate|]. cbn in *. eauto.
        -- intros. eauto.
        -- intros [|j] q Hj Hq Hlt; [discriminate|]. cbn in *. eapply H4; eauto. lia.
      * destruct best as [[b0 p0]|].
        -- destruct (Z.ltb_spec p p0); subst best'.
           ++ destruct (H3 _ _ eq_refl) as [Hle Heq]. splits.
              ** destruct H1 as [H1|(j & -> & Hj & Hp)].
                 --- inv H1. right. exists 0. splits; auto.
                 --- right. exists (S j). splits; auto. lia.
              ** intros [|j] q Hj Hq; cbn in *; [inv Hq; lia|eauto].
              ** intros b1 p1 Hx. inv Hx. split; [lia|]. intros ->. lia.
              ** intros [|j] q Hj Hq Hlt; cbn in *.
                 --- inv Hq. destruct (Z.eq_dec pb q) as [->|]; [|lia]. specialize (Heq eq_refl). lia.
                 --- eapply H4; eauto. lia.
           ++ destruct (H3 _ _ eq_refl) as [Hle Heq]. splits.
              ** destruct H1 as [H1|(j & -> & Hj & Hp)]; auto.
                 right. exists (S j). splits; auto. lia.
              ** intros [|j] q Hj Hq; cbn in *; [inv Hq; lia|eauto].
              ** auto.
              ** intros [|j] q Hj Hq Hlt; cbn in *.
                 --- inv Hq. destruct (Z.eq_dec pb q) as [->|]; [|lia].
                     assert (p0 = q) by lia. subst. specialize (Heq eq_refl). subst b0.
                     specialize (Hbi _ _ eq_refl). lia.
                 --- eapply H4; eauto. lia.
        -- subst best'. destruct (H3 _ _ eq_refl) as [Hle Heq]. splits.
              ** destruct H1 as [H1|(j & -> & Hj & Hp)].
                 --- inv H1. right. exists 0. splits; auto.
                 --- right. exists (S j). splits; auto. lia.
              ** intros [|j] q Hj Hq; cbn in *; [inv Hq; lia|eauto].
              ** discriminate.
              ** intros [|j] q Hj Hq Hlt; cbn in *.
                 --- inv Hq. destruct (Z.eq_dec pb q) as [->|]; [|lia]. specialize (Heq eq_refl). lia.
                 --- eapply H4; eauto. lia.
    + destruct IH as [H1 H2]. subst best'. destruct e; cbn [negb andb] in H1.
      * split; auto. intros [|j]; cbn; [discriminate|auto].
      * destruct best as [[b0 p0]|]; [destruct (p <? p0)%Z|]; discriminate.
Qed.

Lemma alt_nonempty_selects es ps : length ps = length es -> forallb (fun b => b) es = false ->
  exists b p, alt_best 0 es ps None = Some (b, p) /\ nth_error es b = Some false /\ nth_error ps b = Some p.
Proof.
  intros Hlen Hne.
  pose proof (alt_best_spec es ps 0 None Hlen ltac:(discriminate)) as H.
  destruct (alt_best 0 es ps None) as [[b p]|].
  - destruct H as ([|(j & -> & Hj & Hp)] & _); [discriminate|]. eauto.
  - destruct H as [_ H]. exfalso.
    assert (forallb (fun b => b) es = true).
    { apply forallb_forall. intros [] Hin; auto. apply In_nth_error in Hin. destruct Hin as [j Hj]. exfalso. eapply H; eauto. }
    congruence.
Qed.

Lemma boost_prios_length {E} (Ls : list (open_list E)) : forall ps a, length (boost_prios Ls ps a) = length ps.
Proof. induction Ls; intros [|p ps] amt; cbn; auto. Qed.

Lemma subs_rel_dead {E} (Ls : list (open_list E)) J ents : subs_ok Ls J ents ->
  forall x, existsb (fun L => ol_rel_dead L x) Ls = true -> exists ev, x_val x ev = None.
Proof.
  induction 1 as [|L Ls J ents Js entss HL HS IH]; cbn; [discriminate|].
  intros x H. apply orb_true_iff in H. destruct H as [H|H]; auto. eapply oc_rel_dead; eauto.
Qed.
Lemma subs_dead {E} (Ls : list (open_list E)) J ents : subs_ok Ls J ents -> Ls <> [] ->
  forall x, forallb (fun L => ol_dead L x) Ls = true -> exists ev, x_val x ev = None.
Proof.
  destruct 1 as [|L Ls J ents Js entss HL HS]; cbn; [congruence|].
  intros _ x H. apply andb_true_iff in H. eapply oc_dead; [eauto|tauto].
Qed.

Lemma alternation_contract E (Ls : list (open_list E)) J ents boost : subs_ok Ls J ents -> Ls <> [] ->
  ol_contract (alternation E Ls boost)
    (fun q => J (alt_subs q) /\ length (alt_prio q) = length Ls) (fun q => ents (alt_subs q)).
Proof.
  intros HS Hne.
  assert (Hrel := subs_rel_dead _ _ _ HS). assert (Hdead := subs_dead _ _ _ HS Hne).
  constructor; cbn [alternation ol_init ol_remove_min ol_empty ol_clear ol_boost ol_dead ol_rel_dead alt_subs alt_prio OL].
  - destruct (subs_init_ok _ _ _ HS) as [A B]. rewrite repeat_length. auto.
  - intros q x e [HJ Hl]. unfold ol_insert.
    change (ol_only_pref (alternation E Ls boost)) with false; cbn [andb].
    destruct (ol_dead (alternation E Ls boost) x); cbn [ol_do_insertion alternation].
    + exists q. splits; auto. exists 0. reflexivity.
    + destruct (subs_insert_ok _ _ _ HS (alt_subs q) x e HJ) as (st & -> & J' & P).
      cbn [bind]. eexists; splits; [reflexivity|auto|auto|]. exact P.
  - intros q [HJ Hl] Hemp.
    destruct (alt_nonempty_selects _ (alt_prio q) (eq_trans Hl (eq_sym (subs_empty_length Ls (alt_subs q)))) Hemp) as (b & p & -> & Hb & Hp).
    destruct (subs_remove_ok _ _ _ HS _ _ HJ Hb) as (e & st' & -> & J' & P).
    cbn [bind]. eexists e, _. splits; [reflexivity|auto|cbn; now rewrite upd_length|exact P].
  - intros q [HJ Hl]. eapply subs_empty_ok; eauto.
  - intros q [HJ Hl]. destruct (subs_clear_ok _ _ _ HS _ HJ). auto.
  - intros q [HJ Hl]. rewrite boost_prios_length. auto.
  - intros x. destruct (existsb _ Ls) eqn:Eex; auto.
  - auto.
Qed.

Lemma alternation_accepting E L Ls J0 ents0 J ents boost :
  ol_contract L J0 ents0 -> ol_accepting L J0 ents0 -> subs_ok Ls J ents ->
  ol_accepting (alternation E (L :: Ls) boost)
    (fun q => (J0 (fst (alt_subs q)) /\ J (snd (alt_subs q))) /\ length (alt_prio q) = length (L :: Ls))
    (fun q => ents0 (fst (alt_subs q)) ++ ents (snd (alt_subs q))).
Proof.
  intros HL HA HS q x e q' [[HJ1 HJ2] Hl] Hfin.
  assert (HS' : subs_ok (L :: Ls) (fun st => J0 (fst st) /\ J (snd st)) (fun st => ents0 (fst st) ++ ents (snd st)))
    by (constructor; auto).
  unfold ol_insert.
  destruct (ol_dead (alternation E (L :: Ls) boost) x) eqn:Ed.
  { apply (oc_dead _ _ _ (alternation_contract _ _ _ _ boost HS' ltac:(discriminate))) in Ed.
    destruct Ed as [ev H]. exfalso; eapply Hfin; eauto. }
  cbn [alternation ol_only_pref ol_do_insertion andb subs_insert].
  destruct (oc_insert _ _ _ HL (fst (alt_subs q)) x e HJ1) as (q1 & E1 & _). rewrite E1; cbn [bind].
  destruct (subs_insert_ok _ _ _ HS (snd (alt_subs q)) x e HJ2) as (st & E2 & _). rewrite E2; cbn [bind].
  intros H; inv H. cbn. apply in_or_app. left. eapply HA; eauto.
Qed.

(* ---------- the eager controller ---------- *)
Section OLController.
Variable T : TS.
Variable L : open_list nat.
Variable J : OL L -> Prop.
Variable ents : OL L -> list nat.
Variable evs : nat -> ts_state T -> nat -> option nat.
Variable boosting : list nat.
Variable preferred : ts_state T -> list nat.
Variable prune : ts_state T -> list nat -> list nat.
Hypothesis HL : ol_contract L J ents.

Notation ct := (ol_controller T L evs boosting preferred prune).

Definition ctI (c : cstate L) : Prop := J (cs_open c) /\ cs_bad c = false.
Definition ct_entries (c : cstate L) : list nat := ents (cs_open c).

Lemma cs_init_ok : ctI (cs_init L) /\ ct_entries (cs_init L) = [].
Proof. destruct (oc_init _ _ _ HL). unfold ctI; cbn. auto. Qed.

Lemma ol_controller_ok : (forall s ops, incl (prune s ops) ops) ->
  controller_ok ct ctI ct_entries.
Proof.
  intros Hpr. constructor; unfold quiet; cbn; auto.
  - intros c s g r [H1 H2]. destruct (check_progress (cs_min c) boosting (ctx T evs s g false)) as [b m].
    unfold ctI, ct_entries; cbn. destruct (b && r); auto.
    destruct (oc_boost _ _ _ HL _ H1). auto.
  - intros c s g p id [H1 H2].
    destruct (oc_insert _ _ _ HL (cs_open c) (ctx T evs s g p) id H1) as (q & -> & A & B).
    unfold ctI, ct_entries; cbn. auto.
  - intros c [H1 H2]. destruct (ol_empty L (cs_open c)) eqn:Ee.
    + intros _. now apply (oc_empty _ _ _ HL).
    + destruct (ol_remove_min L (cs_open c)) as [[]| | |]; discriminate.
  - intros c id c' [H1 H2]. destruct (ol_empty L (cs_open c)) eqn:Ee; [discriminate|].
    destruct (oc_remove _ _ _ HL _ H1 Ee) as (e & q' & -> & A & B).
    intros H; inv H. unfold ctI, ct_entries; cbn. auto.
Qed.

Lemma ol_controller_safe : ol_accepting L J ents ->
  (forall ev s g, evs ev s g = None -> ~ solvable_from T s) ->
  (forall s ops, incl ops (prune s ops)) ->
  controller_safe ct ctI ct_entries.
Proof.
  intros HA Hs Hpr. constructor; cbn; auto.
  - intros c s g p [H1 H2] Hd. apply (oc_dead _ _ _ HL) in Hd. destruct Hd as [ev Hd]. eapply Hs; exact Hd.
  - intros c s g p id [H1 H2] Hsol.
    destruct (oc_insert _ _ _ HL (cs_open c) (ctx T evs s g p) id H1) as (q & Eq & A & B).
    rewrite Eq. unfold ct_entries; cbn.
    apply (HA (cs_open c) (ctx T evs s g p) id q H1); auto. intros ev Hn. exact (Hs ev s g Hn Hsol).
Qed.
End OLController.

(* ---------- the A* controller ---------- *)
Section AStarController.
Variable T : TS.
Variable h : ts_state T -> option nat.
Variable reliable : bool.
Variable ac : nat -> nat.
Hypothesis Hadm : forall s, admissible_at T ac s (h s).

Notation L := (astar_open reliable).
Notation ct := (astar_controller T h reliable).

Definition fkey (k : list (option nat)) : nat := match k with Some f :: _ => f | _ => 0 end.
Definition akents (c : cstate L) : list (nat * nat) :=
  map (fun p => (snd p, fkey (fst p))) (kents (bq_map (cs_open c))).
Definition keys_finite (m : list (list (option nat) * list nat)) : Prop :=
  forall k e, In (k, e) (kents m) -> exists f r, k = Some f :: r.

Definition aI (c : cstate L) : Prop :=
  ctI L (@bqJ (list (option nat)) nat lex_lt) c /\ keys_finite (bq_map (cs_open c)).

Lemma akents_ents c : map fst (akents c) = ct_entries L bqents c.
Proof. unfold akents, ct_entries, bqents. rewrite map_map. reflexivity. Qed.

Lemma Lcontract : ol_contract L (@bqJ (list (option nat)) nat lex_lt) bqents.
Proof. apply tie_breaking_contract. discriminate. Qed.
Lemma Laccepting : ol_accepting L (@bqJ (list (option nat)) nat lex_lt) bqents.
Proof. apply tie_breaking_accepting. discriminate. Qed.

Lemma astar_insert c s g p id :
  (exists v, h s = Some v /\ cs_open (c_insert ct c s g p id) =
     bq_insert lex_cmp (cs_open c) [Some (g + v); Some v] id /\ cs_bad (c_insert ct c s g p id) = cs_bad c)
  \/ (h s = None /\ c_insert ct c s g p id = c).
Proof.
  cbn. unfold ol_insert. cbn. unfold any_reliable_infinite, all_infinite, is_infinite. cbn.
  destruct (h s) as [v|] eqn:Eh; cbn.
  - left. exists v. auto.
  - right. split; auto. destruct reliable; cbn; destruct c; reflexivity.
Qed.

Lemma astar_pop c id c' : aI c -> c_pop ct c = Some (id, c') ->
  exists k, kents (bq_map (cs_open c)) = (k, id) :: kents (bq_map (cs_open c')) /\
    aI c' /\ forall k' e', In (k', e') (kents (bq_map (cs_open c))) -> ~ lex_lt k' k.
Proof.
  intros [[HJ Hb] Hk]. cbn. destruct (bq_size (cs_open c) =? 0) eqn:Ee; [discriminate|].
  destruct (bqJ_remove lex_cmp lex_lt lex_cmp_ok _ HJ Ee) as (k & e & q' & -> & A & B & D).
  intros H; inv H. cbn. exists k. splits; auto. split; [split; auto|].
  cbn. intros k' e' Hin. apply (Hk k' e'). rewrite B. cbn; auto.
Qed.

Lemma astar_controller_ok : controller_ok ct aI (fun c => map fst (akents c)).
Proof.
  pose proof (ol_controller_ok T L _ _ (astar_evs h) [0; 1] (fun _ => []) (fun _ ops => ops) Lcontract
    (fun _ ops => incl_refl ops)) as K.
  constructor; unfold quiet; cbn; auto using incl_refl.
  - intros c s g r HI. match goal with |- context [let (_, _) := ?e in _] => destruct e as [b m] end. unfold aI, ctI, akents in *. cbn.
    destruct (b && r); auto.
  - intros c s g p id HI. destruct (astar_insert c s g p id) as [(v & Hv & E1 & E2)|[Hv E1]].
    + destruct HI as [[HJ Hb] Hk].
      destruct (bqJ_insert lex_cmp lex_lt lex_cmp_ok (cs_open c) [Some (g + v); Some v] id HJ) as [A B].
      split; [split; [split|]|].
      * exact (eq_ind_r _ A E1).
      * etransitivity; [exact E2|exact Hb].
      * intros k e. change (In (k, e) (kents (bq_map (cs_open (c_insert ct c s g p id)))) -> exists f r, k = Some f :: r).
        rewrite E1. cbn. intros Hin. apply (Permutation_in _ (kents_push lex_cmp lex_lt lex_cmp_ok _ _ _)) in Hin.
        destruct Hin as [Hin|Hin]; [inv Hin; eauto|eauto].
      * exists 1. change (Permutation (map fst (akents (c_insert ct c s g p id))) ([id] ++ map fst (akents c))).
        rewrite !akents_ents. unfold ct_entries. rewrite E1. exact B.
    + change (aI (c_insert ct c s g p id) /\ exists k, Permutation (map fst (akents (c_insert ct c s g p id))) (repeat id k ++ map fst (akents c))).
      rewrite E1. split; auto. exists 0. reflexivity.
  - intros c HI. rewrite akents_ents. apply (k_pop_none _ _ _ K c). apply HI.
  - intros c id c' HI Hp. destruct (astar_pop c id c' HI Hp) as (k & E1 & E2 & _).
    split; auto. unfold akents. rewrite E1. reflexivity.
Qed.

Lemma astar_controller_safe : controller_safe ct aI (fun c => map fst (akents c)).
Proof.
  pose proof (ol_controller_safe T L _ _ (astar_evs h) [0; 1] (fun _ => []) (fun _ ops => ops) Lcontract
    Laccepting) as K.
  assert (Hev : forall ev s g, astar_evs h ev s g = None -> ~ solvable_from T s).
  { intros ev s g Hn [os Hos]. destruct (Hadm s os Hos) as (x & Hx & _). destruct ev; cbn in Hn; rewrite Hx in Hn; discriminate. }
  specialize (K Hev (fun _ ops => incl_refl ops)).
  constructor.
  - intros c s g p HI. apply (k_dead_safe _ _ _ K c s g p). apply HI.
  - intros c s g p id HI Hs. rewrite akents_ents. apply (k_insert_safe _ _ _ K c s g p id); auto. apply HI.
  - intros c s ops _. cbn. apply incl_refl.
Qed.

Lemma astar_controller_astar : controller_astar ac ct aI akents.
Proof.
  constructor; cbn; auto.
  - intros c s g r HI. match goal with |- context [let (_, _) := ?e in _] => destruct e as [b m] end. unfold akents; cbn. destruct (b && r); auto.
  - intros c s g p id HI. destruct (astar_insert c s g p id) as [(v & Hv & E1 & E2)|[Hv E1]].
    + left. exists (g + v). splits; [|lia|].
      * change (Permutation (akents (c_insert ct c s g p id)) ((id, g + v) :: akents c)).
        unfold akents. rewrite E1. cbn.
        change ((id, g + v) :: map (fun p => (snd p, fkey (fst p))) (kents (bq_map (cs_open c))))
          with (map (fun p : list (option nat) * nat => (snd p, fkey (fst p))) (([Some (g + v); Some v], id) :: kents (bq_map (cs_open c)))).
        apply Permutation_map. eapply kents_push. apply lex_cmp_ok.
      * intros os Hos. destruct (Hadm s os Hos) as (x & Hx & Hle). rewrite Hv in Hx. inv Hx. lia.
    + right. change (Permutation (akents (c_insert ct c s g p id)) (akents c) /\ ~ solvable_from T s).
      rewrite E1. split; auto. intros [os Hos]. destruct (Hadm s os Hos) as (x & Hx & _). congruence.
  - intros c id c' HI Hp. destruct (astar_pop c id c' HI Hp) as (k & E1 & E2 & Hmin).
    exists (fkey k). split; [unfold akents; rewrite E1; reflexivity|].
    intros id' k' Hin. unfold akents in Hin. apply in_map_iff in Hin. destruct Hin as ([k1 e1] & Hx & Hin).
    cbn in Hx. inv Hx. destruct HI as [_ Hk].
    destruct (Hk k1 id' Hin) as (f1 & r1 & ->). destruct (Hk k id) as (f & r & ->); [rewrite E1; cbn; auto|].
    cbn. destruct (le_lt_dec f f1); auto. exfalso. apply (Hmin _ _ Hin). constructor. cbn. auto.
Qed.
End AStarController.
