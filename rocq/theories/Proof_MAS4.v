(** Label reduction. *)
From Verif Require Import Outcome Spec_Relaxation Spec_FTS Model_MAS Proof_MAS1 Proof_MAS2 Proof_MAS3.

Lemma active_lt L l c : active L l c -> l < length L.
Proof. apply nth_error_Some_lt. Qed.
Lemma active_fun L l c c' : active L l c -> active L l c' -> c = c'.
Proof. unfold active. congruence. Qed.

Lemma reduce_labels_ok L olds : NoDup olds -> olds <> [] -> (forall l, In l olds -> exists c, active L l c) ->
  exists c L1, reduce_labels L olds = Ok L1 /\ length L1 = S (length L) /\ least (fun c => exists b, In b olds /\ active L b c) c /\
    forall l c', active L1 l c' <-> (active L l c' /\ ~ In l olds) \/ (l = length L /\ c' = c).
Proof.
  intros Hnd Hne Hact. unfold reduce_labels.
  match goal with |- context [fold_outcome ?g _ _] => set (f := g) end.
  assert (G : forall rest pre Lc acc, olds = pre ++ rest -> length Lc = length L -> (forall l c, active Lc l c <-> active L l c /\ ~ In l pre) -> cost_ok L pre acc ->
     exists L1 c, fold_outcome f rest (Lc, acc) = Ok (L1, c) /\ length L1 = length L /\ (forall l c, active L1 l c <-> active L l c /\ ~ In l olds) /\ cost_ok L olds c).
  { induction rest as [|x rest IH]; intros pre Lc acc Hsp Hl HL Hc; cbn [fold_outcome].
    - rewrite app_nil_r in Hsp. subst pre. exists Lc, acc. auto.
    - unfold f at 1. destruct (Hact x) as [c Hcx]; [rewrite Hsp; apply in_or_app; right; now left|].
      assert (Hx : ~ In x pre) by (rewrite Hsp in Hnd; intros Hin; apply NoDup_remove_2 in Hnd; apply Hnd, in_or_app; auto).
      rewrite (get_label_cost_ok Lc x c) by (apply HL; auto). cbn [bind]. unfold vset. assert (Hlt : x < length Lc) by (rewrite Hl; eapply active_lt; eauto). rewrite (proj2 (Nat.ltb_lt x (length Lc)) Hlt). cbn [bind].
      apply (IH (pre ++ [x])); [now rewrite <- app_assoc|now rewrite upd_length| |now apply cost_ok_snoc].
      intros l c'. unfold active at 1. rewrite upd_nth, (proj2 (Nat.ltb_lt x (length Lc)) Hlt), andb_true_r. rewrite in_app_iff. cbn [In]. destruct (Nat.eqb_spec x l) as [<-|Hn].
      + split; [discriminate|]. intros [_ Hn]. exfalso. auto.
      + change (nth_error Lc l = Some (Some c')) with (active Lc l c'). rewrite HL. intuition. }
  destruct (G olds [] L None eq_refl eq_refl) as (L1 & c & E & Hl & HL & Hc).
  - intros l c. cbn [In]. tauto.
  - reflexivity.
  - destruct c as [c|]; [|cbn [cost_ok] in Hc; congruence]. exists c, (L1 ++ [Some c]). split; [match goal with |- bind ?m _ = _ => replace m with (@Ok (label_costs * option nat) (L1, Some c)) by (symmetry; exact E) end; reflexivity|]. split; [rewrite app_length; cbn [length]; lia|]. split.
    + destruct Hc as [(b & A & B) C]. split; [eauto|]. intros c' (b' & A' & B'). eauto.
    + intros l c'. unfold active at 1. destruct (Nat.ltb_spec l (length L)) as [Hlt|Hge].
      * rewrite nth_error_app1 by lia. change (nth_error L1 l = Some (Some c')) with (active L1 l c'). rewrite HL. split; auto. intros [?|[? _]]; auto. lia.
      * rewrite nth_error_app2 by lia. split.
        -- intros E1. right. destruct (l - length L1) as [|d] eqn:Ed; cbn [nth_error] in E1; [inversion E1; split; auto; lia|destruct d; discriminate].
        -- intros [[A _]|[-> ->]]; [apply active_lt in A; lia|]. rewrite Hl, Nat.sub_diag. reflexivity.
Qed.

Lemma old_labels_app a b l : old_labels (a ++ b) l <-> old_labels a l \/ old_labels b l.
Proof. unfold old_labels. split; [intros (e & H & Hl); apply in_app_or in H as [H|H]; eauto|intros [(e & H & Hl)|(e & H & Hl)]; exists e; split; auto; apply in_or_app; auto]. Qed.
Lemma old_labels_one e l : old_labels [e] l <-> In l (snd e).
Proof. unfold old_labels. split; [intros (e' & [<-|[]] & H); auto|intros H; exists e; split; auto; now left]. Qed.
Lemma old_labels_dec mp l : old_labels mp l \/ ~ old_labels mp l.
Proof.
  destruct (in_dec Nat.eq_dec l (concat (map snd mp))) as [H|H]; [left|right].
  - apply in_concat in H as (x & Hx & Hl). apply in_map_iff in Hx as (e & <- & He). exists e. auto.
  - intros (e & He & Hl). apply H, in_concat. exists (snd e). split; auto. now apply in_map.
Qed.

Section REDUCE.
Variable L : label_costs.
Variable maxl : nat.
Variable mp : label_mapping.
Hypothesis V : valid_mapping (active L) (length L) maxl mp.

Lemma v_split pre e rest : mp = pre ++ e :: rest ->
  fst e = length L + length pre /\ NoDup (snd e) /\ snd e <> [] /\
  (forall l, In l (snd e) -> (exists c, active L l c) /\ ~ old_labels pre l) /\ fst e < maxl.
Proof.
  intros Hsp. destruct V as (A & B & C & D & E).
  assert (Hin : In e mp) by (rewrite Hsp; apply in_or_app; right; now left).
  assert (Hf : fst e = length L + length pre) by (apply A; rewrite Hsp, nth_error_app2, Nat.sub_diag; auto).
  splits; auto.
  - rewrite Hsp, map_app, concat_app in B. cbn [map concat] in B. clear - B. induction (concat (map snd pre)) as [|x r IH]; cbn [app] in B; [|inversion B; auto].
    induction (snd e) as [|x r IH]; [constructor|]. cbn [app] in B. inversion B; subst. constructor; auto. intros Hx. apply H1, in_or_app. auto.
  - intros l Hl. split; [apply D; exists e; auto|]. intros (e' & He' & Hl'). rewrite Hsp, map_app, concat_app in B. cbn [map concat] in B.
    assert (H1 : In l (concat (map snd pre))) by (apply in_concat; exists (snd e'); split; auto; now apply in_map).
    clear - B H1 Hl. induction (concat (map snd pre)) as [|x r IH]; cbn [app] in B; [destruct H1|]. inversion B; subst. destruct H1 as [<-|H1]; auto. apply H2. rewrite !in_app_iff. auto.
  - rewrite Hf. rewrite Hsp, app_length in E. cbn [length] in E. lia.
Qed.

(** ** The label costs *)
Definition costs_at (pre : label_mapping) (Lc : label_costs) : Prop :=
  length Lc = length L + length pre /\ reduced_costs pre (active L) (active Lc).
Lemma costs_at_nil : costs_at [] L.
Proof.
  split; [cbn [length]; lia|]. intros a c. split.
  - intros H. left. split; auto. intros (e & [] & _).
  - intros [[H _]|(olds & [] & _)]; auto.
Qed.
Lemma costs_old pre e rest Lc l c : mp = pre ++ e :: rest -> costs_at pre Lc -> In l (snd e) -> (active Lc l c <-> active L l c).
Proof.
  intros Hsp [Hl HR] Hin. destruct (v_split _ _ _ Hsp) as (_ & _ & _ & H & _). destruct (H l Hin) as [[c0 Hc0] Hn]. rewrite (HR l c). split; [|auto].
  intros [[A _]|(olds & Ho & _)]; auto. exfalso. apply active_lt in Hc0. apply In_nth_error in Ho as [j Hj].
  assert (fst (l, olds) = length L + j) by (destruct V as (A & _); apply A; rewrite Hsp, nth_error_app1; auto; eapply nth_error_Some_lt; eauto). cbn [fst] in *. lia.
Qed.
Lemma costs_step pre e rest Lc : mp = pre ++ e :: rest -> costs_at pre Lc ->
  exists L1 c, reduce_labels Lc (snd e) = Ok L1 /\ costs_at (pre ++ [e]) L1 /\ active L1 (fst e) c /\ fst e = length Lc /\
    least (fun c => exists b, In b (snd e) /\ active Lc b c) c /\
    forall l c', active L1 l c' <-> (active Lc l c' /\ ~ In l (snd e)) \/ (l = fst e /\ c' = c).
Proof.
  intros Hsp HC. destruct (v_split _ _ _ Hsp) as (Hf & Hnd & Hne & Hold & _).
  destruct (reduce_labels_ok Lc (snd e) Hnd Hne) as (c & L1 & E & Hl1 & Hle & HL1).
  { intros l Hl. destruct (Hold l Hl) as [[c Hc] _]. exists c. now apply (costs_old pre e rest). }
  pose proof HC as [Hlc HR].
  assert (Hle' : forall c, least (fun c => exists b, In b (snd e) /\ active Lc b c) c <-> least (fun c => exists b, In b (snd e) /\ active L b c) c).
  { intros c'. unfold least. split; (intros [(b & A & B) C]; split; [exists b; split; auto; now apply (costs_old pre e rest Lc)|]); intros c2 (b2 & A2 & B2); apply C; exists b2; split; auto; now apply (costs_old pre e rest Lc). }
  assert (Hlen : fst e = length Lc) by lia.
  exists L1, c. rewrite Hlen. splits; auto.
  - split; [rewrite app_length; cbn [length]; lia|]. intros a c'. rewrite HL1, (HR a c'). split.
    + intros [[[[A B]|(olds & A & B)] C]|[-> ->]].
      * left. split; auto. rewrite old_labels_app, old_labels_one. tauto.
      * right. exists olds. split; auto. apply in_or_app; auto.
      * right. exists (snd e). split; [|now apply Hle']. apply in_or_app. right. left. rewrite <- Hlen. now destruct e.
    + intros [[A B]|(olds & A & B)].
      * rewrite old_labels_app, old_labels_one in B. left. split; [left; split; [auto|tauto]|tauto].
      * apply in_app_or in A as [A|[->|[]]].
        -- left. split; [right; eauto|]. intros Hin. destruct (Hold a Hin) as [[c0 Hc0] _]. apply active_lt in Hc0. apply In_nth_error in A as [j Hj].
           assert (fst (a, olds) = length L + j) by (destruct V as (A & _); apply A; rewrite Hsp, nth_error_app1; auto; eapply nth_error_Some_lt; eauto). cbn [fst] in *. lia.
        -- right. cbn [fst snd] in *. split; auto. destruct Hle as [D1 D2]. destruct (proj2 (Hle' c') B) as [D3 D4]. apply Nat.le_antisymm; auto.
  - apply HL1. auto.
Qed.
Lemma costs_all : forall rest pre Lc, mp = pre ++ rest -> costs_at pre Lc ->
  exists L', fold_outcome (fun L e => reduce_labels L (snd e)) rest Lc = Ok L' /\ costs_at mp L'.
Proof.
  induction rest as [|e rest IH]; intros pre Lc Hsp HC; cbn [fold_outcome].
  - rewrite app_nil_r in Hsp. subst pre. eauto.
  - destruct (costs_step pre e rest Lc Hsp HC) as (L1 & c & -> & HC1 & _). cbn [bind]. apply (IH (pre ++ [e])); auto. now rewrite <- app_assoc.
Qed.

(** ** Systems in which the replaced labels are locally equivalent *)
Variable n : nat.
Variable l2l0 : list (option nat).
Variable infos0 : list info.
Hypothesis W0 : gwf L n l2l0 infos0.
Hypothesis Hmax : length l2l0 = maxl.
Definition steps_at (pre : label_mapping) (l2l : list (option nat)) (infos : list info) : Prop :=
  (forall a c x y, active L a c -> ~ old_labels pre a -> (gstep l2l infos a x y <-> gstep l2l0 infos0 a x y)) /\
  (forall a olds x y, In (a, olds) pre -> (gstep l2l infos a x y <-> exists b, In b olds /\ gstep l2l0 infos0 b x y)).
Definition locally_equivalent : Prop :=
  forall e, In e mp -> exists k, forall l, In l (snd e) -> nth_error l2l0 l = Some (Some k).

Lemma cost_ok_change La Lb ls r : (forall l c, In l ls -> (active La l c <-> active Lb l c)) -> cost_ok La ls r -> cost_ok Lb ls r.
Proof.
  intros H. destruct r as [c|]; cbn [cost_ok]; auto. intros [(l & A & B) C]. split.
  - exists l. split; auto. now apply (proj1 (H l c A)).
  - intros l' c' A' B'. apply (C l' c' A'). now apply (proj2 (H l' c' A')).
Qed.

Lemma reduce_equivalent_all : locally_equivalent -> forall rest pre Lc l2l infos L', mp = pre ++ rest -> costs_at pre Lc ->
  gwf Lc n l2l infos -> length l2l = maxl -> steps_at pre l2l infos ->
  (forall l c, active L l c -> ~ old_labels pre l -> nth_error l2l l = nth_error l2l0 l) ->
  fold_outcome (fun L e => reduce_labels L (snd e)) rest Lc = Ok L' ->
  exists l2l' infos', fold_outcome reduce_equivalent rest (l2l, infos) = Ok (l2l', infos') /\ gwf L' n l2l' infos' /\ length l2l' = maxl /\ steps_at mp l2l' infos'.
Proof.
  intros LE. induction rest as [|e rest IH]; intros pre Lc l2l infos L' Hsp HC W Hlen HS Hsame EL; cbn [fold_outcome] in *.
  - rewrite app_nil_r in Hsp. subst pre. inversion EL; subst. exists l2l, infos. auto.
  - destruct (costs_step pre e rest Lc Hsp HC) as (L1 & c & E1 & HC1 & Hcn & Hnl & Hle & HL1). rewrite E1 in EL. cbn [bind] in EL.
    destruct (v_split _ _ _ Hsp) as (Hf & Hnd & Hne & Hold & Hmx).
    assert (Hin : In e mp) by (rewrite Hsp; apply in_or_app; right; now left).
    destruct (LE e Hin) as [k Hk]. destruct e as [new olds]. cbn [fst snd] in *.
    assert (Hk' : forall l, In l olds -> nth_error l2l l = Some (Some k)) by (intros l Hl; destruct (Hold l Hl) as [[cl Hcl] Hn]; rewrite (Hsame l cl Hcl Hn); auto).
    destruct olds as [|o0 olds0] eqn:Eo; [congruence|]. rewrite <- Eo in *. assert (Ho0 : In o0 olds) by (rewrite Eo; now left).
    assert (Hact : forall l, In l olds -> exists c, active Lc l c) by (intros l Hl; destruct (Hold l Hl) as [[cl Hcl] _]; exists cl; apply (costs_old pre (new, olds) rest Lc l cl Hsp HC Hl); auto).
    assert (exists i, nth_error infos k = Some i /\ forall l, In l olds -> In l (i_labels i)) as (i & Hi & Hil).
    { destruct (Hact o0 Ho0) as [c0 Hc0]. destruct (g_label _ _ _ _ W o0 c0 Hc0) as (k1 & i & X & Y & Z). rewrite (Hk' o0 Ho0) in X. inversion X; subst k1. exists i. split; auto.
      intros l Hl. destruct (Hact l Hl) as [cl Hcl]. destruct (g_label _ _ _ _ W l cl Hcl) as (k1 & i1 & X1 & Y1 & Z1). rewrite (Hk' l Hl) in X1. inversion X1; subst k1. congruence. }
    assert (Ered : reduce_equivalent (l2l, infos) (new, olds) = let* l2l' := set_local (upd l2l new (Some k)) olds None in Ok (l2l', upd infos k (same_cost_mapping i new olds))).
    { unfold reduce_equivalent. rewrite Eo. rewrite <- Eo. unfold vget. rewrite (Hk' o0 Ho0). cbn [bind]. rewrite Hi. cbn [bind]. unfold vset. rewrite (proj2 (Nat.ltb_lt k (length infos))) by (eapply nth_error_Some_lt; eauto). cbn [bind]. rewrite (proj2 (Nat.ltb_lt new (length l2l))) by lia. reflexivity. }
    rewrite Ered. destruct (set_local_ok None olds (upd l2l new (Some k))) as (l2l1 & -> & Hl1 & Hg1); [intros l Hl; rewrite upd_length; eapply nth_error_Some_lt, Hk', Hl|]. cbn [bind].
    assert (Hg : forall l, nth_error l2l1 l = if member l olds then Some None else if l =? new then Some (Some k) else nth_error l2l l).
    { intros l. rewrite Hg1. destruct (member l olds); auto. rewrite upd_nth, (proj2 (Nat.ltb_lt new (length l2l))) by lia. rewrite andb_true_r, Nat.eqb_sym. reflexivity. }
    set (i1 := same_cost_mapping i new olds). assert (Hkl : k < length infos) by (eapply nth_error_Some_lt; eauto).
    assert (Hi1 : forall k', nth_error (upd infos k i1) k' = if k' =? k then Some i1 else nth_error infos k') by (intros k'; rewrite upd_nth, (proj2 (Nat.ltb_lt k (length infos)) Hkl), andb_true_r, Nat.eqb_sym; reflexivity).
    assert (Hlab : forall l, In l (i_labels i1) <-> (In l (i_labels i) /\ ~ In l olds) \/ l = new).
    { intros l. unfold i1, same_cost_mapping, remove_labels. cbn [i_labels]. rewrite in_app_iff, filter_In, negb_true_iff, member_not. cbn [In]. intuition. }
    assert (Hnew : ~ In new olds) by (intros Hx; destruct (Hold new Hx) as [[cx Hcx] _]; apply active_lt in Hcx; lia).
    assert (Hlt : forall l cl, active Lc l cl -> l <> new) by (intros l cl Hcl ->; apply active_lt in Hcl; lia).
    assert (W1 : gwf L1 n l2l1 (upd infos k i1)).
    { constructor.
      - intros l cl Hcl. apply HL1 in Hcl as [[A B]|[-> ->]].
        + destruct (g_label _ _ _ _ W l cl A) as (k1 & j & X & Y & Z). rewrite Hg, (proj2 (member_not l olds) B). destruct (Nat.eqb_spec l new) as [->|_]; [exfalso; eapply Hlt; eauto|].
          destruct (Nat.eq_dec k1 k) as [->|Hn]; [exists k, i1; splits; auto; [rewrite Hi1, Nat.eqb_refl; auto|apply Hlab; left; split; auto; congruence]|].
          exists k1, j. splits; auto. rewrite Hi1. now destruct (Nat.eqb_spec k1 k).
        + exists k, i1. rewrite Hg, (proj2 (member_not new olds) Hnew), Nat.eqb_refl, Hi1, Nat.eqb_refl. splits; auto. apply Hlab. auto.
      - intros k1 j l Hj Hl. rewrite Hi1 in Hj. rewrite Hg. destruct (Nat.eqb_spec k1 k) as [->|Hn].
        + inversion Hj; subst j. apply Hlab in Hl as [[A B]| ->].
          * rewrite (proj2 (member_not l olds) B). destruct (g_group _ _ _ _ W k i l Hi A) as [X [cl Y]]. destruct (Nat.eqb_spec l new) as [->|_]; [exfalso; eapply Hlt; eauto|]. split; auto. exists cl. apply HL1. auto.
          * rewrite (proj2 (member_not new olds) Hnew), Nat.eqb_refl. split; auto. exists c. apply HL1. auto.
        + destruct (g_group _ _ _ _ W k1 j l Hj Hl) as [X [cl Y]].
          assert (B : ~ In l olds) by (intros B; rewrite (Hk' l B) in X; congruence). rewrite (proj2 (member_not l olds) B). destruct (Nat.eqb_spec l new) as [->|_]; [exfalso; eapply Hlt; eauto|]. split; auto. exists cl. apply HL1. auto.
      - intros k1 j Hj Hact1. rewrite Hi1 in Hj. destruct (Nat.eqb_spec k1 k) as [->|Hn].
        + inversion Hj; subst j. change (i_cost i1) with (i_cost i).
          assert (Ha : is_active i = true) by (apply active_In; eauto). pose proof (g_cost _ _ _ _ W k i Hi Ha) as HCi.
          destruct (i_cost i) as [ci|]; cbn [cost_ok] in *; [|exfalso; specialize (Hil o0 Ho0); rewrite HCi in Hil; destruct Hil].
          destruct HCi as [(l0 & A & B) C]. destruct Hle as [(b & D1 & D2) D3]. assert (Hcb : ci <= c) by (apply (C b c); auto).
          split.
          * destruct (in_dec Nat.eq_dec l0 olds) as [Hin0|Hin0].
            -- exists new. split; [apply Hlab; auto|]. apply HL1. right. split; auto. apply Nat.le_antisymm; auto. apply D3. eauto.
            -- exists l0. split; [apply Hlab; auto|]. apply HL1. auto.
          * intros l cl Hl Hcl. apply HL1 in Hcl as [[E F]|[-> ->]]; auto. apply Hlab in Hl as [[G _]| ->]; eauto. exfalso. eapply Hlt; eauto.
        + eapply cost_ok_change; [|exact (g_cost _ _ _ _ W k1 j Hj Hact1)]. intros l cl Hl. destruct (g_group _ _ _ _ W k1 j l Hj Hl) as [X [c2 Y]]. rewrite HL1. split; [intros Hcl; left; split; auto; intros B; rewrite (Hk' l B) in X; congruence|].
          intros [[A _]|[-> _]]; auto. exfalso. eapply Hlt; eauto.
      - intros k1 j s t Hj Hst. rewrite Hi1 in Hj. destruct (Nat.eqb_spec k1 k) as [->|Hn]; [inversion Hj; subst j; eapply (g_trans _ _ _ _ W k i); eauto|eapply (g_trans _ _ _ _ W k1 j); eauto]. }
    assert (Hgn : forall x y, gstep l2l1 (upd infos k i1) new x y <-> In (x, y) (i_trans i)).
    { intros x y. assert (Hkk : nth_error (upd infos k i1) k = Some i1) by (rewrite Hi1, Nat.eqb_refl; auto).
      rewrite (gstep_info _ _ _ _ k i1 new x y W1 Hkk) by (apply Hlab; auto). reflexivity. }
    assert (Hgo : forall l cl x y, active Lc l cl -> ~ In l olds -> (gstep l2l1 (upd infos k i1) l x y <-> gstep l2l infos l x y)).
    { intros l cl x y Hcl Hn. destruct (g_label _ _ _ _ W l cl Hcl) as (k1 & j & X & Y & Z). rewrite (gstep_info _ _ _ _ k1 j l x y W Y Z).
      destruct (Nat.eq_dec k1 k) as [->|Hn1].
      - assert (Hkk : nth_error (upd infos k i1) k = Some i1) by (rewrite Hi1, Nat.eqb_refl; auto). rewrite (gstep_info _ _ _ _ k i1 l x y W1 Hkk) by (apply Hlab; left; split; auto; congruence).
        rewrite Hi in Y. inversion Y; subst j. reflexivity.
      - assert (Hkk : nth_error (upd infos k i1) k1 = Some j) by (rewrite Hi1; now destruct (Nat.eqb_spec k1 k)). apply (gstep_info _ _ _ _ k1 j l x y W1 Hkk Z). }
    apply (IH (pre ++ [(new, olds)]) L1); auto.
    + now rewrite <- app_assoc.
    + rewrite Hl1, upd_length. auto.
    + destruct HS as [S1 S2]. destruct HC as [HCl HR]. split.
      * intros a ca x y Ha Hn. rewrite old_labels_app, old_labels_one in Hn. cbn [snd] in Hn. rewrite (Hgo a ca x y); [eauto| |tauto]. apply HR. left. tauto.
      * intros a olds' x y Hin'. apply in_app_or in Hin' as [Hin'|[E|[]]].
        -- assert (exists ca, active Lc a ca) as [ca Hca].
           { assert (Hmem : In (a, olds') mp) by (rewrite Hsp; apply in_or_app; auto).
             assert (exists l cl, In l olds' /\ active L l cl) as (l & cl & X & Y).
             { destruct V as (_ & _ & V3 & V4 & _). specialize (V3 _ Hmem). cbn [snd] in V3. destruct olds' as [|z r]; [congruence|]. destruct (V4 z) as [cz Hz]; [exists (a, z :: r); split; auto; now left|]. exists z, cz. split; auto. now left. }
             assert (exists m, least (fun c => exists b, In b olds' /\ active L b c) m) as [m Hm].
             { destruct (min_cost_ok L olds') as (r & _ & Hr); [intros z Hz; destruct V as (_ & _ & _ & V4 & _); apply V4; exists (a, olds'); auto|]. destruct r as [m|]; cbn [cost_ok] in Hr; [|rewrite Hr in X; destruct X]. exists m. destruct Hr as [(b & P & Q) R]. split; [eauto|]. intros c' (b' & P' & Q'). eauto. }
             exists m. apply HR. right. eauto. }
           rewrite (Hgo a ca x y Hca); [eauto|]. intros Hx. destruct (Hold a Hx) as [[c2 Hc2] _]. apply active_lt in Hc2. apply In_nth_error in Hin' as [j Hj].
           assert (fst (a, olds') = length L + j) by (destruct V as (A & _); apply A; rewrite Hsp, nth_error_app1; auto; eapply nth_error_Some_lt; eauto). cbn [fst] in *. lia.
        -- inversion E; subst a olds'. rewrite Hgn. split.
           ++ intros Hxy. exists o0. split; auto. destruct (Hold o0 Ho0) as [[c2 Hc2] Hn2]. apply (S1 o0 c2 x y Hc2 Hn2). apply (gstep_info _ _ _ _ k i o0 x y W Hi); auto.
           ++ intros (b & Hb & Hg2). destruct (Hold b Hb) as [[c2 Hc2] Hn2]. apply (S1 b c2 x y Hc2 Hn2) in Hg2. apply (gstep_info _ _ _ _ k i b x y W Hi) in Hg2; auto.
    + intros l cl Hcl Hn. rewrite old_labels_app, old_labels_one in Hn. cbn [snd] in Hn. rewrite Hg, (proj2 (member_not l olds)) by tauto. destruct (Nat.eqb_spec l new) as [->|_]; [exfalso; apply active_lt in Hcl; lia|]. apply (Hsame l cl Hcl). tauto.
Qed.
End REDUCE.
