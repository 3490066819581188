(** Label reduction in the system whose labels are combined freely, and the final statement. *)
From Verif Require Import Outcome Spec_Relaxation Spec_FTS Model_MAS Proof_MAS1 Proof_MAS2 Proof_MAS3 Proof_MAS4.

Section COMB.
Variable L : label_costs.
Variable maxl : nat.
Variable mp : label_mapping.
Hypothesis V : valid_mapping (active L) (length L) maxl mp.
Variable n : nat.
Variable l2l0 : list (option nat).
Variable infos0 : list info.
Hypothesis W0 : gwf L n l2l0 infos0.
Hypothesis Hmax : length l2l0 = maxl.
Variable L' : label_costs.
Hypothesis HC : costs_at L mp L'.
Notation step0 := (gstep l2l0 infos0).
Notation group0 l k := (nth_error l2l0 l = Some (Some k)).

Definition rem_ok (removed : list (nat * list nat)) (D : nat -> Prop) : Prop :=
  (NoDup (map fst removed) /\ forall b, In b removed -> snd b <> []) /\ forall k l, (exists ls, In (k, ls) removed /\ In l ls) <-> D l /\ group0 l k.
Lemma collect_ok l2l infos olds removed (D : nat -> Prop) : NoDup olds -> length l2l = maxl -> rem_ok removed D ->
  (forall l, In l olds -> (exists c, active L l c) /\ nth_error l2l l = nth_error l2l0 l) ->
  (forall k i, nth_error infos0 k = Some i -> nth_error infos k = Some i) ->
  exists l2l' seen tr removed', fold_outcome (collect_label infos) olds (l2l, [], [], removed) = Ok (l2l', seen, tr, removed') /\
    length l2l' = maxl /\ (forall l, nth_error l2l' l = if member l olds then Some None else nth_error l2l l) /\
    (forall x y, In (x, y) tr <-> exists b, In b olds /\ step0 b x y) /\ rem_ok removed' (fun l => D l \/ In l olds).
Proof.
  intros Hnd Hlen HR Hol Hinf.
  assert (G : forall rest pre l2lc seen tr rem, olds = pre ++ rest -> length l2lc = maxl -> (forall l, nth_error l2lc l = if member l pre then Some None else nth_error l2l l) ->
     (forall k, In k seen <-> exists b, In b pre /\ group0 b k) -> (forall x y, In (x, y) tr <-> exists b, In b pre /\ step0 b x y) -> rem_ok rem (fun l => D l \/ In l pre) ->
     exists l2l' seen' tr' removed', fold_outcome (collect_label infos) rest (l2lc, seen, tr, rem) = Ok (l2l', seen', tr', removed') /\
       length l2l' = maxl /\ (forall l, nth_error l2l' l = if member l olds then Some None else nth_error l2l l) /\
       (forall x y, In (x, y) tr' <-> exists b, In b olds /\ step0 b x y) /\ rem_ok removed' (fun l => D l \/ In l olds)).
  { induction rest as [|x rest IH]; intros pre l2lc seen tr rem Hsp Hlc Hget Hseen Htr Hrem; cbn [fold_outcome].
    - rewrite app_nil_r in Hsp. subst pre. exists l2lc, seen, tr, rem. auto.
    - assert (Hx : In x olds) by (rewrite Hsp; apply in_or_app; right; now left). destruct (Hol x Hx) as [[c Hc] Hg].
      assert (Hnx : ~ In x pre) by (rewrite Hsp in Hnd; intros Hin; apply NoDup_remove_2 in Hnd; apply Hnd, in_or_app; auto).
      destruct (g_label _ _ _ _ W0 x c Hc) as (k & i & X & Y & Z).
      unfold collect_label at 1. unfold vget. rewrite Hget, (proj2 (member_not x pre) Hnx), Hg, X. cbn [bind]. rewrite (Hinf k i Y). cbn [bind].
      match goal with |- context [if member k seen then ?a else ?b] => set (st := if member k seen then a else b) end.
      assert (Hst : (forall k', In k' (fst st) <-> exists b, In b (pre ++ [x]) /\ group0 b k') /\ (forall s t, In (s, t) (snd st) <-> exists b, In b (pre ++ [x]) /\ step0 b s t)).
      { assert (S : forall s t, step0 x s t <-> In (s, t) (i_trans i)) by (intros; eapply gstep_info; eauto). subst st. destruct (member k seen) eqn:Em; cbn [fst snd].
        - apply member_In in Em. destruct (proj1 (Hseen k) Em) as (b & Hb & Gb). split.
          + intros k'. rewrite Hseen. split; [intros (b' & A & B); exists b'; split; auto; apply in_or_app; auto|]. intros (b' & A & B). apply in_app_or in A as [A|[<-|[]]]; eauto. rewrite X in B. inversion B; subst. eauto.
          + intros s t. rewrite Htr. split; [intros (b' & A & B); exists b'; split; auto; apply in_or_app; auto|]. intros (b' & A & B). apply in_app_or in A as [A|[<-|[]]]; eauto. exists b. split; auto. exists k, i. apply S in B. auto.
        - split.
          + intros k'. cbn [In]. rewrite Hseen. split.
            * intros [<-|(b' & A & B)]; [exists x; split; auto; apply in_or_app; right; now left|exists b'; split; auto; apply in_or_app; auto].
            * intros (b' & A & B). apply in_app_or in A as [A|[<-|[]]]; eauto. left. congruence.
          + intros s t. rewrite in_app_iff, Htr. split.
            * intros [(b' & A & B)|A]; [exists b'; split; auto; apply in_or_app; auto|exists x; split; [apply in_or_app; right; now left|now apply S]].
            * intros (b' & A & B). apply in_app_or in A as [A|[<-|[]]]; eauto. right. now apply S. }
      destruct st as [seen1 tr1]. cbn [fst snd] in Hst. unfold vset. rewrite (proj2 (Nat.ltb_lt x (length l2lc))) by (rewrite Hlc, <- Hmax; eapply nth_error_Some_lt; eauto). cbn [bind].
      apply (IH (pre ++ [x])); [now rewrite <- app_assoc|now rewrite upd_length| |apply Hst|apply Hst|].
      + intros l. rewrite upd_nth, (proj2 (Nat.ltb_lt x (length l2lc))), andb_true_r by (rewrite Hlc, <- Hmax; eapply nth_error_Some_lt; eauto). rewrite Hget.
        destruct (Nat.eqb_spec x l) as [<-|Hn].
        * rewrite (proj2 (member_In x (pre ++ [x]))); auto. apply in_or_app. right. now left.
        * destruct (member l pre) eqn:Em; [rewrite (proj2 (member_In l (pre ++ [x]))); auto; apply in_or_app; left; now apply member_In|].
          rewrite (proj2 (member_not l (pre ++ [x]))); auto. apply member_not in Em. rewrite in_app_iff. cbn [In]. tauto.
      + destruct Hrem as [[R1 R0] R2]. split; [split; [now apply add_to_bucket_NoDup|now apply add_to_bucket_ne]|]. intros k' l. rewrite add_to_bucket_In by auto. rewrite R2, in_app_iff. cbn [In]. split.
        * intros [[A B]|[-> ->]]; [tauto|]. split; auto.
        * intros [[A|[A|[<-|[]]]] B]; [left; auto|left; auto|]. right. rewrite X in B. inversion B; auto. }
  destruct (G olds [] l2l [] [] removed eq_refl Hlen) as (l2l' & seen & tr & rem & E & A & B & C & F).
  - intros l. reflexivity.
  - intros k. split; [intros []|intros (b & [] & _)].
  - intros x y. split; [intros []|intros (b & [] & _)].
  - destruct HR as [R1 R2]. split; auto. intros k l. rewrite R2. cbn [In]. tauto.
  - exists l2l', seen, tr, rem. splits; auto.
Qed.

Record CI (pre : label_mapping) (l2l : list (option nat)) (infos : list info) (removed : list (nat * list nat)) : Prop := {
  c_len : length l2l = maxl;
  c_inf : length infos = length infos0 + length pre;
  c_infos : forall k i, nth_error infos0 k = Some i -> nth_error infos k = Some i;
  c_old : forall l, old_labels pre l -> nth_error l2l l = Some None;
  c_keep : forall l, l < length L -> ~ old_labels pre l -> nth_error l2l l = nth_error l2l0 l;
  c_new : forall j e, nth_error pre j = Some e -> nth_error l2l (fst e) = Some (Some (length infos0 + j)) /\
     exists i c, nth_error infos (length infos0 + j) = Some i /\ i_labels i = [fst e] /\ i_cost i = Some c /\ active L' (fst e) c /\
       forall x y, In (x, y) (i_trans i) <-> exists b, In b (snd e) /\ step0 b x y;
  c_rem : rem_ok removed (old_labels pre)
}.

Lemma new_active e : In e mp -> exists c, active L' (fst e) c.
Proof.
  intros Hin. destruct e as [a olds]. cbn [fst]. destruct V as (_ & _ & V3 & V4 & _).
  destruct (min_cost_ok L olds) as (r & _ & Hr); [intros z Hz; apply V4; exists (a, olds); auto|]. destruct r as [m|]; cbn [cost_ok] in Hr; [|exfalso; apply (V3 (a, olds) Hin), Hr].
  exists m. apply (proj2 HC). right. exists olds. split; auto. destruct Hr as [(b & P & Q) R]. split; [eauto|]. intros c' (b' & P' & Q'). eauto.
Qed.

Lemma reduce_combinable_all : forall rest pre l2l infos removed, mp = pre ++ rest -> CI pre l2l infos removed ->
  exists l2l' infos' removed', fold_outcome (reduce_combinable L') rest (l2l, infos, removed) = Ok (l2l', infos', removed') /\ CI mp l2l' infos' removed'.
Proof.
  induction rest as [|e rest IH]; intros pre l2l infos removed Hsp [A B C D E F G]; cbn [fold_outcome].
  - rewrite app_nil_r in Hsp. subst pre. exists l2l, infos, removed. split; auto. constructor; auto.
  - destruct (v_split L maxl mp V _ _ _ Hsp) as (Hf & Hnd & Hne & Hold & Hmx).
    assert (Hin : In e mp) by (rewrite Hsp; apply in_or_app; right; now left).
    destruct (new_active e Hin) as [c Hc]. destruct e as [new olds]. cbn [fst snd] in *. unfold reduce_combinable at 1.
    destruct (collect_ok l2l infos olds removed (old_labels pre) Hnd A G) as (l2l1 & seen & tr & rem & -> & Hl1 & Hg1 & Htr & HR1); auto.
    { intros l Hl. destruct (Hold l Hl) as [[cl Hcl] Hn]. split; [eauto|]. apply E; auto. eapply active_lt; eauto. }
    cbn [bind]. unfold vset. rewrite (proj2 (Nat.ltb_lt new (length l2l1))) by lia. cbn [bind]. rewrite (get_label_cost_ok L' new c Hc). cbn [bind].
    assert (Hnew : forall l, old_labels pre l \/ In l olds -> l <> new).
    { intros l Ho ->. assert (exists c, active L new c) as [cx Hx]; [|apply active_lt in Hx; lia].
      destruct Ho as [Ho|Ho]; [|now apply Hold]. destruct V as (_ & _ & _ & V4 & _). apply V4. rewrite Hsp. apply old_labels_app. auto. }
    assert (Hget : forall l, nth_error (upd l2l1 new (Some (length infos))) l = if l =? new then Some (Some (length infos)) else if member l olds then Some None else nth_error l2l l).
    { intros l. rewrite upd_nth, (proj2 (Nat.ltb_lt new (length l2l1))), andb_true_r by lia. rewrite Hg1, Nat.eqb_sym. reflexivity. }
    set (i := {| i_labels := [new]; i_trans := _; i_cost := _ |}).
    apply (IH (pre ++ [(new, olds)])); [now rewrite <- app_assoc|]. constructor.
    + rewrite upd_length. auto.
    + rewrite !app_length. cbn [length]. lia.
    + intros k i' Hk. rewrite nth_error_app1; auto. rewrite B. apply nth_error_Some_lt in Hk. lia.
    + intros l Ho. rewrite old_labels_app, old_labels_one in Ho. cbn [snd] in Ho. rewrite Hget. destruct (Nat.eqb_spec l new) as [->|_]; [exfalso; eapply Hnew; eauto|].
      destruct (member l olds) eqn:Em; auto. apply member_not in Em. apply D. tauto.
    + intros l Hlt Ho. rewrite old_labels_app, old_labels_one in Ho. cbn [snd] in Ho. rewrite Hget. destruct (Nat.eqb_spec l new) as [->|_]; [lia|].
      rewrite (proj2 (member_not l olds)) by tauto. apply E; tauto.
    + intros j e Hj. destruct (Nat.ltb_spec j (length pre)) as [Hlt|Hge].
      * rewrite nth_error_app1 in Hj by auto. destruct (F j e Hj) as (X & i' & ce & Y1 & Y2 & Y3 & Y4 & Y5). rewrite Hget.
        assert (Hfe : fst e = length L + j) by (destruct V as (A1 & _); apply A1; rewrite Hsp, nth_error_app1; auto).
        destruct (Nat.eqb_spec (fst e) new) as [E1|_]; [lia|]. rewrite (proj2 (member_not (fst e) olds)); [|intros Hx; destruct (Hold _ Hx) as [[cx Hcx] _]; apply active_lt in Hcx; lia].
        split; auto. exists i', ce. splits; auto. rewrite nth_error_app1; auto. eapply nth_error_Some_lt; eauto.
      * rewrite nth_error_app2 in Hj by auto. destruct (j - length pre) as [|d] eqn:Ed; cbn [nth_error] in Hj; [|destruct d; discriminate]. inversion Hj; subst e. cbn [fst snd].
        replace (length infos0 + j) with (length infos) by lia. rewrite Hget, Nat.eqb_refl. split; auto. exists i, c. rewrite nth_error_app2, Nat.sub_diag by auto. splits; auto.
        intros x y. cbn [i i_trans]. rewrite sort_unique_In. apply Htr.
    + destruct HR1 as [R1 R2]. split; auto. intros k l. rewrite R2, old_labels_app, old_labels_one. cbn [snd]. tauto.
Qed.

Lemma remove_ok : forall removed infos, NoDup (map fst removed) ->
  (forall k ls, In (k, ls) removed -> exists i, nth_error infos k = Some i /\ forall l, In l (i_labels i) -> ~ In l ls -> exists c, active L' l c) ->
  exists infos', fold_outcome (remove_from L') removed infos = Ok infos' /\ length infos' = length infos /\
    (forall k ls i, In (k, ls) removed -> nth_error infos k = Some i -> exists i', nth_error infos' k = Some i' /\ i_trans i' = i_trans i /\
       (forall l, In l (i_labels i') <-> In l (i_labels i) /\ ~ In l ls) /\ cost_ok L' (i_labels i') (i_cost i')) /\
    (forall k, ~ In k (map fst removed) -> nth_error infos' k = nth_error infos k).
Proof.
  induction removed as [|[k ls] removed IH]; intros infos Hnd H; cbn [fold_outcome].
  - exists infos. splits; auto. intros k ls i [].
  - inversion Hnd as [|? ? Hk Hnd']; subst. destruct (H k ls (or_introl eq_refl)) as (i & Hi & Hia). unfold remove_from at 1. cbn [fst snd]. unfold vget. rewrite Hi. cbn [bind].
    assert (Hlab : forall l, In l (i_labels (remove_labels i ls)) <-> In l (i_labels i) /\ ~ In l ls) by (intros l; unfold remove_labels; cbn [i_labels]; rewrite filter_In, negb_true_iff, member_not; tauto).
    destruct (min_cost_ok L' (i_labels (remove_labels i ls))) as (c & -> & Hc); [intros l Hl; apply Hlab in Hl as [A B]; auto|]. cbn [bind].
    unfold vset. assert (Hlt : k < length infos) by (eapply nth_error_Some_lt; eauto). rewrite (proj2 (Nat.ltb_lt _ _) Hlt). cbn [bind].
    set (i1 := {| i_labels := _; i_trans := _; i_cost := c |}).
    assert (Hne : forall k' ls', In (k', ls') removed -> k' <> k) by (intros k' ls' Hin ->; apply Hk; apply in_map_iff; exists (k, ls'); auto).
    destruct (IH (upd infos k i1) Hnd') as (infos' & -> & Hl & H1 & H2).
    { intros k' ls' Hin. rewrite upd_nth_neq by (apply not_eq_sym; eauto). apply H. now right. }
    exists infos'. splits; auto; [now rewrite upd_length in Hl| |].
    + intros k' ls' i' [E|Hin] Hi'.
      * inversion E; subst k' ls'. rewrite Hi in Hi'. inversion Hi'; subst i'. exists i1. rewrite H2 by auto. rewrite upd_nth_eq by auto. splits; auto.
      * apply (H1 k' ls' i' Hin). rewrite upd_nth_neq; auto. apply not_eq_sym. eauto.
    + intros k' Hk'. cbn [map In fst] in Hk'. rewrite H2 by tauto. apply upd_nth_neq. tauto.
Qed.

Lemma reduce_combinable_ok : exists l2l' infos',
  (let* (l2l, infos, removed) := fold_outcome (reduce_combinable L') mp (l2l0, infos0, []) in
   let* infos := fold_outcome (remove_from L') removed infos in combine_labels l2l infos) = Ok (l2l', infos') /\
  gwf L' n l2l' infos' /\ length l2l' = maxl /\ steps_at L l2l0 infos0 mp l2l' infos'.
Proof.
  assert (C0 : CI [] l2l0 infos0 []).
  { constructor; auto.
    - intros l (e & [] & _).
    - intros [|j] e Hj; discriminate.
    - split; [split; [apply NoDup_nil|intros b []]|]. intros k l. split; [intros (ls & [] & _)|intros [(e & [] & _) _]]. }
  destruct (reduce_combinable_all mp [] l2l0 infos0 [] eq_refl C0) as (l2l & infos & removed & -> & [A B C D E F [[G1 G0] G2]]). cbn [bind].
  pose proof HC as [HCl HCr].
  assert (Hlow : forall k i, nth_error infos0 k = Some i -> forall l, In l (i_labels i) -> (exists c, active L l c) /\ l < length L /\ group0 l k).
  { intros k i Hk l Hl. destruct (g_group _ _ _ _ W0 k i l Hk Hl) as [X [c Y]]. splits; eauto. eapply active_lt; eauto. }
  assert (Hstay : forall l c, active L l c -> ~ old_labels mp l -> active L' l c) by (intros l c X Y; apply HCr; auto).
  assert (Hstay' : forall l c, l < length L -> active L' l c -> active L l c /\ ~ old_labels mp l).
  { intros l c X Y. apply HCr in Y as [Y|(olds & Y & _)]; auto. exfalso. apply In_nth_error in Y as [j Hj]. destruct V as (V1 & _). specialize (V1 _ _ Hj). cbn [fst] in V1. lia. }
  assert (Hex : forall k ls, In (k, ls) removed -> ls <> [] -> exists i, nth_error infos0 k = Some i).
  { intros k ls Hin Hn. destruct ls as [|l r]; [congruence|]. destruct (proj1 (G2 k l)) as [X Y]; [exists (l :: r); split; auto; now left|].
    destruct V as (_ & _ & _ & V4 & _). destruct (V4 l X) as [c Hc]. destruct (g_label _ _ _ _ W0 l c Hc) as (k1 & i & P & Q & _). rewrite Y in P. inversion P; subst. eauto. }
  assert (Hnemp : forall k ls, In (k, ls) removed -> exists i, nth_error infos0 k = Some i /\ forall l, In l ls <-> old_labels mp l /\ group0 l k).
  { intros k ls Hin. destruct ls as [|l r].
    - exfalso. exact (G0 _ Hin eq_refl).
    - destruct (Hex k (l :: r) Hin) as [i Hi]; [discriminate|]. exists i. split; auto. intros l'. rewrite <- G2. split; [eauto|]. intros (ls & X & Y).
      assert (ls = l :: r) as ->; auto. clear - G1 Hin X. induction removed as [|[k0 l0] rem IH]; [destruct Hin|]. cbn [map] in G1. inversion G1 as [|? ? N1 N2]; subst. destruct Hin as [E|Hin], X as [E'|X].
      + congruence.
      + inversion E; subst. exfalso. apply N1. apply in_map_iff. exists (k, ls). auto.
      + inversion E'; subst. exfalso. apply N1. apply in_map_iff. exists (k, l :: r). auto.
      + auto. }
  destruct (remove_ok removed infos G1) as (infos1 & -> & Hl1 & H1 & H2).
  { intros k ls Hin. destruct (Hnemp k ls Hin) as (i & Hi & Hls). exists i. split; [auto|]. intros l Hl Hn. destruct (Hlow k i Hi l Hl) as ([c Hc] & _ & Hg). exists c. apply Hstay; auto. intros Ho. apply Hn, Hls. auto. }
  cbn [bind].
  assert (Hinv : forall k i1, nth_error infos1 k = Some i1 ->
     (exists i, nth_error infos0 k = Some i /\ i_trans i1 = i_trans i /\ (forall l, In l (i_labels i1) <-> In l (i_labels i) /\ ~ old_labels mp l) /\ (is_active i1 = true -> cost_ok L' (i_labels i1) (i_cost i1))) \/
     (exists j e c, k = length infos0 + j /\ nth_error mp j = Some e /\ i_labels i1 = [fst e] /\ i_cost i1 = Some c /\ active L' (fst e) c /\ forall x y, In (x, y) (i_trans i1) <-> exists b, In b (snd e) /\ step0 b x y)).
  { intros k i1 Hk. destruct (in_dec Nat.eq_dec k (map fst removed)) as [Hin|Hn].
    - left. apply in_map_iff in Hin as ([k' ls] & Ek & Hin). cbn [fst] in Ek. subst k'. destruct (Hnemp k ls Hin) as (i & Hi & Hls). destruct (H1 k ls i Hin (C k i Hi)) as (i' & X & Y & Z & U). rewrite Hk in X. inversion X; subst i'.
      exists i. splits; auto. intros l. rewrite Z, Hls. split; intros [P Q]; split; auto; [|tauto]. intros Ho. apply Q. split; auto. now apply (Hlow k i Hi l).
    - rewrite H2 in Hk by auto. destruct (Nat.ltb_spec k (length infos0)) as [Hlt|Hge].
      + left. destruct (vget_some infos0 k Hlt) as (i & Hi & _). rewrite (C k i Hi) in Hk. inversion Hk; subst i1. exists i.
        assert (Hno : forall l, In l (i_labels i) -> ~ old_labels mp l).
        { intros l Hl Ho. apply Hn. destruct (proj2 (G2 k l)) as (ls & X & _); [split; auto; now apply (Hlow k i Hi l)|]. apply in_map_iff. exists (k, ls). auto. }
        splits; auto.
        * intros l. split; [auto|tauto].
        * intros Ha. eapply cost_ok_change; [|exact (g_cost _ _ _ _ W0 k i Hi Ha)]. intros l c Hl. split; [auto|]. intros Hc. apply Hstay' in Hc; [tauto|]. now apply (Hlow k i Hi l).
      + right. assert (Hj : k - length infos0 < length mp) by (apply nth_error_Some_lt in Hk; lia). destruct (vget_some mp _ Hj) as (e & He & _). destruct (F _ _ He) as (_ & i' & c & X & Y & Z & U & T).
        replace (length infos0 + (k - length infos0)) with k in X by lia. rewrite Hk in X. inversion X; subst i'. exists (k - length infos0), e, c. splits; auto. lia. }
  assert (Hfwd0 : forall k i, nth_error infos0 k = Some i -> exists i1, nth_error infos1 k = Some i1 /\ i_trans i1 = i_trans i /\ (forall l, In l (i_labels i1) <-> In l (i_labels i) /\ ~ old_labels mp l)).
  { intros k i Hi. assert (Hlt : k < length infos0) by (eapply nth_error_Some_lt; eauto). destruct (vget_some infos1 k) as (i1 & Hi1 & _); [lia|]. destruct (Hinv k i1 Hi1) as [(i' & X & Y & Z & _)|(j & e & c & X & _)]; [|lia].
    rewrite Hi in X. inversion X; subst i'. exists i1. auto. }
  assert (Hfwd1 : forall j e, nth_error mp j = Some e -> exists i1, nth_error infos1 (length infos0 + j) = Some i1 /\ i_labels i1 = [fst e] /\ forall x y, In (x, y) (i_trans i1) <-> exists b, In b (snd e) /\ step0 b x y).
  { intros j e Hj. assert (Hlt : j < length mp) by (eapply nth_error_Some_lt; eauto). destruct (vget_some infos1 (length infos0 + j)) as (i1 & Hi1 & _); [lia|].
    destruct (Hinv _ i1 Hi1) as [(i' & X & _)|(j' & e' & c & X & Y & Z & _ & _ & U)]; [apply nth_error_Some_lt in X; lia|]. replace j' with j in Y by lia. rewrite Hj in Y. inversion Y; subst e'. exists i1. auto. }
  assert (W1 : gwf L' n l2l infos1).
  { constructor.
    - intros l c Hc. destruct (proj1 (HCr l c) Hc) as [[X Y]|(olds & X & _)].
      + destruct (g_label _ _ _ _ W0 l c X) as (k & i & P & Q & R). destruct (Hfwd0 k i Q) as (i1 & P1 & _ & R1). exists k, i1. splits; auto; [|apply R1; auto]. rewrite (E l); auto. eapply active_lt; eauto.
      + apply In_nth_error in X as [j Hj]. destruct (F j _ Hj) as (P & _). destruct (Hfwd1 j _ Hj) as (i1 & P1 & Q1 & _). cbn [fst] in *. exists (length infos0 + j), i1. splits; auto. rewrite Q1. now left.
    - intros k i1 l Hk Hl. destruct (Hinv k i1 Hk) as [(i & X & Y & Z & _)|(j & e & c & X & Y & Z & U & T & _)].
      + destruct (proj1 (Z l) Hl) as [Hl' Hn]. destruct (Hlow k i X l Hl') as ([c Hc] & Hlt & Hg). split; [rewrite (E l); auto|]. exists c. auto.
      + rewrite Z in Hl. destruct Hl as [<-|[]]. destruct (F j e Y) as (P & _). subst k. split; eauto.
    - intros k i1 Hk Ha. destruct (Hinv k i1 Hk) as [(i & X & Y & Z & U)|(j & e & c & X & Y & Z & U & T & _)]; auto. rewrite Z, U. cbn [cost_ok]. split; [exists (fst e); split; auto; now left|].
      intros l c' [<-|[]] Hc'. rewrite (active_fun _ _ _ _ T Hc'). auto.
    - intros k i1 s t Hk Hst. destruct (Hinv k i1 Hk) as [(i & X & Y & _)|(j & e & c & X & Y & Z & _ & _ & U)].
      + rewrite Y in Hst. eapply (g_trans _ _ _ _ W0); eauto.
      + apply U in Hst as (b & _ & k' & i' & _ & P & Q). eapply (g_trans _ _ _ _ W0); eauto. }
  destruct (combine_labels_ok L' n l2l infos1 W1) as (l2l' & infos' & Ec & W' & _ & Ml & Hs). exists l2l', infos'. splits; auto; [congruence|]. split.
  - intros a c x y Ha Hn. assert (Ha' : active L' a c) by auto. rewrite (Hs a c x y Ha').
    destruct (g_label _ _ _ _ W0 a c Ha) as (k & i & P & Q & R). rewrite (gstep_info _ _ _ _ k i a x y W0 Q R). destruct (Hfwd0 k i Q) as (i1 & P1 & Q1 & R1). rewrite <- Q1. apply (gstep_info _ _ _ _ k i1 a x y W1 P1). apply R1. auto.
  - intros a olds x y Hin. destruct (new_active _ Hin) as [c Hc]. cbn [fst] in Hc. rewrite (Hs a c x y Hc). apply In_nth_error in Hin as [j Hj]. destruct (Hfwd1 j _ Hj) as (i1 & P1 & Q1 & R1). cbn [fst snd] in *.
    rewrite (gstep_info _ _ _ _ _ i1 a x y W1 P1) by (rewrite Q1; now left). apply R1.
Qed.
End COMB.

Theorem reduce_labels_all L maxl mp : valid_mapping (active L) (length L) maxl mp ->
  exists L', fold_outcome (fun L e => reduce_labels L (snd e)) mp L = Ok L' /\ costs_at L mp L'.
Proof. intros V. apply (costs_all L maxl mp V mp [] L eq_refl). apply costs_at_nil. Qed.

Theorem reduce_ts_ok L maxl mp L' T only_equivalent : valid_mapping (active L) (length L) maxl mp -> twf L maxl T ->
  fold_outcome (fun L e => reduce_labels L (snd e)) mp L = Ok L' -> costs_at L mp L' ->
  (only_equivalent = true -> locally_equivalent mp (ts_l2l T)) ->
  exists T', reduce_ts L' mp only_equivalent T = Ok T' /\ twf L' maxl T' /\ is_relabelling mp (active L) (the_lts T) (the_lts T').
Proof.
  intros V W EL HC LE. unfold reduce_ts.
  assert (G : exists l2l' infos', (if only_equivalent then fold_outcome reduce_equivalent mp (ts_l2l T, ts_infos T)
      else let* (l2l, infos, removed) := fold_outcome (reduce_combinable L') mp (ts_l2l T, ts_infos T, []) in
           let* infos := fold_outcome (remove_from L') removed infos in combine_labels l2l infos) = Ok (l2l', infos') /\
      gwf L' (ts_n T) l2l' infos' /\ length l2l' = maxl /\ steps_at L (ts_l2l T) (ts_infos T) mp l2l' infos').
  { destruct only_equivalent.
    - apply (reduce_equivalent_all L maxl mp V (ts_n T) (ts_l2l T) (ts_infos T) (w_max _ _ _ W) (LE eq_refl) mp [] L (ts_l2l T) (ts_infos T) L'); auto.
      + apply costs_at_nil.
      + exact (w_g _ _ _ W).
      + exact (w_max _ _ _ W).
      + split; [reflexivity|]. intros a olds x y [].
    - apply (reduce_combinable_ok L maxl mp V (ts_n T) (ts_l2l T) (ts_infos T) (w_g _ _ _ W) (w_max _ _ _ W) L' HC). }
  destruct G as (l2l' & infos' & -> & Wg & Hl & S1 & S2). cbn [bind]. eexists. split; [reflexivity|]. split.
  - constructor; cbn [ts_l2l ts_infos ts_n ts_goals ts_init]; auto; [exact (w_goals _ _ _ W)|exact (w_init _ _ _ W)].
  - unfold is_relabelling, the_lts. cbn [l_n l_step l_goal l_init ts_n ts_l2l ts_infos ts_goals ts_init]. splits; auto. reflexivity.
Qed.
