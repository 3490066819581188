(** Histories of the open lists with random choices; epsilon-greedy and type-based lists. *)
From Coq Require Import Permutation Sorted.
From Verif Require Import Outcome Spec_OpenList Model_OpenList Spec_OpenListContract Spec_RandomOpenList Proof_OpenList
  Model_Rng Model_OrderedSet Proof_OrderedSet Model_Heap Proof_Heap Model_OpenList2.

Section Hist.
Context {K E : Type}.
Variable L : open_list E.
Variable R : OL L -> list (K * E) -> Prop.
Variable pick : list (K * E) -> K -> E -> list (K * E) -> Prop.
Variable key : ectx -> option K.
Variable ents : OL L -> list E.
Hypothesis R_init : R (ol_init L) [].
Hypothesis R_insert : forall q l x e, R q l ->
  exists q', ol_insert L q x e = Ok q' /\ R q' (match key x with Some k => l ++ [(k, e)] | None => l end).
Hypothesis R_remove : forall q l, R q l -> l <> [] ->
  exists k e q' l', ol_remove_min L q = Ok (e, q') /\ pick l k e l' /\ R q' l'.
Hypothesis R_remove_nil : forall q, R q [] -> ol_remove_min L q = UB.
Hypothesis R_clear : forall q l, R q l -> R (ol_clear L q) [].
Hypothesis R_boost : forall q, ol_boost L q = q.
Hypothesis R_empty : forall q l, R q l -> (ol_empty L q = true <-> l = []).
Hypothesis R_ents : forall q l, R q l -> Permutation (ents q) (map snd l).
Hypothesis pick_perm : forall l k e l', pick l k e l' -> Permutation l ((k, e) :: l').

Lemma run_history ops : forall q l, R q l ->
  match ol_run L q ops with
  | Ok (outs, q') => exists l', rq_history pick key l ops outs l' /\ R q' l'
  | UB => exists ops1 ops2 outs, ops = ops1 ++ PRemove :: ops2 /\ rq_history pick key l ops1 outs []
  | _ => False
  end.
Proof.
  induction ops as [|[x e| |] ops IH]; intros q l HR; cbn [ol_run].
  - exists l. split; [constructor|auto].
  - destruct (R_insert q l x e HR) as (q' & E1 & R'). rewrite E1; cbn [bind]. specialize (IH _ _ R').
    destruct (ol_run L q' ops) as [[outs q2]| | |]; auto.
    + destruct IH as (l' & H1 & H2). exists l'. split; auto. destruct (key x) as [k|] eqn:Ek; [eapply rqh_insert; eauto|now apply rqh_refuse].
    + destruct IH as (o1 & o2 & outs & -> & H). exists (PInsert x e :: o1), o2, outs. split; auto. destruct (key x) as [k|] eqn:Ek; [eapply rqh_insert; eauto|now apply rqh_refuse].
  - destruct l as [|p l].
    + rewrite (R_remove_nil q HR). cbn [bind]. exists [], ops, []. split; auto. constructor.
    + destruct (R_remove q (p :: l) HR) as (k & e & q' & l1 & E1 & Hp & R'); [discriminate|]. rewrite E1. cbn [bind]. specialize (IH _ _ R').
      destruct (ol_run L q' ops) as [[outs q2]| | |]; cbn [bind]; auto.
      * destruct IH as (l' & H1 & H2). exists l'. split; auto. econstructor; eauto.
      * destruct IH as (o1 & o2 & outs & -> & H). exists (PRemove :: o1), o2, (e :: outs). split; auto. econstructor; eauto.
  - specialize (IH _ _ (R_clear _ _ HR)). destruct (ol_run L (ol_clear L q) ops) as [[outs q2]| | |]; auto.
    + destruct IH as (l' & H1 & H2). exists l'. split; auto. now constructor.
    + destruct IH as (o1 & o2 & outs & -> & H). exists (PClear :: o1), o2, outs. split; auto. now constructor.
Qed.
Lemma run_behaves : behaves_like L pick key.
Proof.
  intros ops. pose proof (run_history ops _ _ R_init) as H. destruct (ol_run L (ol_init L) ops) as [[outs q']| | |]; auto.
  destruct H as (l' & H & HR). exists l'. split; [exact H|now apply R_empty].
Qed.
Lemma perm_nil_r (l : list E) : Permutation l [] -> l = [].
Proof. intros H. apply Permutation_sym in H. now apply Permutation_nil in H. Qed.
Lemma run_contract : (forall x, ol_dead L x = true -> exists ev, x_val x ev = None) -> (forall x, ol_rel_dead L x = true -> exists ev, x_val x ev = None) ->
  ol_contract L (fun q => exists l, R q l) ents.
Proof.
  intros Hd1 Hd2. constructor; auto.
  - split; [now exists []|]. apply perm_nil_r. exact (R_ents _ _ R_init).
  - intros q x e [l HR]. destruct (R_insert q l x e HR) as (q' & Eq & HR'). exists q'. splits; auto; [eauto|]. destruct (key x) as [k|].
    + exists 1. cbn [repeat app]. eapply Permutation_trans; [apply (R_ents _ _ HR')|]. rewrite map_app. cbn [map snd]. eapply Permutation_trans; [apply Permutation_sym, Permutation_cons_append|]. constructor. apply Permutation_sym. now apply R_ents.
    + exists 0. cbn [repeat app]. eapply Permutation_trans; [apply (R_ents _ _ HR')|]. apply Permutation_sym. now apply R_ents.
  - intros q [l HR] He. destruct (R_remove q l HR) as (k & e & q' & l' & Eq & Hp & HR').
    + intros ->. assert (ol_empty L q = true) by now apply (R_empty q []). congruence.
    + exists e, q'. splits; auto; [eauto|]. eapply Permutation_trans; [apply (R_ents _ _ HR)|]. apply pick_perm in Hp. apply (Permutation_map snd) in Hp. cbn [map snd] in Hp.
      eapply Permutation_trans; [exact Hp|]. constructor. apply Permutation_sym. now apply R_ents.
  - intros q [l HR]. rewrite (R_empty q l HR). pose proof (R_ents _ _ HR) as Hp. split.
    + intros ->. now apply perm_nil_r.
    + intros Eq. rewrite Eq in Hp. apply Permutation_nil in Hp. now apply map_eq_nil in Hp.
  - intros q [l HR]. split; [exists []; eauto|]. apply perm_nil_r. exact (R_ents _ _ (R_clear _ _ HR)).
  - intros q [l HR]. rewrite R_boost. split; eauto.
Qed.
Lemma run_accepting : (forall x, (forall ev, x_val x ev <> None) -> key x <> None) -> ol_accepting L (fun q => exists l, R q l) ents.
Proof.
  intros Hk q x e q' [l HR] Hx Hi. destruct (R_insert q l x e HR) as (q2 & Eq & HR'). rewrite Hi in Eq. inversion Eq; subst q2.
  specialize (Hk x Hx). destruct (key x) as [k|]; [|congruence]. eapply Permutation_in; [apply Permutation_sym, (R_ents _ _ HR')|]. rewrite map_app. apply in_or_app. right. now left.
Qed.
End Hist.

(* ---------- epsilon-greedy ---------- *)
Section EG.
Context {E : Type}.
Notation hn := (hnode E).
Lemma hn_le_total (a b : hn) : hn_le E a b = false -> hn_le E b a = true.
Proof. unfold hn_le, hn_gt. destruct (Z.ltb_spec (hn_h E b) (hn_h E a)), (Z.ltb_spec (hn_h E a) (hn_h E b)), (Z.eqb_spec (hn_h E a) (hn_h E b)), (Z.eqb_spec (hn_h E b) (hn_h E a)), (Nat.ltb_spec (hn_id E b) (hn_id E a)), (Nat.ltb_spec (hn_id E a) (hn_id E b)); cbn; auto; try lia; try discriminate. Qed.
Lemma hn_le_iff (a b : hn) : hn_le E a b = true <-> (hn_h E a < hn_h E b)%Z \/ (hn_h E a = hn_h E b /\ hn_id E a <= hn_id E b).
Proof. unfold hn_le, hn_gt. rewrite negb_true_iff, orb_false_iff, andb_false_iff, Z.ltb_ge, Z.eqb_neq, Nat.ltb_ge. lia. Qed.
Lemma hn_le_trans (a b c : hn) : hn_le E a b = true -> hn_le E b c = true -> hn_le E a c = true.
Proof. rewrite !hn_le_iff. lia. Qed.

Definition to_node (p : nat * (nat * E)) : hn := {| hn_id := fst p; hn_h := Z.of_nat (fst (snd p)); hn_entry := snd (snd p) |}.
Record egR (q : eg_state E) (l : list (nat * E)) : Prop := {
  eg_ex : exists N, l = map snd N /\ StronglySorted (fun a b => fst a < fst b) N /\ (forall p, In p N -> fst p < eg_next E q) /\
    Permutation (eg_heap E q) (map to_node N);
  eg_hp : is_heap (hn_le E) (eg_heap E q);
  eg_sz : eg_size E q = length l }.

Lemma ss_app_cons {A} (Rl : A -> A -> Prop) N1 x N2 : StronglySorted Rl (N1 ++ x :: N2) -> (forall y, In y N1 -> Rl y x) /\ (forall y, In y N2 -> Rl x y) /\ StronglySorted Rl (N1 ++ N2).
Proof.
  induction N1 as [|a N1 IH]; cbn [app]; intros H; inversion_clear H.
  - splits; auto; [intros y []|]. now apply Forall_forall.
  - destruct (IH H0) as (H2 & H3 & H4). rewrite Forall_forall in H1. splits; auto.
    + intros y [<-|Hy]; auto. apply H1. apply in_or_app. right. now left.
    + constructor; auto. apply Forall_forall. intros y Hy. apply H1. apply in_or_app. apply in_app_or in Hy. destruct Hy; auto. right. now right.
Qed.
Lemma ss_snoc {A} (Rl : A -> A -> Prop) N x : StronglySorted Rl N -> (forall y, In y N -> Rl y x) -> StronglySorted Rl (N ++ [x]).
Proof.
  induction N as [|a N IH]; cbn [app]; intros H Hx; [repeat constructor|]. inversion_clear H. constructor.
  - apply IH; auto. intros y Hy. apply Hx. now right.
  - apply Forall_app. split; auto. constructor; auto. apply Hx. now left.
Qed.

Lemma eg_insert_R ev q l x e h : egR q l -> x_val x ev = Some h -> exists q', eg_insert E ev q x e = Ok q' /\ egR q' (l ++ [(h, e)]).
Proof.
  intros [(N & -> & Hs & Hn & Hp) Hh Hz] Hx. unfold eg_insert. rewrite Hx.
  destruct (heap_push_ok (hn_le E) hn_le_total hn_le_trans (eg_heap E q) {| hn_id := eg_next E q; hn_h := Z.of_nat h; hn_entry := e |} Hh) as (hp & -> & Hh' & Hp'). cbn [bind].
  eexists. split; [reflexivity|]. constructor; cbn [eg_heap eg_size eg_next].
  - exists (N ++ [(eg_next E q, (h, e))]). splits.
    + now rewrite map_app.
    + apply ss_snoc; auto.
    + intros p Hin. apply in_app_or in Hin as [Hin|[<-|[]]]; [apply Hn in Hin; lia|cbn; lia].
    + rewrite map_app. cbn [map]. eapply Permutation_trans; [apply Permutation_sym; exact Hp'|]. eapply Permutation_trans; [|apply Permutation_cons_append]. now constructor.
  - auto.
  - rewrite app_length. cbn [length]. lia.
Qed.

Definition ids (h : list hn) : list nat := map (hn_id E) h.
Lemma N_ids N : StronglySorted (fun a b : nat * (nat * E) => fst a < fst b) N -> NoDup (ids (map to_node N)).
Proof.
  unfold ids. rewrite map_map. induction 1 as [|a N HN IH Ha]; cbn [map]; constructor; auto. intros Hin. apply in_map_iff in Hin as (b & Eb & Hb). rewrite Forall_forall in Ha. apply Ha in Hb. cbn [to_node hn_id] in Eb. lia.
Qed.
Lemma adjust_sift : forall fuel h i, NoDup (ids h) -> adjust_heap_up E fuel h i = sift_up (hn_le E) fuel h i.
Proof.
  induction fuel as [|f IH]; intros h i Hn; auto. cbn [adjust_heap_up sift_up]. destruct (Nat.eqb_spec i 0) as [->|Hi]; auto. fold (parent i).
  destruct (vget h i) as [x| | |] eqn:Ex; auto. cbn [bind]. destruct (vget h (parent i)) as [p| | |] eqn:Ep; auto. cbn [bind].
  apply vget_ok in Ex. apply vget_ok in Ep.
  assert (Hne : hn_id E x <> hn_id E p).
  { intros Eq. assert (i = parent i) by (eapply NoDup_nth_error; [exact Hn|unfold ids; rewrite map_length; eapply nth_error_Some_lt; eauto|unfold ids; rewrite (map_nth_error _ _ _ Ex), (map_nth_error _ _ _ Ep); congruence]). pose proof (parent_lt i). lia. }
  assert (Eg : hn_gt E x p = hn_le E p x).
  { unfold hn_le, hn_gt. destruct (Z.ltb_spec (hn_h E p) (hn_h E x)), (Z.ltb_spec (hn_h E x) (hn_h E p)), (Z.eqb_spec (hn_h E p) (hn_h E x)), (Z.eqb_spec (hn_h E x) (hn_h E p)), (Nat.ltb_spec (hn_id E p) (hn_id E x)), (Nat.ltb_spec (hn_id E x) (hn_id E p)); cbn; auto; lia. }
  rewrite Eg. destruct (hn_le E p x); auto. apply IH. eapply Permutation_NoDup; [|exact Hn]. unfold ids. apply Permutation_map. apply swap_perm.
Qed.

Lemma eg_take q l N top hp : l = map snd N -> StronglySorted (fun a b => fst a < fst b) N -> (forall p, In p N -> fst p < eg_next E q) ->
  forall p, In p N -> Permutation (map to_node N) (to_node p :: hp) -> is_heap (hn_le E) hp -> top = to_node p ->
  forall k sz, S sz = length l ->
  exists N1 N2, N = N1 ++ p :: N2 /\ egR {| eg_heap := hp; eg_size := sz; eg_next := eg_next E q; eg_rng := k |} (map snd (N1 ++ N2)).
Proof.
  intros -> Hs Hn p Hin Hp Hh _ k sz Hsz. apply in_split in Hin as (N1 & N2 & ->). exists N1, N2. split; auto. destruct (ss_app_cons _ _ _ _ Hs) as (H1 & H2 & H3). constructor; cbn [eg_heap eg_size eg_next]; auto.
  - exists (N1 ++ N2). splits; auto.
    + intros x Hx. apply Hn. apply in_app_or in Hx. apply in_or_app. destruct Hx; [auto|right; now right].
    + apply Permutation_cons_inv with (a := to_node p). apply Permutation_sym. eapply Permutation_trans; [|exact Hp]. rewrite !map_app. cbn [map]. apply Permutation_middle.
  - rewrite map_length, !app_length in *. cbn [length] in *. lia.
Qed.

Variables (r : nat -> nat) (coin : nat -> bool).
Lemma eg_remove_min q l : egR q l -> l <> [] -> coin (eg_rng E q) = false ->
  exists k e q' l', eg_remove E r coin q = Ok (e, q') /\ stable_min lt l k e l' /\ egR q' l'.
Proof.
  intros [(N & El & Hs & Hn & Hp) Hh Hz] Hne Hc. unfold eg_remove. rewrite Hc. destruct (eg_size E q) as [|sz] eqn:Es; [destruct l; [congruence|discriminate]|]. cbn [bind].
  destruct (heap_pop_ok (hn_le E) hn_le_total hn_le_trans (eg_heap E q) Hh) as (top & hp & -> & Hh' & Hp' & Hmin).
  { intros Eh. rewrite Eh in Hp. apply Permutation_nil in Hp. apply map_eq_nil in Hp. subst. now destruct Hne. }
  cbn [bind]. assert (Hin : In top (map to_node N)) by (eapply Permutation_in; [exact Hp|]; eapply Permutation_in; [apply Permutation_sym; exact Hp'|]; now left).
  apply in_map_iff in Hin as (p & Ep & Hin).
  assert (Hpp : Permutation (map to_node N) (to_node p :: hp)) by (rewrite Ep; eapply Permutation_trans; [apply Permutation_sym; exact Hp|exact Hp']).
  destruct (eg_take q l N top hp El Hs Hn p Hin Hpp Hh' (eq_sym Ep) (S (eg_rng E q)) sz) as (N1 & N2 & EN & HR); [lia|].
  destruct p as (i & h & e). exists h, e. eexists. exists (map snd (N1 ++ N2)). split; [subst top; reflexivity|]. split; [|exact HR].
  exists (map snd N1), (map snd N2). rewrite El, EN, !map_app. cbn [map snd]. splits; auto.
  - intros x Hx. apply in_map_iff in Hx as ([i' [h' e']] & <- & Hx). cbn [snd fst]. rewrite EN in Hs. destruct (ss_app_cons _ _ _ _ Hs) as (H1 & _ & _). specialize (H1 _ Hx). cbn [fst] in H1.
    assert (Hl : hn_le E top (to_node (i', (h', e'))) = true) by (apply Hmin; eapply Permutation_in; [apply Permutation_sym; exact Hp|]; apply in_map; rewrite EN; apply in_or_app; auto).
    apply hn_le_iff in Hl. subst top. cbn [to_node hn_h hn_id fst snd] in Hl. lia.
  - intros x Hx. apply in_map_iff in Hx as ([i' [h' e']] & <- & Hx). cbn [snd fst].
    assert (Hl : hn_le E top (to_node (i', (h', e'))) = true) by (apply Hmin; eapply Permutation_in; [apply Permutation_sym; exact Hp|]; apply in_map; rewrite EN; apply in_or_app; right; now right).
    apply hn_le_iff in Hl. subst top. cbn [to_node hn_h hn_id fst snd] in Hl. lia.
Qed.
(** A promotion: the node at the drawn position is returned. *)
Lemma eg_promote q l : egR q l -> l <> [] -> coin (eg_rng E q) = true ->
  exists n k l1 l2 q', nth_error (eg_heap E q) (r (S (eg_rng E q)) mod eg_size E q) = Some n /\
    eg_remove E r coin q = Ok (hn_entry E n, q') /\ l = l1 ++ (k, hn_entry E n) :: l2 /\ egR q' (l1 ++ l2) /\
    exists i, nth_error l (length l1) = Some (k, hn_entry E n) /\ n = to_node (i, (k, hn_entry E n)).
Proof.
  intros [(N & El & Hs & Hn & Hp) Hh Hz] Hne Hc. unfold eg_remove. rewrite Hc. destruct (eg_size E q) as [|sz] eqn:Es; [destruct l; [congruence|discriminate]|].
  unfold random_int at 1. cbn [Nat.eqb bind]. set (pos := r (S (eg_rng E q)) mod S sz).
  assert (Hlen : length (eg_heap E q) = S sz) by (rewrite (Permutation_length Hp), map_length, Hz, El, map_length; auto).
  assert (Hpos : pos < length (eg_heap E q)) by (rewrite Hlen; apply Nat.mod_upper_bound; lia).
  destruct (nth_error (eg_heap E q) pos) as [n|] eqn:En; [|apply nth_error_None in En; lia].
  unfold vget at 1. rewrite En. cbn [bind]. set (n' := {| hn_id := hn_id E n; hn_h := INT_MIN; hn_entry := hn_entry E n |}).
  unfold vset at 1. replace (pos <? length (eg_heap E q)) with true by (symmetry; now apply Nat.ltb_lt). cbn [bind].
  set (h1 := upd (eg_heap E q) pos n').
  assert (Hnn : forall x, In x (eg_heap E q) -> (0 <= hn_h E x)%Z) by (intros x Hx; eapply Permutation_in in Hx; [|exact Hp]; apply in_map_iff in Hx as (p & <- & _); cbn; lia).
  assert (Hle : hn_le E n' n = true) by (apply hn_le_iff; cbn [n' hn_h hn_id]; pose proof (Hnn n (nth_error_In _ _ En)); unfold INT_MIN; lia).
  assert (Hnd : NoDup (ids h1)).
  { assert (Ei : ids h1 = ids (eg_heap E q)).
    { unfold ids, h1. apply nth_error_ext. intros j. destruct (Nat.eq_dec j pos) as [->|Hj].
      - rewrite (map_nth_error (hn_id E) pos (upd (eg_heap E q) pos n') (d := n')) by (now rewrite upd_nth_eq). now rewrite (map_nth_error (hn_id E) pos _ En).
      - rewrite !nth_error_map. rewrite upd_nth_neq by auto. reflexivity. }
    rewrite Ei. eapply Permutation_NoDup; [|apply (N_ids N Hs)]. unfold ids. apply Permutation_map. now apply Permutation_sym. }
  rewrite adjust_sift by auto.
  destruct (sift_up_ok (hn_le E) hn_le_total hn_le_trans (S pos) h1 pos) as (h2 & -> & Hh2 & Hp2); [lia|unfold h1; now rewrite upd_length| |].
  { split.
    - intros j Hj Hjp x y Hx Hy. unfold h1 in *. destruct (Nat.eq_dec (parent j) pos) as [Epj|Epj].
      + rewrite Epj, upd_nth_eq in Hx by auto. inversion Hx; subst x. rewrite upd_nth_neq in Hy by auto. apply hn_le_trans with n; auto. apply (Hh j Hj n y); auto. now rewrite Epj.
      + rewrite upd_nth_neq in Hx by auto. rewrite upd_nth_neq in Hy by auto. apply (Hh j Hj); auto.
    - intros Hpos0 c Hc0 Epc x y Hx Hy. unfold h1 in *. pose proof (parent_lt pos Hpos0). pose proof (parent_lt c Hc0). rewrite upd_nth_neq in Hx by lia. rewrite upd_nth_neq in Hy by lia.
      apply hn_le_trans with n; [apply (Hh pos Hpos0); auto|apply (Hh c Hc0); auto; now rewrite Epc]. }
  cbn [bind]. destruct (heap_pop_ok (hn_le E) hn_le_total hn_le_trans h2 Hh2) as (top & hp & -> & Hh' & Hp' & Hmin).
  { intros Eh. rewrite Eh in Hp2. apply Permutation_sym, Permutation_nil in Hp2. unfold h1 in Hp2. apply (f_equal (@length _)) in Hp2. rewrite upd_length in Hp2. cbn in Hp2. lia. }
  cbn [bind].
  destruct (upd_split (eg_heap E q) pos n' n En) as (a & b & Eab & Ha & E1). fold h1 in E1.
  assert (Htop : top = n').
  { assert (Hin' : In n' h2) by (eapply Permutation_in; [exact Hp2|]; rewrite E1; apply in_or_app; right; now left).
    pose proof (Hmin _ Hin') as Hl. apply hn_le_iff in Hl. cbn [n' hn_h hn_id] in Hl.
    assert (Hin : In top h1) by (eapply Permutation_in; [apply Permutation_sym; exact Hp2|]; eapply Permutation_in; [apply Permutation_sym; exact Hp'|]; now left).
    rewrite E1 in Hin. apply in_app_or in Hin. cbn [In] in Hin. destruct Hin as [Hin|[Hin|Hin]]; auto; exfalso; assert (0 <= hn_h E top)%Z by (apply Hnn; rewrite Eab; apply in_or_app; cbn [In]; auto); unfold INT_MIN in Hl; lia. }
  assert (Hab : Permutation (a ++ b) hp).
  { apply Permutation_cons_inv with (a := n'). eapply Permutation_trans; [|rewrite <- Htop; exact Hp']. eapply Permutation_trans; [|exact Hp2]. rewrite E1. apply Permutation_middle. }
  assert (Hin : In n (map to_node N)) by (eapply Permutation_in; [exact Hp|]; rewrite Eab; apply in_or_app; right; now left).
  apply in_map_iff in Hin as (p & Ep & Hin).
  assert (Hpp : Permutation (map to_node N) (to_node p :: hp)).
  { rewrite Ep. eapply Permutation_trans; [apply Permutation_sym; exact Hp|]. rewrite Eab. eapply Permutation_trans; [apply Permutation_sym, Permutation_middle|]. now constructor. }
  destruct (eg_take q l N n hp El Hs Hn p Hin Hpp Hh' (eq_sym Ep) (S (S (eg_rng E q))) sz) as (N1 & N2 & EN & HR); [lia|].
  destruct p as (i & h & e). exists n, h, (map snd N1), (map snd N2). eexists. splits; [reflexivity|rewrite Htop; reflexivity| | |].
  - rewrite El, EN, map_app. cbn [map snd]. rewrite <- Ep. reflexivity.
  - rewrite <- map_app. exact HR.
  - exists i. split; [|rewrite <- Ep; reflexivity]. rewrite El, EN, map_app, nth_error_app2, map_length, Nat.sub_diag by now rewrite map_length. cbn [map nth_error snd]. rewrite <- Ep. reflexivity.
Qed.
End EG.
