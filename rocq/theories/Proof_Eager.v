(** Soundness of eager search. *)
From Coq Require Import Permutation.
From Verif Require Import Outcome Spec_Plan Spec_Controller Model_SearchSpace Model_Eager
  Proof_SearchSpace.

Section Eager.
Variable T : TS.
Variable ct : controller T.
Variable cfg : eager_config.
Variable I : C ct -> Prop.
Variable entries : C ct -> list nat.
Hypothesis Hwf : ts_wf T.
Hypothesis HK : controller_ok ct I entries.

Let ac := adj T cfg.

Definition live (n : node_info) : Prop :=
  ni_status n = OPEN \/ ni_status n = CLOSED \/ (ni_status n = DEAD_END /\ c_has_lazy ct = true).

Record SInv (sp : space T) (c : C ct) : Prop := {
  si_I : I c;
  si_init : exists n, nth_error sp 0 = Some (ts_init T, n);
  si_uniq : uniq T sp;
  si_chain : forall id s n g, nth_error sp id = Some (s, n) -> ni_g n = Some g ->
      exists ops ids, chain T ac sp id ops ids;
  si_old : forall id s n, nth_error sp id = Some (s, n) -> ni_status n <> NEW;
  si_set : forall id s n, nth_error sp id = Some (s, n) ->
      ni_status n = OPEN \/ ni_status n = CLOSED -> exists g, ni_g n = Some g;
  si_mem : forall id, In id (entries c) ->
      exists s n g, nth_error sp id = Some (s, n) /\ ni_g n = Some g /\ live n;
  si_normal : (forall o, ac o = ts_cost T o) ->
      forall id s n g, nth_error sp id = Some (s, n) -> ni_g n = Some g -> ni_real_g n = g;
  si_bound : forall id s n p, nth_error sp id = Some (s, n) -> ni_parent n = Some p ->
      reaches_bound (ec_bound cfg) (ni_real_g n) = false
}.

(* ---------- event descriptions ---------- *)

Inductive gres (id : nat) (s : ts_state T) (n : node_info) (g : nat) (op : nat)
  (sp : space T) (c : C ct) : space T -> C ct -> Prop :=
| gr_bound :
    reaches_bound (ec_bound cfg) (ni_real_g n + ts_cost T op) = true ->
    gres id s n g op sp c sp c
| gr_keep : forall sid sn,
    reaches_bound (ec_bound cfg) (ni_real_g n + ts_cost T op) = false ->
    nth_error sp sid = Some (ts_succ T s op, sn) ->
    (ni_status sn = DEAD_END \/
     ((ni_status sn = OPEN \/ ni_status sn = CLOSED) /\ exists sg, ni_g sn = Some sg /\ sg <= g + ac op)) ->
    gres id s n g op sp c sp (c_notify ct c s op (ts_succ T s op))
| gr_dead : forall pref c2,
    reaches_bound (ec_bound cfg) (ni_real_g n + ts_cost T op) = false ->
    (forall j m, nth_error sp j <> Some (ts_succ T s op, m)) ->
    c_dead ct (c_notify ct c s op (ts_succ T s op)) (ts_succ T s op) (g + ac op) pref = (true, c2) ->
    gres id s n g op sp c (sp ++ [(ts_succ T s op, mark_as_dead_end new_info)]) c2
| gr_open : forall pref c2,
    reaches_bound (ec_bound cfg) (ni_real_g n + ts_cost T op) = false ->
    (forall j m, nth_error sp j <> Some (ts_succ T s op, m)) ->
    c_dead ct (c_notify ct c s op (ts_succ T s op)) (ts_succ T s op) (g + ac op) pref = (false, c2) ->
    gres id s n g op sp c
      (sp ++ [(ts_succ T s op, update_parent OPEN g (ni_real_g n) id op (ac op) (ts_cost T op))])
      (c_progress ct (c_insert ct c2 (ts_succ T s op) (g + ac op) pref (length sp))
         (ts_succ T s op) (g + ac op) true)
| gr_update_open : forall pref sid sn sg,
    reaches_bound (ec_bound cfg) (ni_real_g n + ts_cost T op) = false ->
    nth_error sp sid = Some (ts_succ T s op, sn) -> ni_g sn = Some sg -> g + ac op < sg ->
    (ni_status sn = OPEN \/ (ni_status sn = CLOSED /\ ec_reopen cfg = true)) ->
    gres id s n g op sp c
      (upd sp sid (ts_succ T s op, update_parent OPEN g (ni_real_g n) id op (ac op) (ts_cost T op)))
      (c_insert ct (c_notify ct c s op (ts_succ T s op)) (ts_succ T s op) (g + ac op) pref sid)
| gr_update_closed : forall sid sn sg,
    reaches_bound (ec_bound cfg) (ni_real_g n + ts_cost T op) = false ->
    nth_error sp sid = Some (ts_succ T s op, sn) -> ni_g sn = Some sg -> g + ac op < sg ->
    ni_status sn = CLOSED -> ec_reopen cfg = false ->
    gres id s n g op sp c
      (upd sp sid (ts_succ T s op, update_parent CLOSED g (ni_real_g n) id op (ac op) (ts_cost T op)))
      (c_notify ct c s op (ts_succ T s op)).

Lemma existsb_In op l : In op l -> existsb (Nat.eqb op) l = true.
Proof. intros H. apply existsb_exists. exists op; split; auto. apply Nat.eqb_refl. Qed.

Lemma put_info_some sp id s (n n' : node_info) :
  nth_error sp id = Some (s, n) -> @put_info T sp id n' = Ok (upd sp id (s, n')).
Proof.
  intros H. unfold put_info, vget, vset. rewrite H; cbn [bind].
  apply nth_error_Some_lt in H. apply Nat.ltb_lt in H. now rewrite H.
Qed.

Lemma upd_snoc {A} (l : list A) x y : upd (l ++ [x]) (length l) y = l ++ [y].
Proof. rewrite upd_app_r by lia. now rewrite Nat.sub_diag. Qed.

Lemma gen_one_spec id prefs st op s n g :
  SInv (es_space st) (es_c st) ->
  nth_error (es_space st) id = Some (s, n) -> ni_g n = Some g -> In op (ts_app T s) ->
  exists st', gen_one T ct cfg id prefs st op = Ok st' /\
    gres id s n g op (es_space st) (es_c st) (es_space st') (es_c st').
Proof.
  intros Inv Hid Hg Hop. destruct st as [sp c]; cbn [es_space es_c] in *.
  unfold gen_one, get_node, vget; cbn [es_space es_c]. rewrite Hid; cbn [bind].
  destruct (reaches_bound _ _) eqn:Hb.
  { eexists; split; eauto. now constructor. }
  rewrite (existsb_In _ _ Hop); cbn [guard bind].
  destruct (register sp (ts_succ T s op)) as [sp1 sid] eqn:Er.
  unfold get_g. rewrite Hg; cbn [bind].
  apply register_spec in Er; auto. destruct Er as [(-> & sn & Hsn)|(-> & -> & Hfresh)].
  - rewrite Hsn; cbn [bind].
    pose proof (si_old _ _ Inv _ _ _ Hsn) as Hold.
    unfold is_dead_end_node, is_new, is_open, is_closed.
    destruct (ni_status sn) eqn:Est; [congruence| | |]; cbn [status_eqb andb].
    + destruct (si_set _ _ Inv _ _ _ Hsn (or_introl Est)) as [sg Hsg].
      rewrite Hsg; cbn [bind]. fold ac. change (adj T cfg op) with (ac op).
      destruct (Nat.ltb_spec (g + ac op) sg).
      * unfold update_open_node_parent, is_open. rewrite Est; cbn [status_eqb guard bind].
        erewrite put_info_some; eauto. cbn [bind].
        eexists; split; eauto. cbn. eapply gr_update_open; eauto.
      * eexists; split; eauto. cbn. eapply gr_keep; eauto 10.
    + destruct (si_set _ _ Inv _ _ _ Hsn (or_intror Est)) as [sg Hsg].
      rewrite Hsg; cbn [bind]. change (adj T cfg op) with (ac op).
      destruct (Nat.ltb_spec (g + ac op) sg).
      * destruct (ec_reopen cfg) eqn:Ero.
        -- unfold reopen_closed_node, is_closed. rewrite Est; cbn [status_eqb guard bind].
           erewrite put_info_some; eauto. cbn [bind].
           eexists; split; eauto. cbn. eapply gr_update_open; eauto.
        -- unfold update_closed_node_parent, is_closed. rewrite Est; cbn [status_eqb guard bind].
           erewrite put_info_some; eauto. cbn [bind].
           eexists; split; eauto. cbn. eapply gr_update_closed; eauto.
      * eexists; split; eauto. cbn. eapply gr_keep; eauto 10.
    + eexists; split; eauto. cbn. eapply gr_keep; eauto.
  - rewrite nth_app_last. cbn [bind is_dead_end_node is_new ni_status new_info status_eqb].
    change (adj T cfg op) with (ac op).
    destruct (c_dead _ _ _ _ _) as [[|] c2] eqn:Ed.
    + erewrite put_info_some by apply nth_app_last. cbn [bind].
      rewrite upd_snoc. eexists; split; eauto. cbn. eapply gr_dead; eauto.
    + unfold open_new_node; cbn [is_new ni_status new_info status_eqb guard bind].
      erewrite put_info_some by apply nth_app_last. cbn [bind].
      rewrite upd_snoc. eexists; split; eauto. cbn. eapply gr_open; eauto.
Qed.

(* ---------- the quiet operations ---------- *)

Definition same (c c' : C ct) : Prop := I c' /\ entries c' = entries c.

Lemma same_trans c1 c2 c3 : same c1 c2 -> same c2 c3 -> same c1 c3.
Proof. unfold same. intros [? E] [? E']. split; congruence. Qed.
Lemma same_refl c : I c -> same c c.
Proof. split; auto. Qed.

Lemma same_notify c s o s' : I c -> same c (c_notify ct c s o s').
Proof. intros H; apply (k_notify _ _ _ HK); auto. Qed.
Lemma same_progress c s g r : I c -> same c (c_progress ct c s g r).
Proof. intros H; apply (k_progress _ _ _ HK); auto. Qed.
Lemma same_dead c s g p b c' : I c -> c_dead ct c s g p = (b, c') -> same c c'.
Proof. intros H E. pose proof (k_dead _ _ _ HK c s g p H) as K. now rewrite E in K. Qed.
Lemma same_preferred c s g b c' : I c -> c_preferred ct c s g = (b, c') -> same c c'.
Proof. intros H E. pose proof (k_preferred _ _ _ HK c s g H) as K. now rewrite E in K. Qed.
Lemma same_prune c s g b c' : I c -> c_prune ct c s g = (b, c') -> same c c'.
Proof. intros H E. pose proof (k_prune _ _ _ HK c s g H) as K. now rewrite E in K. Qed.
Lemma same_lazy c s g b c' : I c -> c_lazy_unchanged ct c s g = (b, c') -> same c c'.
Proof. intros H E. pose proof (k_lazy _ _ _ HK c s g H) as K. now rewrite E in K. Qed.

Lemma insert_mem c s g p id x : I c ->
  In x (entries (c_insert ct c s g p id)) -> x = id \/ In x (entries c).
Proof.
  intros HI Hx. destruct (k_insert _ _ _ HK c s g p id HI) as (_ & k & P).
  apply (Permutation_in _ P) in Hx. apply in_app_or in Hx. destruct Hx as [Hx|Hx]; auto.
  left. eapply repeat_spec; eauto.
Qed.
Lemma insert_I c s g p id : I c -> I (c_insert ct c s g p id).
Proof. intros HI. apply (k_insert _ _ _ HK c s g p id HI). Qed.

(* ---------- preservation by generic modifications ---------- *)

Lemma SInv_same sp c c' : SInv sp c -> same c c' -> SInv sp c'.
Proof.
  intros [? ? ? ? ? ? M ? ?] [HI E]. constructor; auto. intros id Hid. apply M. congruence.
Qed.

Lemma SInv_sub sp c c' : SInv sp c -> I c' -> incl (entries c') (entries c) -> SInv sp c'.
Proof. intros [? ? ? ? ? ? M ? ?] HI E. constructor; auto. Qed.

Lemma SInv_insert sp c s g p id n g0 :
  SInv sp c -> nth_error sp id = Some (s, n) -> ni_g n = Some g0 -> live n ->
  SInv sp (c_insert ct c s g p id).
Proof.
  intros [? ? ? ? ? ? M ? ?] Hid Hg Hl. constructor; auto.
  - now apply insert_I.
  - intros x Hx. apply insert_mem in Hx; auto. destruct Hx as [->|Hx]; eauto 10.
Qed.

Lemma nth_upd_inv {A} (l : list A) i j x y :
  nth_error (upd l i x) j = Some y -> (j = i /\ y = x) \/ (j <> i /\ nth_error l j = Some y).
Proof.
  intros H. rewrite upd_nth in H. destruct (Nat.eqb_spec i j) as [->|Hne]; cbn [andb] in H.
  - destruct (Nat.ltb_spec j (length l)).
    + inv H; auto.
    + exfalso. assert (nth_error l j = None) by (apply nth_error_None; lia). congruence.
  - right; auto.
Qed.

Lemma uniq_upd sp id s n n' : uniq T sp -> nth_error sp id = Some (s, n) -> uniq T (upd sp id (s, n')).
Proof.
  intros U Hid i j s0 a b Hi Hj.
  apply nth_upd_inv in Hi. apply nth_upd_inv in Hj.
  destruct Hi as [[-> Hi]|[Hni Hi]], Hj as [[-> Hj]|[Hnj Hj]]; auto.
  - inv Hi. exfalso. apply Hnj. eapply U; eauto.
  - inv Hj. exfalso. apply Hni. eapply U; eauto.
  - eapply U; eauto.
Qed.

Lemma uniq_app sp s n : uniq T sp -> (forall j m, nth_error sp j <> Some (s, m)) -> uniq T (sp ++ [(s, n)]).
Proof.
  intros U Hf i j s0 a b Hi Hj.
  apply nth_app_inv in Hi. apply nth_app_inv in Hj.
  destruct Hi as [Hi|[-> Hi]], Hj as [Hj|[-> Hj]]; auto.
  - eapply U; eauto.
  - inv Hj. exfalso. eapply Hf; eauto.
  - inv Hi. exfalso. eapply Hf; eauto.
Qed.

(** Only the status of node [id] changes. *)
Lemma SInv_status sp c id s n st :
  SInv sp c -> nth_error sp id = Some (s, n) -> ni_status n = OPEN ->
  (st = CLOSED \/ (st = DEAD_END /\ c_has_lazy ct = true)) ->
  SInv (upd sp id (s, set_status n st)) c.
Proof.
  intros [HI Hinit U Hc Ho Hs M Hn Hb] Hid Hst Hnew.
  destruct (Hs _ _ _ Hid (or_introl Hst)) as [g0 Hg0].
  constructor; auto.
  - destruct Hinit as [n0 H0]. destruct (Nat.eq_dec id 0) as [->|Hne].
    + rewrite H0 in Hid; inv Hid. eexists. apply upd_nth_eq. eapply nth_error_Some_lt; eauto.
    + exists n0. rewrite upd_nth_neq; auto.
  - eapply uniq_upd; eauto.
  - intros i s0 n0 g H Hg. apply nth_upd_inv in H.
    assert (exists ops ids, chain T ac sp i ops ids) as (ops & ids & Hch).
    { destruct H as [[-> H]|[_ H]]; [inv H; eapply Hc; eauto|eapply Hc; eauto]. }
    exists ops, ids. eapply chain_links_kept; [|eauto].
    eapply links_kept_upd; eauto.
  - intros i s0 n0 H. apply nth_upd_inv in H. destruct H as [[-> H]|[_ H]]; [|eauto].
    inv H. cbn. destruct Hnew as [->|[-> _]]; discriminate.
  - intros i s0 n0 H Hx. apply nth_upd_inv in H. destruct H as [[-> H]|[_ H]]; [|eauto].
    inv H. cbn. eauto.
  - intros i Hi. destruct (M i Hi) as (s0 & n0 & g & H & Hg & Hl).
    destruct (Nat.eq_dec id i) as [->|Hne].
    + rewrite Hid in H; inv H. exists s0, (set_status n0 st), g. split.
      { apply upd_nth_eq. eapply nth_error_Some_lt; eauto. }
      split; [exact Hg|]. unfold live; cbn. destruct Hnew as [->|[-> ?]]; auto.
    + exists s0, n0, g. rewrite upd_nth_neq; auto.
  - intros HN i s0 n0 g H Hg. apply nth_upd_inv in H. destruct H as [[-> H]|[_ H]]; [|eauto].
    inv H. cbn in *. eauto.
  - intros i s0 n0 p H Hp. apply nth_upd_inv in H. destruct H as [[-> H]|[_ H]]; [|eauto].
    inv H. cbn in *. eauto.
Qed.

(** Redirecting a registered node. *)
Lemma SInv_redirect sp c id s n g op sid sn sg st :
  SInv sp c -> nth_error sp id = Some (s, n) -> ni_g n = Some g -> In op (ts_app T s) ->
  reaches_bound (ec_bound cfg) (ni_real_g n + ts_cost T op) = false ->
  nth_error sp sid = Some (ts_succ T s op, sn) -> ni_g sn = Some sg -> g + ac op < sg ->
  (st = OPEN \/ st = CLOSED) ->
  SInv (upd sp sid (ts_succ T s op, update_parent st g (ni_real_g n) id op (ac op) (ts_cost T op))) c.
Proof.
  intros [HI Hinit U Hc Ho Hs M Hn Hb] Hid Hg Hop Hbd Hsid Hsg Hlt Hst.
  destruct (Hc _ _ _ _ Hid Hg) as (ops & ids & Hch).
  pose proof (nth_error_Some_lt _ _ _ Hsid) as Hl.
  destruct (chain_redirect T ac sp sid (ts_succ T s op) sn
    (update_parent st g (ni_real_g n) id op (ac op) (ts_cost T op)) id s n op g ops ids)
    as [Hself Hall]; eauto.
  constructor; auto.
  - destruct Hinit as [n0 H0]. destruct (Nat.eq_dec sid 0) as [->|Hne].
    + rewrite H0 in Hsid. injection Hsid as E1 E2. rewrite <- E1. eexists. now apply upd_nth_eq.
    + exists n0. rewrite upd_nth_neq; auto.
  - eapply uniq_upd; eauto.
  - intros i s0 n0 g0 H Hg0. apply nth_upd_inv in H. destruct H as [[-> H]|[_ H]]; [eauto|].
    destruct (Hc _ _ _ _ H Hg0) as (? & ? & Hx). eapply Hall; eauto.
  - intros i s0 n0 H. apply nth_upd_inv in H. destruct H as [[-> H]|[_ H]]; [|eauto].
    inv H. cbn. destruct Hst; subst; discriminate.
  - intros i s0 n0 H Hx. apply nth_upd_inv in H. destruct H as [[-> H]|[_ H]]; [|eauto].
    inv H. cbn. eauto.
  - intros i Hi. destruct (M i Hi) as (s0 & n0 & g0 & H & Hg0 & Hlv).
    destruct (Nat.eq_dec sid i) as [->|Hne].
    + eexists _, _, _. split; [apply upd_nth_eq; auto|]. cbn. split; [reflexivity|].
      unfold live; cbn. destruct Hst; auto.
    + exists s0, n0, g0. rewrite upd_nth_neq; auto.
  - intros HN i s0 n0 g0 H Hg0. apply nth_upd_inv in H. destruct H as [[-> H]|[_ H]]; [|eauto].
    inv H. cbn in *. inv Hg0. rewrite (Hn HN _ _ _ _ Hid Hg), HN. reflexivity.
  - intros i s0 n0 p H Hp. apply nth_upd_inv in H. destruct H as [[-> H]|[_ H]]; [|eauto].
    inv H. cbn in *. auto.
Qed.

(** Appending a dead end. *)
Lemma SInv_app_dead sp c s' :
  SInv sp c -> (forall j m, nth_error sp j <> Some (s', m)) ->
  SInv (sp ++ [(s', mark_as_dead_end new_info)]) c.
Proof.
  intros [HI Hinit U Hc Ho Hs M Hn Hb] Hf. constructor; auto.
  - destruct Hinit as [n0 H0]. exists n0. now apply nth_app_old.
  - now apply uniq_app.
  - intros i s0 n0 g H Hg. apply nth_app_inv in H. destruct H as [H|[-> H]]; [|inv H; discriminate].
    destruct (Hc _ _ _ _ H Hg) as (ops & ids & Hch). exists ops, ids.
    eapply chain_links_kept; [|eauto]. apply links_kept_app.
  - intros i s0 n0 H. apply nth_app_inv in H. destruct H as [H|[-> H]]; [eauto|]. inv H. discriminate.
  - intros i s0 n0 H Hx. apply nth_app_inv in H. destruct H as [H|[-> H]]; [eauto|].
    inv H. destruct Hx; discriminate.
  - intros i Hi. destruct (M i Hi) as (s0 & n0 & g & H & Hg & Hl). exists s0, n0, g.
    split; auto. now apply nth_app_old.
  - intros HN i s0 n0 g H Hg. apply nth_app_inv in H. destruct H as [H|[-> H]]; [eauto|]. inv H. discriminate.
  - intros i s0 n0 p H Hp. apply nth_app_inv in H. destruct H as [H|[-> H]]; [eauto|]. inv H. discriminate.
Qed.

(** Appending an opened node. *)
Lemma SInv_app_open sp c id s n g op :
  SInv sp c -> nth_error sp id = Some (s, n) -> ni_g n = Some g -> In op (ts_app T s) ->
  reaches_bound (ec_bound cfg) (ni_real_g n + ts_cost T op) = false ->
  (forall j m, nth_error sp j <> Some (ts_succ T s op, m)) ->
  SInv (sp ++ [(ts_succ T s op, update_parent OPEN g (ni_real_g n) id op (ac op) (ts_cost T op))]) c.
Proof.
  intros [HI Hinit U Hc Ho Hs M Hn Hb] Hid Hg Hop Hbd Hf.
  destruct (Hc _ _ _ _ Hid Hg) as (ops & ids & Hch).
  assert (LK : forall x, links_kept T sp (sp ++ [x])) by (intros; apply links_kept_app).
  constructor; auto.
  - destruct Hinit as [n0 H0]. exists n0. now apply nth_app_old.
  - now apply uniq_app.
  - intros i s0 n0 g0 H Hg0. apply nth_app_inv in H. destruct H as [H|[-> H]].
    + destruct (Hc _ _ _ _ H Hg0) as (ops' & ids' & Hch'). exists ops', ids'.
      eapply chain_links_kept; [|eauto]. apply LK.
    + inv H. cbn in Hg0; inv Hg0.
      eexists _, _. eapply chain_step with (pid := id) (pg := g).
      * apply nth_app_last.
      * reflexivity.
      * apply nth_app_old; eauto.
      * auto.
      * auto.
      * auto.
      * reflexivity.
      * auto.
      * eapply chain_links_kept; [|eauto]. apply LK.
  - intros i s0 n0 H. apply nth_app_inv in H. destruct H as [H|[-> H]]; [eauto|]. inv H. discriminate.
  - intros i s0 n0 H Hx. apply nth_app_inv in H. destruct H as [H|[-> H]]; [eauto|].
    inv H. cbn. eauto.
  - intros i Hi. destruct (M i Hi) as (s0 & n0 & g0 & H & Hg0 & Hl). exists s0, n0, g0.
    split; auto. now apply nth_app_old.
  - intros HN i s0 n0 g0 H Hg0. apply nth_app_inv in H. destruct H as [H|[-> H]]; [eauto|].
    inv H. cbn in *. inv Hg0. rewrite (Hn HN _ _ _ _ Hid Hg), HN. reflexivity.
  - intros i s0 n0 p H Hp. apply nth_app_inv in H. destruct H as [H|[-> H]]; [eauto|].
    inv H. cbn in *. auto.
Qed.

Lemma gres_SInv id s n g op sp c sp' c' :
  SInv sp c -> nth_error sp id = Some (s, n) -> ni_g n = Some g -> In op (ts_app T s) ->
  gres id s n g op sp c sp' c' -> SInv sp' c'.
Proof.
  intros Inv Hid Hg Hop R. pose proof (si_I _ _ Inv) as HI.
  assert (Inv1 : SInv sp (c_notify ct c s op (ts_succ T s op))).
  { eapply SInv_same; eauto. now apply same_notify. }
  pose proof (si_I _ _ Inv1) as HI1.
  destruct R as [Hb|sid sn Hb Hsid Hsn|pref c2 Hb Hf Hd|pref c2 Hb Hf Hd
                 |pref sid sn sg Hb Hsid Hsg Hlt Hst|sid sn sg Hb Hsid Hsg Hlt Hst Hro].
  - auto.
  - auto.
  - apply SInv_app_dead; auto. eapply SInv_same; eauto. eapply same_dead; eauto.
  - assert (Inv2 : SInv sp c2). { eapply SInv_same; [exact Inv1|]. eapply same_dead; eauto. }
    eapply SInv_same.
    + eapply SInv_insert with (id := length sp).
      * eapply SInv_app_open; eauto.
      * apply nth_app_last.
      * reflexivity.
      * left; reflexivity.
    + apply same_progress. apply insert_I. apply (si_I _ _ Inv2).
  - eapply SInv_insert.
    + eapply SInv_redirect; eauto.
    + apply upd_nth_eq. eapply nth_error_Some_lt; eauto.
    + reflexivity.
    + left; reflexivity.
  - eapply SInv_redirect; eauto.
Qed.

(** The expanded node is left alone by its own expansion. *)
Lemma gres_self id s n g op sp c sp' c' :
  SInv sp c ->
  nth_error sp id = Some (s, n) -> ni_g n = Some g ->
  gres id s n g op sp c sp' c' -> nth_error sp' id = Some (s, n).
Proof.
  intros Inv Hid Hg R.
  destruct R as [Hb|sid sn Hb Hsid Hsn|pref c2 Hb Hf Hd|pref c2 Hb Hf Hd
                 |pref sid sn sg Hb Hsid Hsg Hlt Hst|sid sn sg Hb Hsid Hsg Hlt Hst Hro]; auto.
  - now apply nth_app_old.
  - now apply nth_app_old.
  - rewrite upd_nth_neq; auto. intros ->. rewrite Hid in Hsid; inv Hsid.
    rewrite Hg in Hsg; inv Hsg. lia.
  - rewrite upd_nth_neq; auto. intros ->. rewrite Hid in Hsid; inv Hsid.
    rewrite Hg in Hsg; inv Hsg. lia.
Qed.

(** A chain of events for a list of operators. *)
Inductive gseq (id : nat) (s : ts_state T) (n : node_info) (g : nat) : list nat ->
  space T -> C ct -> space T -> C ct -> Prop :=
| gs_nil : forall sp c, gseq id s n g [] sp c sp c
| gs_cons : forall op ops sp c sp1 c1 sp2 c2,
    In op (ts_app T s) ->
    gres id s n g op sp c sp1 c1 -> gseq id s n g ops sp1 c1 sp2 c2 ->
    gseq id s n g (op :: ops) sp c sp2 c2.

Lemma gen_fold_spec id prefs s n g ops : forall st,
  SInv (es_space st) (es_c st) ->
  nth_error (es_space st) id = Some (s, n) -> ni_g n = Some g -> incl ops (ts_app T s) ->
  exists st', fold_outcome (gen_one T ct cfg id prefs) ops st = Ok st' /\
    gseq id s n g ops (es_space st) (es_c st) (es_space st') (es_c st') /\
    SInv (es_space st') (es_c st') /\ nth_error (es_space st') id = Some (s, n).
Proof.
  induction ops as [|op ops IH]; intros st Inv Hid Hg Hin; cbn [fold_outcome].
  - exists st; splits; auto. constructor.
  - destruct (gen_one_spec id prefs st op s n g) as (st1 & E & R); auto.
    { apply Hin; cbn; auto. }
    rewrite E; cbn [bind].
    destruct (IH st1) as (st2 & E2 & R2 & I2 & N2); auto.
    + eapply gres_SInv; eauto. apply Hin; cbn; auto.
    + eapply gres_self; eauto.
    + intros x Hx; apply Hin; cbn; auto.
    + exists st2; splits; auto. econstructor; eauto. apply Hin; cbn; auto.
Qed.

(* ---------- pop ---------- *)

Inductive pres (sp : space T) (c : C ct) :
  option (eager_state T ct + nat * eager_state T ct) -> Prop :=
| pr_empty : c_pop ct c = None -> pres sp c None
| pr_skip : forall id c1 s n,
    c_pop ct c = Some (id, c1) -> nth_error sp id = Some (s, n) ->
    ni_status n = CLOSED \/ ni_status n = DEAD_END ->
    pres sp c (Some (inl {| es_space := sp; es_c := c1 |}))
| pr_reinsert : forall id c1 c3 s n g,
    c_has_lazy ct = true ->
    c_pop ct c = Some (id, c1) -> nth_error sp id = Some (s, n) -> ni_status n = OPEN ->
    ni_g n = Some g -> same c1 c3 ->
    pres sp c (Some (inl {| es_space := sp; es_c := c_insert ct c3 s g false id |}))
| pr_dead : forall id c1 c2 c3 s n g,
    c_has_lazy ct = true ->
    c_pop ct c = Some (id, c1) -> nth_error sp id = Some (s, n) -> ni_status n = OPEN ->
    ni_g n = Some g -> same c1 c2 -> c_dead ct c2 s g false = (true, c3) ->
    pres sp c (Some (inl {| es_space := upd sp id (s, set_status n DEAD_END); es_c := c3 |}))
| pr_select : forall id c1 c2 s n g,
    c_pop ct c = Some (id, c1) -> nth_error sp id = Some (s, n) -> ni_status n = OPEN ->
    ni_g n = Some g -> same c1 c2 -> (c_has_lazy ct = false -> c2 = c1) ->
    pres sp c (Some (inr (id, {| es_space := upd sp id (s, set_status n CLOSED); es_c := c2 |}))).

Lemma pop_one_spec st :
  SInv (es_space st) (es_c st) ->
  exists r, pop_one T ct st = Ok r /\ pres (es_space st) (es_c st) r.
Proof.
  intros Inv. destruct st as [sp c]; cbn [es_space es_c] in *.
  unfold pop_one; cbn [es_space es_c].
  destruct (c_pop ct c) as [[id c1]|] eqn:Ep.
  2:{ eexists; split; eauto. now constructor. }
  destruct (k_pop_some _ _ _ HK _ _ _ (si_I _ _ Inv) Ep) as [HI1 Hperm].
  destruct (si_mem _ _ Inv id) as (s & n & g & Hid & Hg & Hl).
  { eapply Permutation_in; [symmetry; eauto|cbn; auto]. }
  unfold get_node, vget. rewrite Hid; cbn [bind]. unfold get_g.
  unfold is_closed, is_dead_end_node.
  destruct (ni_status n) eqn:Est; cbn [status_eqb].
  - destruct Hl as [|[|[]]]; congruence.
  - rewrite Hg; cbn [bind]. unfold close_node, is_open. rewrite Est; cbn [status_eqb guard bind].
    repeat (erewrite put_info_some by eauto). cbn [bind].
    destruct (c_has_lazy ct) eqn:El.
    + destruct (c_lazy_unchanged ct c1 s g) as [[unch|] c2] eqn:Elz.
      * assert (S2 : same c1 c2) by (eapply same_lazy; eauto).
        destruct (c_dead ct c2 s g false) as [[|] c3] eqn:Ed.
        -- cbn [bind].
           eexists; split; eauto. eapply pr_dead; eauto.
        -- assert (S3 : same c2 c3) by (eapply same_dead; eauto; apply S2).
           destruct unch; cbn [negb].
           ++ eexists; split; eauto. eapply pr_select; eauto using same_trans. congruence.
           ++ eexists; split; eauto. eapply pr_reinsert; eauto using same_trans.
      * eexists; split; eauto. eapply pr_select; eauto. eapply same_lazy; eauto. congruence.
    + eexists; split; eauto. eapply pr_select; eauto. now apply same_refl.
  - eexists; split; eauto. eapply pr_skip; eauto.
  - destruct Hl as [|[|[_ El]]]; try congruence. rewrite Hg; cbn [bind]. rewrite El.
    eexists; split; eauto. eapply pr_skip; eauto.
Qed.

Lemma pop_sub c id c1 : I c -> c_pop ct c = Some (id, c1) ->
  I c1 /\ incl (entries c1) (entries c) /\ In id (entries c).
Proof.
  intros HI Ep. destruct (k_pop_some _ _ _ HK _ _ _ HI Ep) as [HI1 P]. splits; auto.
  - intros x Hx. eapply Permutation_in; [symmetry; eauto|cbn; auto].
  - eapply Permutation_in; [symmetry; eauto|cbn; auto].
Qed.

Lemma pres_SInv sp c r : SInv sp c -> pres sp c r ->
  match r with
  | None => True
  | Some (inl st') => SInv (es_space st') (es_c st')
  | Some (inr (id, st')) => SInv (es_space st') (es_c st') /\
      exists s n g, nth_error (es_space st') id = Some (s, n) /\ ni_g n = Some g /\ ni_status n = CLOSED
  end.
Proof.
  intros Inv R. pose proof (si_I _ _ Inv) as HI.
  destruct R as [E|id c1 s n E Hid Hst|id c1 c3 s n g El E Hid Hst Hg Hs
                 |id c1 c2 c3 s n g El E Hid Hst Hg Hs Hd|id c1 c2 s n g E Hid Hst Hg Hs Hlz];
    auto; destruct (pop_sub _ _ _ HI E) as (HI1 & Hsub & Hin); cbn [es_space es_c].
  - eapply SInv_sub; eauto.
  - assert (SInv sp c3). { eapply SInv_same; [|eauto]. eapply SInv_sub; eauto. }
    eapply SInv_insert; eauto. left; auto.
  - apply SInv_status; auto.
    eapply SInv_same; [eapply SInv_same; [eapply SInv_sub; eauto|]|]; eauto.
    eapply same_dead; eauto. apply Hs.
  - split.
    + apply SInv_status; auto. eapply SInv_same; [|eauto]. eapply SInv_sub; eauto.
    + exists s, (set_status n CLOSED), g. splits; auto.
      apply upd_nth_eq. eapply nth_error_Some_lt; eauto.
Qed.

(* ---------- one step ---------- *)

Inductive sres (sp : space T) (c : C ct) : search_result (eager_state T ct) -> Prop :=
| sr_failed : c_pop ct c = None -> sres sp c (FAILED {| es_space := sp; es_c := c |})
| sr_pop : forall st', pres sp c (Some (inl st')) -> sres sp c (IN_PROGRESS st')
| sr_solved : forall id st' s n g plan ids,
    pres sp c (Some (inr (id, st'))) -> nth_error (es_space st') id = Some (s, n) -> ni_g n = Some g ->
    ts_goal T s = true -> chain T ac (es_space st') id plan ids ->
    sres sp c (SOLVED plan st')
| sr_expand : forall id st1 s n g ops prefs c1 c2 st2,
    pres sp c (Some (inr (id, st1))) -> nth_error (es_space st1) id = Some (s, n) -> ni_g n = Some g ->
    ni_status n = CLOSED ->
    ts_goal T s = false -> c_prune ct (es_c st1) s (ts_app T s) = (ops, c1) ->
    c_preferred ct c1 s g = (prefs, c2) ->
    gseq id s n g ops (es_space st1) c2 (es_space st2) (es_c st2) ->
    SInv (es_space st1) c2 ->
    SInv (es_space st2) (es_c st2) -> nth_error (es_space st2) id = Some (s, n) ->
    sres sp c (IN_PROGRESS st2).

Lemma step_spec st :
  SInv (es_space st) (es_c st) ->
  exists r, eager_pop_step T ct cfg st = Ok r /\ sres (es_space st) (es_c st) r.
Proof.
  intros Inv. unfold eager_pop_step.
  destruct (pop_one_spec st Inv) as (r & E & R). rewrite E; cbn [bind].
  pose proof (pres_SInv _ _ _ Inv R) as Inv'.
  destruct r as [[st'|[id st']]|].
  - eexists; split; eauto. now constructor.
  - destruct Inv' as [Inv1 (s & n & g & Hid & Hg & Hcl)].
    unfold expand, get_node, vget. rewrite Hid; cbn [bind].
    destruct (ts_goal T s) eqn:Egoal.
    + destruct (si_chain _ _ Inv1 _ _ _ _ Hid Hg) as (plan & ids & Hch).
      rewrite (trace_path_chain T ac _ _ _ _ Hch); cbn [bind].
      eexists; split; eauto. eapply sr_solved; eauto.
    + unfold generate_successors, get_node, vget, get_g. rewrite Hid; cbn [bind]. rewrite Hg.
      destruct (c_prune ct (es_c st') s (ts_app T s)) as [ops c1] eqn:Epr.
      destruct (c_preferred ct c1 s g) as [prefs c2] eqn:Epf. cbn [bind].
      assert (S1 : same (es_c st') c1) by (eapply same_prune; eauto; apply (si_I _ _ Inv1)).
      assert (S2 : same c1 c2) by (eapply same_preferred; eauto; apply S1).
      assert (Inv2 : SInv (es_space st') c2) by (eapply SInv_same; [exact Inv1|eauto using same_trans]).
      destruct (gen_fold_spec id prefs s n g ops {| es_space := es_space st'; es_c := c2 |})
        as (st2 & E2 & R2 & I2 & N2); auto.
      { pose proof (k_prune_incl _ _ _ HK (es_c st') s (ts_app T s)) as K. now rewrite Epr in K. }
rewrite Epf.       rewrite E2; cbn [bind]. eexists; split; eauto.
      eapply sr_expand; eauto.
  - inv R. eexists; split; eauto. destruct st; cbn in *. now constructor.
Qed.

Lemma sres_SInv sp c r : SInv sp c -> sres sp c r ->
  match r with
  | IN_PROGRESS st' => SInv (es_space st') (es_c st')
  | SOLVED plan st' => SInv (es_space st') (es_c st')
  | FAILED st' => SInv (es_space st') (es_c st')
  end.
Proof.
  intros Inv R. destruct R as [E|st' R|id st' s n g plan ids R|]; cbn; auto.
  - apply (pres_SInv _ _ _ Inv R).
  - apply (pres_SInv _ _ _ Inv R).
Qed.

(* ---------- initialisation ---------- *)

Definition opened_initial : node_info :=
  {| ni_status := OPEN; ni_g := Some 0; ni_real_g := 0; ni_parent := None |}.

Inductive ires (c0 : C ct) : eager_state T ct -> Prop :=
| ir_dead : forall c2,
    c_dead ct (c_notify_initial ct c0 (ts_init T)) (ts_init T) 0 true = (true, c2) ->
    ires c0 {| es_space := [(ts_init T, new_info)]; es_c := c2 |}
| ir_open : forall c2,
    c_dead ct (c_notify_initial ct c0 (ts_init T)) (ts_init T) 0 true = (false, c2) ->
    ires c0 {| es_space := [(ts_init T, opened_initial)];
               es_c := c_insert ct (c_progress ct c2 (ts_init T) 0 false) (ts_init T) 0 true 0 |}.

Lemma init_spec c0 : exists st, eager_initialize T ct c0 = Ok st /\ ires c0 st.
Proof.
  unfold eager_initialize, register; cbn.
  destruct (c_dead _ _ _ _ _) as [[|] c2] eqn:Ed; eexists; split; eauto; now constructor.
Qed.

Lemma init_same c0 b c2 : I c0 ->
  c_dead ct (c_notify_initial ct c0 (ts_init T)) (ts_init T) 0 true = (b, c2) -> same c0 c2.
Proof.
  intros HI E. pose proof (k_notify_initial _ _ _ HK c0 (ts_init T) HI) as K.
  eapply same_trans; [exact K|eapply same_dead; eauto]. apply K.
Qed.

Lemma ires_open_SInv c0 c2 : I c0 -> entries c0 = [] ->
  c_dead ct (c_notify_initial ct c0 (ts_init T)) (ts_init T) 0 true = (false, c2) ->
  SInv [(ts_init T, opened_initial)]
    (c_insert ct (c_progress ct c2 (ts_init T) 0 false) (ts_init T) 0 true 0).
Proof.
  intros HI He Hd. pose proof (init_same _ _ _ HI Hd) as S2.
  assert (S3 : same c0 (c_progress ct c2 (ts_init T) 0 false)).
  { eapply same_trans; eauto. apply same_progress. apply S2. }
  assert (Hone : forall i s n, nth_error [(ts_init T, opened_initial)] i = Some (s, n) ->
            i = 0 /\ s = ts_init T /\ n = opened_initial).
  { intros [|[|i]] s n H; inv H. auto. }
  constructor.
  - apply insert_I. apply S3.
  - eexists; reflexivity.
  - intros i j s n m Hi Hj. apply Hone in Hi; apply Hone in Hj. lia.
  - intros i s n g H Hg. apply Hone in H. destruct H as (-> & -> & ->).
    exists [], [0]. econstructor; reflexivity.
  - intros i s n H. apply Hone in H. destruct H as (-> & -> & ->). discriminate.
  - intros i s n H _. apply Hone in H. destruct H as (-> & -> & ->). cbn; eauto.
  - intros i Hi. apply insert_mem in Hi; [|apply S3]. destruct S3 as [_ S3].
    rewrite S3, He in Hi. destruct Hi as [->|[]].
    exists (ts_init T), opened_initial, 0. splits; try reflexivity. left; reflexivity.
  - intros _ i s n g H Hg. apply Hone in H. destruct H as (-> & -> & ->). cbn in *. congruence.
  - intros i s n p H Hg. apply Hone in H. destruct H as (-> & -> & ->). discriminate.
Qed.

(* ---------- whole runs ---------- *)

(** Run relation: a state from which the loop continues. *)
Lemma loop_ind (P : space T -> C ct -> Prop) :
  (forall sp c st', SInv sp c -> P sp c -> sres sp c (IN_PROGRESS st') -> P (es_space st') (es_c st')) ->
  forall fuel st, SInv (es_space st) (es_c st) -> P (es_space st) (es_c st) ->
  exists r, eager_loop T ct cfg fuel st = Ok r /\
    match r with
    | IN_PROGRESS st' => SInv (es_space st') (es_c st') /\ P (es_space st') (es_c st')
    | other => exists st', SInv (es_space st') (es_c st') /\ P (es_space st') (es_c st') /\
                 sres (es_space st') (es_c st') other
    end.
Proof.
  intros Hstep. induction fuel as [|f IH]; intros st Inv HP; cbn [eager_loop].
  - eexists; split; [reflexivity|cbn; auto].
  - destruct (step_spec st Inv) as (r & E & R). rewrite E; cbn [bind].
    pose proof (sres_SInv _ _ _ Inv R) as Inv'.
    destruct r as [st'|st'|plan st'].
    + apply IH; auto. exact (Hstep _ _ _ Inv HP R).
    + eexists; split; [reflexivity|]. exists st; auto.
    + eexists; split; [reflexivity|]. exists st; auto.
Qed.

Lemma dead_loop c2 fuel : I c2 -> entries c2 = [] ->
  eager_loop T ct cfg fuel {| es_space := [(ts_init T, new_info)]; es_c := c2 |} =
  Ok (match fuel with O => IN_PROGRESS {| es_space := [(ts_init T, new_info)]; es_c := c2 |}
                    | _ => FAILED {| es_space := [(ts_init T, new_info)]; es_c := c2 |} end).
Proof.
  intros HI He. destruct fuel; auto. cbn [eager_loop]. unfold eager_pop_step, pop_one; cbn [es_c es_space].
  destruct (c_pop ct c2) as [[id c3]|] eqn:E; cbn; auto.
  destruct (k_pop_some _ _ _ HK _ _ _ HI E) as [_ P]. rewrite He in P.
  apply Permutation_nil in P. discriminate.
Qed.

Lemma search_ok fuel c0 : I c0 -> entries c0 = [] ->
  exists r, eager_search T ct cfg fuel c0 = Ok r /\
   forall plan st, r = SOLVED plan st ->
     exists st', SInv (es_space st') (es_c st') /\ sres (es_space st') (es_c st') (SOLVED plan st).
Proof.
  intros HI He. unfold eager_search.
  destruct (init_spec c0) as (st & E & R). rewrite E; cbn [bind].
  destruct R as [c2 Hd|c2 Hd].
  - pose proof (init_same _ _ _ HI Hd) as [HI2 E2].
    rewrite dead_loop by (auto; congruence). eexists; split; eauto.
    intros plan st Hx. destruct fuel; discriminate.
  - pose proof (ires_open_SInv _ _ HI He Hd) as Inv.
    destruct (loop_ind (fun _ _ => True) (fun _ _ _ _ _ _ => Logic.I) fuel {| es_space := [(ts_init T, opened_initial)]; es_c := c_insert ct (c_progress ct c2 (ts_init T) 0 false) (ts_init T) 0 true 0 |} Inv Logic.I) as (r & Er & Hr).
    exists r; split; auto. intros plan st ->. destruct Hr as (st' & A & _ & B). eauto.
Qed.

Lemma eager_sound fuel c0 plan st : I c0 -> entries c0 = [] ->
  eager_search T ct cfg fuel c0 = Ok (SOLVED plan st) ->
  is_plan T plan /\
  (ec_cost_type cfg = NORMAL -> forall b, ec_bound cfg = Some b ->
     plan = [] \/ sum_cost (ts_cost T) plan < b).
Proof.
  intros HI He Hs. destruct (search_ok fuel c0 HI He) as (r & Er & Hr).
  rewrite Hs in Er. inv Er. destruct (Hr _ _ eq_refl) as (st' & Inv & R).
  pose proof (sres_SInv _ _ _ Inv R) as Inv'. cbn in Inv'.
  inversion R as [| |id st1 s n g pl ids Hp Hid Hg Hgoal Hch|]; subst.
  destruct (chain_g T ac _ _ _ _ Hch) as (s1 & n1 & g1 & Hid1 & Hg1 & Hcost & Hpath & _).
  rewrite Hid in Hid1; inv Hid1. rewrite Hg in Hg1; inv Hg1.
  split; [exists s1; auto|].
  intros HN b Hb. assert (HN' : forall o, ac o = ts_cost T o).
  { intros o. unfold ac, adj. now rewrite HN. }
  inversion Hch as [n2 A B D|id2 s2 n2 pid ps pn op ops ids2 pg g2 A B D E F G H J K]; subst; auto.
  right. rewrite Hid in A; inv A.
  pose proof (si_bound _ _ Inv' _ _ _ _ Hid B) as Hbd. rewrite Hb in Hbd; cbn in Hbd.
  apply Nat.leb_gt in Hbd.
  rewrite (si_normal _ _ Inv' HN' _ _ _ _ Hid Hg) in Hbd.
  rewrite <- (sum_cost_ext ac) by auto. lia.
Qed.

Lemma eager_no_ub fuel c0 : I c0 -> entries c0 = [] ->
  exists r, eager_search T ct cfg fuel c0 = Ok r.
Proof. intros HI He. destruct (search_ok fuel c0 HI He) as (r & Er & _). eauto. Qed.

End Eager.
