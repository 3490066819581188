(** Lemmas about the search space: parent chains. *)
From Verif Require Import Outcome Spec_Plan Model_SearchSpace.

(* ---------- generic lemmas on paths ---------- *)

Lemma path_app T s os1 s1 os2 s2 :
  path T s os1 s1 -> path T s1 os2 s2 -> path T s (os1 ++ os2) s2.
Proof. induction 1; cbn; auto. intros H2. constructor; auto. Qed.

Lemma path_snoc T s os s1 o :
  path T s os s1 -> In o (ts_app T s1) -> path T s (os ++ [o]) (ts_succ T s1 o).
Proof. intros H Ho. eapply path_app; eauto. repeat constructor; auto. Qed.

Lemma path_det T s os a b : path T s os a -> path T s os b -> a = b.
Proof. intros H; revert b; induction H; intros b Hb; inv Hb; auto. Qed.

Lemma path_app_inv T s os1 os2 s2 :
  path T s (os1 ++ os2) s2 -> exists s1, path T s os1 s1 /\ path T s1 os2 s2.
Proof.
  revert s; induction os1 as [|o os1 IH]; cbn; intros s H.
  - exists s; split; [constructor|exact H].
  - inv H. destruct (IH _ H5) as (s1 & H1 & H2). exists s1; split; auto. constructor; auto.
Qed.

Lemma sum_cost_app c os1 os2 : sum_cost c (os1 ++ os2) = sum_cost c os1 + sum_cost c os2.
Proof. unfold sum_cost. induction os1; cbn; auto. rewrite IHos1. lia. Qed.

Lemma sum_cost_ext c1 c2 os : (forall o, c1 o = c2 o) -> sum_cost c1 os = sum_cost c2 os.
Proof. unfold sum_cost. intros H; induction os as [|o os IH]; cbn; [reflexivity|]. now rewrite H, IH. Qed.

(* ---------- registry ---------- *)

Section Space.
Variable T : TS.
Variable ac : nat -> nat.      (* adjusted operator costs *)
Hypothesis Hwf : ts_wf T.

Lemma find_state_some (sp : space T) s id :
  find_state sp s = Some id -> exists n, nth_error sp id = Some (s, n).
Proof.
  revert id; induction sp as [|[s' n'] rest IH]; intros id; cbn; [discriminate|].
  destruct (ts_eqb T s s') eqn:E.
  - intros H; inv H. apply Hwf in E; subst. eexists; reflexivity.
  - destruct (find_state rest s) eqn:Ef; cbn; [|discriminate]. intros H; inv H.
    cbn. auto.
Qed.

Lemma find_state_none (sp : space T) s :
  find_state sp s = None -> forall id n, nth_error sp id <> Some (s, n).
Proof.
  induction sp as [|[s' n'] rest IH]; cbn; intros H id n.
  - destruct id; discriminate.
  - destruct (ts_eqb T s s') eqn:E; [discriminate|].
    destruct (find_state rest s) eqn:Ef; [discriminate|].
    destruct id; cbn; [|auto]. intros Hx; inv Hx.
    assert (ts_eqb T s s = true) by (now apply Hwf). congruence.
Qed.

Lemma register_spec (sp : space T) s sp' id :
  register sp s = (sp', id) ->
  (sp' = sp /\ exists n, nth_error sp id = Some (s, n)) \/
  (sp' = sp ++ [(s, new_info)] /\ id = length sp /\ forall j n, nth_error sp j <> Some (s, n)).
Proof.
  unfold register. destruct (find_state sp s) eqn:E; intros H; inv H.
  - left; split; auto. eapply find_state_some; eauto.
  - right; repeat split; auto. eapply find_state_none; eauto.
Qed.

Definition uniq (sp : space T) : Prop :=
  forall i j s n m, nth_error sp i = Some (s, n) -> nth_error sp j = Some (s, m) -> i = j.

Lemma nth_app_last {A} (l : list A) x : nth_error (l ++ [x]) (length l) = Some x.
Proof. rewrite nth_error_app2 by lia. now rewrite Nat.sub_diag. Qed.

Lemma nth_app_inv {A} (l : list A) x i y :
  nth_error (l ++ [x]) i = Some y -> nth_error l i = Some y \/ (i = length l /\ y = x).
Proof.
  intros H. destruct (Nat.lt_ge_cases i (length l)).
  - rewrite nth_error_app1 in H by lia. auto.
  - rewrite nth_error_app2 in H by lia. destruct (i - length l) as [|k] eqn:E.
    + right. cbn in H. inv H. split; auto. lia.
    + destruct k; discriminate.
Qed.

Lemma nth_app_old {A} (l : list A) x i y :
  nth_error l i = Some y -> nth_error (l ++ [x]) i = Some y.
Proof. intros H. rewrite nth_error_app1; auto. eapply nth_error_Some_lt; eauto. Qed.

(* ---------- parent chains ---------- *)

Inductive chain (sp : space T) : nat -> list nat -> list nat -> Prop :=
| chain_root : forall n,
    nth_error sp 0 = Some (ts_init T, n) -> ni_parent n = None -> ni_g n = Some 0 ->
    chain sp 0 [] [0]
| chain_step : forall id s n pid ps pn op ops ids pg g,
    nth_error sp id = Some (s, n) -> ni_parent n = Some (pid, op) ->
    nth_error sp pid = Some (ps, pn) -> In op (ts_app T ps) -> ts_succ T ps op = s ->
    ni_g pn = Some pg -> ni_g n = Some g -> pg + ac op <= g ->
    chain sp pid ops ids ->
    chain sp id (ops ++ [op]) (ids ++ [id]).

Lemma chain_det sp id o1 i1 o2 i2 :
  chain sp id o1 i1 -> chain sp id o2 i2 -> o1 = o2 /\ i1 = i2.
Proof.
  intros H; revert o2 i2; induction H as [n H0 Hp Hg|id s n pid ps pn op ops ids pg g H1 H2 H3 H4 H5 H6 H7 H8 Hc IH];
    intros o2 i2 H'; inv H'.
  - auto.
  - exfalso. congruence.
  - exfalso. congruence.
  - rewrite H1 in H; inv H. rewrite H2 in H0; inv H0.
    match goal with HC : chain sp _ ops0 ids0 |- _ => destruct (IH _ _ HC) as [-> ->] end. auto.
Qed.

Lemma chain_last sp id ops ids : chain sp id ops ids -> In id ids.
Proof. intros H; inv H; cbn; auto. apply in_or_app; right; cbn; auto. Qed.

Lemma chain_g sp id ops ids : chain sp id ops ids ->
  exists s n g, nth_error sp id = Some (s, n) /\ ni_g n = Some g /\ sum_cost ac ops <= g /\
    path T (ts_init T) ops s /\
    forall y, In y ids -> exists sy ny gy, nth_error sp y = Some (sy, ny) /\ ni_g ny = Some gy /\ gy <= g.
Proof.
  induction 1 as [n H0 Hp Hg|id s n pid ps pn op ops ids pg g H1 H2 H3 H4 H5 H6 H7 H8 Hc IH].
  - exists (ts_init T), n, 0; repeat split; auto; [constructor|].
    intros y [<-|[]]. eauto 10.
  - destruct IH as (s0 & n0 & g0 & E0 & G0 & S0 & P0 & A0).
    rewrite H3 in E0; inv E0. rewrite H6 in G0; inv G0.
    exists (ts_succ T s0 op), n, g. repeat split; auto.
    + rewrite sum_cost_app; cbn; lia.
    + now apply path_snoc.
    + intros y Hy. apply in_app_or in Hy. destruct Hy as [Hy|[<-|[]]].
      * destruct (A0 y Hy) as (sy & ny & gy & A & B & D). exists sy, ny, gy; repeat split; auto; lia.
      * exists (ts_succ T s0 op), n, g; auto.
Qed.

Lemma chain_sub sp id ops ids y :
  chain sp id ops ids -> In y ids -> exists o1 i1, chain sp y o1 i1 /\ length i1 <= length ids /\
     (y <> id -> length i1 < length ids).
Proof.
  induction 1 as [n H0 Hp Hg|id s n pid ps pn op ops ids pg g H1 H2 H3 H4 H5 H6 H7 H8 Hc IH]; intros Hy.
  - destruct Hy as [<-|[]]. exists [], [0]; repeat split; auto; try congruence. econstructor; eauto.
  - apply in_app_or in Hy. destruct Hy as [Hy|[<-|[]]].
    + destruct (IH Hy) as (o1 & i1 & C1 & L1 & L2). exists o1, i1. rewrite app_length; cbn.
      repeat split; auto; lia.
    + exists (ops ++ [op]), (ids ++ [id]). split; [econstructor; eauto|]. split; auto. congruence.
Qed.

Lemma NoDup_snoc {A} (l : list A) x : NoDup l -> ~ In x l -> NoDup (l ++ [x]).
Proof.
  induction 1 as [|a l Ha Hl IH]; cbn; intros Hx.
  - repeat constructor; auto.
  - constructor; auto. intros Hin. apply in_app_or in Hin. destruct Hin as [|[->|[]]]; auto.
Qed.

Lemma chain_nodup sp id ops ids : chain sp id ops ids -> NoDup ids.
Proof.
  induction 1 as [n H0 Hp Hg|id s n pid ps pn op ops ids pg g H1 H2 H3 H4 H5 H6 H7 H8 Hc IH].
  - repeat constructor; auto.
  - apply NoDup_snoc; auto. intros Hin.
    assert (Hfull : chain sp id (ops ++ [op]) (ids ++ [id])) by (econstructor; eauto).
    destruct (chain_sub sp pid ops ids id Hc Hin) as (o1 & i1 & C1 & L1 & _).
    destruct (chain_det _ _ _ _ _ _ Hfull C1) as [_ E]. rewrite <- E, app_length in L1; cbn in L1; lia.
Qed.

Lemma chain_ids_lt sp id ops ids : chain sp id ops ids -> forall y, In y ids -> y < length sp.
Proof.
  intros H y Hy. destruct (chain_g _ _ _ _ H) as (? & ? & ? & ? & ? & ? & ? & A).
  destruct (A y Hy) as (sy & ny & gy & E & _). eapply nth_error_Some_lt; eauto.
Qed.

Lemma chain_lengths sp id ops ids : chain sp id ops ids -> length ids = S (length ops).
Proof. induction 1; cbn; auto. rewrite !app_length; cbn. lia. Qed.

Lemma chain_short sp id ops ids : chain sp id ops ids -> length ops < length sp.
Proof.
  intros H. pose proof (chain_nodup _ _ _ _ H) as Hnd.
  assert (incl ids (seq 0 (length sp))).
  { intros y Hy. apply in_seq. pose proof (chain_ids_lt _ _ _ _ H y Hy). lia. }
  pose proof (NoDup_incl_length Hnd H0) as L. rewrite seq_length in L.
  rewrite (chain_lengths _ _ _ _ H) in L. lia.
Qed.

Lemma trace_loop_chain sp id ops ids : chain sp id ops ids ->
  forall fuel acc, length ops < fuel -> trace_path_loop fuel sp id acc = Ok (ops ++ acc).
Proof.
  induction 1 as [n H0 Hp Hg|id s n pid ps pn op ops ids pg g H1 H2 H3 H4 H5 H6 H7 H8 Hc IH];
    intros [|f] acc Hf; try lia; cbn [trace_path_loop]; unfold get_node, vget.
  - rewrite H0; cbn. rewrite Hp. reflexivity.
  - rewrite H1; cbn [bind]. rewrite H2. rewrite app_length in Hf; cbn in Hf.
    rewrite IH by lia. now rewrite <- app_assoc.
Qed.

Lemma trace_path_chain sp id ops ids :
  chain sp id ops ids -> trace_path sp id = Ok ops.
Proof.
  intros H. unfold trace_path. erewrite trace_loop_chain; eauto.
  - now rewrite app_nil_r.
  - pose proof (chain_short _ _ _ _ H). lia.
Qed.

(* ---------- changes of the space that keep chains ---------- *)

(** Same states, g-values and parents (statuses may differ; new entries may be added). *)
Definition links_kept (sp sp' : space T) : Prop :=
  forall i s n, nth_error sp i = Some (s, n) ->
    exists n', nth_error sp' i = Some (s, n') /\ ni_g n' = ni_g n /\ ni_parent n' = ni_parent n.

Lemma chain_links_kept sp sp' id ops ids :
  links_kept sp sp' -> chain sp id ops ids -> chain sp' id ops ids.
Proof.
  intros HK. induction 1 as [n H0 Hp Hg|id s n pid ps pn op ops ids pg g H1 H2 H3 H4 H5 H6 H7 H8 Hc IH].
  - destruct (HK _ _ _ H0) as (n' & E & G & P). econstructor; eauto; congruence.
  - destruct (HK _ _ _ H1) as (n' & E & G & P). destruct (HK _ _ _ H3) as (pn' & E' & G' & P').
    eapply chain_step with (g := g) (pg := pg); eauto; congruence.
Qed.

Lemma links_kept_app sp x : links_kept sp (sp ++ [x]).
Proof. intros i s n H. exists n; repeat split; auto. now apply nth_app_old. Qed.

Lemma links_kept_upd sp id s n n' :
  nth_error sp id = Some (s, n) -> ni_g n' = ni_g n -> ni_parent n' = ni_parent n ->
  links_kept sp (upd sp id (s, n')).
Proof.
  intros H G P i s0 n0 H0. destruct (Nat.eq_dec id i) as [->|Hne].
  - rewrite H in H0; inv H0. exists n'; repeat split; auto.
    apply upd_nth_eq. eapply nth_error_Some_lt; eauto.
  - exists n0; repeat split; auto. rewrite upd_nth_neq; auto.
Qed.

(** Redirecting the parent of [id] to [pid] with a strictly smaller g-value. *)
Lemma chain_redirect sp id s n n' pid ps pn op pg opsp idsp :
  nth_error sp id = Some (s, n) ->
  nth_error sp pid = Some (ps, pn) -> ni_g pn = Some pg ->
  In op (ts_app T ps) -> ts_succ T ps op = s ->
  ni_g n' = Some (pg + ac op) -> ni_parent n' = Some (pid, op) ->
  (ni_g n = None \/ exists g, ni_g n = Some g /\ pg + ac op < g) ->
  chain sp pid opsp idsp ->
  let sp' := upd sp id (s, n') in
  chain sp' id (opsp ++ [op]) (idsp ++ [id]) /\
  forall x ops ids, chain sp x ops ids -> exists ops' ids', chain sp' x ops' ids'.
Proof.
  intros Hid Hpid Hpg Hop Hsucc Hg' Hp' Hold Hc sp'.
  assert (Hlt : id < length sp) by (eapply nth_error_Some_lt; eauto).
  assert (Hnew : nth_error sp' id = Some (s, n')) by (apply upd_nth_eq; auto).
  assert (Hnotin : forall x ops ids, chain sp x ops ids ->
            (exists sx nx gx, nth_error sp x = Some (sx, nx) /\ ni_g nx = Some gx /\ gx <= pg) ->
            ~ In id ids).
  { intros x ops ids Hx (sx & nx & gx & Ex & Gx & Lx) Hin.
    destruct (chain_g _ _ _ _ Hx) as (s1 & n1 & g1 & E1 & G1 & _ & _ & A).
    rewrite Ex in E1; inv E1. rewrite Gx in G1; inv G1.
    destruct (A id Hin) as (sy & ny & gy & Ey & Gy & Ly).
    rewrite Hid in Ey; inv Ey. destruct Hold as [Hn|(g & Hg & Hl)]; [congruence|].
    rewrite Gy in Hg; inv Hg. lia. }
  assert (Hstable : forall x ops ids, chain sp x ops ids -> ~ In id ids -> chain sp' x ops ids).
  { intros x ops ids Hx.
    induction Hx as [m H0 Hpm Hgm|x sx nx qid qs qn o ops ids qg gx H1 H2 H3 H4 H5 H6 H7 H8 Hq IH]; intros Hn.
    - econstructor; eauto. unfold sp'. rewrite upd_nth_neq; auto. intros ->; apply Hn; cbn; auto.
    - assert (Hnx : id <> x) by (intros ->; apply Hn; apply in_or_app; right; cbn; auto).
      assert (Hnq : ~ In id ids) by (intros Hin; apply Hn; apply in_or_app; auto).
      assert (Hne : id <> qid) by (intros ->; apply Hnq; eapply chain_last; eauto).
      eapply chain_step with (g := gx) (pg := qg); eauto.
      + unfold sp'. rewrite upd_nth_neq; eauto.
      + unfold sp'. rewrite upd_nth_neq; eauto. }
  assert (Hpn : ~ In id idsp) by (eapply Hnotin; [exact Hc|eauto 10]).
  assert (Hpidne : id <> pid) by (intros ->; apply Hpn; eapply chain_last; eauto).
  assert (Hself : chain sp' id (opsp ++ [op]) (idsp ++ [id])).
  { eapply chain_step with (g := pg + ac op) (pg := pg); eauto.
    unfold sp'. rewrite upd_nth_neq; eauto. }
  split; [exact Hself|].
  intros x ops ids Hx.
  induction Hx as [m H0 Hpm Hgm|x sx nx qid qs qn o ops ids qg gx H1 H2 H3 H4 H5 H6 H7 H8 Hq IH].
  - destruct (Nat.eq_dec id 0) as [->|Hne]; [eauto|].
    exists [], [0]. econstructor; eauto. unfold sp'. rewrite upd_nth_neq; eauto.
  - destruct (Nat.eq_dec id x) as [->|Hne]; [eauto|].
    destruct IH as (ops' & ids' & Hc').
    destruct (Nat.eq_dec id qid) as [->|Hneq].
    + rewrite H3 in Hid; inv Hid. destruct Hold as [Hn|(g0 & Hg0 & Hl)]; [congruence|].
      rewrite H6 in Hg0; inv Hg0.
      exists (ops' ++ [o]), (ids' ++ [x]).
      eapply chain_step with (g := gx) (pg := pg + ac op); eauto; try lia.
      unfold sp'. rewrite upd_nth_neq; eauto.
    + exists (ops' ++ [o]), (ids' ++ [x]).
      eapply chain_step with (g := gx) (pg := qg); eauto.
      * unfold sp'. rewrite upd_nth_neq; eauto.
      * unfold sp'. rewrite upd_nth_neq; eauto.
Qed.
End Space.
