(** LM-cut: the two cost explorations. *)
From Coq Require Import Permutation.
From Verif Require Import Outcome Spec_Task Model_Task Model_PQ Model_Relaxation Model_LMCut Proof_Dijkstra.

Lemma occ_from_spec f us : forall i p j, In j (occ_from f us i p) <->
  exists k u, j = i + k /\ nth_error us k = Some u /\ In p (f u).
Proof.
  induction us as [|u r IH]; intros i p j; cbn [occ_from].
  - split; [intros []|]. intros (k & u & _ & Hn & _). now rewrite nth_error_nil in Hn || (destruct k; discriminate).
  - rewrite in_app_iff, IH. split.
    + intros [Hr|(k & u' & -> & Hn & Hp)].
      * pose proof (repeat_spec _ _ _ Hr) as ->. exists 0, u. splits; [lia|reflexivity|].
        apply (count_occ_In Nat.eq_dec). destruct (count_occ Nat.eq_dec (f u) p); [destruct Hr|lia].
      * exists (S k), u'. splits; auto. lia.
    + intros (k & u' & -> & Hn & Hp). destruct k as [|k]; cbn in Hn.
      * inversion Hn; subst. left. apply (count_occ_In Nat.eq_dec) in Hp.
        destruct (count_occ Nat.eq_dec (f u') p); [lia|]. left. lia.
      * right. exists k, u'. splits; auto. lia.
Qed.
Lemma occ_from_0 f us p j : In j (occ_from f us 0 p) <-> exists u, nth_error us j = Some u /\ In p (f u).
Proof.
  rewrite occ_from_spec. split.
  - intros (k & u & -> & Hn & Hp). exists u; auto.
  - intros (u & Hn & Hp). exists j, u; auto.
Qed.
Lemma occ_from_nodup f us : (forall u, In u us -> NoDup (f u)) -> forall i p, NoDup (occ_from f us i p).
Proof.
  induction us as [|u r IH]; intros Hu i p; cbn [occ_from]; [constructor|].
  assert (Hr : NoDup (occ_from f r (S i) p)) by (apply IH; intros u' Hu'; apply Hu; now right).
  assert (Hc : count_occ Nat.eq_dec (f u) p <= 1).
  { apply (proj1 (NoDup_count_occ Nat.eq_dec (f u))). apply Hu; now left. }
  destruct (count_occ Nat.eq_dec (f u) p) as [|[|c]]; [cbn; auto| |lia].
  cbn. constructor; auto. rewrite occ_from_spec. intros (m & u' & He & _). lia.
Qed.

Lemma pstat_eqb_spec a b : pstat_eqb a b = true <-> a = b.
Proof. destruct a, b; cbn; split; congruence. Qed.

Lemma nth_upd {A} (l : list A) i j x d : i < length l -> nth j (upd l i x) d = if i =? j then x else nth j l d.
Proof.
  intros Hi. destruct (Nat.eqb_spec i j) as [->|Hne].
  - apply nth_error_nth. now apply upd_nth_eq.
  - destruct (Nat.lt_ge_cases j (length l)) as [Hj|Hj].
    + apply nth_error_nth. rewrite upd_nth_neq by auto. now apply nth_error_nth'.
    + rewrite !nth_overflow; auto. now rewrite upd_length.
Qed.
Lemma vget_nth {A} (l : list A) i d : i < length l -> vget l i = Ok (nth i l d).
Proof. intros H. unfold vget. now rewrite (nth_error_nth' _ d H). Qed.
Lemma vset_lt {A} (l : list A) i x : i < length l -> vset l i x = Ok (upd l i x).
Proof. intros H. unfold vset. now rewrite (proj2 (Nat.ltb_lt _ _) H). Qed.

(** Relaxed reachability over relaxed operators, using only those in [O]. *)
Inductive lreach (ops : list lop) (O : nat -> Prop) (I : list nat) : nat -> Prop :=
| lr_init : forall p, In p I -> lreach ops O I p
| lr_op : forall i u e, O i -> nth_error ops i = Some u -> In e (l_eff u) ->
    (forall q, In q (l_pre u) -> lreach ops O I q) -> lreach ops O I e.

(** [p] is reachable, and with operators of cost 0 only if [c = 0]. *)
Definition zreach (ops : list lop) (costs : list nat) (I : list nat) (c p : nat) : Prop :=
  lreach ops (fun _ => True) I p /\ (c = 0 -> lreach ops (fun i => nth i costs 0 = 0) I p).
Lemma zreach_op ops costs I c i u e : nth_error ops i = Some u -> In e (l_eff u) ->
  (forall q, In q (l_pre u) -> exists k, k <= c /\ zreach ops costs I k q) -> zreach ops costs I (c + nth i costs 0) e.
Proof.
  intros Hu He Hq. split.
  - apply lr_op with i u; auto. intros q Hin. destruct (Hq q Hin) as (k & _ & H & _). exact H.
  - intros Hc. apply lr_op with i u; auto; [lia|]. intros q Hin. destruct (Hq q Hin) as (k & Hk & _ & H). apply H. lia.
Qed.

Section LMCUT.
Variable P : pqueue.
Variable bag : PQ P -> list (nat * nat).
Hypothesis HP : pq_contract P bag.
Variable ops : list lop.
Variable tot gp ap : nat.
Variable I : list nat.                 (* facts of the state *)
Hypothesis Hops : forall u, In u ops -> NoDup (l_pre u) /\ l_pre u <> [] /\
  (forall q, In q (l_pre u) -> q < tot) /\ (forall e, In e (l_eff u) -> e < tot).
Hypothesis Hgp : gp < tot.
Hypothesis Hap : ap < tot.
Hypothesis HI : forall p, In p I -> p < tot.

Notation lst := (lstate P).
Definition stt (st : lst) (p : nat) : pstat := nth p (c_st st) UNREACHED.
Definition hh (st : lst) (p : nat) : nat := nth p (c_h st) 0.
Definition cc (st : lst) (i : nat) : nat := nth i (c_cost st) 0.
Definition un (st : lst) (i : nat) : nat := nth i (c_unsat st) 0.
Definition supp (st : lst) (i : nat) : option (nat * nat) := nth i (c_sup st) None.
Definition rd (st : lst) (p : nat) : Prop := stt st p <> UNREACHED.
Definition bg (st : lst) := bag (c_q st).

Record lens (st : lst) : Prop := {
  n_st : length (c_st st) = tot; n_h : length (c_h st) = tot; n_cost : length (c_cost st) = length ops;
  n_un : length (c_unsat st) = length ops; n_sup : length (c_sup st) = length ops }.

(** What one call of enqueue_if_necessary does. *)
Lemma lenq_spec c st p : lens st -> p < tot ->
  (lenq P c st p = Ok st /\ rd st p /\ hh st p <= c) \/
  (exists st', lenq P c st p = Ok st' /\ lens st' /\ (stt st p = UNREACHED \/ c < hh st p) /\
     (forall q, stt st' q = if p =? q then REACHED else stt st q) /\
     (forall q, hh st' q = if p =? q then c else hh st q) /\
     c_cost st' = c_cost st /\ c_unsat st' = c_unsat st /\ c_sup st' = c_sup st /\
     Permutation (bg st') ((c, p) :: bg st) /\ c_h st' = upd (c_h st) p c).
Proof.
  intros HL Hp. unfold lenq.
  assert (H1 : p < length (c_st st)) by (now rewrite (n_st _ HL)).
  assert (H2 : p < length (c_h st)) by (now rewrite (n_h _ HL)).
  rewrite (vget_nth _ _ UNREACHED H1), (vget_nth _ _ 0 H2). cbn [bind].
  change (nth p (c_st st) UNREACHED) with (stt st p). change (nth p (c_h st) 0) with (hh st p).
  destruct (pstat_eqb (stt st p) UNREACHED || (c <? hh st p)) eqn:E.
  - right. rewrite (vset_lt _ _ _ H1), (vset_lt _ _ _ H2). cbn [bind]. eexists. split; [reflexivity|]. split.
    { destruct HL. constructor; cbn; rewrite ?upd_length; auto. }
    split. { apply orb_true_iff in E. destruct E as [E|E]; [left; now apply pstat_eqb_spec|right; now apply Nat.ltb_lt]. }
    splits; try reflexivity.
    + intros q. unfold stt; cbn. now apply nth_upd.
    + intros q. unfold hh; cbn. now apply nth_upd.
    + apply (pq_push_ok _ _ HP).
  - left. apply orb_false_iff in E. destruct E as [E1 E2]. splits; auto.
    + intros E. rewrite E in E1. discriminate.
    + now apply Nat.ltb_ge.
Qed.

Lemma bag_in st st' c p : Permutation (bg st') ((c, p) :: bg st) -> forall e, In e (bg st') <-> e = (c, p) \/ In e (bg st).
Proof.
  intros Hb e. split; intros He.
  - apply (Permutation_in _ Hb) in He. destruct He; auto.
  - apply (Permutation_in _ (Permutation_sym Hb)). destruct He as [->|He]; [now left|now right].
Qed.

(* ---- the first exploration ---- *)
Definition allin (u : lop) (D : list nat) : Prop := forall q, In q (l_pre u) -> In q D.
Definition npre (u : lop) (D : list nat) : nat := length (filter (fun q => negb (inb D q)) (l_pre u)).

Record A (st : lst) (D rest rc J : list nat) : Prop := {
  a_len : lens st;
  a_nodup : NoDup D;
  a_D : forall p, In p D -> rd st p;
  a_bagnd : NoDup (bg st);
  a_bag : forall k p, In (k, p) (bg st) -> p < tot /\ rd st p /\ hh st p <= k /\ (In p D -> hh st p < k);
  a_pend : forall p, rd st p -> In p D \/ In (hh st p, p) (bg st);
  a_ord : forall d k q, In d D -> In (k, q) (bg st) -> hh st d <= k;
  a_head : forall p D0 q, D = p :: D0 -> In q D -> hh st q <= hh st p;
  a_un : forall i u, nth_error ops i = Some u -> un st i = npre u (dset D rest i);
  a_sup : forall i u, nth_error ops i = Some u ->
    match supp st i with
    | Some (q, c) => allin u (dset D rest i) /\ In q (l_pre u) /\ hh st q = c /\ forall x, In x (l_pre u) -> hh st x <= c
    | None => ~ allin u (dset D rest i)
    end;
  a_eff : forall i u q c e, nth_error ops i = Some u -> ~ In i rc -> supp st i = Some (q, c) -> In e (l_eff u) ->
    rd st e /\ hh st e <= c + cc st i;
  a_cost : c_cost st = map l_base ops;
  a_init : forall p, In p J -> rd st p /\ hh st p = 0;
  a_sound : forall p, rd st p -> zreach ops (map l_base ops) (ap :: I) (hh st p) p;
  a_stat : forall p, stt st p = UNREACHED \/ stt st p = REACHED
}.

Lemma dset_sub D rest i x : In x (dset D rest i) -> In x D.
Proof. unfold dset. destruct (inb rest i); auto. destruct D; [intros []|now right]. Qed.

Lemma lenq_A c st D rest rc J p : A st D rest rc J -> p < tot ->
  zreach ops (map l_base ops) (ap :: I) c p -> (forall d, In d D -> hh st d <= c) ->
  exists st', lenq P c st p = Ok st' /\ A st' D rest rc J /\ rd st' p /\ hh st' p <= c /\
    (forall d, In d D -> hh st' d = hh st d) /\ (forall q, rd st q -> rd st' q /\ hh st' q <= hh st q) /\
    length (bg st') <= S (length (bg st)) /\ c_unsat st' = c_unsat st /\ c_sup st' = c_sup st.
Proof.
  intros HA Hp Hr Hord. destruct (lenq_spec c st p (a_len _ _ _ _ _ HA) Hp) as [(E & Hrd & Hle)|(st' & E & HL & Hlt & Hst & Hh & Ec & Eu & Es & Hb & _)].
  - exists st. split; [exact E|]. splits; auto.
  - exists st'. split; [exact E|].
    assert (HpD : ~ In p D).
    { intros HpD. pose proof (a_D _ _ _ _ _ HA p HpD). pose proof (Hord p HpD). destruct Hlt; [contradiction|lia]. }
    assert (HD : forall d, In d D -> hh st' d = hh st d).
    { intros d Hd. rewrite Hh. destruct (Nat.eqb_spec p d) as [->|]; [contradiction|auto]. }
    assert (Hrd : forall q, rd st' q <-> q = p \/ rd st q).
    { intros q. unfold rd. rewrite Hst. destruct (Nat.eqb_spec p q) as [->|Hne].
      - split; auto. discriminate.
      - split; auto. intros [->|Hq]; congruence. }
    assert (Hdec : forall q, rd st q -> rd st' q /\ hh st' q <= hh st q).
    { intros q Hq. split; [apply Hrd; auto|]. rewrite Hh. destruct (Nat.eqb_spec p q) as [->|]; auto. destruct Hlt; [contradiction|lia]. }
    pose proof (bag_in _ _ _ _ Hb) as HbI.
    split; [|splits; auto].
    2:{ apply Hrd; auto. }
    2:{ rewrite Hh, Nat.eqb_refl; auto. }
    2:{ rewrite (Permutation_length Hb). cbn. lia. }
    constructor.
    + exact HL.
    + apply HA.
    + intros d Hd. apply Hdec. now apply (a_D _ _ _ _ _ HA).
    + apply (Permutation_NoDup (Permutation_sym Hb)). constructor; [|apply HA].
      intros Hin. destruct (a_bag _ _ _ _ _ HA _ _ Hin) as (_ & H1 & H2 & _). destruct Hlt; [contradiction|lia].
    + intros k q Hin. apply HbI in Hin. destruct Hin as [Hin|Hin].
      * inversion Hin; subst. splits; auto; [apply Hrd; auto|rewrite Hh, Nat.eqb_refl; auto|contradiction].
      * destruct (a_bag _ _ _ _ _ HA _ _ Hin) as (H1 & H2 & H3 & H4). destruct (Hdec q H2) as [H5 H6].
        splits; auto; [lia|]. intros Hq. specialize (H4 Hq). lia.
    + intros q Hq. apply Hrd in Hq. destruct (Nat.eq_dec p q) as [->|Hne].
      * right. apply HbI. left. now rewrite Hh, Nat.eqb_refl.
      * destruct Hq as [->|Hq]; [congruence|]. destruct (a_pend _ _ _ _ _ HA q Hq) as [Hx|Hx]; auto. right. apply HbI. right.
        rewrite Hh. destruct (Nat.eqb_spec p q); [congruence|auto].
    + intros d k q Hd Hin. rewrite HD by auto. apply HbI in Hin. destruct Hin as [Hin|Hin].
      * inversion Hin; subst. auto.
      * eapply (a_ord _ _ _ _ _ HA); eauto.
    + intros d D0 q -> Hq. rewrite !HD by (auto; now left). eapply (a_head _ _ _ _ _ HA); eauto.
    + intros i u Hu. unfold un. rewrite Eu. now apply (a_un _ _ _ _ _ HA).
    + intros i u Hu. unfold supp. rewrite Es. pose proof (a_sup _ _ _ _ _ HA i u Hu) as Hs. unfold supp in Hs.
      destruct (nth i (c_sup st) None) as [[q k]|]; auto. destruct Hs as (H1 & H2 & H3 & H4).
      assert (G : forall x, In x (l_pre u) -> hh st' x = hh st x).
      { intros x Hx. apply HD. eapply dset_sub. apply H1. exact Hx. }
      splits; auto; [now rewrite G|]. intros x Hx. rewrite G by auto. auto.
    + intros i u q k e Hu Hi Hs He. unfold supp in Hs. rewrite Es in Hs. unfold cc. rewrite Ec.
      destruct (a_eff _ _ _ _ _ HA i u q k e Hu Hi Hs He) as [H1 H2]. destruct (Hdec e H1) as [H3 H4]. split; auto.
      unfold cc in H2. lia.
    + rewrite Ec. apply HA.
    + intros q Hq. destruct (a_init _ _ _ _ _ HA q Hq) as [H1 H2]. destruct (Hdec q H1). split; auto. lia.
    + intros q Hq. apply Hrd in Hq. rewrite Hh. destruct (Nat.eqb_spec p q) as [<-|Hne]; [exact Hr|].
      destruct Hq as [->|Hq]; [congruence|]. now apply (a_sound _ _ _ _ _ HA).
    + intros q. rewrite Hst. destruct (p =? q); auto. apply HA.
Qed.

Lemma lenqs_A c es : forall st D rest rc J, A st D rest rc J -> (forall e, In e es -> e < tot) ->
  (forall e, In e es -> zreach ops (map l_base ops) (ap :: I) c e) -> (forall d, In d D -> hh st d <= c) ->
  exists st', fold_outcome (lenq P c) es st = Ok st' /\ A st' D rest rc J /\
    (forall e, In e es -> rd st' e /\ hh st' e <= c) /\
    (forall d, In d D -> hh st' d = hh st d) /\ (forall q, rd st q -> rd st' q /\ hh st' q <= hh st q) /\
    length (bg st') <= length es + length (bg st) /\ c_unsat st' = c_unsat st /\ c_sup st' = c_sup st.
Proof.
  induction es as [|e r IH]; intros st D rest rc J HA Hlt Hr Hord; cbn [fold_outcome].
  - exists st. splits; auto. intros e [].
  - destruct (lenq_A c st D rest rc J e HA) as (st1 & E & HA1 & Hrd & Hle & HD & Hdec & Hl & Eu & Es); auto;
      [apply Hlt; now left|apply Hr; now left|].
    rewrite E. cbn [bind]. destruct (IH st1 D rest rc J HA1) as (st2 & E2 & HA2 & Hrd2 & HD2 & Hdec2 & Hl2 & Eu2 & Es2).
    + intros; apply Hlt; now right.
    + intros; apply Hr; now right.
    + intros d Hd. rewrite HD by auto. auto.
    + exists st2. split; [exact E2|]. split; [exact HA2|]. splits; try congruence.
      * intros x [<-|Hx]; auto. destruct (Hdec2 e Hrd). split; auto. lia.
      * intros d Hd. rewrite HD2, HD; auto.
      * intros q Hq. destruct (Hdec q Hq) as [H1 H2]. destruct (Hdec2 q H1). split; auto. lia.
      * cbn [length]. lia.
Qed.

Fixpoint potl (us : list lop) (ns : list nat) : nat :=
  match us, ns with
  | u :: r, n :: r' => (if n =? 0 then 0 else length (l_eff u)) + potl r r'
  | _, _ => 0
  end.
Lemma potl_upd us : forall ns i u n n', nth_error us i = Some u -> nth_error ns i = Some n -> n <> 0 ->
  potl us (upd ns i n') + (if n' =? 0 then length (l_eff u) else 0) = potl us ns.
Proof.
  induction us as [|v r IH]; intros [|m ns] [|i] u n n' Hu Hn Hn0; cbn in Hu, Hn; try discriminate.
  - inversion Hu; inversion Hn; subst. cbn [upd potl]. rewrite (proj2 (Nat.eqb_neq n 0) Hn0). destruct (n' =? 0); lia.
  - cbn [upd potl]. rewrite <- (IH ns i u n n' Hu Hn Hn0). lia.
Qed.
Definition pot (st : lst) : nat := length (bg st) + potl ops (c_unsat st).

Lemma dset_cons_other p D i rest j : i <> j -> dset (p :: D) rest j = dset (p :: D) (i :: rest) j.
Proof. intros Hne. unfold dset, inb. cbn [existsb]. destruct (Nat.eqb_spec j i); [congruence|reflexivity]. Qed.
Lemma dset_head p D i rest : dset (p :: D) (i :: rest) i = D.
Proof. unfold dset. rewrite (proj2 (inb_spec _ _)) by now left. reflexivity. Qed.
Lemma dset_nohead D i rest : ~ In i rest -> dset D rest i = D.
Proof. intros H. unfold dset. now rewrite (proj2 (inb_false _ _) H). Qed.

Lemma npre_0 u D : npre u D = 0 <-> allin u D.
Proof.
  unfold npre, allin. split.
  - intros H q Hq. destruct (inb D q) eqn:E; [now apply inb_spec|].
    assert (Hin : In q (filter (fun q => negb (inb D q)) (l_pre u))) by (apply filter_In; split; auto; now rewrite E).
    destruct (filter _ _); [destruct Hin|discriminate].
  - intros H. induction (l_pre u) as [|a r IH]; auto. cbn [filter].
    rewrite (proj2 (inb_spec _ _)) by (apply H; now left). cbn [negb]. apply IH. intros; apply H; now right.
Qed.

Lemma trigger_A st p D i rest u : A st (p :: D) (i :: rest) (i :: rest) (ap :: I) -> ~ In i rest ->
  nth_error ops i = Some u -> In p (l_pre u) ->
  exists st', trigger P ops p (hh st p) st i = Ok st' /\ A st' (p :: D) rest rest (ap :: I) /\
     hh st' p = hh st p /\ pot st' <= pot st.
Proof.
  intros HA Hir Hu Hpu. unfold trigger.
  pose proof (a_len _ _ _ _ _ HA) as HL. destruct (Hops u (nth_error_In _ _ Hu)) as (Hnd & Hne & Hpt & Het).
  assert (Hil : i < length ops) by (apply nth_error_Some; congruence).
  assert (HpD : ~ In p D) by (pose proof (a_nodup _ _ _ _ _ HA) as Hn; inversion Hn; auto).
  pose proof (a_un _ _ _ _ _ HA i u Hu) as Hun. rewrite dset_head in Hun.
  destruct (filter_add D p (l_pre u) Hnd Hpu HpD) as [_ Hlen]. fold (npre u D) in Hlen. fold (npre u (p :: D)) in Hlen.
  rewrite (vget_nth _ _ 0) by (now rewrite (n_un _ HL)). cbn [bind]. fold (un st i). rewrite Hun, Hlen.
  cbn [Nat.ltb Nat.leb guard bind]. replace (S (npre u (p :: D)) - 1) with (npre u (p :: D)) by lia.
  rewrite vset_lt by (now rewrite (n_un _ HL)). cbn [bind].
  set (k := npre u (p :: D)) in *.
  pose proof (a_sup _ _ _ _ _ HA i u Hu) as Hsi. rewrite dset_head in Hsi.
  assert (Hsn : supp st i = None).
  { destruct (supp st i) as [[q c]|]; auto. destruct Hsi as (Hall & _). exfalso. apply HpD. now apply Hall. }
  assert (Hpot' : potl ops (upd (c_unsat st) i k) + (if k =? 0 then length (l_eff u) else 0) = potl ops (c_unsat st)).
  { apply potl_upd with (S k); auto; try lia. rewrite (nth_error_nth' _ 0) by (now rewrite (n_un _ HL)).
    f_equal. fold (un st i). lia. }
  assert (Hun' : forall sup', forall j v, nth_error ops j = Some v ->
    un {| c_st := c_st st; c_h := c_h st; c_cost := c_cost st; c_unsat := upd (c_unsat st) i k; c_sup := sup'; c_q := c_q st |} j
      = npre v (dset (p :: D) rest j)).
  { intros sup' j v Hv. unfold un; cbn [c_unsat]. rewrite nth_upd by (now rewrite (n_un _ HL)). destruct (Nat.eqb_spec i j) as [<-|Hij].
    - rewrite Hu in Hv; inversion Hv; subst v. now rewrite dset_nohead.
    - rewrite (dset_cons_other p D i rest j Hij). now apply (a_un _ _ _ _ _ HA). }
  destruct (Nat.eqb_spec k 0) as [Ek|Ek].
  - rewrite (vget_nth _ _ u) by auto. rewrite (nth_error_nth _ _ _ Hu). cbn [bind].
    rewrite (vget_nth _ _ 0) by (now rewrite (n_cost _ HL)). cbn [bind]. fold (cc st i).
    rewrite vset_lt by (now rewrite (n_sup _ HL)). cbn [bind].
    set (st1 := {| c_st := c_st st; c_h := c_h st; c_cost := c_cost st; c_unsat := upd (c_unsat st) i k;
                   c_sup := upd (c_sup st) i (Some (p, hh st p)); c_q := c_q st |}).
    assert (Hall : allin u (p :: D)) by (now apply npre_0).
    assert (Hs1 : forall j, supp st1 j = if i =? j then Some (p, hh st p) else supp st j).
    { intros j. unfold supp, st1; cbn. apply nth_upd. now rewrite (n_sup _ HL). }
    assert (HA1 : A st1 (p :: D) rest (i :: rest) (ap :: I)).
    { destruct HA. constructor; auto.
      - destruct HL. constructor; cbn; rewrite ?upd_length; auto.
      - intros j v Hv. exact (Hun' _ j v Hv).
      - intros j v Hv. rewrite Hs1. destruct (Nat.eqb_spec i j) as [<-|Hij].
        + rewrite Hu in Hv; inversion Hv; subst v. rewrite dset_nohead by auto. splits; auto.
          intros x Hx. eapply a_head0; [reflexivity|]. now apply Hall.
        + rewrite (dset_cons_other p D i rest j Hij). now apply a_sup0.
      - intros j v q c e Hv Hj Hs He. rewrite Hs1 in Hs. destruct (Nat.eqb_spec i j) as [<-|Hij]; [exfalso; apply Hj; now left|].
        exact (a_eff0 j v q c e Hv Hj Hs He). }
    destruct (lenqs_A (hh st p + cc st i) (l_eff u) st1 _ _ _ _ HA1) as (st2 & E2 & HA2 & Hrd2 & HD2 & Hdec2 & Hl2 & Eu2 & Es2); auto.
    { intros e He. unfold cc. rewrite (a_cost _ _ _ _ _ HA). apply zreach_op with u; auto. intros q Hq. exists (hh st q). split.
      - eapply (a_head _ _ _ _ _ HA); [reflexivity|]. now apply Hall.
      - apply (a_sound _ _ _ _ _ HA). apply (a_D _ _ _ _ _ HA). now apply Hall. }
    { intros d Hd. pose proof (a_head _ _ _ _ _ HA p D d eq_refl Hd). change (hh st1 d) with (hh st d). lia. }
    exists st2. split; [exact E2|]. splits.
    + pose proof (a_cost _ _ _ _ _ HA) as Hc1. pose proof (a_cost _ _ _ _ _ HA2) as Hc2.
      destruct HA2. constructor; auto.
      intros j v q c e Hv Hj Hs He. destruct (Nat.eq_dec i j) as [<-|Hij].
      * rewrite Hu in Hv; inversion Hv; subst v. unfold supp in Hs. rewrite Es2 in Hs. fold (supp st1 i) in Hs.
        rewrite Hs1, Nat.eqb_refl in Hs. inversion Hs; subst. unfold cc at 1. rewrite Hc2, <- Hc1. now apply Hrd2.
      * apply (a_eff0 j v q c e); auto. intros [->|Hx]; congruence.
    + rewrite HD2 by now left. reflexivity.
    + unfold pot. rewrite Eu2. cbn [c_unsat st1]. change (bg st1) with (bg st) in Hl2. lia.
  - set (st1 := {| c_st := c_st st; c_h := c_h st; c_cost := c_cost st; c_unsat := upd (c_unsat st) i k; c_sup := c_sup st; c_q := c_q st |}).
    exists st1.
    split; [reflexivity|]. splits; [|reflexivity|].
    + destruct HA. constructor; auto.
      * destruct HL. constructor; cbn; rewrite ?upd_length; auto.
      * intros j v Hv. exact (Hun' _ j v Hv).
      * intros j v Hv. change (supp st1 j) with (supp st j). destruct (Nat.eq_dec i j) as [<-|Hij].
        -- rewrite Hu in Hv; inversion Hv; subst v. rewrite Hsn, dset_nohead by auto. intros Hall. apply Ek. now apply npre_0.
        -- rewrite (dset_cons_other p D i rest j Hij). now apply a_sup0.
      * intros j v q c e Hv Hj Hs He. change (supp st1 j) with (supp st j) in Hs. destruct (Nat.eq_dec i j) as [<-|Hij]; [congruence|].
        exact (a_eff0 j v q c e Hv ltac:(intros [->|Hx]; congruence) Hs He).
    + unfold pot. cbn [c_unsat st1]. change (bg st1) with (bg st). lia.
Qed.

Lemma triggers_A p D l : forall st, NoDup l ->
  (forall i, In i l -> exists u, nth_error ops i = Some u /\ In p (l_pre u)) ->
  A st (p :: D) l l (ap :: I) ->
  exists st', fold_outcome (trigger P ops p (hh st p)) l st = Ok st' /\ A st' (p :: D) [] [] (ap :: I) /\ pot st' <= pot st.
Proof.
  induction l as [|i r IH]; intros st Hnd Hl HA; cbn [fold_outcome].
  - exists st. auto.
  - inversion Hnd as [|? ? Hi Hr]; subst. destruct (Hl i (or_introl eq_refl)) as (u & Hu & Hpu).
    destruct (trigger_A st p D i r u HA Hi Hu Hpu) as (st1 & E & HA1 & Hp1 & Hpot).
    rewrite E. cbn [bind]. rewrite <- Hp1.
    destruct (IH st1 Hr (fun j Hj => Hl j (or_intror Hj)) HA1) as (st2 & E2 & HA2 & Hp2).
    exists st2. splits; auto. lia.
Qed.

Lemma explore_A fuel : forall st D, A st D [] [] (ap :: I) -> pot st < fuel ->
  exists st' D', lexplore P ops (trigger P ops) fuel st = Ok st' /\ A st' D' [] [] (ap :: I) /\ bg st' = [].
Proof.
  induction fuel as [|fuel IH]; intros st D HA Hf; [lia|]. cbn [lexplore].
  destruct (pq_pop P (c_q st)) as [[[d p] q]|] eqn:Ep.
  2:{ exists st, D. splits; auto. exact (pq_pop_none _ _ HP _ Ep). }
  destruct (pq_pop_some _ _ HP _ _ _ _ Ep) as [Hperm Hmin].
  pose proof (a_len _ _ _ _ _ HA) as HL.
  assert (Hin : In (d, p) (bg st)) by (apply (Permutation_in _ (Permutation_sym Hperm)); now left).
  destruct (a_bag _ _ _ _ _ HA _ _ Hin) as (Hp & Hrd & Hle & HpD).
  rewrite (vget_nth _ _ 0) by (now rewrite (n_h _ HL)). cbn [bind]. fold (hh st p).
  rewrite (proj2 (Nat.leb_le _ _) Hle). cbn [guard bind].
  set (st1 := {| c_st := c_st st; c_h := c_h st; c_cost := c_cost st; c_unsat := c_unsat st; c_sup := c_sup st; c_q := q |}).
  assert (Hb1 : Permutation (bg st) ((d, p) :: bg st1)) by exact Hperm.
  assert (Hsub : forall e, In e (bg st1) -> In e (bg st)) by (intros e He; apply (Permutation_in _ (Permutation_sym Hb1)); now right).
  assert (Hnd1 : NoDup ((d, p) :: bg st1)) by (apply (Permutation_NoDup Hb1); apply HA).
  assert (Hpot1 : S (pot st1) = pot st).
  { unfold pot. cbn [c_unsat st1]. rewrite (Permutation_length Hb1). cbn [length]. lia. }
  destruct (Nat.ltb_spec (hh st p) d) as [Hlt|Hge].
  - apply (IH st1 D); [|lia]. destruct HA. constructor; auto.
    + destruct HL; constructor; auto.
    + inversion Hnd1; auto.
    + intros k x Hx. apply a_bag0. now apply Hsub.
    + intros x Hx. destruct (a_pend0 x Hx) as [H|H]; [now left|]. apply (Permutation_in _ Hb1) in H. destruct H as [H|H]; [|right; exact H].
      inversion H. subst x. lia.
    + intros e k x He Hx. eapply a_ord0; eauto.
  - assert (Ed : d = hh st p) by lia. assert (HpnD : ~ In p D) by (intros Hx; specialize (HpD Hx); lia).
    assert (HA1 : A st1 (p :: D) (occ_from l_pre ops 0 p) (occ_from l_pre ops 0 p) (ap :: I)).
    { destruct HA. constructor; auto.
      - destruct HL; constructor; auto.
      - constructor; auto.
      - intros x [<-|Hx]; auto; now apply a_D0.
      - inversion Hnd1; auto.
      - intros k x Hx. destruct (a_bag0 k x (Hsub _ Hx)) as (H1 & H2 & H3 & H4). splits; auto.
        intros [<-|Hx']; auto. change (hh st1 p) with (hh st p). change (hh st1 p) with (hh st p) in H3.
        assert (k <> hh st p); [|lia]. intros ->. inversion Hnd1 as [|? ? Hnx]; subst. now apply Hnx.
      - intros x Hx. destruct (a_pend0 x Hx) as [H|H]; [left; now right|]. apply (Permutation_in _ Hb1) in H. destruct H as [H|H]; [|right; exact H].
        inversion H. left; now left.
      - intros e k x [<-|He] Hx; [|eapply a_ord0; eauto]. change (hh st1 p) with (hh st p). rewrite <- Ed. eapply Hmin; eauto.
      - intros p' D0 x E [<-|Hx]; inversion E; subst; [lia|]. apply (a_ord0 x (hh st p') p'); auto.
      - intros i u Hu. change (un st1 i) with (un st i). rewrite (a_un0 i u Hu). unfold dset at 2.
        destruct (inb (occ_from l_pre ops 0 p) i) eqn:Ei; [reflexivity|]. apply inb_false in Ei. rewrite occ_from_0 in Ei.
        change (dset D [] i) with D. unfold npre. f_equal. apply filter_ext_in. intros x Hx. f_equal.
        unfold inb. cbn [existsb]. destruct (Nat.eqb_spec x p) as [->|]; auto. exfalso. apply Ei. eauto.
      - intros i u Hu. change (supp st1 i) with (supp st i). specialize (a_sup0 i u Hu).
        assert (Hd : allin u (dset (p :: D) (occ_from l_pre ops 0 p) i) <-> allin u (dset D [] i)).
        { unfold dset at 1. change (dset D [] i) with D. destruct (inb (occ_from l_pre ops 0 p) i) eqn:Ei; [reflexivity|].
          apply inb_false in Ei. rewrite occ_from_0 in Ei. split; intros Hx y Hy; [|right; auto].
          destruct (Hx y Hy) as [<-|]; auto. exfalso. apply Ei; eauto. }
        destruct (supp st i) as [[x c]|]; rewrite ?Hd; auto.
      - intros i u x c e Hu _ Hs He. exact (a_eff0 i u x c e Hu (fun f => f) Hs He). }
    change (hh st p) with (hh st1 p).
    destruct (triggers_A p D (occ_from l_pre ops 0 p) st1) as (st2 & E2 & HA2 & Hpot2); auto.
    { apply occ_from_nodup. intros u Hu. now apply Hops. }
    { intros i Hi. now apply occ_from_0 in Hi. }
    rewrite E2. cbn [bind]. apply (IH st2 (p :: D)); auto. lia.
Qed.

(** The result of the first exploration. *)
Theorem first_exploration_A q0 h0 : length h0 = tot ->
  exists st D, first_exploration P ops tot ap q0 h0 I = Ok st /\ A st D [] [] (ap :: I) /\ bg st = [].
Proof.
  intros Hh0. unfold first_exploration.
  set (st0 := {| c_st := repeat UNREACHED tot; c_h := h0; c_cost := map l_base ops;
                 c_unsat := map (fun u => length (l_pre u)) ops; c_sup := map (fun _ => None) ops; c_q := pq_clear P q0 |}).
  assert (Hst0 : forall p, stt st0 p = UNREACHED).
  { intros p. unfold stt, st0; cbn. destruct (nth_in_or_default p (repeat UNREACHED tot) UNREACHED) as [H|H]; auto. now apply repeat_spec in H. }
  assert (Hb0 : bg st0 = []) by apply (pq_clear_ok _ _ HP).
  assert (Hs0 : forall i, supp st0 i = None).
  { intros i. unfold supp, st0; cbn. destruct (nth_in_or_default i (map (fun _ : lop => @None (nat * nat)) ops) None) as [H|H]; auto.
    apply in_map_iff in H. destruct H as (x & <- & _). reflexivity. }
  assert (HA0 : A st0 [] [] [] []).
  { constructor.
    - constructor; cbn; rewrite ?repeat_length, ?map_length; auto.
    - constructor.
    - intros p [].
    - rewrite Hb0; constructor.
    - rewrite Hb0. intros k p [].
    - intros p Hp. destruct Hp. apply Hst0.
    - intros d k q [].
    - intros p D0 q H. discriminate.
    - intros i u Hu. unfold un, st0; cbn. erewrite nth_error_nth by (rewrite nth_error_map, Hu; reflexivity).
      unfold npre. change (dset [] [] i) with (@nil nat). f_equal. symmetry.
      induction (l_pre u) as [|a r IHl]; auto. cbn [filter]. change (inb [] a) with false. cbn [negb]. f_equal. exact IHl.
    - intros i u Hu. rewrite Hs0. change (dset [] [] i) with (@nil nat). destruct (Hops u (nth_error_In _ _ Hu)) as (_ & Hne & _).
      intros Hall. destruct (l_pre u) as [|a r] eqn:E; [congruence|]. apply (Hall a). rewrite E; now left.
    - intros i u q c e _ _ Hs. rewrite Hs0 in Hs. discriminate.
    - reflexivity.
    - intros p [].
    - intros p Hp. destruct Hp. apply Hst0.
    - intros p. left. apply Hst0. }
  assert (HJ : forall st J J', A st [] [] [] J -> (forall p, In p J' -> rd st p /\ hh st p = 0) -> A st [] [] [] (J' ++ J)).
  { intros st J J' HA HJ'. destruct HA. constructor; auto. intros p Hp. apply in_app_iff in Hp. destruct Hp; auto. }
  destruct (lenqs_A 0 I st0 _ _ _ _ HA0) as (st1 & E1 & HA1 & Hrd1 & _ & _ & Hl1 & Eu1 & _); auto.
  { intros e He. split; intros; apply lr_init; now right. }
  { intros d []. }
  rewrite E1. cbn [bind].
  destruct (lenq_A 0 st1 _ _ _ _ ap HA1) as (st2 & E2 & HA2 & Hrd2 & Hle2 & _ & Hdec2 & Hl2 & Eu2 & _); auto.
  { split; intros; apply lr_init; now left. }
  { intros d []. }
  rewrite E2. cbn [bind].
  assert (HA3 : A st2 [] [] [] (ap :: I)).
  { rewrite <- (app_nil_r (ap :: I)). apply HJ; auto. intros p [<-|Hp]; [split; auto; lia|].
    destruct (Hrd1 p Hp) as [H1 H2]. destruct (Hdec2 p H1). split; auto. lia. }
  destruct (explore_A (S (list_sum (map (fun u => length (l_eff u)) ops) + S (length I))) st2 [] HA3) as (st3 & D & E3 & HA4 & Hb); eauto.
  unfold pot. rewrite Eu2, Eu1. cbn [c_unsat st0]. rewrite Hb0 in Hl1. cbn [length] in Hl1.
  assert (Hpl : forall us f, potl us (map f us) <= list_sum (map (fun u => length (l_eff u)) us)).
  { clear. intros us f. induction us as [|u r IH]; cbn [potl map list_sum fold_right]; [lia|].
    change (fold_right Nat.add 0) with list_sum. destruct (f u =? 0); lia. }
  pose proof (Hpl ops (fun u => length (l_pre u))). lia.
Qed.
End LMCUT.
