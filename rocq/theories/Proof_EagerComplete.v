(** Completeness and termination of eager search, optimality of A-star. *)
From Coq Require Import Permutation Wf_nat.
From Verif Require Import Outcome Spec_Plan Spec_Controller Model_SearchSpace Model_Eager
  Proof_SearchSpace Proof_Eager.

Section Complete.
Variable T : TS.
Variable ct : controller T.
Variable cfg : eager_config.
Variable I : C ct -> Prop.
Variable entries : C ct -> list nat.
Hypothesis Hwf : ts_wf T.
Hypothesis HK : controller_ok ct I entries.

Let ac := adj T cfg.
Notation SInv := (SInv T ct cfg I entries).
Notation gres := (gres T ct cfg).
Notation gseq := (gseq T ct cfg).
Notation pres := (pres T ct I entries).
Notation sres := (sres T ct cfg I entries).
Notation same := (same T ct I entries).

Section Safe.
Hypothesis HS : controller_safe ct I entries.
(** Either no bound, or real costs and reopening. *)
Hypothesis Hmode : ec_bound cfg = None \/ (ec_cost_type cfg = NORMAL /\ ec_reopen cfg = true).

Definition within (n : node_info) (op : nat) : Prop :=
  reaches_bound (ec_bound cfg) (ni_real_g n + ts_cost T op) = false.

Definition usable (n : node_info) : Prop := ni_status n = OPEN \/ ni_status n = CLOSED.

Definition covered (sp : space T) (s : ts_state T) (g op : nat) : Prop :=
  ~ solvable_from T (ts_succ T s op) \/
  exists sid sn sg, nth_error sp sid = Some (ts_succ T s op, sn) /\ usable sn /\
    ni_g sn = Some sg /\ (ec_reopen cfg = true -> sg <= g + ac op).

Record CInv (pend : nat -> nat -> Prop) (sp : space T) (c : C ct) : Prop := {
  ci_open : forall i s n, nth_error sp i = Some (s, n) -> ni_status n = OPEN ->
    In i (entries c) \/ ~ solvable_from T s;
  ci_closed : forall i s n g, nth_error sp i = Some (s, n) -> ni_status n = CLOSED -> ni_g n = Some g ->
    ts_goal T s = false /\
    forall op, In op (ts_app T s) -> ~ pend i op -> within n op -> covered sp s g op;
  ci_dead : forall i s n, nth_error sp i = Some (s, n) -> ni_status n = DEAD_END -> ~ solvable_from T s
}.

Definition grow (sp sp' : space T) : Prop :=
  forall i s n g, nth_error sp i = Some (s, n) -> usable n -> ni_g n = Some g ->
    ~ solvable_from T s \/
    exists n' g', nth_error sp' i = Some (s, n') /\ usable n' /\ ni_g n' = Some g' /\ g' <= g.

Lemma covered_grow sp sp' s g op : grow sp sp' -> covered sp s g op -> covered sp' s g op.
Proof.
  intros G [H|(sid & sn & sg & H & Hu & Hg & Hle)]; [left; auto|].
  destruct (G _ _ _ _ H Hu Hg) as [?|(n' & g' & H' & Hu' & Hg' & Hle')]; [left; auto|].
  right. exists sid, n', g'. splits; auto. intros Hr. specialize (Hle Hr). lia.
Qed.

Lemma grow_refl sp : grow sp sp.
Proof. intros i s n g H Hu Hg. right. exists n, g. splits; auto. Qed.

Lemma grow_app sp x : grow sp (sp ++ [x]).
Proof. intros i s n g H Hu Hg. right. exists n, g. splits; auto. now apply nth_app_old. Qed.

Lemma grow_upd sp i s n n' g g' :
  nth_error sp i = Some (s, n) -> ni_g n = Some g -> ni_g n' = Some g' -> g' <= g -> usable n' ->
  grow sp (upd sp i (s, n')).
Proof.
  intros Hi Hg Hg' Hle Hu j s0 n0 g0 H Hu0 Hg0. right.
  destruct (Nat.eq_dec i j) as [->|Hne].
  - rewrite Hi in H; inv H. rewrite Hg in Hg0; inv Hg0. exists n', g'. splits; auto.
    apply upd_nth_eq. eapply nth_error_Some_lt; eauto.
  - exists n0, g0. splits; auto. rewrite upd_nth_neq; auto.
Qed.

Lemma grow_upd_unsolvable sp i s n n' :
  nth_error sp i = Some (s, n) -> ~ solvable_from T s -> grow sp (upd sp i (s, n')).
Proof.
  intros Hi Hs j s0 n0 g0 H Hu0 Hg0. destruct (Nat.eq_dec i j) as [->|Hne].
  - rewrite Hi in H; inv H. auto.
  - right. exists n0, g0. splits; auto. rewrite upd_nth_neq; auto.
Qed.

Lemma insert_keeps c s g p id x : I c -> In x (entries c) -> In x (entries (c_insert ct c s g p id)).
Proof.
  intros HI Hx. destruct (k_insert _ _ _ HK c s g p id HI) as (_ & k & P).
  eapply Permutation_in; [symmetry; eauto|]. apply in_or_app; auto.
Qed.

Lemma within_none n op : ec_bound cfg = None -> within n op.
Proof. unfold within. intros ->. reflexivity. Qed.

(** What remains pending after handling operator [op] of node [id]. *)
Definition less (pend : nat -> nat -> Prop) (id op : nat) : nat -> nat -> Prop :=
  fun i o => pend i o /\ ~ (i = id /\ o = op).

Lemma gres_grow id s n g op sp c sp' c' :
  SInv sp c -> nth_error sp id = Some (s, n) -> ni_g n = Some g -> gres id s n g op sp c sp' c' ->
  grow sp sp'.
Proof.
  intros Inv Hid Hg R.
  destruct R as [Hb|sid sn Hb Hsid Hsn|pref c2 Hb Hf Hd|pref c2 Hb Hf Hd
                 |pref sid sn sg Hb Hsid Hsg Hlt Hst|sid sn sg Hb Hsid Hsg Hlt Hst Hro].
  - apply grow_refl.
  - apply grow_refl.
  - apply grow_app.
  - apply grow_app.
  - eapply grow_upd with (g' := g + ac op); [eassumption|eassumption|reflexivity|unfold ac in *; lia|left; reflexivity].
  - eapply grow_upd with (g' := g + ac op); [eassumption|eassumption|reflexivity|unfold ac in *; lia|right; reflexivity].
Qed.

Lemma gres_covered id s n g op sp c sp' c' :
  SInv sp c -> nth_error sp id = Some (s, n) -> ni_g n = Some g -> gres id s n g op sp c sp' c' ->
  (forall i s n, nth_error sp i = Some (s, n) -> ni_status n = DEAD_END -> ~ solvable_from T s) ->
  within n op -> covered sp' s g op.
Proof.
  intros Inv Hid Hg R Hdead Hw. unfold within in Hw.
  destruct R as [Hb|sid sn Hb Hsid Hsn|pref c2 Hb Hf Hd|pref c2 Hb Hf Hd
                 |pref sid sn sg Hb Hsid Hsg Hlt Hst|sid sn sg Hb Hsid Hsg Hlt Hst Hro].
  - congruence.
  - destruct Hsn as [Hsn|(Hu & sg & Hsg & Hle)].
    + left. eapply Hdead; eauto.
    + right. exists sid, sn, sg. splits; auto.
  - left. eapply (k_dead_safe _ _ _ HS).
    2:{ rewrite Hd; reflexivity. }
    apply (k_notify _ _ _ HK). apply (si_I _ _ _ _ _ _ _ Inv).
  - right. eexists (length sp), _, _. split; [apply nth_app_last|].
    split; [left; reflexivity|]. split; [reflexivity|]. auto.
  - right. eexists sid, _, _. split; [apply upd_nth_eq; eapply nth_error_Some_lt; eauto|].
    split; [left; reflexivity|]. split; [reflexivity|]. auto.
  - right. eexists sid, _, _. split; [apply upd_nth_eq; eapply nth_error_Some_lt; eauto|].
    split; [right; reflexivity|]. split; [reflexivity|]. auto.
Qed.

Lemma gres_CInv pend id s n g op sp c sp' c' :
  SInv sp c -> CInv pend sp c ->
  nth_error sp id = Some (s, n) -> ni_g n = Some g -> In op (ts_app T s) -> ni_status n = CLOSED ->
  gres id s n g op sp c sp' c' -> CInv (less pend id op) sp' c'.
Proof.
  intros Inv [Co Cc Cd] Hid Hg Hop Hcl R.
  pose proof (gres_grow _ _ _ _ _ _ _ _ _ Inv Hid Hg R) as G.
  pose proof (gres_covered _ _ _ _ _ _ _ _ _ Inv Hid Hg R Cd) as Hcov.
  pose proof (gres_self T ct cfg I entries _ _ _ _ _ _ _ _ _ Inv Hid Hg R) as Hself.
  pose proof (si_I _ _ _ _ _ _ _ Inv) as HI.
  destruct (same_notify T ct I entries HK c s op (ts_succ T s op) HI) as [HI1 E1].
  (* closed clause, for nodes unchanged since [sp] *)
  assert (Hold : forall i s0 n0 g0, nth_error sp i = Some (s0, n0) -> ni_status n0 = CLOSED ->
            ni_g n0 = Some g0 -> ts_goal T s0 = false /\
            forall o, In o (ts_app T s0) -> ~ less pend id op i o -> within n0 o -> covered sp' s0 g0 o).
  { intros i s0 n0 g0 Hi Hc0 Hg0. destruct (Cc _ _ _ _ Hi Hc0 Hg0) as [Hgoal Hall]. split; auto.
    intros o Ho Hp Hw.
    destruct (Nat.eq_dec i id) as [->|Hne]; [destruct (Nat.eq_dec o op) as [->|Hno]|].
    - rewrite Hid in Hi; inv Hi. rewrite Hg in Hg0; inv Hg0. auto.
    - eapply covered_grow; eauto. apply Hall; auto. intros Hpe. apply Hp. split; auto. intros [_ ?]; auto.
    - eapply covered_grow; eauto. apply Hall; auto. intros Hpe. apply Hp. split; auto. intros [? _]; auto. }
  destruct R as [Hb|sid sn Hb Hsid Hsn|pref c2 Hb Hf Hd|pref c2 Hb Hf Hd
                 |pref sid sn sg Hb Hsid Hsg Hlt Hst|sid sn sg Hb Hsid Hsg Hlt Hst Hro].
  - constructor; auto.
  - constructor; auto. intros i s0 n0 Hi H0. rewrite E1. eauto.
  - destruct (same_dead T ct I entries HK _ _ _ _ _ _ HI1 Hd) as [HI2 E2].
    constructor.
    + intros i s0 n0 Hi H0. apply nth_app_inv in Hi. destruct Hi as [Hi|[-> Hi]]; [|inv Hi; discriminate].
      rewrite E2, E1. eauto.
    + intros i s0 n0 g0 Hi H0 Hg0. apply nth_app_inv in Hi.
      destruct Hi as [Hi|[-> Hi]]; [|inv Hi; discriminate]. eauto.
    + intros i s0 n0 Hi H0. apply nth_app_inv in Hi. destruct Hi as [Hi|[-> Hi]]; [eauto|]. inv Hi.
      eapply (k_dead_safe _ _ _ HS); [exact HI1|]. rewrite Hd; reflexivity.
  - destruct (same_dead T ct I entries HK _ _ _ _ _ _ HI1 Hd) as [HI2 E2].
    pose proof (insert_I T ct I entries HK c2 (ts_succ T s op) (g + ac op) pref (length sp) HI2) as HI3.
    destruct (same_progress T ct I entries HK _ (ts_succ T s op) (g + ac op) true HI3) as [HI4 E4].
    change (adj T cfg op) with (ac op).
    constructor.
    + intros i s0 n0 Hi H0. rewrite E4. apply nth_app_inv in Hi. destruct Hi as [Hi|[-> Hi]].
      * destruct (Co _ _ _ Hi H0); auto. left. apply insert_keeps; auto. now rewrite E2, E1.
      * inv Hi. assert (Hem : In (length sp) (entries (c_insert ct c2 (ts_succ T s op) (g + ac op) pref (length sp))) \/ ~ solvable_from T (ts_succ T s op)).
        { destruct (in_dec Nat.eq_dec (length sp) (entries (c_insert ct c2 (ts_succ T s op) (g + ac op) pref (length sp)))); auto.
          right. intros Hs. apply n0. eapply (k_insert_safe _ _ _ HS); auto. }
        exact Hem.
    + intros i s0 n0 g0 Hi H0 Hg0. apply nth_app_inv in Hi.
      destruct Hi as [Hi|[-> Hi]]; [|inv Hi; discriminate]. eauto.
    + intros i s0 n0 Hi H0. apply nth_app_inv in Hi. destruct Hi as [Hi|[-> Hi]]; [eauto|]. inv Hi. discriminate.
  - change (adj T cfg op) with (ac op) in *. constructor.
    + intros i s0 n0 Hi H0. apply nth_upd_inv in Hi. destruct Hi as [[-> Hi]|[Hne Hi]].
      * inv Hi. destruct (in_dec Nat.eq_dec sid (entries (c_insert ct (c_notify ct c s op (ts_succ T s op)) (ts_succ T s op) (g + ac op) pref sid))); auto.
        right. intros Hs. apply n0. eapply (k_insert_safe _ _ _ HS); auto.
      * destruct (Co _ _ _ Hi H0); auto. left. apply insert_keeps; auto. now rewrite E1.
    + intros i s0 n0 g0 Hi H0 Hg0. apply nth_upd_inv in Hi. destruct Hi as [[-> Hi]|[Hne Hi]]; [|eauto].
      inv Hi. discriminate.
    + intros i s0 n0 Hi H0. apply nth_upd_inv in Hi. destruct Hi as [[-> Hi]|[Hne Hi]]; [|eauto].
      inv Hi. discriminate.
  - change (adj T cfg op) with (ac op) in *.
    destruct Hmode as [Hnb|[_ Hr]]; [|congruence].
    constructor.
    + intros i s0 n0 Hi H0. apply nth_upd_inv in Hi. destruct Hi as [[-> Hi]|[Hne Hi]].
      * inv Hi; discriminate.
      * rewrite E1. eauto.
    + intros i s0 n0 g0 Hi H0 Hg0. apply nth_upd_inv in Hi. destruct Hi as [[-> Hi]|[Hne Hi]]; [|eauto].
      inv Hi. destruct (Hold _ _ _ _ Hsid Hst Hsg) as [Hgoal Hall]. split; auto.
      intros o Ho Hp Hw. destruct (Hall o Ho Hp (within_none _ _ Hnb)) as [?|(x & xn & xg & A & B & D & _)].
      { left; auto. }
      right. exists x, xn, xg. splits; auto. congruence.
    + intros i s0 n0 Hi H0. apply nth_upd_inv in Hi. destruct Hi as [[-> Hi]|[Hne Hi]]; [|eauto].
      inv Hi. discriminate.
Qed.

Lemma gseq_CInv id s n g ops sp c sp' c' : gseq id s n g ops sp c sp' c' ->
  forall pend, SInv sp c -> CInv pend sp c ->
  nth_error sp id = Some (s, n) -> ni_g n = Some g -> ni_status n = CLOSED ->
  CInv (fun i o => pend i o /\ ~ (i = id /\ In o ops)) sp' c'.
Proof.
  induction 1 as [sp c|op ops sp c sp1 c1 sp2 c2 Hop R Hs IH]; intros pend Inv CI Hid Hg Hcl.
  - destruct CI as [A B D]. constructor; auto. intros i s0 n0 g0 Hi Hst Hg0.
    destruct (B _ _ _ _ Hi Hst Hg0) as [Hgoal Hall]. split; auto. intros o Ho Hp Hw. apply Hall; auto.
    intros Hpe. apply Hp. split; auto. intros [_ []].
  - pose proof (gres_SInv T ct cfg I entries HK _ _ _ _ _ _ _ _ _ Inv Hid Hg Hop R) as Inv1.
    pose proof (gres_self T ct cfg I entries _ _ _ _ _ _ _ _ _ Inv Hid Hg R) as Hid1.
    pose proof (gres_CInv pend _ _ _ _ _ _ _ _ _ Inv CI Hid Hg Hop Hcl R) as CI1.
    specialize (IH _ Inv1 CI1 Hid1 Hg Hcl). destruct IH as [A B D]. constructor; auto.
    intros i s0 n0 g0 Hi Hst Hg0. destruct (B _ _ _ _ Hi Hst Hg0) as [Hgoal Hall]. split; auto.
    intros o Ho Hp Hw. apply Hall; auto. intros [[Hpe Hne] Hnin]. apply Hp. split; auto.
    intros [-> Hin]. cbn in Hin. destruct Hin as [->|Hin]; auto.
Qed.

Definition nopend : nat -> nat -> Prop := fun _ _ => False.

Lemma CInv_entries pend sp c c' :
  CInv pend sp c ->
  (forall i s n, nth_error sp i = Some (s, n) -> ni_status n = OPEN -> In i (entries c) -> In i (entries c')) ->
  CInv pend sp c'.
Proof.
  intros [A B D] H. constructor; auto. intros i s n Hi Hst. destruct (A _ _ _ Hi Hst); eauto.
Qed.

Lemma pop_other c id c1 i : I c -> c_pop ct c = Some (id, c1) -> In i (entries c) -> i = id \/ In i (entries c1).
Proof.
  intros HI Ep Hi. destruct (k_pop_some _ _ _ HK _ _ _ HI Ep) as [_ P].
  apply (Permutation_in _ P) in Hi. destruct Hi; auto.
Qed.

Lemma sres_CInv sp c st' : SInv sp c -> CInv nopend sp c -> sres sp c (IN_PROGRESS st') ->
  CInv nopend (es_space st') (es_c st').
Proof.
  intros Inv CI R. pose proof (si_I _ _ _ _ _ _ _ Inv) as HI.
  inversion R as [|st1 P|
     |id st1 s n g ops prefs c1 c2 st2 P Hid Hg Hcl Hgoal Epr Epf Hseq Inv1 Inv2 Hid2]; subst.
  - inversion P as [|id c1 s n E Hid Hst|id c1 c3 s n g El E Hid Hst Hg Hs
                 |id c1 c2 c3 s n g El E Hid Hst Hg Hs Hd|]; subst; cbn [es_space es_c].
    + eapply CInv_entries; eauto. intros i s0 n0 Hi Hop Hin.
      destruct (pop_other _ _ _ _ HI E Hin) as [->|]; auto.
      rewrite Hid in Hi; inv Hi. destruct Hst; congruence.
    + destruct (pop_sub T ct I entries HK _ _ _ HI E) as (HI1 & _).
      eapply CInv_entries with (c := c_insert ct c3 s g false id); auto.
      destruct CI as [A B D]. constructor; auto. intros i s0 n0 Hi Hop.
      destruct (A _ _ _ Hi Hop) as [Hin|]; auto.
      destruct (pop_other _ _ _ _ HI E Hin) as [->|Hin1].
      * rewrite Hid in Hi; inv Hi.
        destruct (in_dec Nat.eq_dec id (entries (c_insert ct c3 s0 g false id))) as [|Hn]; auto.
        right. intros Hsv. apply Hn. eapply (k_insert_safe _ _ _ HS); auto. apply Hs.
      * left. apply insert_keeps; [apply Hs|]. destruct Hs as [_ ->]. auto.
    + assert (Huns : ~ solvable_from T s).
      { eapply (k_dead_safe _ _ _ HS); [apply Hs|]. rewrite Hd; reflexivity. }
      destruct (same_dead T ct I entries HK _ _ _ _ _ _ (proj1 Hs) Hd) as [_ E3].
      pose proof (grow_upd_unsolvable sp id s n (set_status n DEAD_END) Hid Huns) as G.
      destruct CI as [A B D]. constructor.
      * intros i s0 n0 Hi Hop. apply nth_upd_inv in Hi. destruct Hi as [[-> Hi]|[Hne Hi]]; [inv Hi; discriminate|].
        destruct (A _ _ _ Hi Hop) as [Hin|]; auto. left. rewrite E3. destruct Hs as [_ ->].
        destruct (pop_other _ _ _ _ HI E Hin); congruence.
      * intros i s0 n0 g0 Hi Hop Hg0. apply nth_upd_inv in Hi. destruct Hi as [[-> Hi]|[Hne Hi]]; [inv Hi; discriminate|].
        destruct (B _ _ _ _ Hi Hop Hg0) as [Hgl Hall]. split; auto. intros o Ho Hp Hw.
        eapply covered_grow; eauto.
      * intros i s0 n0 Hi Hop. apply nth_upd_inv in Hi. destruct Hi as [[-> Hi]|[Hne Hi]]; [inv Hi; auto|eauto].
  - inversion P as [| | | |id0 c1' c2' s0 n0 g0 E Hid0 Hst0 Hg0 Hs Hlz]; subst; cbn [es_space es_c] in *.
    rewrite upd_nth_eq in Hid by (eapply nth_error_Some_lt; eauto). inv Hid. cbn in Hg. rewrite Hg0 in Hg; inv Hg.
    assert (HI2' : I c2') by apply Hs.
    pose proof (same_prune T ct I entries HK _ _ _ _ _ HI2' Epr) as S1.
    pose proof (same_preferred T ct I entries HK _ _ _ _ _ (proj1 S1) Epf) as S2.
    assert (Eall : entries c2 = entries c1').
    { destruct S2 as [_ ->], S1 as [_ ->], Hs as [_ ->]. reflexivity. }
    assert (CI1 : CInv (fun i _ => i = id) (upd sp id (s, set_status n0 CLOSED)) c2).
    { assert (G : grow sp (upd sp id (s, set_status n0 CLOSED))).
      { eapply grow_upd; eauto. cbn. eauto. right; reflexivity. }
      destruct CI as [A B D]. constructor.
      - intros i s1 n1 Hi Hop. apply nth_upd_inv in Hi. destruct Hi as [[-> Hi]|[Hne Hi]]; [inv Hi; discriminate|].
        destruct (A _ _ _ Hi Hop) as [Hin|]; auto. left. rewrite Eall.
        destruct (pop_other _ _ _ _ HI E Hin); congruence.
      - intros i s1 n1 g1 Hi Hop Hg1. apply nth_upd_inv in Hi. destruct Hi as [[-> Hi]|[Hne Hi]].
        + inv Hi. split; auto. intros o Ho Hp. congruence.
        + destruct (B _ _ _ _ Hi Hop Hg1) as [Hgl Hall]. split; auto. intros o Ho Hp Hw.
          eapply covered_grow; eauto.
      - intros i s1 n1 Hi Hop. apply nth_upd_inv in Hi. destruct Hi as [[-> Hi]|[Hne Hi]]; [inv Hi; discriminate|eauto]. }
    pose proof (gseq_CInv _ _ _ _ _ _ _ _ _ Hseq _ Inv1 CI1) as CI2.
    rewrite upd_nth_eq in CI2 by (eapply nth_error_Some_lt; eauto).
    specialize (CI2 eq_refl Hg0 eq_refl).
    pose proof (k_prune_none _ _ _ HS c2' s (ts_app T s) HI2') as Hfull. rewrite Epr in Hfull; cbn in Hfull.
    destruct CI2 as [A B D]. constructor; auto.
    intros i s1 n1 g1 Hi Hop Hg1. destruct (B _ _ _ _ Hi Hop Hg1) as [Hgl Hall]. split; auto.
    intros o Ho Hp Hw. apply Hall; auto. intros [-> Hn]. apply Hn. split; auto.
    rewrite Hid2 in Hi. inv Hi. auto.
Qed.

(** A plan from a usable node leads through an open node. *)
Lemma open_on_path sp c : SInv sp c -> CInv nopend sp c ->
  forall os i s n g, nth_error sp i = Some (s, n) -> usable n -> ni_g n = Some g ->
  is_plan_from T s os ->
  (forall b, ec_bound cfg = Some b -> g + sum_cost (ts_cost T) os < b) ->
  exists j s' n' g' os1 os2, os = os1 ++ os2 /\ nth_error sp j = Some (s', n') /\
    ni_status n' = OPEN /\ ni_g n' = Some g' /\ is_plan_from T s' os2 /\ In j (entries c) /\
    (ec_reopen cfg = true -> g' <= g + sum_cost ac os1).
Proof.
  intros Inv CI. induction os as [|o os IH]; intros i s n g Hi Hu Hg Hplan Hbd.
  - destruct Hu as [Hop|Hcl].
    + destruct (ci_open _ _ _ CI _ _ _ Hi Hop) as [Hin|Hn].
      * exists i, s, n, g, [], []. splits; auto. cbn. lia.
      * exfalso. apply Hn. exists []; auto.
    + destruct (ci_closed _ _ _ CI _ _ _ _ Hi Hcl Hg) as [Hgoal _].
      destruct Hplan as (s' & P & G). inv P. congruence.
  - destruct Hu as [Hop|Hcl].
    + destruct (ci_open _ _ _ CI _ _ _ Hi Hop) as [Hin|Hn].
      * exists i, s, n, g, [], (o :: os). splits; auto. cbn. lia.
      * exfalso. apply Hn. exists (o :: os); auto.
    + destruct (ci_closed _ _ _ CI _ _ _ _ Hi Hcl Hg) as [Hgoal Hall].
      destruct Hplan as (s' & P & G). inversion P as [|? ? ? ? Ho P']; subst.
      assert (Hpl : is_plan_from T (ts_succ T s o) os) by (exists s'; auto).
      assert (HN : forall b, ec_bound cfg = Some b -> ni_real_g n = g /\ forall x, ac x = ts_cost T x).
      { intros b Hb. destruct Hmode as [?|[HN _]]; [congruence|].
        assert (HN' : forall x, ac x = ts_cost T x) by (intros x; unfold ac, adj; now rewrite HN).
        split; auto. eapply (si_normal _ _ _ _ _ _ _ Inv); eauto. }
      assert (Hw : within n o).
      { unfold within, reaches_bound. destruct (ec_bound cfg) as [b|] eqn:Eb; auto.
        destruct (HN b eq_refl) as [-> _]. apply Nat.leb_gt. specialize (Hbd b eq_refl). cbn in Hbd. lia. }
      destruct (Hall o Ho (fun x => x) Hw) as [Hns|(sid & sn & sg & Hsid & Hsu & Hsg & Hle)].
      { exfalso. apply Hns. eexists; eauto. }
      destruct (IH sid (ts_succ T s o) sn sg) as (j & s1 & n1 & g1 & os1 & os2 & E & Hj & Hst & Hg1 & Hp1 & Hin & Hc); auto.
      * intros b Hb. specialize (Hbd b Hb). destruct (HN b Hb) as [_ HA]. cbn in Hbd.
        destruct Hmode as [?|[_ Hr]]; [congruence|]. specialize (Hle Hr). rewrite HA in Hle. unfold sum_cost. lia.
      * exists j, s1, n1, g1, (o :: os1), os2. splits; auto.
        -- cbn. congruence.
        -- intros Hr. specialize (Hle Hr). specialize (Hc Hr). cbn. unfold sum_cost in Hc. lia.
Qed.

(** The initial node is usable unless it was a dead end. *)
Definition RootOk (sp : space T) : Prop :=
  exists n, nth_error sp 0 = Some (ts_init T, n) /\ ni_g n = Some 0 /\
    (usable n \/ ~ solvable_from T (ts_init T)).

Lemma gres_root id s n g op sp c sp' c' :
  SInv sp c -> nth_error sp id = Some (s, n) -> ni_g n = Some g -> gres id s n g op sp c sp' c' ->
  RootOk sp -> RootOk sp'.
Proof.
  intros Inv Hid Hg R (n0 & H0 & Hg0 & Hu).
  destruct R as [Hb|sid sn Hb Hsid Hsn|pref c2 Hb Hf Hd|pref c2 Hb Hf Hd
                 |pref sid sn sg Hb Hsid Hsg Hlt Hst|sid sn sg Hb Hsid Hsg Hlt Hst Hro].
  - exists n0; auto.
  - exists n0; auto.
  - exists n0; splits; auto. now apply nth_app_old.
  - exists n0; splits; auto. now apply nth_app_old.
  - exists n0; splits; auto. rewrite upd_nth_neq; auto. intros ->. rewrite H0 in Hsid; inv Hsid.
    rewrite Hg0 in Hsg; inv Hsg. lia.
  - exists n0; splits; auto. rewrite upd_nth_neq; auto. intros ->. rewrite H0 in Hsid; inv Hsid.
    rewrite Hg0 in Hsg; inv Hsg. lia.
Qed.

Lemma gseq_root id s n g ops sp c sp' c' : gseq id s n g ops sp c sp' c' ->
  SInv sp c -> nth_error sp id = Some (s, n) -> ni_g n = Some g -> RootOk sp -> RootOk sp'.
Proof.
  induction 1 as [sp c|op ops sp c sp1 c1 sp2 c2 Hop R Hs IH]; intros Inv Hid Hg Hr; auto.
  apply IH; auto.
  - eapply gres_SInv; eauto.
  - eapply gres_self; eauto.
  - eapply gres_root; eauto.
Qed.

Lemma root_upd sp id s n st :
  nth_error sp id = Some (s, n) -> (st = CLOSED \/ ~ solvable_from T s) -> RootOk sp ->
  RootOk (upd sp id (s, set_status n st)).
Proof.
  intros Hid Hst (n0 & H0 & Hg0 & Hu). destruct (Nat.eq_dec id 0) as [->|Hne].
  - rewrite H0 in Hid; inv Hid. exists (set_status n st). splits; auto.
    + apply upd_nth_eq. eapply nth_error_Some_lt; eauto.
    + destruct Hst as [->|]; auto. left; right; reflexivity.
  - exists n0; splits; auto. rewrite upd_nth_neq; auto.
Qed.

Lemma sres_root sp c st' : SInv sp c -> RootOk sp -> sres sp c (IN_PROGRESS st') -> RootOk (es_space st').
Proof.
  intros Inv HR R. pose proof (si_I _ _ _ _ _ _ _ Inv) as HI.
  inversion R as [|st1 P|
     |id st1 s n g ops prefs c1 c2 st2 P Hid Hg Hcl Hgoal Epr Epf Hseq Inv1 Inv2 Hid2]; subst.
  - inversion P as [|id c1 s n E Hid Hst|id c1 c3 s n g El E Hid Hst Hg Hs
                 |id c1 c2 c3 s n g El E Hid Hst Hg Hs Hd|]; subst; cbn [es_space es_c]; auto.
    apply root_upd; auto. right. eapply (k_dead_safe _ _ _ HS); [apply Hs|]. rewrite Hd; reflexivity.
  - inversion P as [| | | |id0 c1' c2' s0 n0 g0 E Hid0 Hst0 Hg0 Hs Hlz]; subst; cbn [es_space es_c] in *.
    eapply gseq_root; eauto. apply root_upd; auto.
Qed.

Lemma init_CInv c : I c -> CInv nopend [(ts_init T, opened_initial)]
  (c_insert ct c (ts_init T) 0 true 0).
Proof.
  intros HI. constructor.
  - intros [|[|i]] s n H Hst; inv H.
    destruct (in_dec Nat.eq_dec 0 (entries (c_insert ct c (ts_init T) 0 true 0))) as [|Hn]; auto.
    right. intros Hs. apply Hn. eapply (k_insert_safe _ _ _ HS); auto.
  - intros [|[|i]] s n g H Hst; inv H; discriminate.
  - intros [|[|i]] s n H Hst; inv H; discriminate.
Qed.

Lemma init_root : RootOk [(ts_init T, opened_initial)].
Proof. exists opened_initial. splits; try reflexivity. left; left; reflexivity. Qed.

(** Combined invariant. *)
Definition FInv (sp : space T) (c : C ct) : Prop := CInv nopend sp c /\ RootOk sp.

Lemma eager_complete fuel c0 st : I c0 -> entries c0 = [] ->
  eager_search T ct cfg fuel c0 = Ok (FAILED st) ->
  forall os, is_plan T os -> exists b, ec_bound cfg = Some b /\ b <= sum_cost (ts_cost T) os.
Proof.
  intros HI He Hf os Hos.
  assert (Hnb : (forall b, ec_bound cfg = Some b -> 0 + sum_cost (ts_cost T) os < b) -> False).
  2:{ destruct (ec_bound cfg) as [b|].
      - exists b. split; auto. destruct (Nat.le_gt_cases b (sum_cost (ts_cost T) os)); auto.
        exfalso. apply Hnb. intros b' Hb'. inv Hb'. lia.
      - exfalso. apply Hnb. discriminate. }
  intros Hb. unfold eager_search in Hf.
  destruct (init_spec T ct c0) as (st0 & E & R). rewrite E in Hf; cbn [bind] in Hf.
  destruct R as [c2 Hd|c2 Hd].
  - eapply (k_dead_safe _ _ _ HS); [|rewrite Hd; reflexivity|exists os; exact Hos].
    apply (k_notify_initial _ _ _ HK); auto.
  - pose proof (ires_open_SInv T ct cfg I entries HK _ _ HI He Hd) as Inv.
    pose proof (init_same T ct I entries HK _ _ _ HI Hd) as S2.
    pose proof (same_progress T ct I entries HK c2 (ts_init T) 0 false (proj1 S2)) as S3.
    set (st1 := {| es_space := [(ts_init T, opened_initial)];
                   es_c := c_insert ct (c_progress ct c2 (ts_init T) 0 false) (ts_init T) 0 true 0 |}) in *.
    assert (F0 : FInv (es_space st1) (es_c st1)).
    { split; [apply init_CInv; apply S3|apply init_root]. }
    destruct (loop_ind T ct cfg I entries Hwf HK FInv) with (fuel := fuel) (st := st1) as (r & Er & Hr); auto.
    { intros sp c st' Inv' [F1 F2] R. split; [eapply sres_CInv|eapply sres_root]; eauto. }
    rewrite Hf in Er. inv Er. destruct Hr as (st' & Inv' & [F1 F2] & R).
    inv R. match goal with H : c_pop ct _ = None |- _ => rename H into Hpop end.
    pose proof (k_pop_none _ _ _ HK _ (si_I _ _ _ _ _ _ _ Inv') Hpop) as Hem.
    destruct F2 as (n & Hn & Hg & Hu). destruct Hu as [Hu|Hu]; [|apply Hu; exists os; auto].
    destruct (open_on_path _ _ Inv' F1 os 0 (ts_init T) n 0 Hn Hu Hg Hos Hb)
      as (j & _ & _ & _ & _ & _ & _ & _ & _ & _ & _ & Hin & _).
    rewrite Hem in Hin. destruct Hin.
Qed.
End Safe.
End Complete.
