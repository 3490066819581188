(** The generalised Dijkstra exploration of the relaxation heuristics computes least
    derivation costs. *)
From Coq Require Import Permutation.
From Verif Require Import Outcome Spec_Task Spec_Relaxation Model_Task Model_PQ Model_Relaxation.

(** Derivations over unary operators; [uval] is the operator cost after all preconditions. *)
Definition uval (M : rmode) (b : nat) (cs : list nat) : nat := fold_left (m_acc M b) cs b.

Inductive der (M : rmode) (ops : list uop) (I : list nat) : nat -> nat -> Prop :=
| der_init : forall p, In p I -> der M ops I p 0
| der_op : forall u (k : nat -> nat), In u ops ->
    (forall q, In q (u_pre u) -> der M ops I q (k q)) ->
    der M ops I (u_eff u) (uval M (u_cost u) (map k (u_pre u))).

Record mode_ok (M : rmode) (ok : nat -> Prop) : Prop := {
  mo_comm : forall b x a a', m_acc M b (m_acc M b x a) a' = m_acc M b (m_acc M b x a') a;
  mo_mono : forall b b' x x' a a', b <= b' -> x <= x' -> a <= a' -> m_acc M b x a <= m_acc M b' x' a';
  mo_sup : forall b x a, ok a -> a <= m_acc M b x a;
  mo_grow : forall b x a, ok x -> x <= m_acc M b x a;
  mo_ok : forall b x a, ok b -> ok x -> ok a -> ok (m_acc M b x a);
  mo_ok0 : ok 0
}.

Definition inb (D : list nat) (p : nat) : bool := existsb (Nat.eqb p) D.
Lemma inb_spec D p : inb D p = true <-> In p D.
Proof.
  unfold inb. rewrite existsb_exists. split.
  - intros (x & Hx & He). apply Nat.eqb_eq in He. now subst.
  - intros Hp. exists p. split; [auto|apply Nat.eqb_refl].
Qed.
Lemma inb_false D p : inb D p = false <-> ~ In p D.
Proof. rewrite <- inb_spec. destruct (inb D p); split; congruence. Qed.

(** Well-formed heuristics. *)
Record rheur_ok (H : rheur) (ok : nat -> Prop) : Prop := {
  ro_pre : forall u, In u (r_ops H) -> NoDup (u_pre u) /\ forall p, In p (u_pre u) -> p < r_n H;
  ro_eff : forall u, In u (r_ops H) -> u_eff u < r_n H;
  ro_cost : forall u, In u (r_ops H) -> ok (u_cost u);
  ro_goals : forall g, In g (r_goals H) -> g < r_n H
}.

Lemma fold_left_perm {A B} (f : A -> B -> A) l l' :
  (forall x a b, f (f x a) b = f (f x b) a) -> Permutation l l' -> forall x, fold_left f l x = fold_left f l' x.
Proof. intros Hc Hp. induction Hp as [|a l l1 Hp IH|a b l|l1 l2 l3 Hp1 IH1 Hp2 IH2]; intros z; cbn; auto. - now rewrite Hc. - now rewrite IH1. Qed.

Lemma pre_of_from_spec us : forall i p j,
  In j (pre_of_from us i p) <-> exists m u, j = i + m /\ nth_error us m = Some u /\ In p (u_pre u).
Proof.
  induction us as [|u r IH]; intros i p j; cbn [pre_of_from].
  - split; [intros []|]. intros (m & u & _ & Hn & _). destruct m; discriminate.
  - rewrite in_app_iff, IH. split.
    + intros [Hin|(m & u' & -> & Hn & Hp)].
      * exists 0, u. assert (j = i) by (eapply repeat_spec; eauto). subst. repeat split; auto; try lia.
        destruct (count_occ Nat.eq_dec (u_pre u) p) as [|c] eqn:E; [destruct Hin|].
        apply (count_occ_In Nat.eq_dec). lia.
      * exists (S m), u'. repeat split; auto; lia.
    + intros ([|m] & u' & -> & Hn & Hp); cbn in Hn.
      * inversion Hn; subst. left. apply (count_occ_In Nat.eq_dec) in Hp.
        destruct (count_occ Nat.eq_dec (u_pre u') p); [lia|]. cbn. left; lia.
      * right. exists m, u'. repeat split; auto; lia.
Qed.
Lemma pre_of_spec us p j : In j (pre_of us p) <-> exists u, nth_error us j = Some u /\ In p (u_pre u).
Proof.
  unfold pre_of. rewrite pre_of_from_spec. split.
  - intros (m & u & -> & Hn & Hp). exists u; auto.
  - intros (u & Hn & Hp). exists j, u; auto.
Qed.
Lemma pre_of_from_nodup us : (forall u, In u us -> NoDup (u_pre u)) -> forall i p, NoDup (pre_of_from us i p).
Proof.
  induction us as [|u r IH]; intros Hu i p; cbn [pre_of_from]; [constructor|].
  assert (Hr : NoDup (pre_of_from r (S i) p)) by (apply IH; intros u' Hu'; apply Hu; now right).
  assert (Hc : count_occ Nat.eq_dec (u_pre u) p <= 1).
  { apply (proj1 (NoDup_count_occ Nat.eq_dec (u_pre u))). apply Hu; now left. }
  destruct (count_occ Nat.eq_dec (u_pre u) p) as [|[|c]]; [cbn; auto| |lia].
  cbn. constructor; auto. rewrite pre_of_from_spec. intros (m & u' & He & _). lia.
Qed.

Section DIJKSTRA.
Variable P : pqueue.
Variable bag : PQ P -> list (nat * nat).
Hypothesis HP : pq_contract P bag.
Variable M : rmode.
Variable ok : nat -> Prop.
Hypothesis HM : mode_ok M ok.
Variable H : rheur.
Hypothesis HH : rheur_ok H ok.
Variable I : list nat.
Hypothesis HI : forall p, In p I -> p < r_n H.

Notation ops := (r_ops H).
Notation n := (r_n H).
Notation derI := (der M ops I).

Definition cst (st : xstate P) (p : nat) : option nat := nth p (x_cost st) None.
Definition cv (st : xstate P) (p : nat) : nat := match cst st p with Some c => c | None => 0 end.

Definition before (D : list nat) (q p : nat) : Prop :=
  In q D /\ (In p D -> exists l1 l2, D = l1 ++ p :: l2 /\ In q l2).

Definition dset (D rest : list nat) (i : nat) : list nat := if inb rest i then tl D else D.

Record Inv (st : xstate P) (D rest rc J : list nat) : Prop := {
  i_len1 : length (x_cost st) = n;
  i_len2 : length (x_by st) = n;
  i_nodup : NoDup D;
  i_dcost : forall p, In p D -> exists c, cst st p = Some c;
  i_sound : forall p c, cst st p = Some c -> derI p c /\ (In p D \/ In (c, p) (bag (x_q st)));
  i_bag : forall c p, In (c, p) (bag (x_q st)) ->
    p < n /\ exists c', cst st p = Some c' /\ c' <= c /\ (In p D -> c' < c);
  i_nodupb : NoDup (bag (x_q st));
  i_order : forall p c, In p D -> cst st p = Some c -> forall k q, In (k, q) (bag (x_q st)) -> c <= k;
  i_head : forall p D0 q, D = p :: D0 -> In q D -> cv st q <= cv st p;
  i_len3 : length (x_unsat st) = length ops;
  i_len4 : length (x_ocost st) = length ops;
  i_ops : forall i u, nth_error ops i = Some u ->
    nth_error (x_unsat st) i = Some (Z.of_nat (length (filter (fun p => negb (inb (dset D rest i) p)) (u_pre u)))) /\
    nth_error (x_ocost st) i = Some (uval M (u_cost u) (map (cv st) (filter (inb (dset D rest i)) (u_pre u))));
  i_closed : forall i u, nth_error ops i = Some u -> ~ In i rc -> (forall p, In p (u_pre u) -> In p D) ->
    exists c, cst st (u_eff u) = Some c /\ c <= uval M (u_cost u) (map (cv st) (u_pre u));
  i_init : forall p, In p J -> cst st p = Some 0;
  i_by : forall p c, cst st p = Some c ->
    (nth_error (x_by st) p = Some None /\ In p I) \/
    (exists i u, nth_error (x_by st) p = Some (Some i) /\ nth_error ops i = Some u /\ u_eff u = p /\
       forall q, In q (u_pre u) -> before D q p)
}.

Lemma uval_ok b cs : ok b -> (forall c, In c cs -> ok c) -> ok (uval M b cs).
Proof.
  intros Hb. unfold uval.
  enough (forall x, ok x -> (forall c, In c cs -> ok c) -> ok (fold_left (m_acc M b) cs x)) by auto.
  induction cs as [|c r IH]; intros x Hx Hc; cbn; auto.
  apply IH; [|intros; apply Hc; now right]. apply (mo_ok _ _ HM); auto. apply Hc; now left.
Qed.
Lemma fold_mono cs : forall cs' b b' x x', b <= b' -> x <= x' -> Forall2 le cs cs' ->
  fold_left (m_acc M b) cs x <= fold_left (m_acc M b') cs' x'.
Proof.
  induction cs as [|c r IH]; intros cs' b b' x x' Hb Hx HF; inversion HF; subst; cbn; auto.
  apply IH; auto. apply (mo_mono _ _ HM); auto.
Qed.
Lemma fold_grow b cs : forall x, ok b -> ok x -> (forall c, In c cs -> ok c) -> x <= fold_left (m_acc M b) cs x.
Proof.
  induction cs as [|c r IH]; intros x Hb Hx Hc; cbn; auto.
  assert (ok (m_acc M b x c)) by (apply (mo_ok _ _ HM); auto; apply Hc; now left).
  etransitivity; [apply (mo_grow _ _ HM) with (b := b) (a := c); auto|]. apply IH; auto. intros; apply Hc; now right.
Qed.
Lemma uval_sup b cs c : ok b -> (forall c, In c cs -> ok c) -> In c cs -> c <= uval M b cs.
Proof.
  unfold uval. intros Hb Hok Hin.
  enough (forall x, ok x -> c <= fold_left (m_acc M b) cs x) by auto.
  induction cs as [|a r IH]; intros x Hx; [destruct Hin|]. cbn.
  assert (ok (m_acc M b x a)) by (apply (mo_ok _ _ HM); auto; apply Hok; now left).
  destruct Hin as [->|Hin].
  - etransitivity; [apply (mo_sup _ _ HM); apply Hok; now left|]. apply fold_grow; auto. intros; apply Hok; now right.
  - apply IH; auto. intros; apply Hok; now right.
Qed.

Lemma der_ok p c : derI p c -> ok c.
Proof.
  induction 1 as [p Hp|u k Hu Hq IH]; [apply (mo_ok0 _ _ HM)|].
  apply uval_ok; [now apply (ro_cost _ _ HH)|]. intros c Hc. apply in_map_iff in Hc. destruct Hc as (q & <- & Hq'). auto.
Qed.

Lemma cst_some st D rest rc J p c : Inv st D rest rc J -> cst st p = Some c -> p < n.
Proof.
  intros HV Hc. rewrite <- (i_len1 _ _ _ _ _ HV). unfold cst in Hc.
  destruct (Nat.lt_ge_cases p (length (x_cost st))) as [Hl|Hl]; auto.
  rewrite nth_overflow in Hc by auto. discriminate.
Qed.
Lemma vget_cst st p : p < length (x_cost st) -> vget (x_cost st) p = Ok (cst st p).
Proof. intros Hl. unfold vget, cst. now rewrite (nth_error_nth' _ None Hl). Qed.

(** Enqueueing a sound entry. *)
Lemma enqueue_inv st D rest rc J p c op : Inv st D rest rc J -> p < n -> derI p c ->
  (forall q c', In q D -> cst st q = Some c' -> c' <= c) ->
  ((op = None /\ In p I) \/
   (exists i u, op = Some i /\ nth_error ops i = Some u /\ u_eff u = p /\ forall q, In q (u_pre u) -> In q D)) ->
  exists st', enqueue P st p c op = Ok st' /\ Inv st' D rest rc J /\
    (exists c', cst st' p = Some c' /\ c' <= c) /\
    (forall q, In q D -> cst st' q = cst st q) /\
    (forall q c, cst st q = Some c -> exists c', cst st' q = Some c' /\ c' <= c) /\
    x_unsat st' = x_unsat st /\ x_ocost st' = x_ocost st /\
    length (bag (x_q st')) <= S (length (bag (x_q st))).
Proof.
  intros HV Hp Hd Hord Hby. unfold enqueue.
  assert (Hl : p < length (x_cost st)) by (rewrite (i_len1 _ _ _ _ _ HV); auto).
  rewrite (vget_cst st p Hl). cbn [bind].
  destruct (match cst st p with None => true | Some o => c <? o end) eqn:E.
  2:{ exists st. split; auto. split; auto. splits; auto.
      - destruct (cst st p) as [o|]; [|discriminate]. exists o. apply Nat.ltb_ge in E. auto.
      - intros q c0 Hq. exists c0; auto. }
  assert (HpD : ~ In p D).
  { intros HpD. destruct (i_dcost _ _ _ _ _ HV p HpD) as [o Ho]. rewrite Ho in E. apply Nat.ltb_lt in E.
    specialize (Hord p o HpD Ho). lia. }
  unfold vset. rewrite (proj2 (Nat.ltb_lt _ _) Hl). cbn [bind].
  rewrite (proj2 (Nat.ltb_lt p (length (x_by st)))) by (rewrite (i_len2 _ _ _ _ _ HV); auto). cbn [bind].
  set (st' := {| x_cost := upd (x_cost st) p (Some c); x_by := upd (x_by st) p op; x_unsat := x_unsat st;
                 x_ocost := x_ocost st; x_q := pq_push P (x_q st) c p |}).
  assert (Hc' : forall q, cst st' q = if p =? q then Some c else cst st q).
  { intros q. unfold cst, st'; cbn [x_cost]. destruct (Nat.eqb_spec p q) as [->|Hne].
    - apply nth_error_nth. now apply upd_nth_eq.
    - destruct (Nat.lt_ge_cases q (length (x_cost st))) as [Hq|Hq].
      + apply nth_error_nth. rewrite upd_nth_neq by auto. now apply nth_error_nth'.
      + rewrite !nth_overflow; auto. now rewrite upd_length. }
  assert (Hbag : Permutation (bag (x_q st')) ((c, p) :: bag (x_q st))) by apply (pq_push_ok _ _ HP).
  assert (HbagI : forall e, In e (bag (x_q st')) <-> e = (c, p) \/ In e (bag (x_q st))).
  { intros e. split; intros He.
    - apply (Permutation_in _ Hbag) in He. destruct He; auto.
    - apply (Permutation_in _ (Permutation_sym Hbag)). destruct He as [->|He]; [now left|now right]. }
  assert (HcD : forall q, In q D -> cst st' q = cst st q).
  { intros q Hq. rewrite Hc'. destruct (Nat.eqb_spec p q) as [->|]; [contradiction|auto]. }
  assert (Hdec : forall q c0, cst st q = Some c0 -> exists c', cst st' q = Some c' /\ c' <= c0).
  { intros q c0 Hq. rewrite Hc'. destruct (Nat.eqb_spec p q) as [->|]; [|exists c0; auto].
    exists c. split; auto. rewrite Hq in E. apply Nat.ltb_lt in E. lia. }
  assert (Hcv : forall l, (forall q, In q l -> In q D) -> map (cv st') l = map (cv st) l).
  { intros l Hl'. apply map_ext_in. intros q Hq. unfold cv. rewrite HcD; auto. }
  exists st'. split; [reflexivity|]. split.
  - constructor.
    + cbn. rewrite upd_length. apply HV.
    + cbn. rewrite upd_length. apply HV.
    + apply HV.
    + intros q Hq. rewrite HcD by auto. now apply HV.
    + intros q c0 Hq. rewrite Hc' in Hq. destruct (Nat.eqb_spec p q) as [->|Hne].
      * inversion Hq; subst. split; auto. right. apply HbagI; auto.
      * destruct (i_sound _ _ _ _ _ HV q c0 Hq) as [Hs [Hx|Hx]]; split; auto. right. apply HbagI; auto.
    + intros c0 q Hq. apply HbagI in Hq. destruct Hq as [Hq|Hq].
      * inversion Hq; subst. split; auto. exists c. rewrite Hc', Nat.eqb_refl. split; auto. split; auto. contradiction.
      * destruct (i_bag _ _ _ _ _ HV _ _ Hq) as [Hqn (c1 & Hc1 & Hle & Hlt)]. split; auto.
        destruct (Hdec _ _ Hc1) as (c2 & Hc2 & Hle2). exists c2. split; auto. split; [lia|]. intros HqD. specialize (Hlt HqD). lia.
    + apply (Permutation_NoDup (Permutation_sym Hbag)). constructor; [|apply HV].
      intros Hin. destruct (i_bag _ _ _ _ _ HV _ _ Hin) as [_ (c1 & Hc1 & Hle & _)]. rewrite Hc1 in E. apply Nat.ltb_lt in E. lia.
    + intros q c0 HqD Hq k r Hin. apply HbagI in Hin. rewrite HcD in Hq by auto. destruct Hin as [Hin|Hin].
      * inversion Hin; subst. eapply Hord; eauto.
      * eapply (i_order _ _ _ _ _ HV); eauto.
    + intros q D0 r HD Hr. assert (Hq : In q D) by (rewrite HD; now left).
      unfold cv. rewrite (HcD q Hq), (HcD r Hr). eapply (i_head _ _ _ _ _ HV); eauto.
    + apply HV.
    + apply HV.
    + intros i u Hu. destruct (i_ops _ _ _ _ _ HV i u Hu) as [H1 H2]. split; auto.
      cbn [x_ocost st']. rewrite H2. f_equal. f_equal. symmetry. apply Hcv.
      intros q Hq. apply filter_In in Hq. destruct Hq as [_ Hq]. apply inb_spec in Hq.
      unfold dset in Hq. destruct (inb rest i); auto. destruct D; [destruct Hq|right; auto].
    + intros i u Hu Hr Hpre. destruct (i_closed _ _ _ _ _ HV i u Hu Hr Hpre) as (c0 & Hc0 & Hle).
      rewrite (Hcv _ Hpre). destruct (Hdec _ _ Hc0) as (c2 & Hc2 & Hle2). exists c2; split; auto; lia.
    + intros q Hq. destruct (Hdec _ _ (i_init _ _ _ _ _ HV q Hq)) as (c2 & Hc2 & Hle2). rewrite Hc2. f_equal; lia.
    + intros q c0 Hq. cbn [x_by st']. rewrite Hc' in Hq. destruct (Nat.eqb_spec p q) as [->|Hne].
      * rewrite upd_nth_eq by (rewrite (i_len2 _ _ _ _ _ HV); auto). destruct Hby as [[-> Hin]|(i & u & -> & Hu & He & Hpre)]; auto.
        right. exists i, u. splits; auto. intros r Hr. split; auto. contradiction.
      * rewrite upd_nth_neq by auto. now apply (i_by _ _ _ _ _ HV) with c0.
  - splits; auto.
    + exists c. rewrite Hc', Nat.eqb_refl; auto.
    + rewrite (Permutation_length Hbag). cbn. lia.
Qed.

Definition pot (st : xstate P) : nat := length (bag (x_q st)) + length (filter (fun z => 0 <? z)%Z (x_unsat st)).

Lemma filter_upd_dec (l : list Z) : forall i z, nth_error l i = Some z -> (0 < z)%Z ->
  length (filter (fun z => 0 <? z)%Z (upd l i (z - 1)%Z)) + (if (z - 1 =? 0)%Z then 1 else 0)
  = length (filter (fun z => 0 <? z)%Z l).
Proof.
  induction l as [|a r IH]; intros [|i] z Hn Hz; cbn in Hn; try discriminate.
  - inversion Hn; subst. cbn [upd filter]. rewrite (proj2 (Z.ltb_lt 0 z)) by lia.
    destruct (Z.ltb_spec 0 (z - 1)); destruct (Z.eqb_spec (z - 1) 0); cbn; try lia.
  - cbn [upd filter]. specialize (IH i z Hn Hz). destruct (0 <? a)%Z; cbn; lia.
Qed.

Lemma filter_ext_len {A} (f g : A -> bool) l : (forall x, In x l -> f x = g x) -> filter f l = filter g l.
Proof. apply filter_ext_in. Qed.

(** Adding [p] to the processed set moves it from the unsatisfied to the satisfied part. *)
Lemma filter_add D p l : NoDup l -> In p l -> ~ In p D ->
  Permutation (filter (inb (p :: D)) l) (p :: filter (inb D) l) /\
  length (filter (fun q => negb (inb D q)) l) = S (length (filter (fun q => negb (inb (p :: D) q)) l)).
Proof.
  induction l as [|a r IH]; intros Hnd Hin HpD; [destruct Hin|].
  inversion Hnd as [|? ? Ha Hr]; subst. destruct (Nat.eq_dec a p) as [->|Hne].
  - cbn [filter]. assert (E1 : inb (p :: D) p = true) by (apply inb_spec; now left).
    assert (E2 : inb D p = false) by (now apply inb_false).
    rewrite E1, E2. cbn [negb].
    assert (Hext : forall q, In q r -> inb (p :: D) q = inb D q).
    { intros q Hq. unfold inb. cbn [existsb]. destruct (Nat.eqb_spec q p); [subst; contradiction|reflexivity]. }
    rewrite (filter_ext_in (inb (p :: D)) (inb D) r Hext).
    rewrite (filter_ext_in (fun q => negb (inb (p :: D) q)) (fun q => negb (inb D q)) r).
    2:{ intros q Hq. now rewrite Hext. }
    split; [auto|reflexivity].
  - destruct Hin as [->|Hin]; [congruence|]. destruct (IH Hr Hin HpD) as [H1 H2]. cbn [filter].
    assert (E : inb (p :: D) a = inb D a).
    { unfold inb. cbn [existsb]. destruct (Nat.eqb_spec a p); [congruence|reflexivity]. }
    rewrite E. destruct (inb D a); cbn [negb].
    + split; [|auto]. eapply perm_trans; [apply perm_skip, H1|]. apply perm_swap.
    + split; [auto|]. cbn [length]. rewrite H2. reflexivity.
Qed.

Lemma update_op_inv st p D i rest pc u : Inv st (p :: D) (i :: rest) (i :: rest) I -> ~ In i rest ->
  nth_error ops i = Some u -> In p (u_pre u) -> cst st p = Some pc ->
  exists st', update_op P M H pc st i = Ok st' /\ Inv st' (p :: D) rest rest I /\ cst st' p = Some pc /\ pot st' <= pot st.
Proof.
  intros HV Hir Hu Hpu Hpc. unfold update_op.
  destruct (i_ops _ _ _ _ _ HV i u Hu) as [Hun Hoc].
  assert (Eds : dset (p :: D) (i :: rest) i = D).
  { unfold dset. rewrite (proj2 (inb_spec _ _)) by now left. reflexivity. }
  rewrite Eds in Hun, Hoc.
  assert (Hil : i < length ops) by (apply nth_error_Some; congruence).
  destruct (ro_pre _ _ HH u (nth_error_In _ _ Hu)) as [Hndu Hlu].
  assert (HpD : ~ In p D) by (pose proof (i_nodup _ _ _ _ _ HV) as Hnd; inversion Hnd; auto).
  destruct (filter_add D p (u_pre u) Hndu Hpu HpD) as [Hperm Hlen].
  set (k := length (filter (fun q => negb (inb (p :: D) q)) (u_pre u))) in *.
  unfold vget at 1. rewrite Hu. cbn [bind].
  unfold vget at 1. rewrite Hoc. cbn [bind].
  unfold vset at 1. rewrite (proj2 (Nat.ltb_lt i (length (x_ocost st)))) by (rewrite (i_len4 _ _ _ _ _ HV); auto). cbn [bind].
  unfold vget at 1. rewrite Hun. cbn [bind].
  assert (Ek : (Z.of_nat (length (filter (fun q => negb (inb D q)) (u_pre u))) - 1 = Z.of_nat k)%Z) by (rewrite Hlen; lia).
  rewrite Ek. rewrite (proj2 (Z.leb_le 0 (Z.of_nat k))) by lia. cbn [guard bind].
  unfold vset at 1. rewrite (proj2 (Nat.ltb_lt i (length (x_unsat st)))) by (rewrite (i_len3 _ _ _ _ _ HV); auto). cbn [bind].
  cbv zeta.
  set (oc' := m_acc M (u_cost u) (uval M (u_cost u) (map (cv st) (filter (inb D) (u_pre u)))) pc).
  assert (Eoc : oc' = uval M (u_cost u) (map (cv st) (filter (inb (p :: D)) (u_pre u)))).
  { unfold uval at 1. rewrite (fold_left_perm _ _ _ (mo_comm _ _ HM _) (Permutation_map (cv st) Hperm)).
    cbn [map fold_left]. replace (cv st p) with pc by (unfold cv; now rewrite Hpc).
    assert (Hsw : forall l x, fold_left (m_acc M (u_cost u)) l (m_acc M (u_cost u) x pc)
                              = m_acc M (u_cost u) (fold_left (m_acc M (u_cost u)) l x) pc).
    { induction l as [|a l' IHl]; intros x; cbn [fold_left]; auto. rewrite (mo_comm _ _ HM). apply IHl. }
    rewrite Hsw. reflexivity. }
  set (st1 := {| x_cost := x_cost st; x_by := x_by st; x_unsat := upd (x_unsat st) i (Z.of_nat k);
                 x_ocost := upd (x_ocost st) i oc'; x_q := x_q st |}).
  assert (Hcst1 : forall q, cst st1 q = cst st q) by reflexivity.
  assert (Hcv1 : forall q, cv st1 q = cv st q) by reflexivity.
  (* invariant with i still pending for closedness only *)
  assert (Hops1 : forall j u', nth_error ops j = Some u' ->
    nth_error (x_unsat st1) j = Some (Z.of_nat (length (filter (fun p0 => negb (inb (dset (p :: D) rest j) p0)) (u_pre u')))) /\
    nth_error (x_ocost st1) j = Some (uval M (u_cost u') (map (cv st1) (filter (inb (dset (p :: D) rest j)) (u_pre u'))))).
  { intros j u' Hu'. cbn [x_unsat x_ocost st1]. destruct (Nat.eq_dec i j) as [<-|Hne].
    - rewrite Hu in Hu'; inversion Hu'; subst u'.
      assert (Ed : dset (p :: D) rest i = p :: D) by (unfold dset; now rewrite (proj2 (inb_false _ _) Hir)).
      rewrite Ed, !upd_nth_eq by (rewrite ?(i_len3 _ _ _ _ _ HV), ?(i_len4 _ _ _ _ _ HV); auto).
      split; [reflexivity|]. f_equal. exact Eoc.
    - rewrite !upd_nth_neq by auto. destruct (i_ops _ _ _ _ _ HV j u' Hu') as [H1 H2].
      assert (Ed : dset (p :: D) rest j = dset (p :: D) (i :: rest) j).
      { unfold dset, inb. cbn [existsb]. destruct (Nat.eqb_spec j i); [congruence|reflexivity]. }
      rewrite Ed. split; [exact H1|exact H2]. }
  assert (Hpot1 : pot st1 + (if (Z.of_nat k =? 0)%Z then 1 else 0) = pot st).
  { unfold pot. cbn [x_q x_unsat st1]. rewrite <- Ek.
    assert (Hz : (0 < Z.of_nat (length (filter (fun q => negb (inb D q)) (u_pre u))))%Z) by lia.
    pose proof (filter_upd_dec _ _ _ Hun Hz). lia. }
  destruct (Z.eqb_spec (Z.of_nat k) 0) as [Ek0|Ek0].
  - (* all preconditions reached *)
    assert (Hall : forall q, In q (u_pre u) -> In q (p :: D)).
    { intros q Hq. destruct (inb (p :: D) q) eqn:E; [now apply inb_spec|].
      exfalso. assert (In q (filter (fun q => negb (inb (p :: D) q)) (u_pre u))) by (apply filter_In; split; auto; now rewrite E).
      unfold k in Ek0. destruct (filter (fun q => negb (inb (p :: D) q)) (u_pre u)); [auto|cbn in Ek0; lia]. }
    assert (Efil : filter (inb (p :: D)) (u_pre u) = u_pre u).
    { clear -Hall. induction (u_pre u) as [|a r IH]; auto. cbn [filter].
      rewrite (proj2 (inb_spec _ _)) by (apply Hall; now left). f_equal. apply IH. intros; apply Hall; now right. }
    unfold vget at 1. cbn [x_ocost st1]. rewrite upd_nth_eq by (rewrite (i_len4 _ _ _ _ _ HV); auto). cbn [bind].
    assert (Hderq : forall q, In q (u_pre u) -> derI q (cv st q)).
    { intros q Hq. destruct (i_dcost _ _ _ _ _ HV q (Hall q Hq)) as [c Hc]. unfold cv. rewrite Hc. now apply (i_sound _ _ _ _ _ HV). }
    assert (Hder : derI (u_eff u) oc').
    { rewrite Eoc, Efil. apply der_op; auto. now apply nth_error_In with i. }
    assert (Hge : forall q c', In q (p :: D) -> cst st q = Some c' -> c' <= oc').
    { intros q c' Hq Hc'.
      assert (Hpcle : pc <= oc').
      { rewrite Eoc, Efil. apply uval_sup.
        - apply (ro_cost _ _ HH). now apply nth_error_In with i.
        - intros c Hc. apply in_map_iff in Hc. destruct Hc as (q' & <- & Hq'). apply (der_ok q'). auto.
        - apply in_map_iff. exists p. split; auto. unfold cv; now rewrite Hpc. }
      pose proof (i_head _ _ _ _ _ HV p D q eq_refl Hq) as Hh. unfold cv in Hh. rewrite Hc', Hpc in Hh. lia. }
    assert (HV1 : Inv st1 (p :: D) rest (i :: rest) I).
    { destruct HV. constructor; auto.
      - cbn. now rewrite upd_length.
      - cbn. now rewrite upd_length. }
    destruct (enqueue_inv st1 (p :: D) rest (i :: rest) I (u_eff u) oc' (Some i) HV1) as (st2 & He & HV2 & (c2 & Hc2 & Hle2) & HcD & Hdec & Hu2 & Ho2 & Hb2); auto.
    { apply (ro_eff _ _ HH). now apply nth_error_In with i. }
    { right. exists i, u. auto. }
    exists st2. split; [exact He|]. split; [|split].
    + destruct HV2. constructor; auto.
      intros j u' Hu' Hj Hpre. destruct (Nat.eq_dec i j) as [<-|Hne].
      * rewrite Hu in Hu'; inversion Hu'; subst u'. exists c2. split; auto.
        replace (map (cv st2) (u_pre u)) with (map (cv st) (u_pre u)).
        { rewrite Eoc, Efil in Hle2. exact Hle2. }
        apply map_ext_in. intros q Hq. unfold cv. rewrite HcD by (now apply Hpre). reflexivity.
      * apply (i_closed0 j u'); auto. intros [->|Hj']; congruence.
    + rewrite HcD by now left. exact Hpc.
    + revert Hpot1 Hb2. unfold pot. rewrite Hu2. cbn [x_q x_unsat st1]. lia.
  - exists st1. split; [reflexivity|]. split; [|split; [exact Hpc|lia]].
    destruct HV. constructor; auto.
    + cbn. now rewrite upd_length.
    + cbn. now rewrite upd_length.
    + intros j u' Hu' Hj Hpre. destruct (Nat.eq_dec i j) as [<-|Hne].
      * exfalso. rewrite Hu in Hu'; inversion Hu'; subst u'. apply Ek0. unfold k.
        replace (filter (fun q => negb (inb (p :: D) q)) (u_pre u)) with (@nil nat); [reflexivity|].
        symmetry. clear -Hpre. induction (u_pre u) as [|a r IH]; auto. cbn [filter].
        rewrite (proj2 (inb_spec _ _)) by (apply Hpre; now left). cbn [negb]. apply IH. intros; apply Hpre; now right.
      * apply (i_closed0 j u'); auto. intros [->|Hj']; congruence.
Qed.

Lemma update_ops_inv p D pc l : forall st, NoDup l ->
  (forall i, In i l -> exists u, nth_error ops i = Some u /\ In p (u_pre u)) ->
  Inv st (p :: D) l l I -> cst st p = Some pc ->
  exists st', fold_outcome (update_op P M H pc) l st = Ok st' /\ Inv st' (p :: D) [] [] I /\ pot st' <= pot st.
Proof.
  induction l as [|i r IH]; intros st Hnd Hl HV Hpc; cbn [fold_outcome].
  - exists st. auto.
  - inversion Hnd as [|? ? Hi Hr]; subst. destruct (Hl i (or_introl eq_refl)) as (u & Hu & Hpu).
    destruct (update_op_inv st p D i r pc u HV Hi Hu Hpu Hpc) as (st1 & E & HV1 & Hpc1 & Hpot).
    rewrite E. cbn [bind]. destruct (IH st1 Hr (fun j Hj => Hl j (or_intror Hj)) HV1 Hpc1) as (st2 & E2 & HV2 & Hp2).
    exists st2. splits; auto. lia.
Qed.

(** Every derivation is accounted for. *)
Lemma complete st D : Inv st D [] [] I -> forall p c, derI p c ->
  (In p D /\ cv st p <= c) \/ (exists k q, In (k, q) (bag (x_q st)) /\ k <= c).
Proof.
  intros HV p c Hd. induction Hd as [p Hp|u k Hu Hq IH].
  - pose proof (i_init _ _ _ _ _ HV p Hp) as Hc. destruct (i_sound _ _ _ _ _ HV p 0 Hc) as [_ [HD|HB]].
    + left. unfold cv. rewrite Hc. auto.
    + right. exists 0, p. auto.
  - assert (Hcase : (forall q, In q (u_pre u) -> In q D /\ cv st q <= k q) \/
                    (exists q, In q (u_pre u) /\ exists k' q', In (k', q') (bag (x_q st)) /\ k' <= k q)).
    { clear Hq. induction (u_pre u) as [|a r IHr].
      - left. intros q [].
      - destruct (IH a (or_introl eq_refl)) as [Ha|Ha].
        + destruct IHr as [Hr|(q & Hq & Hr)].
          * intros q Hq. apply IH. now right.
          * left. intros q [<-|Hq]; auto.
          * right. exists q. split; [now right|auto].
        + right. exists a. split; [now left|auto]. }
    destruct Hcase as [Hall|(q & Hq' & k' & q' & Hin & Hle)].
    + apply In_nth_error in Hu. destruct Hu as [i Hu].
      destruct (i_closed _ _ _ _ _ HV i u Hu (fun x => x) (fun q Hq' => proj1 (Hall q Hq'))) as (c & Hc & Hle).
      assert (Hle2 : uval M (u_cost u) (map (cv st) (u_pre u)) <= uval M (u_cost u) (map k (u_pre u))).
      { apply fold_mono; auto. clear -Hall. induction (u_pre u) as [|a r IHr]; cbn; constructor.
        - apply Hall; now left.
        - apply IHr. intros; apply Hall; now right. }
      destruct (i_sound _ _ _ _ _ HV _ c Hc) as [_ [HD|HB]].
      * left. split; auto. unfold cv at 1. rewrite Hc. lia.
      * right. exists c, (u_eff u). split; auto. lia.
    + right. exists k', q'. split; auto. etransitivity; [exact Hle|]. apply uval_sup.
      * now apply (ro_cost _ _ HH).
      * intros c Hc. apply in_map_iff in Hc. destruct Hc as (q1 & <- & Hq1). now apply (der_ok q1), Hq.
      * apply in_map_iff. eauto.
Qed.

(** The result of the exploration: the costs of the propositions of [D] are exact; either
    all goals are in [D] or everything derivable is. *)
Record Final (st : xstate P) (D : list nat) : Prop := {
  f_len1 : length (x_cost st) = n;
  f_len2 : length (x_by st) = n;
  f_nodup : NoDup D;
  f_least : forall p, In p D -> exists c, cst st p = Some c /\ least (derI p) c;
  f_sound : forall p c, cst st p = Some c -> derI p c;
  f_done : (forall p c, derI p c -> In p D) \/ (forall g, In g (r_goals H) -> In g D);
  f_by : forall p, In p D ->
    (nth_error (x_by st) p = Some None /\ In p I) \/
    (exists i u, nth_error (x_by st) p = Some (Some i) /\ nth_error ops i = Some u /\ u_eff u = p /\
       forall q, In q (u_pre u) -> before D q p)
}.

Lemma is_goal_prop_spec p : is_goal_prop H p = true <-> In p (r_goals H).
Proof. exact (inb_spec (r_goals H) p). Qed.

Lemma with_q st q D rest rc J : Inv st D rest rc J ->
  forall e, Permutation (bag (x_q st)) (e :: bag q) -> 
  (forall p c, cst st p = Some c -> ~ In p D -> e <> (c, p)) ->
  Inv {| x_cost := x_cost st; x_by := x_by st; x_unsat := x_unsat st; x_ocost := x_ocost st; x_q := q |} D rest rc J.
Proof.
  intros HV e Hp Hne.
  assert (HI' : forall x, In x (bag q) -> In x (bag (x_q st))).
  { intros x Hx. apply (Permutation_in _ (Permutation_sym Hp)). now right. }
  destruct HV. constructor; auto.
  - intros p c Hc. destruct (i_sound0 p c Hc) as [Hd [HD|HB]]; split; auto.
    destruct (in_dec Nat.eq_dec p D) as [HD|HD]; auto. right. cbn [x_q].
    apply (Permutation_in _ Hp) in HB. destruct HB as [HB|HB]; auto. exfalso. eapply Hne; eauto.
  - intros c p Hin. apply i_bag0. auto.
  - cbn [x_q]. apply (Permutation_NoDup Hp) in i_nodupb0. now inversion i_nodupb0.
  - intros p c HD Hc k r Hin. eapply i_order0; eauto.
Qed.

Lemma least_D st D : Inv st D [] [] I -> forall p, In p D -> exists c, cst st p = Some c /\ least (derI p) c.
Proof.
  intros HV p Hp. destruct (i_dcost _ _ _ _ _ HV p Hp) as [c Hc]. exists c. split; auto. split.
  - now apply (i_sound _ _ _ _ _ HV).
  - intros c' Hd. destruct (complete st D HV p c' Hd) as [[_ Hle]|(k & q & Hin & Hle)].
    + unfold cv in Hle. now rewrite Hc in Hle.
    + pose proof (i_order _ _ _ _ _ HV p c Hp Hc k q Hin). lia.
Qed.

(** Moving a popped proposition to the processed set. *)
Lemma process_inv st D q p pc : Inv st D [] [] I -> cst st p = Some pc -> ~ In p D ->
  Permutation (bag (x_q st)) ((pc, p) :: bag q) -> (forall k' v', In (k', v') (bag q) -> pc <= k') ->
  Inv {| x_cost := x_cost st; x_by := x_by st; x_unsat := x_unsat st; x_ocost := x_ocost st; x_q := q |}
      (p :: D) (pre_of ops p) (pre_of ops p) I.
Proof.
  intros HV Hpc HpD Hp Hmin.
  assert (HI' : forall x, In x (bag q) -> In x (bag (x_q st))).
  { intros x Hx. apply (Permutation_in _ (Permutation_sym Hp)). now right. }
  assert (Hin0 : In (pc, p) (bag (x_q st))) by (apply (Permutation_in _ (Permutation_sym Hp)); now left).
  pose proof (i_nodupb _ _ _ _ _ HV) as Hnd. apply (Permutation_NoDup Hp) in Hnd.
  inversion Hnd as [|? ? Hni Hnd']; subst.
  assert (Hfil : forall i u, nth_error ops i = Some u -> forall x, In x (u_pre u) ->
            inb (dset (p :: D) (pre_of ops p) i) x = inb D x).
  { intros i u Hu x Hx. unfold dset. destruct (inb (pre_of ops p) i) eqn:E; [reflexivity|].
    apply inb_false in E. unfold inb. cbn [existsb]. destruct (Nat.eqb_spec x p); [|reflexivity]. subst.
    exfalso. apply E. apply pre_of_spec. eauto. }
  destruct HV. constructor; auto.
  - constructor; auto.
  - intros r [<-|Hr]; eauto.
  - intros r c Hc. destruct (i_sound0 r c Hc) as [Hd [HD|HB]]; split; auto; [left; now right|].
    cbn [x_q]. apply (Permutation_in _ Hp) in HB. destruct HB as [HB|HB]; auto. inversion HB; subst. left; now left.
  - intros c r Hin. destruct (i_bag0 c r (HI' _ Hin)) as [Hr (c' & Hc' & Hle & Hlt)]. split; auto.
    exists c'. splits; auto. intros [<-|HrD]; [|now apply Hlt].
    assert (c' = pc) by (unfold cst in *; cbn in *; congruence). subst c'.
    assert (c <> pc) by (intros ->; contradiction). lia.
  - intros r c [<-|HrD] Hc k s Hin.
    + assert (c = pc) by (unfold cst in *; cbn in *; congruence). subst. eapply Hmin; eauto.
    + eapply i_order0; eauto.
  - intros r D0 s HD Hs. inversion HD; subst r D0. destruct Hs as [<-|Hs]; auto.
    destruct (i_dcost0 s Hs) as [c Hc]. unfold cv, cst in *; cbn [x_cost] in *. rewrite Hc, Hpc. eapply i_order0; eauto.
  - intros i u Hu. destruct (i_ops0 i u Hu) as [H1 H2]. cbn [x_unsat x_ocost]. rewrite H1, H2.
    assert (Hd0 : dset D [] i = D) by reflexivity. rewrite Hd0. split.
    + f_equal. f_equal. f_equal. apply filter_ext_in. intros x Hx. now rewrite (Hfil i u Hu x Hx).
    + f_equal. f_equal. f_equal. apply filter_ext_in. intros x Hx. now rewrite (Hfil i u Hu x Hx).
  - intros i u Hu Hni' Hpre. apply (i_closed0 i u Hu); auto. intros x Hx. destruct (Hpre x Hx) as [<-|Hx']; auto.
    exfalso. apply Hni'. apply pre_of_spec. eauto.
  - intros r c Hc. destruct (i_by0 r c Hc) as [Hl|(i & u & Hb & Hu & He & Hq)]; auto. right.
    exists i, u. splits; auto. intros x Hx. destruct (Hq x Hx) as [Hx1 Hx2]. split; [now right|].
    intros [<-|HrD].
    + exists [], D. auto.
    + destruct (Hx2 HrD) as (l1 & l2 & -> & Hin). exists (p :: l1), l2. auto.
Qed.

Lemma explore_final fuel : forall st D unsolved, Inv st D [] [] I -> pot st < fuel ->
  unsolved = (Z.of_nat (length (r_goals H)) - Z.of_nat (length (filter (is_goal_prop H) D)))%Z ->
  exists st' D', explore P M H fuel st unsolved = Ok st' /\ Final st' D'.
Proof.
  induction fuel as [|fuel IH]; intros st D unsolved HV Hpot Huns; [lia|]. cbn [explore].
  destruct (pq_pop P (x_q st)) as [[[d p] q]|] eqn:Epop.
  2:{ exists st, D. split; auto. pose proof (pq_pop_none _ _ HP _ Epop) as Hb.
      constructor; try apply HV; auto.
      - now apply least_D.
      - left. intros r c Hd. destruct (complete st D HV r c Hd) as [[Hr _]|(k & s & Hin & _)]; auto. rewrite Hb in Hin. destruct Hin.
      - intros r Hr. destruct (i_dcost _ _ _ _ _ HV r Hr) as [c Hc]. now apply (i_by _ _ _ _ _ HV) with c. }
  destruct (pq_pop_some _ _ HP _ _ _ _ Epop) as [Hperm Hmin].
  assert (Hin0 : In (d, p) (bag (x_q st))) by (apply (Permutation_in _ (Permutation_sym Hperm)); now left).
  destruct (i_bag _ _ _ _ _ HV d p Hin0) as [Hpn (pc & Hpc & Hle & HltD)].
  rewrite vget_cst by (rewrite (i_len1 _ _ _ _ _ HV); auto). cbn [bind]. rewrite Hpc.
  rewrite (proj2 (Nat.leb_le _ _) Hle). cbn [guard bind].
  assert (Hblen : length (bag (x_q st)) = S (length (bag q))) by (rewrite (Permutation_length Hperm); reflexivity).
  set (st1 := {| x_cost := x_cost st; x_by := x_by st; x_unsat := x_unsat st; x_ocost := x_ocost st; x_q := q |}).
  assert (Hpot1 : S (pot st1) = pot st) by (unfold pot; cbn [x_q x_unsat st1]; lia).
  destruct (Nat.ltb_spec pc d) as [Hlt|Hge].
  - apply (IH st1 D); auto; [|lia]. apply with_q with (d, p); auto.
    intros r c Hc _ He. inversion He; subst. rewrite Hpc in Hc. inversion Hc. lia.
  - assert (d = pc) by lia. subst d.
    assert (HpD : ~ In p D) by (intros HD; specialize (HltD HD); lia).
    pose proof (process_inv st D q p pc HV Hpc HpD Hperm Hmin) as HV1. fold st1 in HV1.
    set (uns' := if is_goal_prop H p then (unsolved - 1)%Z else unsolved).
    assert (Huns' : uns' = (Z.of_nat (length (r_goals H)) - Z.of_nat (length (filter (is_goal_prop H) (p :: D))))%Z).
    { unfold uns'. cbn [filter]. destruct (is_goal_prop H p); cbn [length]; lia. }
    destruct (is_goal_prop H p && (uns' =? 0)%Z) eqn:Eg.
    + exists st1, (p :: D). split; auto.
      assert (HleastD : forall r, In r (p :: D) -> exists c, cst st1 r = Some c /\ least (derI r) c).
      { intros r [<-|Hr].
        - exists pc. split; auto. split; [now apply (i_sound _ _ _ _ _ HV)|].
          intros c' Hd. destruct (complete st D HV p c' Hd) as [[HD _]|(k & s & Hin & Hkle)]; [contradiction|].
          apply (Permutation_in _ Hperm) in Hin. destruct Hin as [Hin|Hin]; [inversion Hin; subst; auto|].
          specialize (Hmin k s Hin). lia.
        - exact (least_D st D HV r Hr). }
      constructor; try apply HV1; auto.
      * right. apply andb_true_iff in Eg. destruct Eg as [_ Eg]. apply Z.eqb_eq in Eg.
        assert (Hlen : length (filter (is_goal_prop H) (p :: D)) = length (r_goals H)) by lia.
        assert (Hincl : incl (r_goals H) (filter (is_goal_prop H) (p :: D))).
        { apply NoDup_length_incl.
          - apply NoDup_filter. apply HV1.
          - lia.
          - intros g Hg. apply filter_In in Hg. apply is_goal_prop_spec. apply Hg. }
        intros g Hg. apply Hincl in Hg. apply filter_In in Hg. apply Hg.
      * intros r Hr. destruct (i_dcost _ _ _ _ _ HV1 r Hr) as [c Hc]. now apply (i_by _ _ _ _ _ HV1) with c.
    + destruct (update_ops_inv p D pc (pre_of ops p) st1) as (st2 & E2 & HV2 & Hp2); auto.
      * apply pre_of_from_nodup. intros u Hu. now apply (ro_pre _ _ HH).
      * intros i Hi. now apply pre_of_spec.
      * rewrite E2. cbn [bind]. apply (IH st2 (p :: D)); auto. lia.
Qed.

(** Set-up. *)
Lemma setup_ops_inv us : forall i st, (forall j u, nth_error us j = Some u -> nth_error ops (i + j) = Some u) ->
  i + length us = length ops -> Inv st [] [] (seq i (length us)) [] ->
  exists st', setup_ops P us i st = Ok st' /\ Inv st' [] [] [] [] /\
    x_unsat st' = x_unsat st /\ length (bag (x_q st')) <= length (bag (x_q st)) + length (filter (fun u => length (u_pre u) =? 0) us).
Proof.
  induction us as [|u r IH]; intros i st Hus Hlen HV; cbn [setup_ops].
  - exists st. splits; auto. cbn. lia.
  - assert (Hu : nth_error ops i = Some u) by (specialize (Hus 0 u eq_refl); now rewrite Nat.add_0_r in Hus).
    assert (Hr : forall j u', nth_error r j = Some u' -> nth_error ops (S i + j) = Some u').
    { intros j u' Hj. specialize (Hus (S j) u' Hj). now rewrite Nat.add_succ_r in Hus. }
    cbn [length seq] in HV, Hlen.
    destruct (Z.eqb_spec (Z.of_nat (length (u_pre u))) 0) as [Ez|Ez].
    + assert (Epre : u_pre u = []) by (destruct (u_pre u); auto; cbn in Ez; lia).
      destruct (enqueue_inv st [] [] (i :: seq (S i) (length r)) [] (u_eff u) (u_cost u) (Some i) HV)
        as (st1 & E & HV1 & (c & Hc & Hle) & _ & _ & Hun & _ & Hb).
      * apply (ro_eff _ _ HH). now apply nth_error_In with i.
      * assert (Hd := der_op M ops I u (fun _ => 0) (nth_error_In _ _ Hu)). rewrite Epre in Hd. cbn in Hd. apply Hd. intros q [].
      * intros q c' [].
      * right. exists i, u. rewrite Epre. split; [auto|]. split; [auto|]. split; [auto|]. intros q [].
      * rewrite E. cbn [bind].
        destruct (IH (S i) st1 Hr) as (st2 & E2 & HV2 & Hu2 & Hb2); [lia| |].
        -- destruct HV1. constructor; auto. intros j u' Hj Hnj Hpre.
           destruct (Nat.eq_dec i j) as [<-|Hne].
           ++ rewrite Hu in Hj; inversion Hj; subst u'. exists c. rewrite Epre. auto.
           ++ apply (i_closed0 j u' Hj); auto. intros [->|Hx]; congruence.
        -- exists st2. splits; auto; [congruence|]. cbn [filter]. rewrite Epre. cbn [length Nat.eqb]. lia.
    + cbn [bind]. destruct (IH (S i) st Hr) as (st2 & E2 & HV2 & Hu2 & Hb2); [lia| |].
      * destruct HV. constructor; auto. intros j u' Hj Hnj Hpre.
        destruct (Nat.eq_dec i j) as [<-|Hne].
        -- rewrite Hu in Hj; inversion Hj; subst u'. destruct (u_pre u) as [|a l]; [cbn in Ez; lia|].
           destruct (Hpre a (or_introl eq_refl)).
        -- apply (i_closed0 j u' Hj); auto. intros [->|Hx]; congruence.
      * exists st2. splits; auto. cbn [filter]. destruct (length (u_pre u) =? 0); cbn [length]; lia.
Qed.

Lemma setup_state_inv I' : forall st J, incl I' I -> Inv st [] [] [] J ->
  exists st', setup_state P st I' = Ok st' /\ Inv st' [] [] [] (rev I' ++ J) /\
    x_unsat st' = x_unsat st /\ length (bag (x_q st')) <= length (bag (x_q st)) + length I'.
Proof.
  induction I' as [|p r IH]; intros st J Hinc HV; unfold setup_state in *; cbn [fold_outcome].
  - exists st. splits; auto. lia.
  - assert (HpI : In p I) by (apply Hinc; now left).
    destruct (enqueue_inv st [] [] [] J p 0 None HV) as (st1 & E & HV1 & (c & Hc & Hle) & _ & _ & Hun & _ & Hb).
    + auto.
    + now apply der_init.
    + intros q c' [].
    + left; auto.
    + rewrite E. cbn [bind]. destruct (IH st1 (p :: J)) as (st2 & E2 & HV2 & Hu2 & Hb2).
      * intros x Hx. apply Hinc. now right.
      * destruct HV1. constructor; auto. intros x [<-|Hx]; auto. rewrite Hc. f_equal. lia.
      * exists st2. splits; auto; [|congruence|cbn [length]; lia].
        cbn [rev]. now rewrite <- app_assoc.
Qed.

Lemma repeat_nth_none p m : nth p (repeat (@None nat) m) None = None.
Proof. revert p; induction m as [|m IH]; intros [|p]; cbn; auto. Qed.

Theorem exploration q0 by0 : length by0 = n ->
  exists st D, (let* st := setup P H q0 by0 in let* st := setup_state P st I in
                explore P M H (S (length ops + length I)) st (Z.of_nat (length (r_goals H)))) = Ok st /\ Final st D.
Proof.
  intros Hby. unfold setup.
  set (st0 := {| x_cost := repeat None n; x_by := by0; x_unsat := map (fun u => Z.of_nat (length (u_pre u))) ops;
                 x_ocost := map u_cost ops; x_q := pq_clear P q0 |}).
  assert (Hb0 : bag (x_q st0) = []) by apply (pq_clear_ok _ _ HP).
  assert (Hc0 : forall p, cst st0 p = None) by (intros; apply repeat_nth_none).
  assert (HV0 : Inv st0 [] [] (seq 0 (length ops)) []).
  { constructor; try (intros; rewrite ?Hb0 in *; rewrite ?Hc0 in *; cbn [In] in *; try contradiction; try discriminate; fail).
    - cbn. apply repeat_length.
    - exact Hby.
    - constructor.
    - rewrite Hb0. constructor.
    - cbn. apply map_length.
    - cbn. apply map_length.
    - intros i u Hu. cbn [x_unsat x_ocost st0]. rewrite !nth_error_map, Hu. cbn [option_map].
      assert (Ed : dset [] [] i = []) by reflexivity. rewrite Ed. split.
      + f_equal. f_equal. replace (filter (fun p => negb (inb [] p)) (u_pre u)) with (u_pre u); [reflexivity|].
        clear. induction (u_pre u) as [|a r IH]; cbn; [reflexivity|f_equal; exact IH].
      + f_equal. replace (filter (inb []) (u_pre u)) with (@nil nat); [reflexivity|].
        clear. induction (u_pre u) as [|a r IH]; cbn; auto.
    - intros i u Hu Hni. exfalso. apply Hni. apply in_seq. split; [lia|]. cbn. apply nth_error_Some. congruence. }
  destruct (setup_ops_inv ops 0 st0) as (st1 & E1 & HV1 & Hu1 & Hb1); auto.
  rewrite E1. cbn [bind].
  destruct (setup_state_inv I st1 [] (incl_refl I) HV1) as (st2 & E2 & HV2 & Hu2 & Hb2).
  rewrite E2. cbn [bind].
  destruct (explore_final (S (length ops + length I)) st2 [] (Z.of_nat (length (r_goals H)))) as (st3 & D3 & E3 & HF).
  - destruct HV2. constructor; auto. intros p Hp. apply i_init0. rewrite app_nil_r. now apply in_rev in Hp.
  - unfold pot. rewrite Hu2, Hu1. rewrite Hb0 in Hb1. cbn [x_unsat st0]. cbn [length] in Hb1.
    assert (Hsum : length (filter (fun z => (0 <? z)%Z) (map (fun u => Z.of_nat (length (u_pre u))) ops)) +
                   length (filter (fun u => length (u_pre u) =? 0) ops) = length ops).
    { clear. induction ops as [|u r IH]; cbn [map filter length]; auto.
      destruct (Z.ltb_spec 0 (Z.of_nat (length (u_pre u)))); destruct (Nat.eqb_spec (length (u_pre u)) 0); cbn [length]; lia. }
    lia.
  - cbn. lia.
  - exists st3, D3. auto.
Qed.
End DIJKSTRA.
