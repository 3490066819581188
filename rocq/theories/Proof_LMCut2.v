(** LM-cut: the incremental exploration, the goal zone, the cut, and the rounds. *)
From Coq Require Import Permutation.
From Verif Require Import Outcome Spec_Task Model_Task Model_PQ Model_Relaxation Model_LMCut Proof_Dijkstra Proof_LMCut1.

Lemma list_sum_upd l : forall i c, i < length l -> c <= nth i l 0 -> list_sum (upd l i c) + (nth i l 0 - c) = list_sum l.
Proof.
  induction l as [|a r IH]; intros [|i] c Hi Hc; cbn [length] in Hi; try lia; cbn [nth] in Hc; cbn [upd nth].
  - change (list_sum (c :: r)) with (c + list_sum r). change (list_sum (a :: r)) with (a + list_sum r). lia.
  - change (list_sum (a :: upd r i c)) with (a + list_sum (upd r i c)). change (list_sum (a :: r)) with (a + list_sum r).
    rewrite <- (IH i c) by lia. lia.
Qed.

Section LMCUT2.
Variable P : pqueue.
Variable bag : PQ P -> list (nat * nat).
Hypothesis HP : pq_contract P bag.
Variable ops : list lop.
Variable tot gp ap : nat.
Variable I : list nat.
Hypothesis Hops : forall u, In u ops -> NoDup (l_pre u) /\ l_pre u <> [] /\
  (forall q, In q (l_pre u) -> q < tot) /\ (forall e, In e (l_eff u) -> e < tot).
Hypothesis Hgp : gp < tot.
Hypothesis Hap : ap < tot.
Hypothesis HI : forall p, In p I -> p < tot.
Hypothesis HInd : NoDup (ap :: I).

Notation lst := (lstate P).
Notation stt := (stt P). Notation hh := (hh P). Notation cc := (cc P). Notation un := (un P).
Notation supp := (supp P). Notation rd := (rd P). Notation bg := (bg P bag). Notation lens := (lens P ops tot).

(* ---- the incremental exploration ---- *)
Record B (R : nat -> Prop) (st : lst) (rc rest : list nat) (cur : nat) : Prop := {
  b_len : lens st;
  b_rd : forall p, rd st p <-> R p;
  b_bag : forall k p, In (k, p) (bg st) -> p < tot /\ hh st p <= k;
  b_init : forall p, In p (ap :: I) -> R p /\ hh st p = 0;
  b_closed : forall i u, nth_error ops i = Some u -> (forall q, In q (l_pre u) -> R q) -> supp st i <> None;
  b_sup : forall i u q c, nth_error ops i = Some u -> supp st i = Some (q, c) ->
    In q (l_pre u) /\ un st i = 0 /\ (forall x, In x (l_pre u) -> R x /\ hh st x <= c) /\ (forall e, In e (l_eff u) -> R e);
  b_eff : forall i u q c e, nth_error ops i = Some u -> ~ In i rc -> supp st i = Some (q, c) -> In e (l_eff u) ->
    hh st e <= c + cc st i;
  b_sound : forall p, R p -> zreach ops (c_cost st) (ap :: I) (hh st p) p;
  b_cur : forall i q c, supp st i = Some (q, c) -> hh st q = c \/ In (hh st q, q) (bg st) \/ (In i rest /\ q = cur)
}.

Definition phi (st : lst) : nat := list_sum (c_h st) + length (bg st).

Lemma lenq_B R c st rc rest cur p : B R st rc rest cur -> p < tot -> R p -> zreach ops (c_cost st) (ap :: I) c p ->
  exists st', lenq P c st p = Ok st' /\ B R st' rc rest cur /\ hh st' p <= c /\ (forall q, hh st' q <= hh st q) /\
    phi st' <= phi st /\ c_cost st' = c_cost st /\ c_unsat st' = c_unsat st /\ c_sup st' = c_sup st /\
    (forall e, In e (bg st) -> In e (bg st')) /\ (forall q, hh st' q = hh st q \/ In (hh st' q, q) (bg st')).
Proof.
  intros HB Hp HR Hzr.
  destruct (lenq_spec P bag HP ops tot c st p (b_len _ _ _ _ _ HB) Hp) as [(E & Hrd & Hle)|(st' & E & HL & Hlt & Hst & Hh & Ec & Eu & Es & Hb & Ehl)].
  - exists st. split; [exact E|]. split; [exact HB|]. splits; auto.
  - exists st'. split; [exact E|].
    assert (Hlt' : c < hh st p) by (destruct Hlt as [H|H]; auto; apply (b_rd _ _ _ _ _ HB) in HR; contradiction).
    assert (Hdec : forall q, hh st' q <= hh st q) by (intros q; rewrite Hh; destruct (Nat.eqb_spec p q); subst; lia).
    pose proof (bag_in _ _ _ _ _ _ Hb) as HbI.
    assert (Hcurq : forall q, hh st' q = hh st q \/ In (hh st' q, q) (bg st')).
    { intros q. rewrite Hh. destruct (Nat.eqb_spec p q) as [<-|]; auto. right. apply HbI; auto. }
    split; [|splits; auto].
    + constructor.
      * exact HL.
      * intros q. rewrite <- (b_rd _ _ _ _ _ HB q). unfold Proof_LMCut1.rd. rewrite Hst. destruct (Nat.eqb_spec p q) as [<-|]; [|reflexivity].
        split; intros; [now apply (b_rd _ _ _ _ _ HB)|discriminate].
      * intros k q Hin. apply HbI in Hin. destruct Hin as [Hin|Hin].
        -- inversion Hin; subst. rewrite Hh, Nat.eqb_refl. auto.
        -- destruct (b_bag _ _ _ _ _ HB _ _ Hin). specialize (Hdec q). split; auto; lia.
      * intros q Hq. destruct (b_init _ _ _ _ _ HB q Hq) as [H1 H2]. specialize (Hdec q). split; auto. lia.
      * intros i u. unfold Proof_LMCut1.supp. rewrite Es. apply (b_closed _ _ _ _ _ HB).
      * intros i u q k Hu Hs. unfold Proof_LMCut1.supp in Hs. rewrite Es in Hs. unfold Proof_LMCut1.un. rewrite Eu.
        destruct (b_sup _ _ _ _ _ HB i u q k Hu Hs) as (H1 & H2 & H3 & H4). splits; auto. intros x Hx.
        destruct (H3 x Hx). specialize (Hdec x). split; auto; lia.
      * intros i u q k e Hu Hi Hs He. unfold Proof_LMCut1.supp in Hs. rewrite Es in Hs. unfold Proof_LMCut1.cc. rewrite Ec.
        pose proof (b_eff _ _ _ _ _ HB i u q k e Hu Hi Hs He) as H1. specialize (Hdec e). unfold Proof_LMCut1.cc in H1. lia.
      * intros q Hq. rewrite Ec, Hh. destruct (Nat.eqb_spec p q) as [<-|]; [exact Hzr|]. now apply (b_sound _ _ _ _ _ HB).
      * intros i q k Hs. unfold Proof_LMCut1.supp in Hs. rewrite Es in Hs. destruct (b_cur _ _ _ _ _ HB i q k Hs) as [H|[H|H]]; auto.
        -- destruct (Hcurq q) as [Hq|Hq]; [left; congruence|auto].
        -- destruct (Hcurq q) as [Hq|Hq]; auto. right; left. apply HbI. right. now rewrite Hq.
    + rewrite Hh, Nat.eqb_refl. auto.
    + unfold phi. rewrite Ehl, (Permutation_length Hb). cbn [length].
      assert (Hpl : p < length (c_h st)) by (now rewrite (n_h _ _ _ _ (b_len _ _ _ _ _ HB))).
      pose proof (list_sum_upd (c_h st) p c Hpl ltac:(unfold Proof_LMCut1.hh in Hlt'; lia)). unfold Proof_LMCut1.hh in Hlt'. lia.
    + intros e He. apply HbI; auto.
Qed.

Lemma lenqs_B R c es : forall st rc rest cur, B R st rc rest cur -> (forall e, In e es -> e < tot /\ R e /\ zreach ops (c_cost st) (ap :: I) c e) ->
  exists st', fold_outcome (lenq P c) es st = Ok st' /\ B R st' rc rest cur /\ (forall e, In e es -> hh st' e <= c) /\
    (forall q, hh st' q <= hh st q) /\
    phi st' <= phi st /\ c_cost st' = c_cost st /\ c_unsat st' = c_unsat st /\ c_sup st' = c_sup st /\
    (forall e, In e (bg st) -> In e (bg st')) /\ (forall q, hh st' q = hh st q \/ In (hh st' q, q) (bg st')).
Proof.
  induction es as [|e r IH]; intros st rc rest cur HB Hes; cbn [fold_outcome].
  - exists st. split; [reflexivity|]. split; [exact HB|]. splits; auto. intros e [].
  - destruct (Hes e (or_introl eq_refl)) as (H1 & H2 & H3).
    destruct (lenq_B R c st rc rest cur e HB H1 H2 H3) as (st1 & E & HB1 & Hle & Hdec & Hphi & Ec & Eu & Es & Hbs & Hq).
    rewrite E. cbn [bind]. destruct (IH st1 rc rest cur HB1) as (st2 & E2 & HB2 & Hle2 & Hdec2 & Hphi2 & Ec2 & Eu2 & Es2 & Hbs2 & Hq2).
    { intros x Hx. rewrite Ec. apply Hes. now right. }
    exists st2. split; [exact E2|]. split; [exact HB2|]. splits; try congruence; try lia; auto.
    + intros x [<-|Hx]; auto. specialize (Hdec2 e). lia.
    + intros q. specialize (Hdec q). specialize (Hdec2 q). lia.
    + intros q. destruct (Hq2 q) as [Hx|Hx]; auto. rewrite Hx. destruct (Hq q) as [Hy|Hy]; auto.
Qed.

(** The supporter chosen by update_h_max_supporter. *)
Lemma update_sup_spec st u q : lens st -> In u ops -> In q (l_pre u) ->
  exists q', update_sup P st u q = Ok q' /\ In q' (l_pre u) /\ hh st q <= hh st q' /\ forall x, In x (l_pre u) -> hh st x <= hh st q'.
Proof.
  intros HL Hu Hq. unfold update_sup. destruct (Hops u Hu) as (_ & _ & Hlt & _).
  assert (G : forall l, (forall x, In x l -> In x (l_pre u)) -> forall q, In q (l_pre u) ->
    exists q', fold_outcome (fun cur j => let* a := vget (c_h st) j in let* b := vget (c_h st) cur in Ok (if b <? a then j else cur)) l q = Ok q' /\
      In q' (l_pre u) /\ hh st q <= hh st q' /\ forall x, In x l -> hh st x <= hh st q').
  { induction l as [|a r IH]; intros Hl q1 Hq1; cbn [fold_outcome].
    - exists q1. splits; auto. intros x [].
    - rewrite (vget_nth _ a 0) by (rewrite (n_h _ _ _ _ HL); apply Hlt, Hl; now left).
      rewrite (vget_nth _ q1 0) by (rewrite (n_h _ _ _ _ HL); auto). cbn [bind].
      fold (hh st a). fold (hh st q1).
      destruct (IH (fun x Hx => Hl x (or_intror Hx)) (if hh st q1 <? hh st a then a else q1)) as (q' & E & Hin & Hle & Hall).
      { destruct (hh st q1 <? hh st a); auto. apply Hl; now left. }
      exists q'. split; [exact E|]. splits; auto.
      + destruct (Nat.ltb_spec (hh st q1) (hh st a)); lia.
      + intros x [<-|Hx]; auto. destruct (Nat.ltb_spec (hh st q1) (hh st a)); lia. }
  destruct (G (l_pre u) (fun x H => H) q Hq) as (q' & E & H1 & H2 & H3). exists q'. auto.
Qed.

Lemma retrigger_B R st p pc i rest u : B R st [] (i :: rest) p -> ~ In i rest -> nth_error ops i = Some u ->
  (hh st p = pc \/ In (hh st p, p) (bg st)) -> hh st p <= pc ->
  exists st', retrigger P ops p pc st i = Ok st' /\ B R st' [] rest p /\ (hh st' p = pc \/ In (hh st' p, p) (bg st')) /\ hh st' p <= pc /\
    phi st' <= phi st /\ c_cost st' = c_cost st.
Proof.
  intros HB Hir Hu Hpq Hpc. unfold retrigger. pose proof (b_len _ _ _ _ _ HB) as HL.
  assert (Hil : i < length ops) by (apply nth_error_Some; congruence).
  rewrite (vget_nth _ _ None) by (now rewrite (n_sup _ _ _ _ HL)). cbn [bind]. fold (supp st i).
  assert (Hskip : (forall q c, supp st i = Some (q, c) -> hh st q = c \/ In (hh st q, q) (bg st)) -> B R st [] rest p).
  { intros Hi. destruct HB. constructor; auto. intros j q c Hs. destruct (Nat.eq_dec i j) as [<-|Hij].
    - destruct (Hi q c Hs); auto.
    - destruct (b_cur0 j q c Hs) as [H|[H|[[H|H] Hq]]]; auto. congruence. }
  destruct (supp st i) as [[q old]|] eqn:Es.
  2:{ exists st. splits; auto. apply Hskip. discriminate. }
  destruct (b_sup _ _ _ _ _ HB i u q old Hu Es) as (Hq & Hun & Hpre & Heff).
  destruct (Nat.eqb_spec q p) as [->|Hne]; cbn [andb].
  2:{ exists st. splits; auto. apply Hskip. intros q' c' E. inversion E; subst.
      destruct (b_cur _ _ _ _ _ HB i _ _ Es) as [H|[H|[_ H]]]; auto. congruence. }
  destruct (Nat.ltb_spec pc old) as [Hlt|Hge].
  2:{ exists st. splits; auto. apply Hskip. intros q' c' E. inversion E; subst. destruct (Hpre q' Hq) as [_ Hle].
      destruct Hpq as [Hx|Hx]; auto. left. lia. }
  rewrite (vget_nth _ _ u) by auto. rewrite (nth_error_nth _ _ _ Hu). cbn [bind].
  rewrite (vget_nth _ _ 0) by (now rewrite (n_un _ _ _ _ HL)). cbn [bind]. fold (un st i). rewrite Hun. cbn [Nat.eqb guard bind].
  destruct (update_sup_spec st u p HL (nth_error_In _ _ Hu) Hq) as (q' & E' & Hq' & Hge' & Hmax).
  rewrite E'. cbn [bind]. destruct (Hops u (nth_error_In _ _ Hu)) as (_ & _ & Hlt' & Het).
  rewrite (vget_nth _ _ 0) by (rewrite (n_h _ _ _ _ HL); auto). cbn [bind]. fold (hh st q').
  rewrite vset_lt by (now rewrite (n_sup _ _ _ _ HL)). cbn [bind].
  set (st1 := {| c_st := c_st st; c_h := c_h st; c_cost := c_cost st; c_unsat := c_unsat st;
                 c_sup := upd (c_sup st) i (Some (q', hh st q')); c_q := c_q st |}).
  assert (Hs1 : forall j, supp st1 j = if i =? j then Some (q', hh st q') else supp st j).
  { intros j. unfold Proof_LMCut1.supp, st1; cbn. apply nth_upd. now rewrite (n_sup _ _ _ _ HL). }
  assert (Hnew : hh st q' <= old) by (now apply Hpre).
  assert (HB1 : B R st1 [i] rest p).
  { destruct HB. constructor; auto.
    - destruct HL. constructor; cbn; rewrite ?upd_length; auto.
    - intros j v Hv HR. rewrite Hs1. destruct (i =? j); [discriminate|]. now apply (b_closed0 j v).
    - intros j v x c Hv Hs. rewrite Hs1 in Hs. change (un st1 j) with (un st j). destruct (Nat.eqb_spec i j) as [<-|Hij].
      + rewrite Hu in Hv; inversion Hv; subst v. inversion Hs; subst. splits; auto. intros y Hy. split; [now apply Hpre|]. now apply Hmax.
      + exact (b_sup0 j v x c Hv Hs).
    - intros j v x c e Hv Hj Hs He. rewrite Hs1 in Hs. destruct (Nat.eqb_spec i j) as [<-|Hij]; [exfalso; apply Hj; now left|].
      exact (b_eff0 j v x c e Hv (fun f => f) Hs He).
    - intros j x c Hs. rewrite Hs1 in Hs. destruct (Nat.eqb_spec i j) as [<-|Hij].
      + inversion Hs; subst. left. reflexivity.
      + destruct (b_cur0 j x c Hs) as [H|[H|[[H|H] Hx]]]; auto. congruence. }
  destruct (Nat.eqb_spec (hh st q') old) as [Heq|Hneq].
  - exists st1. splits; auto. destruct HB1. constructor; auto.
    intros j v x c e Hv _ Hs He. destruct (Nat.eq_dec i j) as [<-|Hij].
    + rewrite Hu in Hv; inversion Hv; subst v. rewrite Hs1, Nat.eqb_refl in Hs. injection Hs as <- <-.
      rewrite Heq. exact (b_eff _ _ _ _ _ HB i u p old e Hu (fun f => f) Es He).
    + apply (b_eff0 j v x c e); auto. intros [H|[]]; congruence.
  - rewrite (proj2 (Nat.ltb_lt _ _)) by lia. cbn [guard bind].
    rewrite (vget_nth _ _ 0) by (now rewrite (n_cost _ _ _ _ HL)). cbn [bind]. fold (cc st i).
    destruct (lenqs_B R (hh st q' + cc st i) (l_eff u) st1 [i] rest p HB1) as (st2 & E2 & HB2 & Hle2 & Hdec2 & Hphi2 & Ec2 & Eu2 & Es2 & Hbs2 & Hq2).
    { intros e He. splits; auto. unfold Proof_LMCut1.cc. apply zreach_op with u; auto. intros x Hx. exists (hh st x). split; auto.
      apply (b_sound _ _ _ _ _ HB). now apply Hpre. }
    exists st2. split; [exact E2|]. splits; auto.
    + destruct HB2. constructor; auto.
      intros j v x c e Hv _ Hs He. destruct (Nat.eq_dec i j) as [<-|Hij].
      * rewrite Hu in Hv; inversion Hv; subst v. unfold Proof_LMCut1.supp in Hs. rewrite Es2 in Hs. fold (supp st1 i) in Hs.
        rewrite Hs1, Nat.eqb_refl in Hs. inversion Hs; subst. unfold Proof_LMCut1.cc. rewrite Ec2. apply Hle2. exact He.
      * apply (b_eff0 j v x c e); auto. intros [H|[]]; congruence.
    + destruct (Hq2 p) as [Hx|Hx]; auto. rewrite Hx. destruct Hpq as [Hy|Hy]; [left; exact Hy|right; apply Hbs2; exact Hy].
    + specialize (Hdec2 p). change (hh st1 p) with (hh st p) in Hdec2. lia.
Qed.

Lemma retriggers_B R p pc l : forall st, NoDup l -> (forall i, In i l -> i < length ops) -> B R st [] l p ->
  (hh st p = pc \/ In (hh st p, p) (bg st)) -> hh st p <= pc ->
  exists st', fold_outcome (retrigger P ops p pc) l st = Ok st' /\ B R st' [] [] 0 /\ phi st' <= phi st /\ c_cost st' = c_cost st.
Proof.
  induction l as [|i r IH]; intros st Hnd Hl HB Hpq Hpc; cbn [fold_outcome].
  - exists st. splits; auto. destruct HB. constructor; auto. intros i q c Hs. destruct (b_cur0 i q c Hs) as [H|[H|[[] _]]]; auto.
  - inversion Hnd as [|? ? Hi Hr]; subst. destruct (nth_error ops i) as [u|] eqn:Hu; [|apply nth_error_None in Hu; specialize (Hl i (or_introl eq_refl)); lia].
    destruct (retrigger_B R st p pc i r u HB Hi Hu Hpq Hpc) as (st1 & E & HB1 & Hpq1 & Hpc1 & Hphi & Ec).
    rewrite E. cbn [bind]. destruct (IH st1 Hr (fun j Hj => Hl j (or_intror Hj)) HB1 Hpq1 Hpc1) as (st2 & E2 & HB2 & Hphi2 & Ec2).
    exists st2. splits; auto; [lia|congruence].
Qed.

Lemma explore_B R fuel : forall st, B R st [] [] 0 -> phi st < fuel ->
  exists st', lexplore P ops (retrigger P ops) fuel st = Ok st' /\ B R st' [] [] 0 /\ bg st' = [] /\ c_cost st' = c_cost st.
Proof.
  induction fuel as [|fuel IH]; intros st HB Hf; [lia|]. cbn [lexplore].
  destruct (pq_pop P (c_q st)) as [[[d p] q]|] eqn:Ep.
  2:{ exists st. splits; auto. exact (pq_pop_none _ _ HP _ Ep). }
  destruct (pq_pop_some _ _ HP _ _ _ _ Ep) as [Hperm Hmin].
  pose proof (b_len _ _ _ _ _ HB) as HL.
  assert (Hin : In (d, p) (bg st)) by (apply (Permutation_in _ (Permutation_sym Hperm)); now left).
  destruct (b_bag _ _ _ _ _ HB _ _ Hin) as (Hp & Hle).
  rewrite (vget_nth _ _ 0) by (now rewrite (n_h _ _ _ _ HL)). cbn [bind]. fold (hh st p).
  rewrite (proj2 (Nat.leb_le _ _) Hle). cbn [guard bind].
  set (st1 := {| c_st := c_st st; c_h := c_h st; c_cost := c_cost st; c_unsat := c_unsat st; c_sup := c_sup st; c_q := q |}).
  assert (Hb1 : Permutation (bg st) ((d, p) :: bg st1)) by exact Hperm.
  assert (Hsub : forall e, In e (bg st1) -> In e (bg st)) by (intros e He; apply (Permutation_in _ (Permutation_sym Hb1)); now right).
  assert (Hphi1 : S (phi st1) = phi st).
  { unfold phi. cbn [c_h st1]. rewrite (Permutation_length Hb1). cbn [length]. lia. }
  destruct (Nat.ltb_spec (hh st p) d) as [Hlt|Hge].
  - destruct (IH st1) as (st2 & E2 & HB2 & Hb2 & Ec2); [|lia|exists st2; auto].
    destruct HB. constructor; auto.
    + destruct HL; constructor; auto.
    + intros k x Hx. apply (b_bag0 k x). auto.
    + intros i x c Hs. destruct (b_cur0 i x c Hs) as [H|[H|H]]; auto. right; left.
      apply (Permutation_in _ Hb1) in H. destruct H as [H|H]; [|exact H]. inversion H; subst. lia.
  - destruct (retriggers_B R p (hh st p) (occ_from l_pre ops 0 p) st1) as (st2 & E2 & HB2 & Hphi2 & Ec2); auto.
    { apply occ_from_nodup. intros u Hu. now apply Hops. }
    { intros i Hi. apply occ_from_0 in Hi. destruct Hi as (u & Hu & _). apply nth_error_Some. congruence. }
    { destruct HB. constructor; auto.
      - destruct HL; constructor; auto.
      - intros k x Hx. apply (b_bag0 k x). auto.
      - intros i x c Hs. destruct (b_cur0 i x c Hs) as [H|[H|[[] _]]]; auto.
        apply (Permutation_in _ Hb1) in H. destruct H as [H|H]; [|right; left; exact H]. inversion H; subst x.
        right; right. split; auto. assert (Hil : i < length ops).
        { rewrite <- (n_sup _ _ _ _ HL). destruct (Nat.lt_ge_cases i (length (c_sup st))) as [Hl|Hl]; auto.
          unfold Proof_LMCut1.supp in Hs. cbn [c_sup st1] in Hs. rewrite nth_overflow in Hs by auto. discriminate. }
        destruct (nth_error ops i) as [u|] eqn:Hu; [|apply nth_error_None in Hu; lia].
        apply occ_from_0. exists u. split; auto. now apply (b_sup0 i u p c Hu Hs). }
    rewrite E2. cbn [bind]. destruct (IH st2 HB2) as (st3 & E3 & HB3 & Hb3 & Ec3); [lia|].
    exists st3. splits; auto. rewrite Ec3, Ec2. reflexivity.
Qed.

Lemma cut_enqueue_B R cut : forall st rc, B R st (cut ++ rc) [] 0 -> (forall i, In i cut -> i < length ops /\ supp st i <> None) ->
  exists st', fold_outcome (cut_enqueue P ops) cut st = Ok st' /\ B R st' rc [] 0 /\ phi st' <= phi st /\ c_cost st' = c_cost st.
Proof.
  induction cut as [|i r IH]; intros st rc HB Hc; cbn [fold_outcome].
  - exists st. auto.
  - destruct (Hc i (or_introl eq_refl)) as [Hil Hsi]. unfold cut_enqueue at 1. pose proof (b_len _ _ _ _ _ HB) as HL.
    rewrite (vget_nth _ _ None) by (now rewrite (n_sup _ _ _ _ HL)). cbn [bind]. fold (supp st i).
    destruct (supp st i) as [[q sc]|] eqn:Es; [|congruence].
    destruct (nth_error ops i) as [u|] eqn:Hu; [|apply nth_error_None in Hu; lia].
    rewrite (vget_nth _ _ u) by auto. rewrite (nth_error_nth _ _ _ Hu). cbn [bind].
    rewrite (vget_nth _ _ 0) by (now rewrite (n_cost _ _ _ _ HL)). cbn [bind]. fold (cc st i).
    destruct (b_sup _ _ _ _ _ HB i u q sc Hu Es) as (Hq & Hun & Hpre & Heff).
    destruct (Hops u (nth_error_In _ _ Hu)) as (_ & _ & _ & Het).
    destruct (lenqs_B R (sc + cc st i) (l_eff u) st _ _ _ HB) as (st1 & E1 & HB1 & Hle1 & Hdec1 & Hphi1 & Ec1 & Eu1 & Es1 & _ & _).
    { intros e He. splits; auto. unfold Proof_LMCut1.cc. apply zreach_op with u; auto. intros x Hx. exists (hh st x).
      split; [now apply Hpre|]. apply (b_sound _ _ _ _ _ HB). now apply Hpre. }
    rewrite E1. cbn [bind]. destruct (IH st1 rc) as (st2 & E2 & HB2 & Hphi2 & Ec2).
    + destruct HB1. constructor; auto. intros j v x c e Hv Hj Hs He. destruct (Nat.eq_dec i j) as [<-|Hij].
      * rewrite Hu in Hv; inversion Hv; subst v. unfold Proof_LMCut1.supp in Hs. rewrite Es1 in Hs. fold (supp st i) in Hs.
        rewrite Es in Hs. inversion Hs; subst. unfold Proof_LMCut1.cc. rewrite Ec1. now apply Hle1.
      * apply (b_eff0 j v x c e); auto. intros [H|H]; congruence.
    + intros j Hj. unfold Proof_LMCut1.supp. rewrite Es1. apply Hc. now right.
    + exists st2. splits; auto; [lia|congruence].
Qed.

Theorem incremental_B R st cut : B R st cut [] 0 -> bg st = [] -> (forall i, In i cut -> i < length ops /\ supp st i <> None) ->
  exists st', incremental P ops st cut = Ok st' /\ B R st' [] [] 0 /\ bg st' = [] /\ c_cost st' = c_cost st.
Proof.
  intros HB Hb Hc. unfold incremental. cbv zeta.
  destruct (cut_enqueue_B R cut st []) as (st1 & E1 & HB1 & Hphi & Ec); auto; [now rewrite app_nil_r|].
  rewrite E1. cbn [bind]. destruct (explore_B R (S (list_sum (c_h st))) st1 HB1) as (st2 & E2 & HB2 & Hb2 & Ec2).
  { revert Hphi. unfold phi. rewrite Hb. cbn [length]. lia. }
  exists st2. splits; auto. congruence.
Qed.

(* ---- the goal zone ---- *)
Section ROUND.
Variable R : nat -> Prop.
Variable st : lst.
Hypothesis HB : B R st [] [] 0.
Hypothesis Hbe : bg st = [].
Hypothesis Hstat : forall p, stt st p = UNREACHED \/ stt st p = REACHED.
Hypothesis HRg : R gp.
Hypothesis Hh0 : hh st gp <> 0.

Lemma sup_cost i q c : supp st i = Some (q, c) -> hh st q = c.
Proof. intros Hs. destruct (b_cur _ _ _ _ _ HB i q c Hs) as [H|[H|[[] _]]]; auto. rewrite Hbe in H. destruct H. Qed.

Definition sa (ss : list pstat) (p : nat) : pstat := nth p ss UNREACHED.
Definition good (p : nat) : Prop := p < tot /\ R p /\ hh st gp <= hh st p.
Definition zclosed (ss : list pstat) (p : nat) : Prop :=
  forall i u q c, nth_error ops i = Some u -> In p (l_eff u) -> cc st i = 0 -> supp st i = Some (q, c) -> sa ss q = GOAL_ZONE.
Definition zcnt (ss : list pstat) : nat := length (filter (fun s => negb (pstat_eqb s GOAL_ZONE)) ss).

Record zstep (ss ss' : list pstat) : Prop := {
  z_len : length ss' = tot;
  z_mono : forall p, sa ss p = GOAL_ZONE -> sa ss' p = GOAL_ZONE;
  z_same : forall p, sa ss' p <> GOAL_ZONE -> sa ss' p = sa ss p;
  z_new : forall p, sa ss' p = GOAL_ZONE -> sa ss p = GOAL_ZONE \/ (good p /\ zclosed ss' p);
  z_cnt : zcnt ss' <= zcnt ss
}.
Lemma zstep_refl ss : length ss = tot -> zstep ss ss.
Proof. intros H. constructor; auto. Qed.
Lemma zclosed_mono ss ss' p : (forall p, sa ss p = GOAL_ZONE -> sa ss' p = GOAL_ZONE) -> zclosed ss p -> zclosed ss' p.
Proof. intros Hm Hz i u q c Hu Hp Hc Hs. apply Hm. eapply Hz; eauto. Qed.
Lemma pstat_dec (a b : pstat) : {a = b} + {a <> b}.
Proof. decide equality. Qed.
Lemma zstep_trans a b c : zstep a b -> zstep b c -> zstep a c.
Proof.
  intros [A1 A2 A3 A4 A5] [B1 B2 B3 B4 B5]. constructor; auto.
  - intros p Hp. rewrite B3 by auto. apply A3. rewrite <- B3 by auto. auto.
  - intros p Hp. destruct (B4 p Hp) as [Hx|Hx]; auto. destruct (A4 p Hx) as [Hy|[Hy Hz]]; auto. right. split; auto. eapply zclosed_mono; eauto.
  - lia.
Qed.
Lemma zcnt_upd ss g : g < length ss -> sa ss g <> GOAL_ZONE -> S (zcnt (upd ss g GOAL_ZONE)) = zcnt ss.
Proof.
  unfold zcnt, sa. revert g. induction ss as [|a r IH]; intros [|g] Hg Hn; cbn [length] in Hg; try lia; cbn [nth] in Hn; cbn [upd filter].
  - destruct a; cbn; congruence || reflexivity.
  - specialize (IH g ltac:(lia) Hn). destruct (negb (pstat_eqb a GOAL_ZONE)); cbn [length]; lia.
Qed.
Lemma zcnt_le ss : zcnt ss <= length ss.
Proof. unfold zcnt. induction ss as [|a r IH]; cbn [filter]; auto. destruct (negb _); cbn [length]; lia. Qed.

Lemma plateau_step fuel : forall ss g, length ss = tot -> good g -> zcnt ss < fuel ->
  exists ss', plateau P ops fuel st ss g = Ok ss' /\ zstep ss ss' /\ sa ss' g = GOAL_ZONE.
Proof.
  induction fuel as [|fuel IH]; intros ss g Hl Hg Hc; [lia|]. cbn [plateau]. destruct Hg as (Hgt & HgR & Hgh).
  rewrite (vget_nth _ _ UNREACHED) by (now rewrite Hl). cbn [bind]. fold (sa ss g).
  destruct (pstat_eqb (sa ss g) GOAL_ZONE) eqn:E.
  - apply pstat_eqb_spec in E. exists ss. splits; auto. now apply zstep_refl.
  - assert (Hng : sa ss g <> GOAL_ZONE) by (intros H; apply pstat_eqb_spec in H; congruence).
    set (ss1 := upd ss g GOAL_ZONE).
    assert (Hs1 : forall p, sa ss1 p = if g =? p then GOAL_ZONE else sa ss p) by (intros p; unfold sa, ss1; apply nth_upd; now rewrite Hl).
    pose proof (zcnt_upd ss g ltac:(now rewrite Hl) Hng) as Hcnt. fold ss1 in Hcnt.
    (* the loop: operators in l all have g as an effect *)
    assert (G : forall l a, (forall i, In i l -> exists u, nth_error ops i = Some u /\ In g (l_eff u)) -> length a = tot -> zcnt a < fuel ->
      exists a', fold_outcome (fun ss i =>
             let* c := vget (c_cost st) i in
             if c =? 0 then
               let* su := vget (c_sup st) i in
               match su with None => Ok ss | Some (q, _) => plateau P ops fuel st ss q end
             else Ok ss) l a = Ok a' /\ zstep a a' /\
        forall i q c, In i l -> cc st i = 0 -> supp st i = Some (q, c) -> sa a' q = GOAL_ZONE).
    { induction l as [|i r IHl]; intros a Hlr Hla Hca; cbn [fold_outcome].
      - exists a. splits; auto; [now apply zstep_refl|intros i q c []].
      - destruct (Hlr i (or_introl eq_refl)) as (u & Hu & Heu). assert (Hil : i < length ops) by (apply nth_error_Some; congruence).
        pose proof (b_len _ _ _ _ _ HB) as HL.
        rewrite (vget_nth _ _ 0) by (now rewrite (n_cost _ _ _ _ HL)). cbn [bind]. fold (cc st i).
        assert (Hone : exists a1, (if cc st i =? 0 then
               let* su := vget (c_sup st) i in
               match su with None => Ok a | Some (q, _) => plateau P ops fuel st a q end
             else Ok a) = Ok a1 /\ zstep a a1 /\ forall q c, cc st i = 0 -> supp st i = Some (q, c) -> sa a1 q = GOAL_ZONE).
        { destruct (Nat.eqb_spec (cc st i) 0) as [Ez|Ez]; [|exists a; splits; auto; [now apply zstep_refl|congruence]].
          rewrite (vget_nth _ _ None) by (now rewrite (n_sup _ _ _ _ HL)). cbn [bind]. fold (supp st i).
          destruct (supp st i) as [[q c]|] eqn:Es; [|exists a; splits; auto; [now apply zstep_refl|congruence]].
          destruct (b_sup _ _ _ _ _ HB i u q c Hu Es) as (Hq & _ & Hpre & _). destruct (Hpre q Hq) as [HRq _].
          destruct (Hops u (nth_error_In _ _ Hu)) as (_ & _ & Hqt & _).
          pose proof (b_eff _ _ _ _ _ HB i u q c g Hu (fun f => f) Es Heu) as Hle. pose proof (sup_cost i q c Es).
          destruct (IH a q Hla) as (a1 & E1 & Hz1 & Hq1); auto; [unfold good; splits; auto; lia|].
          exists a1. splits; auto. intros q' c' _ Hs. inversion Hs; subst. exact Hq1. }
        destruct Hone as (a1 & E1 & Hz1 & Hc1). rewrite E1. cbn [bind].
        destruct (IHl a1 (fun j Hj => Hlr j (or_intror Hj)) (z_len _ _ Hz1) ltac:(pose proof (z_cnt _ _ Hz1); lia)) as (a2 & E2 & Hz2 & Hc2).
        exists a2. split; [exact E2|]. split; [eapply zstep_trans; eauto|].
        intros j q c [<-|Hj] Hz Hs; [apply (z_mono _ _ Hz2); eauto|eauto]. }
    destruct (G (occ_from l_eff ops 0 g) ss1) as (ss2 & E2 & Hz2 & Hc2).
    { intros i Hi. now apply occ_from_0 in Hi. }
    { unfold ss1. now rewrite upd_length. }
    { lia. }
    exists ss2. split; [exact E2|]. assert (Hg2 : sa ss2 g = GOAL_ZONE) by (apply (z_mono _ _ Hz2); rewrite Hs1, Nat.eqb_refl; auto).
    split; auto. constructor.
    + apply Hz2.
    + intros p Hp. apply (z_mono _ _ Hz2). rewrite Hs1. now destruct (g =? p).
    + intros p Hp. rewrite (z_same _ _ Hz2 p Hp), Hs1. destruct (Nat.eqb_spec g p) as [->|]; congruence.
    + intros p Hp. destruct (z_new _ _ Hz2 p Hp) as [Hx|Hx]; auto. rewrite Hs1 in Hx. destruct (Nat.eqb_spec g p) as [<-|]; auto.
      right. split; [unfold good; auto|]. intros i u q c Hu He Hz Hs. apply (Hc2 i q c); auto. apply occ_from_0. eauto.
    + pose proof (z_cnt _ _ Hz2). lia.
Qed.

Lemma plateau_spec : exists ss, plateau P ops (S tot) st (c_st st) gp = Ok ss /\ length ss = tot /\ sa ss gp = GOAL_ZONE /\
  (forall p, sa ss p = GOAL_ZONE -> good p /\ zclosed ss p) /\
  (forall p, sa ss p <> GOAL_ZONE -> sa ss p = stt st p).
Proof.
  pose proof (b_len _ _ _ _ _ HB) as HL.
  destruct (plateau_step (S tot) (c_st st) gp) as (ss & E & Hz & Hg).
  - apply (n_st _ _ _ _ HL).
  - unfold good; auto.
  - pose proof (zcnt_le (c_st st)). rewrite (n_st _ _ _ _ HL) in H. lia.
  - exists ss. splits; auto.
    + apply Hz.
    + intros p Hp. destruct (z_new _ _ Hz p Hp) as [Hx|Hx]; auto. fold (stt st p) in Hx. change (sa (c_st st) p) with (stt st p) in Hx.
      destruct (Hstat p); congruence.
    + intros p Hp. exact (z_same _ _ Hz p Hp).
Qed.

(* ---- the cut ---- *)
Section CUT.
Variable ss1 : list pstat.
Hypothesis Hl1 : length ss1 = tot.
Hypothesis Hz1 : forall p, sa ss1 p = GOAL_ZONE -> good p /\ zclosed ss1 p.
Hypothesis Hs1 : forall p, sa ss1 p <> GOAL_ZONE -> sa ss1 p = stt st p.

Definition view (D stk : list nat) (ss : list pstat) : Prop :=
  length ss = tot /\ forall x, sa ss x = if inb (D ++ stk) x then BEFORE_GOAL_ZONE else sa ss1 x.

Record C (ss : list pstat) (stk cut D rest : list nat) (cur : nat) : Prop := {
  k_view : view D stk ss;
  k_nodup : NoDup (D ++ stk);
  k_R : forall x, In x (D ++ stk) -> x < tot /\ R x /\ sa ss1 x <> GOAL_ZONE;
  k_proc : forall x i u c, In x D -> nth_error ops i = Some u -> supp st i = Some (x, c) -> ~ (x = cur /\ In i rest) ->
    In i cut \/ forall e, In e (l_eff u) -> In e (D ++ stk);
  k_cut : forall i, In i cut -> exists u x c, nth_error ops i = Some u /\ supp st i = Some (x, c) /\ In x D /\
    ~ (x = cur /\ In i rest) /\ 0 < cc st i;
  k_cutnd : NoDup cut
}.

Lemma any_zone_spec ss es : length ss = tot -> (forall e, In e es -> e < tot) ->
  exists b, any_zone ss es = Ok b /\ (b = true <-> exists e, In e es /\ sa ss e = GOAL_ZONE).
Proof.
  intros Hl. induction es as [|e r IH]; intros He; cbn [any_zone].
  - exists false. split; auto. split; [discriminate|]. intros (e & [] & _).
  - rewrite (vget_nth _ _ UNREACHED) by (rewrite Hl; apply He; now left). cbn [bind]. fold (sa ss e).
    destruct (pstat_eqb (sa ss e) GOAL_ZONE) eqn:E.
    + exists true. split; auto. split; auto. intros _. exists e. split; [now left|]. now apply pstat_eqb_spec.
    + destruct (IH (fun x Hx => He x (or_intror Hx))) as (b & Eb & Hb). exists b. split; auto. rewrite Hb. split.
      * intros (x & Hx & Hs). exists x. split; auto. now right.
      * intros (x & [<-|Hx] & Hs); [apply pstat_eqb_spec in Hs; congruence|eauto].
Qed.

Lemma push_before_all D es : forall ss stk, view D stk ss -> NoDup (D ++ stk) ->
  (forall x, In x (D ++ stk) -> x < tot /\ R x /\ sa ss1 x <> GOAL_ZONE) ->
  (forall e, In e es -> e < tot /\ R e /\ sa ss1 e <> GOAL_ZONE) ->
  exists ss' stk', fold_outcome push_before es (ss, stk) = Ok (ss', stk') /\ view D stk' ss' /\ NoDup (D ++ stk') /\
    (forall x, In x (D ++ stk') -> x < tot /\ R x /\ sa ss1 x <> GOAL_ZONE) /\
    (forall x, In x (D ++ stk) -> In x (D ++ stk')) /\ (forall e, In e es -> In e (D ++ stk')).
Proof.
  induction es as [|e r IH]; intros ss stk [Hl Hv] Hnd HR Hes; cbn [fold_outcome].
  - exists ss, stk. splits; auto; [split; auto|intros e []].
  - unfold push_before at 1. destruct (Hes e (or_introl eq_refl)) as (Het & HeR & Hez).
    rewrite (vget_nth _ _ UNREACHED) by (now rewrite Hl). cbn [bind]. fold (sa ss e). rewrite Hv.
    destruct (inb (D ++ stk) e) eqn:Ei.
    + cbn [pstat_eqb bind]. apply inb_spec in Ei.
      destruct (IH ss stk) as (ss' & stk' & E & H1 & H2 & H3 & H4 & H5); auto; [split; auto|intros; apply Hes; now right|].
      exists ss', stk'. splits; auto. intros x [<-|Hx]; auto.
    + rewrite (Hs1 e Hez). destruct (Hstat e) as [Hse|Hse].
      { exfalso. apply (b_rd _ _ _ _ _ HB) in HeR. now apply HeR. }
      rewrite Hse. cbn [pstat_eqb guard bind]. apply inb_false in Ei.
      assert (Hin : forall x, In x (D ++ e :: stk) <-> x = e \/ In x (D ++ stk)).
      { intros x. rewrite !in_app_iff. cbn. intuition. }
      destruct (IH (upd ss e BEFORE_GOAL_ZONE) (e :: stk)) as (ss' & stk' & E & H1 & H2 & H3 & H4 & H5).
      * split; [now rewrite upd_length|]. intros x. unfold sa. rewrite nth_upd by (now rewrite Hl). destruct (Nat.eqb_spec e x) as [<-|Hne].
        -- rewrite (proj2 (inb_spec _ _)); auto. apply Hin; auto.
        -- fold (sa ss x). rewrite Hv. destruct (inb (D ++ stk) x) eqn:Ex.
           ++ rewrite (proj2 (inb_spec _ _)); auto. apply Hin. right. now apply inb_spec.
           ++ rewrite (proj2 (inb_false _ _)); auto. intros H. apply Hin in H. destruct H as [->|H]; [congruence|]. apply inb_false in Ex. contradiction.
      * apply (Permutation_NoDup (Permutation_middle D stk e)). constructor; auto.
      * intros x Hx. apply Hin in Hx. destruct Hx as [->|Hx]; auto.
      * intros; apply Hes; now right.
      * exists ss', stk'. split; [exact E|]. splits; auto.
        -- intros x Hx. apply H4. apply Hin; auto.
        -- intros x [<-|Hx]; auto. apply H4. apply Hin; auto.
Qed.

Lemma trigger_cut_C p D stk cut ss i rest u : C ss stk cut (p :: D) (i :: rest) p -> ~ In i rest -> nth_error ops i = Some u ->
  exists ss' stk' cut', trigger_cut P ops st p (ss, stk, cut) i = Ok (ss', stk', cut') /\ C ss' stk' cut' (p :: D) rest p.
Proof.
  intros HC Hir Hu. unfold trigger_cut. pose proof (b_len _ _ _ _ _ HB) as HL.
  assert (Hil : i < length ops) by (apply nth_error_Some; congruence).
  rewrite (vget_nth _ _ None) by (now rewrite (n_sup _ _ _ _ HL)). cbn [bind]. fold (supp st i).
  assert (Hskip : (forall q c, supp st i = Some (q, c) -> q <> p) -> C ss stk cut (p :: D) rest p).
  { intros Hne. destruct HC. constructor; auto.
    - intros x j v c Hx Hv Hs Hnr. apply (k_proc0 x j v c); auto. intros [-> [<-|Hj]]; [apply (Hne p c Hs); auto|apply Hnr; auto].
    - intros j Hj. destruct (k_cut0 j Hj) as (v & x & c & H1 & H2 & H3 & H4 & H5). exists v, x, c. splits; auto.
      intros [-> Hr]. apply H4. split; auto. now right. }
  destruct (supp st i) as [[q c]|] eqn:Es.
  2:{ exists ss, stk, cut. split; auto. apply Hskip. discriminate. }
  destruct (Nat.eqb_spec q p) as [->|Hne].
  2:{ exists ss, stk, cut. split; auto. apply Hskip. intros q' c' E. inversion E; subst. auto. }
  rewrite (vget_nth _ _ u) by auto. rewrite (nth_error_nth _ _ _ Hu). cbn [bind].
  destruct (Hops u (nth_error_In _ _ Hu)) as (_ & _ & _ & Het).
  destruct (b_sup _ _ _ _ _ HB i u p c Hu Es) as (Hq & _ & Hpre & Heff).
  destruct HC as [[Hvl Hv] Hnd HR Hproc Hcut Hcnd].
  destruct (any_zone_spec ss (l_eff u) Hvl Het) as (b & Eb & Hb). rewrite Eb. cbn [bind].
  assert (Hz : forall e, sa ss e = GOAL_ZONE <-> sa ss1 e = GOAL_ZONE).
  { intros e. rewrite Hv. destruct (inb ((p :: D) ++ stk) e) eqn:Ee; [|reflexivity].
    apply inb_spec in Ee. split; [discriminate|]. intros H. destruct (HR e Ee) as (_ & _ & H'). contradiction. }
  destruct b.
  - destruct (proj1 Hb eq_refl) as (e & He & Hze). apply Hz in Hze.
    rewrite (vget_nth _ _ 0) by (now rewrite (n_cost _ _ _ _ HL)). cbn [bind]. fold (cc st i).
    assert (Hcpos : 0 < cc st i).
    { destruct (Nat.eq_dec (cc st i) 0) as [E0|]; [|lia]. exfalso.
      destruct (Hz1 e Hze) as [_ Hcl]. specialize (Hcl i u p c Hu He E0 Es).
      destruct (HR p ltac:(now left)) as (_ & _ & H'). contradiction. }
    rewrite (proj2 (Nat.ltb_lt _ _) Hcpos). cbn [guard bind].
    exists ss, stk, (cut ++ [i]). split; [reflexivity|]. constructor; auto.
    + split; auto.
    + intros x j v k Hx Hv' Hs Hnr. destruct (Nat.eq_dec i j) as [<-|Hij]; [left; apply in_or_app; right; now left|].
      destruct (Hproc x j v k Hx Hv' Hs) as [H|H]; auto; [intros [-> [<-|Hj]]; [congruence|apply Hnr; auto]|left; apply in_or_app; auto].
    + intros j Hj. apply in_app_iff in Hj. destruct Hj as [Hj|[<-|[]]].
      * destruct (Hcut j Hj) as (v & x & k & H1 & H2 & H3 & H4 & H5). exists v, x, k. splits; auto. intros [-> Hr]. apply H4. split; auto. now right.
      * exists u, p, c. splits; auto; [now left|tauto].
    + apply (Permutation_NoDup (Permutation_cons_append cut i)). constructor; auto.
      intros Hin. destruct (Hcut i Hin) as (v & x & k & H1 & H2 & H3 & H4 & H5). rewrite Es in H2. inversion H2; subst. apply H4. split; auto. now left.
  - destruct (push_before_all (p :: D) (l_eff u) ss stk (conj Hvl Hv) Hnd HR) as (ss' & stk' & E & H1 & H2 & H3 & H4 & H5).
    { intros e He. splits; auto. intros Hze. assert (false = true) by (apply Hb; exists e; split; auto; now apply Hz). discriminate. }
    rewrite E. cbn [bind]. exists ss', stk', cut. split; [reflexivity|]. constructor; auto.
    + intros x j v k Hx Hv' Hs Hnr. destruct (Nat.eq_dec i j) as [<-|Hij].
      * rewrite Hu in Hv'; inversion Hv'; subst v. right. auto.
      * destruct (Hproc x j v k Hx Hv' Hs) as [H|H]; auto. intros [-> [<-|Hj]]; [congruence|apply Hnr; auto].
    + intros j Hj. destruct (Hcut j Hj) as (v & x & k & G1 & G2 & G3 & G4 & G5). exists v, x, k. splits; auto. intros [-> Hr]. apply G4. split; auto. now right.
Qed.

Lemma triggers_cut_C p D l : forall ss stk cut, NoDup l -> (forall i, In i l -> i < length ops) -> C ss stk cut (p :: D) l p ->
  exists ss' stk' cut', fold_outcome (trigger_cut P ops st p) l (ss, stk, cut) = Ok (ss', stk', cut') /\ C ss' stk' cut' (p :: D) [] p.
Proof.
  induction l as [|i r IH]; intros ss stk cut Hnd Hl HC; cbn [fold_outcome].
  - exists ss, stk, cut. auto.
  - inversion Hnd as [|? ? Hi Hr]; subst.
    destruct (nth_error ops i) as [u|] eqn:Hu; [|apply nth_error_None in Hu; specialize (Hl i (or_introl eq_refl)); lia].
    destruct (trigger_cut_C p D stk cut ss i r u HC Hi Hu) as (ss' & stk' & cut' & E & HC'). rewrite E. cbn [bind].
    apply IH; auto. intros; apply Hl; now right.
Qed.

Lemma second_loop_C fuel : forall ss stk cut D cur, C ss stk cut D [] cur -> tot - length D < fuel ->
  exists ss' cut' D', second_loop P ops fuel st ss stk cut = Ok (ss', cut') /\ C ss' [] cut' D' [] cur /\ (forall x, In x (D ++ stk) -> In x D').
Proof.
  induction fuel as [|fuel IH]; intros ss stk cut D cur HC Hf; [lia|]. cbn [second_loop]. destruct stk as [|p stk].
  - exists ss, cut, D. splits; auto. intros x. now rewrite app_nil_r.
  - destruct (triggers_cut_C p D (occ_from l_pre ops 0 p) ss stk cut) as (ss' & stk' & cut' & E & HC').
    { apply occ_from_nodup. intros u Hu. now apply Hops. }
    { intros i Hi. apply occ_from_0 in Hi. destruct Hi as (u & Hu & _). apply nth_error_Some. congruence. }
    { assert (Hin : forall x, In x ((p :: D) ++ stk) <-> In x (D ++ p :: stk)).
      { intros x. cbn [app]. rewrite !in_app_iff. cbn. rewrite in_app_iff. intuition. }
      assert (Hinb : forall x, inb ((p :: D) ++ stk) x = inb (D ++ p :: stk) x).
      { intros x. destruct (inb (D ++ p :: stk) x) eqn:Ex.
        - apply inb_spec. apply Hin. now apply inb_spec.
        - apply inb_false. intros H. apply Hin in H. apply inb_false in Ex. contradiction. }
      destruct HC as [[Hvl Hv] Hnd HR Hproc Hcut Hcnd].
      assert (HpD : ~ In p D) by (apply NoDup_remove_2 in Hnd; intros H; apply Hnd; apply in_or_app; auto).
      constructor; auto.
      - split; auto. intros x. now rewrite Hinb.
      - apply (Permutation_NoDup (Permutation_sym (Permutation_middle D stk p))). exact Hnd.
      - intros x Hx. apply HR. now apply Hin.
      - intros x i u c [<-|Hx] Hu Hs Hnr.
        + exfalso. apply Hnr. split; auto. apply occ_from_0. exists u. split; auto. now apply (b_sup _ _ _ _ _ HB i u p c).
        + destruct (Hproc x i u c Hx Hu Hs ltac:(intros [_ []])) as [H|H]; auto. right. intros e He. apply Hin. auto.
      - intros i Hi. destruct (Hcut i Hi) as (v & x & c & G1 & G2 & G3 & G4 & G5). exists v, x, c. splits; auto; [now right|].
        intros [-> _]. contradiction. }
    rewrite E. cbn [bind].
    assert (HD : length (p :: D) <= tot).
    { pose proof (k_nodup _ _ _ _ _ _ HC') as Hnd. assert (Hi : incl ((p :: D) ++ stk') (seq 0 tot)).
      { intros x Hx. apply in_seq. destruct (k_R _ _ _ _ _ _ HC' x Hx). lia. }
      pose proof (NoDup_incl_length Hnd Hi) as Hle. rewrite app_length, seq_length in Hle. lia. }
    cbn [length] in HD.
    destruct (IH ss' stk' cut' (p :: D) cur) as (ss2 & cut2 & D2 & E2 & HC2 & Hin2).
    { destruct HC'. constructor; auto.
      - intros x i u c Hx Hu Hs _. apply (k_proc0 x i u c); auto. intros [_ []].
      - intros i Hi. destruct (k_cut0 i Hi) as (v & x & c & G1 & G2 & G3 & G4 & G5). exists v, x, c. splits; auto. intros [_ []]. }
    { cbn [length]. lia. }
    exists ss2, cut2, D2. splits; auto. intros x Hx. apply Hin2. apply in_app_iff in Hx. destruct Hx as [Hx|[<-|Hx]].
    + apply in_or_app. left. now right.
    + now left.
    + pose proof (k_view _ _ _ _ _ _ HC') as [_ Hv']. pose proof (k_view _ _ _ _ _ _ HC) as [_ Hv].
      (* the stack only grows *)
      clear -E Hx HC HC'. revert E. generalize (occ_from l_pre ops 0 p) as l.
      assert (G : forall l ss stk cut ss' stk' cut', fold_outcome (trigger_cut P ops st p) l (ss, stk, cut) = Ok (ss', stk', cut') ->
                 forall x, In x stk -> In x stk').
      { clear. induction l as [|i r IH]; intros ss stk cut ss' stk' cut' E x Hx; cbn [fold_outcome] in E; [inversion E; subst; auto|].
        bindinv E. destruct x0 as [[ssb stkb] cutb]. apply (IH _ _ _ _ _ _ E). unfold trigger_cut in Hx0. bindinv Hx0.
        destruct x0 as [[q c]|]; [|inversion Hx0; subst; auto]. destruct (q =? p); [|inversion Hx0; subst; auto].
        bindinv Hx0. bindinv Hx0. destruct x1.
        - bindinv Hx0. bindinv Hx0. inversion Hx0; subst; auto.
        - bindinv Hx0. destruct x1 as [sx kx]. inversion Hx0; subst.
          assert (G2 : forall es ss stk ss' stk', fold_outcome push_before es (ss, stk) = Ok (ss', stk') -> In x stk -> In x stk').
          { clear. induction es as [|e r IH]; intros ss stk ss' stk' E Hx; cbn [fold_outcome] in E; [inversion E; subst; auto|].
            bindinv E. destruct x0 as [sa ka]. apply (IH _ _ _ _ E). unfold push_before in Hx0. bindinv Hx0.
            destruct (pstat_eqb x0 BEFORE_GOAL_ZONE); [inversion Hx0; subst; auto|]. bindinv Hx0. inversion Hx0; subst. now right. }
          eapply G2; eauto. }
      intros l El. apply in_or_app. right. eapply G; eauto.
Qed.

Theorem second_spec : exists ss cut D, second_exploration P ops tot ap st ss1 I = Ok (ss, cut) /\ C ss [] cut D [] 0 /\
  forall x, In x (ap :: I) -> In x D.
Proof.
  unfold second_exploration.
  assert (Hinit : forall p, In p (ap :: I) -> p < tot /\ R p /\ sa ss1 p <> GOAL_ZONE).
  { intros p Hp. destruct (b_init _ _ _ _ _ HB p Hp) as [HR Hh]. splits; auto.
    - destruct Hp as [<-|Hp]; auto.
    - intros Hz. destruct (Hz1 p Hz) as [(_ & _ & Hge) _]. lia. }
  assert (G : forall l ss stk, view [] stk ss -> NoDup (l ++ stk) -> (forall p, In p l -> p < tot) ->
    exists ss' stk', fold_outcome set_before l (ss, stk) = Ok (ss', stk') /\ view [] stk' ss' /\ NoDup stk' /\ (forall x, In x stk' <-> In x (l ++ stk))).
  { induction l as [|p r IH]; intros ss stk [Hl Hv] Hnd Hlt; cbn [fold_outcome].
    - exists ss, stk. splits; auto; [split; auto|reflexivity].
    - unfold set_before at 1. cbn [fst snd]. rewrite vset_lt by (rewrite Hl; apply Hlt; now left). cbn [bind].
      inversion Hnd as [|? ? Hp Hr]; subst.
      destruct (IH (upd ss p BEFORE_GOAL_ZONE) (p :: stk)) as (ss' & stk' & E & H1 & H2 & H3).
      + split; [now rewrite upd_length|]. intros x. unfold sa. rewrite nth_upd by (rewrite Hl; apply Hlt; now left).
        cbn [app]. unfold inb. cbn [existsb]. rewrite (Nat.eqb_sym x p). destruct (Nat.eqb_spec p x) as [<-|Hne]; cbn [orb]; auto.
        fold (sa ss x). rewrite Hv. reflexivity.
      + apply (Permutation_NoDup (Permutation_middle r stk p)). constructor; auto.
      + intros; apply Hlt; now right.
      + exists ss', stk'. split; [exact E|]. splits; auto. intros x. rewrite H3. cbn [app]. rewrite !in_app_iff. cbn. rewrite in_app_iff. intuition. }
  destruct (G (ap :: I) ss1 []) as (ss' & stk' & E & H1 & H2 & H3).
  - split; auto.
  - now rewrite app_nil_r.
  - intros p Hp. now apply Hinit.
  - rewrite E. cbn [bind fst snd].
    assert (HC0 : C ss' stk' [] [] [] 0).
    { constructor; auto.
      - intros x Hx. cbn [app] in Hx. apply H3 in Hx. rewrite app_nil_r in Hx. auto.
      - intros; contradiction.
      - constructor. }
    destruct (second_loop_C (S tot) ss' stk' [] [] 0 HC0) as (ss2 & cut & D & E2 & HC2 & Hin); [cbn; lia|].
    exists ss2, cut, D. splits; auto. intros x Hx. apply Hin. cbn [app]. apply H3. now rewrite app_nil_r.
Qed.

(** Every way to reach the goal uses an operator of the cut. *)
Lemma cut_landmark ss cut D O : C ss [] cut D [] 0 -> (forall x, In x (ap :: I) -> In x D) ->
  forall p, lreach ops O (ap :: I) p -> In p D \/ exists i, In i cut /\ O i.
Proof.
  intros HC Hin p Hp. induction Hp as [p Hp|i u e Hi Hu He Hq IH]; auto.
  assert (Hcase : (forall q, In q (l_pre u) -> In q D) \/ exists i, In i cut /\ O i).
  { clear Hq. induction (l_pre u) as [|a r IHr]; [left; intros q []|].
    destruct (IH a (or_introl eq_refl)) as [Ha|Ha]; auto. destruct IHr as [Hr|Hr]; auto; [intros; apply IH; now right|].
    left. intros q [<-|Hq]; auto. }
  destruct Hcase as [Hall|]; auto.
  assert (HR : forall q, In q (l_pre u) -> R q).
  { intros q Hq'. apply (k_R _ _ _ _ _ _ HC). rewrite app_nil_r. auto. }
  pose proof (b_closed _ _ _ _ _ HB i u Hu HR) as Hs. destruct (supp st i) as [[x c]|] eqn:Es; [|congruence].
  destruct (b_sup _ _ _ _ _ HB i u x c Hu Es) as (Hx & _).
  destruct (k_proc _ _ _ _ _ _ HC x i u c (Hall x Hx) Hu Es ltac:(intros [_ []])) as [H|H].
  - right. eauto.
  - left. rewrite app_nil_r in H. auto.
Qed.
End CUT.
End ROUND.

(* ---- operator costs ---- *)
Definition oc (costs : list nat) (i : nat) : nat := nth i costs 0.

Lemma reduce_all cut m : forall costs, NoDup cut -> (forall i, In i cut -> i < length costs /\ m <= oc costs i) ->
  exists costs', fold_outcome (reduce m) cut costs = Ok costs' /\ length costs' = length costs /\
    (forall i, In i cut -> oc costs' i = oc costs i - m) /\ (forall i, ~ In i cut -> oc costs' i = oc costs i).
Proof.
  induction cut as [|i r IH]; intros costs Hnd Hc; cbn [fold_outcome].
  - exists costs. splits; auto. intros i [].
  - inversion Hnd as [|? ? Hi Hr]; subst. destruct (Hc i (or_introl eq_refl)) as [Hl Hm]. unfold reduce at 1.
    rewrite (vget_nth _ _ 0) by auto. cbn [bind]. fold (oc costs i). rewrite (proj2 (Nat.leb_le _ _) Hm). cbn [guard bind].
    rewrite vset_lt by auto. cbn [bind].
    assert (Hn : forall j, oc (upd costs i (oc costs i - m)) j = if i =? j then oc costs i - m else oc costs j) by (intros j; unfold oc; now apply nth_upd).
    destruct (IH (upd costs i (oc costs i - m)) Hr) as (c' & E & Hl' & H1 & H2).
    { intros j Hj. rewrite upd_length, Hn. destruct (Hc j (or_intror Hj)). destruct (Nat.eqb_spec i j); [subst; contradiction|auto]. }
    exists c'. split; [exact E|]. rewrite upd_length in Hl'. splits; auto.
    + intros j [<-|Hj].
      * rewrite (H2 _ Hi), Hn, Nat.eqb_refl. reflexivity.
      * rewrite (H1 j Hj), Hn. destruct (Nat.eqb_spec i j); [subst; contradiction|reflexivity].
    + intros j Hj. rewrite H2, Hn; [|intros H; apply Hj; now right]. destruct (Nat.eqb_spec i j); [exfalso; apply Hj; now left|reflexivity].
Qed.

Lemma vgets_spec costs l : (forall i, In i l -> i < length costs) -> vgets costs l = Ok (map (oc costs) l).
Proof.
  induction l as [|i r IH]; intros Hl; cbn [vgets]; auto.
  rewrite (vget_nth _ _ 0) by (apply Hl; now left). cbn [bind]. rewrite IH by (intros; apply Hl; now right). reflexivity.
Qed.
Lemma min_of_spec l m : min_of l = Ok m -> In m l /\ forall x, In x l -> m <= x.
Proof.
  destruct l as [|a r]; [discriminate|]. cbn [min_of]. intros H. inversion H; subst. clear H.
  assert (G : forall r a, (fold_left Nat.min r a = a \/ In (fold_left Nat.min r a) r) /\ fold_left Nat.min r a <= a /\
     forall x, In x r -> fold_left Nat.min r a <= x).
  { clear. induction r as [|b r IH]; intros a; cbn [fold_left]; [splits; auto; intros x []|].
    destruct (IH (Nat.min a b)) as (H1 & H2 & H3). splits; [|lia|].
    - destruct H1 as [H1|H1]; [|right; now right]. destruct (Nat.min_spec a b) as [[_ E]|[_ E]]; rewrite E in *; rewrite H1; [now left|right; now left].
    - intros x [<-|Hx]; auto. lia. }
  destruct (G r a) as (H1 & H2 & H3). split; [destruct H1 as [->|]; [now left|now right]|]. intros x [<-|Hx]; auto.
Qed.

Lemma sum_reduced costs costs' cut m os : (forall i, In i cut -> oc costs' i = oc costs i - m /\ m <= oc costs i) ->
  (forall i, ~ In i cut -> oc costs' i = oc costs i) ->
  list_sum (map (oc costs') os) <= list_sum (map (oc costs) os) /\
  ((exists i, In i cut /\ In i os) -> m + list_sum (map (oc costs') os) <= list_sum (map (oc costs) os)).
Proof.
  intros H1 H2. assert (Hle : forall i, oc costs' i <= oc costs i).
  { intros i. destruct (in_dec Nat.eq_dec i cut) as [H|H]; [destruct (H1 i H); lia|rewrite H2; auto]. }
  induction os as [|o r [IH1 IH2]].
  - split; auto. intros (i & _ & []).
  - cbn [map]. change (list_sum (oc costs' o :: map (oc costs') r)) with (oc costs' o + list_sum (map (oc costs') r)).
    change (list_sum (oc costs o :: map (oc costs) r)) with (oc costs o + list_sum (map (oc costs) r)).
    pose proof (Hle o). split; [lia|]. intros (i & Hi & [->|Hr]).
    + destruct (H1 i Hi). lia.
    + specialize (IH2 (ex_intro _ i (conj Hi Hr))). lia.
Qed.

Lemma sum_seq costs : list_sum costs = list_sum (map (oc costs) (seq 0 (length costs))).
Proof.
  f_equal. apply nth_error_ext. intros i. destruct (Nat.lt_ge_cases i (length costs)) as [H|H].
  - rewrite nth_error_map. rewrite (nth_error_nth' (seq 0 (length costs)) 0) by (now rewrite seq_length). cbn [option_map].
    rewrite seq_nth by auto. cbn. unfold oc. now apply nth_error_nth'.
  - rewrite (proj2 (nth_error_None _ _) H). symmetry. apply nth_error_None. rewrite map_length, seq_length. exact H.
Qed.

Definition ids_of (cut : list nat) : list (option nat) := map (fun i => match nth_error ops i with Some u => l_id u | None => None end) cut.
Lemma cut_ids_spec cut : (forall i, In i cut -> i < length ops) -> cut_ids ops cut = Ok (ids_of cut).
Proof.
  intros Hc. unfold cut_ids.
  assert (G : forall l acc, (forall i, In i l -> i < length ops) ->
     fold_outcome (fun l i => let* u := vget ops i in Ok (l ++ [l_id u])) l acc = Ok (acc ++ ids_of l)).
  { induction l as [|i r IH]; intros acc Hl; cbn [fold_outcome ids_of map]; [now rewrite app_nil_r|].
    unfold vget. destruct (nth_error ops i) as [u|] eqn:Hu; [|apply nth_error_None in Hu; specialize (Hl i (or_introl eq_refl)); lia].
    cbn [bind]. rewrite IH by (intros; apply Hl; now right). now rewrite <- app_assoc. }
  apply (G cut []); auto.
Qed.

(** What is claimed of a reported landmark. *)
Definition lm_good (x : list (option nat) * nat) : Prop :=
  exists cut, fst x = ids_of cut /\ 0 < snd x /\ cut <> [] /\ NoDup cut /\
    (forall i, In i cut -> exists u, nth_error ops i = Some u /\ snd x <= l_base u) /\
    forall O, lreach ops O (ap :: I) gp -> exists i, In i cut /\ O i.

Definition cutsum (cuts : list (list nat * nat)) (i : nat) : nat :=
  list_sum (map (fun x : list nat * nat => if inb (fst x) i then snd x else 0) cuts).
Lemma lreach_mono (O O' : nat -> Prop) J p : (forall i, O i -> O' i) -> lreach ops O J p -> lreach ops O' J p.
Proof. intros Hi. induction 1; [now apply lr_init|eapply lr_op; eauto]. Qed.

Theorem rounds_spec fuel : forall R st acc, B R st [] [] 0 -> bg st = [] ->
  (forall p, stt st p = UNREACHED \/ stt st p = REACHED) -> R gp ->
  (forall i u, nth_error ops i = Some u -> cc st i <= l_base u) ->
  lreach ops (fun _ => True) (ap :: I) gp ->
  list_sum (c_cost st) < fuel ->
  exists lms, rounds P ops tot gp ap fuel st I acc = Ok (acc ++ lms) /\
    (forall x, In x lms -> lm_good x) /\
    (exists cuts, lms = map (fun x => (ids_of (fst x), snd x)) cuts /\ (forall i, cutsum cuts i <= oc (c_cost st) i) /\
       lreach ops (fun i => oc (c_cost st) i = cutsum cuts i) (ap :: I) gp) /\
    forall os, lreach ops (fun i => In i os) (ap :: I) gp ->
      list_sum (map snd lms) <= list_sum (map (oc (c_cost st)) os).
Proof.
  induction fuel as [|fuel IH]; intros R st acc HB Hbe Hstat HRg Hbase Hreach Hf; [lia|].
  cbn [rounds]. pose proof (b_len _ _ _ _ _ HB) as HL.
  rewrite (vget_nth _ _ 0) by (now rewrite (n_h _ _ _ _ HL)). cbn [bind]. fold (hh st gp).
  destruct (Nat.eqb_spec (hh st gp) 0) as [Ez|Ez].
  { exists []. rewrite app_nil_r. splits; auto; [intros x []| |intros; cbn; lia].
    exists []. splits; auto; [intros; cbn; lia|]. cbn. now apply (b_sound _ _ _ _ _ HB gp HRg). }
  destruct (plateau_spec R st HB Hbe Hstat HRg Ez) as (ss1 & E1 & Hl1 & Hg1 & Hz1 & Hs1). rewrite E1. cbn [bind].
  destruct (second_spec R st HB Hstat Ez ss1 Hl1 Hz1 Hs1) as (ss2 & cut & D & E2 & HC & HD). rewrite E2. cbn [bind].
  assert (Hlm : forall O, lreach ops O (ap :: I) gp -> exists i, In i cut /\ O i).
  { intros O HO. destruct (cut_landmark R st HB ss1 ss2 cut D O HC HD gp HO) as [H|H]; auto.
    exfalso. destruct (k_R _ _ _ _ _ _ _ _ _ HC gp) as (_ & _ & Hn); [now rewrite app_nil_r|]. contradiction. }
  assert (Hcl : forall i, In i cut -> i < length ops /\ 0 < cc st i /\ supp st i <> None).
  { intros i Hi. destruct (k_cut _ _ _ _ _ _ _ _ _ HC i Hi) as (u & x & c & H1 & H2 & _ & _ & H5). splits; auto; [|congruence].
    apply nth_error_Some. congruence. }
  rewrite vgets_spec by (intros i Hi; rewrite (n_cost _ _ _ _ HL); now apply Hcl). cbn [bind].
  destruct (Hlm _ Hreach) as (i0 & Hi0 & _).
  destruct (min_of (map (oc (c_cost st)) cut)) as [m| | |] eqn:Em;
    try (exfalso; destruct cut; [destruct Hi0|discriminate]).
  destruct (min_of_spec _ _ Em) as [Hmin Hmle]. cbn [bind].
  assert (Hm : forall i, In i cut -> m <= oc (c_cost st) i) by (intros i Hi; apply Hmle; now apply in_map).
  assert (Hmpos : 0 < m) by (apply in_map_iff in Hmin; destruct Hmin as (i & <- & Hi); now apply Hcl).
  destruct (reduce_all cut m (c_cost st) (k_cutnd _ _ _ _ _ _ _ _ _ HC)) as (costs & Ec & Hcl' & Hr1 & Hr2).
  { intros i Hi. split; auto. rewrite (n_cost _ _ _ _ HL). now apply Hcl. }
  rewrite Ec. cbn [bind]. rewrite cut_ids_spec by (intros i Hi; now apply Hcl). cbn [bind].
  set (st1 := {| c_st := ss2; c_h := c_h st; c_cost := costs; c_unsat := c_unsat st; c_sup := c_sup st; c_q := c_q st |}).
  destruct (k_view _ _ _ _ _ _ _ _ _ HC) as [Hvl Hv].
  assert (Hrd1 : forall p, rd st1 p <-> R p).
  { intros p. unfold Proof_LMCut1.rd, Proof_LMCut1.stt. cbn [c_st st1]. change (nth p ss2 UNREACHED) with (sa ss2 p). rewrite Hv.
    destruct (inb (D ++ []) p) eqn:Ep.
    - apply inb_spec in Ep. split; [intros _|discriminate]. now apply (k_R _ _ _ _ _ _ _ _ _ HC).
    - destruct (pstat_dec (sa ss1 p) GOAL_ZONE) as [Hz|Hz].
      + rewrite Hz. split; [intros _|discriminate]. destruct (Hz1 p Hz) as [(_ & H & _) _]. exact H.
      + rewrite (Hs1 p Hz). apply (b_rd _ _ _ _ _ HB p). }
  assert (HB1 : B R st1 cut [] 0).
  { destruct HB. constructor; auto.
    - destruct HL. constructor; cbn; auto. now rewrite Hcl'.
    - intros i u q c e Hu Hi Hs He. change (hh st1 e) with (hh st e). unfold Proof_LMCut1.cc. cbn [c_cost st1]. fold (oc costs i).
      rewrite (Hr2 i Hi). exact (b_eff0 i u q c e Hu (fun f => f) Hs He).
    - intros p Hp. destruct (b_sound0 p Hp) as [Hz2 Hz3]. split; auto. intros E0. eapply lreach_mono; [|apply Hz3; exact E0].
      cbn beta. cbn [c_cost st1]. intros i Hi. change (oc costs i = 0). change (oc (c_cost st) i = 0) in Hi.
      destruct (in_dec Nat.eq_dec i cut) as [Hx|Hx]; [rewrite Hr1 by auto|rewrite Hr2 by auto]; lia. }
  destruct (incremental_B R st1 cut HB1 Hbe) as (st2 & E3 & HB2 & Hb2 & Ec2).
  { intros i Hi. split; [|change (supp st1 i) with (supp st i)]; now apply Hcl. }
  rewrite E3. cbn [bind]. pose proof (b_len _ _ _ _ _ HB2) as HL2.
  unfold reset_status. set (f := fun s => match s with GOAL_ZONE | BEFORE_GOAL_ZONE => REACHED | _ => s end).
  rewrite vset_lt by (rewrite map_length, (n_st _ _ _ _ HL2); auto). cbn [bind].
  rewrite vset_lt by (rewrite upd_length, map_length, (n_st _ _ _ _ HL2); auto). cbn [bind].
  set (ss3 := upd (upd (map f (c_st st2)) gp REACHED) ap REACHED).
  set (st3 := {| c_st := ss3; c_h := c_h st2; c_cost := c_cost st2; c_unsat := c_unsat st2; c_sup := c_sup st2; c_q := c_q st2 |}).
  assert (Hst3 : forall p, stt st3 p = if ap =? p then REACHED else if gp =? p then REACHED else f (stt st2 p)).
  { intros p. unfold Proof_LMCut1.stt; cbn [c_st st3]. unfold ss3.
    rewrite nth_upd by (rewrite upd_length, map_length, (n_st _ _ _ _ HL2); auto).
    rewrite nth_upd by (rewrite map_length, (n_st _ _ _ _ HL2); auto).
    change UNREACHED with (f UNREACHED) at 1. now rewrite map_nth. }
  assert (HRap : R ap) by (apply (b_init _ _ _ _ _ HB ap); now left).
  assert (HB3 : B R st3 [] [] 0).
  { destruct HB2. constructor; auto.
    - destruct HL2. constructor; cbn; auto. unfold ss3. now rewrite !upd_length, map_length.
    - intros p. unfold Proof_LMCut1.rd. rewrite Hst3. rewrite <- (b_rd0 p). destruct (Nat.eqb_spec ap p) as [<-|].
      { split; [intros _; now apply b_rd0|discriminate]. }
      destruct (Nat.eqb_spec gp p) as [<-|].
      { split; [intros _; now apply b_rd0|discriminate]. }
      unfold Proof_LMCut1.rd. destruct (stt st2 p); cbn; split; congruence. }
  destruct (IH R st3 (acc ++ [(ids_of cut, m)])) as (lms & E4 & Hg4 & (cuts & Ecs & Hcs & Hcl4) & Hs4); auto.
  { intros p. rewrite Hst3. destruct (ap =? p); auto. destruct (gp =? p); auto. destruct (stt st2 p); cbn; auto. }
  { intros i u Hu. unfold Proof_LMCut1.cc. cbn [c_cost st3]. rewrite Ec2. cbn [c_cost st1]. fold (oc costs i).
    pose proof (Hbase i u Hu) as Hbi. unfold Proof_LMCut1.cc in Hbi. fold (oc (c_cost st) i) in Hbi.
    destruct (in_dec Nat.eq_dec i cut) as [Hi|Hi]; [rewrite Hr1 by auto; lia|rewrite Hr2; auto]. }
  { cbn [c_cost st3]. rewrite Ec2. cbn [c_cost st1].
    destruct (sum_reduced (c_cost st) costs cut m (seq 0 (length (c_cost st)))) as [_ Hs]; auto.
    rewrite (sum_seq costs), Hcl'. specialize (Hs ltac:(exists i0; split; auto; apply in_seq; rewrite (n_cost _ _ _ _ HL); split; [lia|]; now apply Hcl)).
    rewrite (sum_seq (c_cost st)) in Hf. lia. }
  exists ((ids_of cut, m) :: lms). rewrite <- app_assoc in E4. split; [exact E4|]. split; [|split].
  - intros x [<-|Hx]; auto. exists cut. cbn [fst snd]. splits; auto; [intros ->; destruct Hi0|exact (k_cutnd _ _ _ _ _ _ _ _ _ HC)|].
    intros i Hi. destruct (nth_error ops i) as [u|] eqn:Hu; [|apply nth_error_None in Hu; destruct (Hcl i Hi); lia].
    exists u. split; auto. pose proof (Hbase i u Hu) as Hbi. pose proof (Hm i Hi). unfold Proof_LMCut1.cc in Hbi. unfold oc in *. lia.
  - cbn [c_cost st3] in Hcs, Hcl4. rewrite Ec2 in Hcs, Hcl4. cbn [c_cost st1] in Hcs, Hcl4.
    assert (Hsum : forall i, cutsum ((cut, m) :: cuts) i = (if inb cut i then m else 0) + cutsum cuts i) by reflexivity.
    assert (Heq : forall i, oc (c_cost st) i = (if inb cut i then m else 0) + oc costs i).
    { intros i. destruct (inb cut i) eqn:Ei; [apply inb_spec in Ei; rewrite Hr1 by auto; specialize (Hm i Ei); lia|].
      apply inb_false in Ei. rewrite Hr2; auto. }
    exists ((cut, m) :: cuts). splits.
    + cbn [map fst snd]. now rewrite <- Ecs.
    + intros i. rewrite Hsum, Heq. specialize (Hcs i). lia.
    + eapply lreach_mono; [|exact Hcl4]. cbn beta. intros i Hi. rewrite Hsum, Heq. lia.
  - intros os Hos. specialize (Hs4 os Hos). cbn [c_cost st3] in Hs4. rewrite Ec2 in Hs4. cbn [c_cost st1] in Hs4.
    destruct (sum_reduced (c_cost st) costs cut m os) as [_ Hs]; auto. specialize (Hs (Hlm _ Hos)).
    cbn [map snd]. change (list_sum (m :: map snd lms)) with (m + list_sum (map snd lms)). lia.
Qed.

(** After the first exploration. *)
Lemma A_B st D : A P bag ops tot ap I st D [] [] (ap :: I) -> bg st = [] -> B (rd st) st [] [] 0.
Proof.
  intros HA Hb.
  assert (HinD : forall p, rd st p -> In p D).
  { intros p Hp. destruct (a_pend _ _ _ _ _ _ _ _ _ _ _ HA p Hp) as [H|H]; auto. unfold Proof_LMCut1.bg in *. rewrite Hb in H. destruct H. }
  destruct HA. constructor; auto.
  - intros p. reflexivity.
  - rewrite Hb. intros k p [].
  - intros i u Hu HR Hs. specialize (a_sup i u Hu). rewrite Hs in a_sup. apply a_sup. intros q Hq. apply HinD. auto.
  - intros i u q c Hu Hs. pose proof (a_sup i u Hu) as H. rewrite Hs in H. destruct H as (H1 & H2 & H3 & H4). splits; auto.
    + rewrite (a_un i u Hu). now apply npre_0.
    + intros e He. now apply (a_eff i u q c e).
  - intros i u q c e Hu Hi Hs He. now apply (a_eff i u q c e).
  - rewrite a_cost. exact a_sound.
  - intros i q c Hs. left. assert (Hil : i < length ops).
    { rewrite <- (n_sup _ _ _ _ a_len). destruct (Nat.lt_ge_cases i (length (c_sup st))) as [Hl|Hl]; auto.
      unfold Proof_LMCut1.supp in Hs. rewrite nth_overflow in Hs by auto. discriminate. }
    destruct (nth_error ops i) as [u|] eqn:Hu; [|apply nth_error_None in Hu; lia].
    pose proof (a_sup i u Hu) as H. rewrite Hs in H. apply H.
Qed.

Theorem landmarks_spec q0 h0 : length h0 = tot ->
  exists r, landmarks P ops tot gp ap q0 h0 I = Ok r /\
    match r with
    | None => ~ lreach ops (fun _ => True) (ap :: I) gp
    | Some lms => lreach ops (fun _ => True) (ap :: I) gp /\ (forall x, In x lms -> lm_good x) /\
        (exists cuts, lms = map (fun x => (ids_of (fst x), snd x)) cuts /\ (forall i, cutsum cuts i <= oc (map l_base ops) i) /\
           lreach ops (fun i => oc (map l_base ops) i = cutsum cuts i) (ap :: I) gp) /\
        forall os, lreach ops (fun i => In i os) (ap :: I) gp -> list_sum (map snd lms) <= list_sum (map (oc (map l_base ops)) os)
    end.
Proof.
  intros Hh0. unfold landmarks.
  destruct (first_exploration_A P bag HP ops tot gp ap I Hops Hgp Hap HI q0 h0 Hh0) as (st & D & E & HA & Hb).
  rewrite E. cbn [bind]. pose proof (A_B st D HA Hb) as HB. pose proof (a_len _ _ _ _ _ _ _ _ _ _ _ HA) as HL.
  rewrite (vget_nth _ _ UNREACHED) by (now rewrite (n_st _ _ _ _ HL)). cbn [bind]. fold (stt st gp).
  destruct (pstat_eqb (stt st gp) UNREACHED) eqn:Eg.
  - apply pstat_eqb_spec in Eg. exists None. split; auto. intros Hr.
    assert (G : forall p, lreach ops (fun _ => True) (ap :: I) p -> rd st p).
    { intros p Hp. induction Hp as [p Hp|i u e _ Hu He Hq IH]; [now apply (b_init _ _ _ _ _ HB)|].
      pose proof (b_closed _ _ _ _ _ HB i u Hu IH) as Hs. destruct (supp st i) as [[x c]|] eqn:Es; [|congruence].
      now apply (b_sup _ _ _ _ _ HB i u x c Hu Es). }
    now apply (G gp Hr).
  - assert (HR : rd st gp) by (intros H; apply pstat_eqb_spec in H; congruence).
    pose proof (proj1 (a_sound _ _ _ _ _ _ _ _ _ _ _ HA gp HR)) as Hreach.
    destruct (rounds_spec (S (list_sum (c_cost st))) (rd st) st [] HB Hb) as (lms & E2 & Hg & Hcc & Hs); auto.
    { apply (a_stat _ _ _ _ _ _ _ _ _ _ _ HA). }
    { intros i u Hu. unfold Proof_LMCut1.cc. rewrite (a_cost _ _ _ _ _ _ _ _ _ _ _ HA).
      erewrite nth_error_nth by (rewrite nth_error_map, Hu; reflexivity). auto. }
    rewrite E2. cbn [bind app]. exists (Some lms). split; auto. splits; auto.
    + now rewrite (a_cost _ _ _ _ _ _ _ _ _ _ _ HA) in Hcc.
    + intros os Hos. specialize (Hs os Hos). now rewrite (a_cost _ _ _ _ _ _ _ _ _ _ _ HA) in Hs.
Qed.
End LMCUT2.
