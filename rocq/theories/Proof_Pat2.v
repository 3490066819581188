(** Systematic patterns: interesting patterns grow from single-goal patterns. *)
From Coq Require Import Sorting Permutation Relations.
From Verif Require Import Outcome Spec_Task Spec_CausalGraph Spec_Patterns Model_MAS Model_CausalGraph Model_Patterns Proof_CausalGraph Proof_MAS1 Proof_MS6 Proof_Pat1.
Import ListNotations.

Lemma eff_eff_sym t u v : eff_eff t u v -> eff_eff t v u.
Proof. intros (N & op & e & e' & H). split; [auto|]. exists op, e', e. tauto. Qed.

Lemma list_ex_dec (P : nat -> Prop) l : (forall x, In x l -> P x \/ ~ P x) -> (exists x, In x l /\ P x) \/ ~ exists x, In x l /\ P x.
Proof.
  induction l as [|a l IH]; intros H.
  - right. intros (x & [] & _).
  - destruct (H a (or_introl eq_refl)) as [Ha|Ha]; [left; exists a; split; [now left|auto]|].
    destruct IH as [(x & Hx & Px)|N]; [intros x Hx; apply H; now right|left; exists x; split; [now right|auto]|].
    right. intros (x & [-> |Hx] & Px); [auto|]. apply N. eauto.
Qed.

Lemma inside_mono (p q : list nat) (R R' : nat -> nat -> Prop) : incl p q -> (forall u v, R u v -> R' u v) -> forall u v, inside p R u v -> inside q R' u v.
Proof. intros H HR u v (A & B & C). unfold inside. auto. Qed.
Lemma crt_mono (R R' : nat -> nat -> Prop) : (forall u v, R u v -> R' u v) -> forall u v, clos_refl_trans nat R u v -> clos_refl_trans nat R' u v.
Proof. intros H u v C. induction C; [apply rt_step; auto|apply rt_refl|eapply rt_trans; eauto]. Qed.
Lemma crst_mono (R R' : nat -> nat -> Prop) : (forall u v, R u v -> R' u v) -> forall u v, clos_refl_sym_trans nat R u v -> clos_refl_sym_trans nat R' u v.
Proof. intros H u v C. induction C; [apply rst_step; auto|apply rst_refl|apply rst_sym; auto|eapply rst_trans; eauto]. Qed.
Lemma crt_crst (R R' : nat -> nat -> Prop) : (forall u v, R u v -> R' u v) -> forall u v, clos_refl_trans nat R u v -> clos_refl_sym_trans nat R' u v.
Proof. intros H u v C. induction C; [apply rst_step; auto|apply rst_refl|eapply rst_trans; eauto]. Qed.

(** Single-goal patterns: every variable leads to the same goal variable. *)
Definition sga_of (t : task) (g : nat) (p : list nat) : Prop :=
  In g p /\ is_goal_var t g /\ forall v, In v p -> clos_refl_trans nat (inside p (pre_eff t)) v g.
Definition sga_pattern (t : task) (p : list nat) : Prop := pattern_of t p /\ exists g, sga_of t g p.

Lemma sga_interesting t p : sga_pattern t p -> interesting t p.
Proof.
  intros (_ & g & Hg & Gg & H). split.
  - intros v Hv. exists g. auto.
  - assert (C : forall v, In v p -> clos_refl_sym_trans nat (inside p (causal_arc t)) v g).
    { intros v Hv. apply (crt_crst (inside p (pre_eff t))); auto. apply inside_mono; [intros x; auto|]. intros a b Hab. now left. }
    intros u v Hu Hv. eapply rst_trans; [apply C; auto|]. apply rst_sym. auto.
Qed.
Lemma sga_add t g p p' v : sga_of t g p -> (forall x, In x p' <-> In x p \/ x = v) -> (exists a, In a p /\ pre_eff t v a) -> sga_of t g p'.
Proof.
  intros (Hg & Gg & H) Hp' (a & Ha & Hva).
  assert (I : incl p p') by (intros x Hx; apply Hp'; auto).
  assert (C : forall x, In x p -> clos_refl_trans nat (inside p' (pre_eff t)) x g).
  { intros x Hx. apply (crt_mono (inside p (pre_eff t))); auto. apply inside_mono; auto. }
  unfold sga_of. splits; auto. intros x Hx. apply Hp' in Hx as [Hx | ->]; auto.
  apply rt_trans with a; auto. apply rt_step. unfold inside. splits; auto. apply Hp'. auto.
Qed.
Lemma union_interesting t p1 p2 q y : interesting t p1 -> interesting t p2 -> (forall x, In x q <-> In x p1 \/ In x p2) ->
  In y p2 -> (exists v, In v p1 /\ causal_arc t v y) -> interesting t q.
Proof.
  intros (D1 & W1) (D2 & W2) Hq Hy (v & Hv & Hvy).
  assert (I1 : incl p1 q) by (intros x Hx; apply Hq; auto). assert (I2 : incl p2 q) by (intros x Hx; apply Hq; auto). split.
  - intros x Hx. apply Hq in Hx as [Hx|Hx]; [destruct (D1 x Hx) as (g & A & B & C)|destruct (D2 x Hx) as (g & A & B & C)]; exists g; splits; auto;
      (eapply crt_mono; [|exact C]); apply inside_mono; auto.
  - assert (C : forall x, In x q -> clos_refl_sym_trans nat (inside q (causal_arc t)) x y).
    { intros x Hx. apply Hq in Hx as [Hx|Hx].
      - apply rst_trans with v; [|apply rst_step; unfold inside; splits; auto].
        eapply crst_mono; [|apply W1; [exact Hx|exact Hv]]. apply inside_mono; auto.
      - eapply crst_mono; [|apply W2; [exact Hx|exact Hy]]. apply inside_mono; auto. }
    intros u w Hu Hw. eapply rst_trans; [apply C; auto|]. apply rst_sym. auto.
Qed.

(** A path into a set enters it somewhere. *)
Lemma enters (R : nat -> nat -> Prop) A x g : clos_refl_trans nat R x g -> In g A -> ~ In x A -> exists u w, R u w /\ ~ In u A /\ In w A.
Proof.
  intros C. apply clos_rt_rt1n in C. induction C as [x|x y z Hxy C IH]; intros Hg Hx; [contradiction|].
  destruct (in_dec Nat.eq_dec y A) as [Hy|Hy]; [exists x, y; auto|apply IH; auto].
Qed.
Lemma crosses (R : nat -> nat -> Prop) A x y : clos_refl_sym_trans nat R x y -> (In x A <-> In y A) \/ exists u w, (R u w \/ R w u) /\ ~ In u A /\ In w A.
Proof.
  intros C. induction C as [x y H|x|x y C IH|x y z C1 IH1 C2 IH2].
  - destruct (in_dec Nat.eq_dec x A) as [Hx|Hx], (in_dec Nat.eq_dec y A) as [Hy|Hy]; [left; tauto|right|right|left; tauto].
    + exists y, x. auto.
    + exists x, y. auto.
  - left. tauto.
  - destruct IH as [H|H]; [left; tauto|auto].
  - destruct IH1 as [H1|H1]; [|auto]. destruct IH2 as [H2|H2]; [left; tauto|auto].
Qed.

Section Growth.
Variables (t : task) (k : nat).
Hypothesis Hok : task_ok t.
Hypothesis dec : forall u v, v < length (t_vars t) -> pre_eff t u v \/ ~ pre_eff t u v.

Lemma goal_lt g : is_goal_var t g -> g < length (t_vars t).
Proof.
  intros (d & H). destruct Hok as (_ & _ & _ & _ & Hg). rewrite Forall_forall in Hg. apply Hg in H. destruct H as (x & Hx & _).
  apply nth_error_Some_lt in Hx. exact Hx.
Qed.

(** The largest single-goal pattern inside a set. *)
Lemma largest_sga Q g : StronglySorted lt Q -> (forall v, In v Q -> v < length (t_vars t)) -> In g Q -> is_goal_var t g ->
  exists B, StronglySorted lt B /\ incl B Q /\ sga_of t g B /\ forall v b, In v Q -> In b B -> pre_eff t v b -> In v B.
Proof.
  intros SQ LQ Hg Gg.
  assert (K : forall n B, length Q - length B <= n -> StronglySorted lt B -> incl B Q -> sga_of t g B ->
    exists B, StronglySorted lt B /\ incl B Q /\ sga_of t g B /\ forall v b, In v Q -> In b B -> pre_eff t v b -> In v B).
  { induction n as [|n IH]; intros B Hn SB IB HB.
    - exists B. splits; auto. intros v b Hv Hb Hvb. destruct (in_dec Nat.eq_dec v B) as [H|H]; auto. exfalso.
      assert (L : length (v :: B) <= length Q) by (apply NoDup_incl_length; [constructor; [auto|now apply sorted_nodup]|intros x [<- |Hx]; auto]). cbn in L. lia.
    - destruct (list_ex_dec (fun v => ~ In v B /\ exists b, In b B /\ pre_eff t v b) Q) as [(v & Hv & NB & b & Hb & Hvb)|N].
      + intros v Hv. destruct (in_dec Nat.eq_dec v B) as [H|H]; [right; tauto|].
        destruct (list_ex_dec (fun b => pre_eff t v b) B) as [E|E]; [intros b Hb; apply dec; auto|left; auto|right; tauto].
      + destruct (add_ok B v SB NB) as (S1 & L1 & I1). apply (IH (sort Nat.leb (B ++ [v]))); auto.
        * lia.
        * intros x Hx. apply I1 in Hx as [Hx | ->]; auto.
        * apply (sga_add t g B _ v); auto. eauto.
      + exists B. splits; auto. intros v b Hv Hb Hvb. destruct (in_dec Nat.eq_dec v B) as [H|H]; auto. exfalso. apply N. eauto 6. }
  apply (K (length Q) [g]); [lia|repeat constructor|intros x [<- |[]]; auto|]. unfold sga_of. splits; [now left|auto|]. intros v [<- |[]]. apply rt_refl.
Qed.

(** A collection closed under adding one precondition variable contains all single-goal patterns. *)
Lemma sga_complete out : (forall g, is_goal_var t g -> In [g] out) ->
  (forall A v, In A out -> length A < k -> ~ In v A -> (exists a, In a A /\ pre_eff t v a) -> In (sort Nat.leb (A ++ [v])) out) ->
  forall p, sga_pattern t p -> length p <= k -> In p out.
Proof.
  intros H0 H1 p ((Np & Sp & Lp) & g & Hg & Gg & Hp) Hk.
  assert (K : forall n A, length p - length A <= n -> StronglySorted lt A -> incl A p -> In g A -> In A out -> In p out).
  { induction n as [|n IH]; intros A Hn SA IA HgA HA.
    - replace p with A; auto. apply sorted_ext; auto. intros x. split; [apply IA|]. intros Hx.
      destruct (in_dec Nat.eq_dec x A) as [H|H]; auto. exfalso.
      assert (L : length (x :: A) <= length p) by (apply NoDup_incl_length; [constructor; [auto|now apply sorted_nodup]|intros y [<- |Hy]; auto]). cbn in L. lia.
    - destruct (list_ex_dec (fun x => ~ In x A) p) as [(x & Hx & NA)|N].
      + intros x _. destruct (in_dec Nat.eq_dec x A); auto.
      + destruct (enters _ A x g (Hp x Hx) HgA NA) as (u & w & (Hu & Hw & Huw) & NuA & HwA).
        destruct (add_ok A u SA NuA) as (S1 & L1 & I1).
        assert (L : length (u :: A) <= length p) by (apply NoDup_incl_length; [constructor; [auto|now apply sorted_nodup]|intros y [<- |Hy]; auto]). cbn in L.
        apply (IH (sort Nat.leb (A ++ [u]))); auto.
        * lia.
        * intros y Hy. apply I1 in Hy as [Hy | ->]; auto.
        * apply I1. auto.
        * apply H1; auto; [lia|]. eauto.
      + replace p with A; auto. apply sorted_ext; auto. intros x. split; [apply IA|]. intros Hx.
        destruct (in_dec Nat.eq_dec x A) as [H|H]; auto. exfalso. apply N. eauto. }
  apply (K (length p) [g]); [lia|repeat constructor|intros x [<- |[]]; auto|now left|auto].
Qed.

(** Paths avoid a set that contains the predecessors of its members. *)
Lemma avoids P A u g : (forall v a, In v P -> In a A -> pre_eff t v a -> In v A) -> clos_refl_trans nat (inside P (pre_eff t)) u g -> ~ In u A ->
  clos_refl_trans nat (inside (filter (fun v => negb (existsb (Nat.eqb v) A)) P) (pre_eff t)) u g.
Proof.
  intros HA C. apply clos_rt_rt1n in C.
  assert (M : forall v, In v P -> ~ In v A -> In v (filter (fun v => negb (existsb (Nat.eqb v) A)) P)).
  { intros v Hv NA. apply filter_In. split; auto. apply negb_true_iff. apply not_true_iff_false. intros E. apply existsb_exists in E as (y & Hy & Ey).
    apply Nat.eqb_eq in Ey. subst y. contradiction. }
  induction C as [x|x y z (Hx & Hy & Hxy) C IH]; intros NA; [apply rt_refl|].
  assert (NyA : ~ In y A) by (intros HyA; apply NA, (HA x y); auto).
  apply rt_trans with y; [|auto]. apply rt_step. unfold inside. splits; auto.
Qed.

(** A collection that contains the single-goal patterns and is closed under attaching one of them at a
    connection point contains all interesting patterns. *)
Lemma interesting_complete out :
  (forall p, sga_pattern t p -> length p <= k -> In p out) ->
  (forall A B y, In A out -> sga_pattern t B -> length A + length B <= k -> (forall x, In x A -> ~ In x B) -> In y B ->
     (exists v, In v A /\ causal_arc t v y) -> (~ exists v, In v A /\ pre_eff t y v) -> In (union_pattern A B) out) ->
  forall p, pattern_of t p -> interesting t p -> length p <= k -> In p out.
Proof.
  intros H0 H1 p (Np & Sp & Lp) (Dp & Wp) Hk.
  assert (K : forall n A, length p - length A <= n -> A <> [] -> StronglySorted lt A -> incl A p ->
    (forall v a, In v p -> In a A -> pre_eff t v a -> In v A) -> In A out -> In p out).
  { induction n as [|n IH]; intros A Hn NE SA IA CA HA.
    - replace p with A; auto. apply sorted_ext; auto. intros x. split; [apply IA|]. intros Hx.
      destruct (in_dec Nat.eq_dec x A) as [H|H]; auto. exfalso.
      assert (L : length (x :: A) <= length p) by (apply NoDup_incl_length; [constructor; [auto|now apply sorted_nodup]|intros y [<- |Hy]; auto]). cbn in L. lia.
    - destruct (list_ex_dec (fun x => ~ In x A) p) as [(x & Hx & NA)|N].
      + intros x _. destruct (in_dec Nat.eq_dec x A); auto.
      + destruct A as [|a0 A'] eqn:EA; [contradiction|]. rewrite <- EA in *. assert (Ha0 : In a0 A) by (subst A; now left). clear EA A' NE.
        destruct (crosses _ A x a0 (Wp x a0 Hx (IA _ Ha0))) as [E|(u & w & Huw & NuA & HwA)]; [tauto|].
        assert (Hup : In u p) by (destruct Huw as [(X & _ & _)|(_ & X & _)]; auto).
        assert (NP : ~ exists v, In v A /\ pre_eff t u v) by (intros (v & Hv & Huv); apply NuA, (CA u v); auto).
        assert (Hwu : causal_arc t w u).
        { destruct Huw as [(_ & _ & [X|X])|(_ & _ & X)]; [exfalso; apply NP; eauto|right; now apply eff_eff_sym|exact X]. }
        destruct (Dp u Hup) as (g & Hg & Gg & Cg).
        pose proof (avoids p A u g CA Cg NuA) as Cg'.
        set (Q := filter (fun v => negb (existsb (Nat.eqb v) A)) p) in *.
        assert (HQ : forall v, In v Q <-> In v p /\ ~ In v A).
        { intros v. unfold Q. rewrite filter_In, negb_true_iff. split; intros (X & Y); split; auto.
          - intros HvA. apply not_true_iff_false in Y. apply Y. apply existsb_exists. exists v. split; auto. apply Nat.eqb_refl.
          - apply not_true_iff_false. intros E. apply existsb_exists in E as (y & Hy & Ey). apply Nat.eqb_eq in Ey. subst y. contradiction. }
        assert (HgQ : In g Q).
        { apply clos_rt_rtn1 in Cg'. destruct Cg' as [|y z (_ & X & _)]; auto. apply HQ. auto. }
        destruct (largest_sga Q g) as (B & SB & IB & HB & MB); [now apply sorted_filter|intros v Hv; apply HQ in Hv; apply Lp; tauto|auto|auto|].
        assert (HuB : In u B).
        { destruct (in_dec Nat.eq_dec u B) as [H|H]; auto. exfalso.
          destruct (enters _ B u g Cg' (proj1 HB) H) as (x' & y' & (X1 & X2 & X3) & X4 & X5). apply X4, (MB x' y'); auto. }
        assert (D : forall x, In x A -> ~ In x B) by (intros y Hy HyB; apply IB, HQ in HyB; tauto).
        assert (IU : incl (union_pattern A B) p).
        { intros y Hy. apply union_In in Hy as [Hy|Hy]; [auto|]. apply IB, HQ in Hy. tauto. }
        assert (SU : StronglySorted lt (union_pattern A B)) by (apply union_sorted; auto).
        assert (LU : length (union_pattern A B) <= length p) by (apply NoDup_incl_length; [now apply sorted_nodup|auto]).
        rewrite (union_length A B D) in LU.
        assert (LB : 0 < length B) by (destruct B; [destruct HuB|cbn; lia]).
        apply (IH (union_pattern A B)); auto.
        * rewrite (union_length A B D). lia.
        * intros E. assert (X : In a0 []) by (rewrite <- E; apply union_In; auto). destruct X.
        * intros v a Hv Ha Hva. apply union_In. apply union_In in Ha as [Ha|Ha]; [left; eauto|].
          destruct (in_dec Nat.eq_dec v A) as [|NvA]; [auto|]. right. apply (MB v a); auto. apply HQ. auto.
        * apply H1 with u; auto.
          -- split; [|eauto]. unfold pattern_of. splits; auto; [intros ->; destruct HuB|]. intros v Hv. apply IB, HQ in Hv. apply Lp. tauto.
          -- lia.
          -- eauto.
      + replace p with A; auto. apply sorted_ext; auto. intros x. split; [apply IA|]. intros Hx.
        destruct (in_dec Nat.eq_dec x A) as [H|H]; auto. exfalso. apply N. eauto. }
  destruct p as [|v0 p'] eqn:Ep; [contradiction|]. rewrite <- Ep in *. assert (Hv0 : In v0 p) by (subst p; now left).
  destruct (Dp v0 Hv0) as (g & Hg & Gg & _).
  destruct (largest_sga p g Sp Lp Hg Gg) as (A & SA & IA & HA & MA).
  assert (NE : A <> []) by (intros ->; destruct HA as ([] & _)).
  apply (K (length p) A); auto; [lia|]. apply H0.
  - split; [|eauto]. unfold pattern_of. splits; auto.
  - pose proof (NoDup_incl_length (sorted_nodup _ SA) IA). lia.
Qed.
End Growth.
