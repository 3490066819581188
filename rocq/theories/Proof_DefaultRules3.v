(** Everything used that holds in a state can be derived with the added rules. *)
From Coq Require Import List Permutation.
From Verif Require Import Outcome Spec_Task Spec_Graph Spec_Relaxation Model_Sccs Proof_Sccs Spec_DefaultRules Model_DefaultRules Proof_DefaultRules Proof_DefaultRules2 Proof_Axioms Proof_RelaxHeur Proof_Task Proof_Relaxation Proof_FF.
Import ListNotations.
Local Open Scope nat_scope.

Section Derive.
Variable t : task.
Hypothesis Ht : task_ok t.
Variable mode : axiom_handling.
Variable sccs : list (list nat).
Variable N : list (nat * bool).
Variable added : list rule.
Hypothesis Hsccs : sccs_ok t mode sccs.
Hypothesis HN : closed_pairs t mode sccs N.
Hypothesis Hadded : forall r, In r added <-> exists v a, In (v, true) N /\ approximated mode sccs v = Ok a /\
    In r (if a : bool then [{| r_body := []; r_head := (v, default_value t v) |}] else add_for_var t (v, default_value t v) (rules_for t v)).
Hypothesis Hself : forall r, In r (t_rules t) -> ~ In (r_head r) (r_body r).

Variable R : fact -> Prop.
Hypothesis HR : forall r, In r (t_rules t ++ added) -> (forall g, In g (r_body r) -> R g) -> R (r_head r).
Variable s0 s : state.
Hypothesis Hs : state_ok t s.
Hypothesis Hm : stratified_model t s0 s.
Hypothesis Hbase : forall f, layer_of t (fst f) = None -> holds s f -> R f.

Definition derivable (k : nat) : Prop := forall v x d, is_var t v x -> vlayer x = Some k -> holds s (v, d) -> In (v, d =? vdefault x) N -> R (v, d).

Lemma layer_var v k : layer_of t v = Some k -> exists x, is_var t v x /\ vlayer x = Some k.
Proof. unfold layer_of, is_var. destruct (nth_error (t_vars t) v) as [x|]; [intros; eauto|discriminate]. Qed.
Lemma var_layer v x k : is_var t v x -> vlayer x = Some k -> layer_of t v = Some k.
Proof. unfold layer_of, is_var. intros -> ->. reflexivity. Qed.
Lemma derived_var v x k : is_var t v x -> vlayer x = Some k -> is_derived t v = true.
Proof. intros. apply is_derived_spec. eauto. Qed.

Section Layer.
Variable k : nat.
Hypothesis lower : forall k', k' < k -> derivable k'.

Lemma nondefault_case v d : supported t s k v d -> In (v, false) N -> R (v, d).
Proof.
  induction 1 as [r v d Hr Hh Hl Hsame IH Hother]; intros Hv. rewrite <- Hh. apply HR; [apply in_app_iff; auto|]. intros [w e] Hw.
  destruct (rule_in_ok t Ht r Hr) as (_ & _ & x & k0 & Hx & Hk0 & Hnd & Hlay). rewrite Hh in Hx. cbn [fst] in Hx.
  assert (k0 = k) by (apply var_layer with (k := k0) in Hx; [congruence|auto]). subst k0.
  destruct (layer_of t w) as [k'|] eqn:El.
  - destruct (layer_var w k' El) as (y & Hy & Hky). destruct (Hlay w e Hw y k' Hy Hky) as [Hle Heq].
    assert (Hdep : forall b, (e = vdefault y <-> b = true) -> In w (dependencies t b v)).
    { intros b Hb. apply dependencies_In. exists r, (w, e). rewrite Hh. splits; auto; [eapply derived_var; eauto|]. cbn [snd]. rewrite (default_value_is t _ _ Hy). auto. }
    destruct (Nat.eq_dec k' k) as [->|Hne].
    + apply IH; auto. apply (N_false _ _ _ _ HN v w Hv). apply Hdep. split; [intros; exfalso; apply Heq; auto|discriminate].
    + apply (lower k') with y; auto; [lia| |].
      * apply Hother; auto. congruence.
      * destruct (Nat.eqb_spec e (vdefault y)) as [E|E].
        -- apply (N_false _ _ _ _ HN v w Hv). apply Hdep. tauto.
        -- apply (N_false _ _ _ _ HN v w Hv). apply Hdep. split; [tauto|discriminate].
  - apply Hbase; auto. apply Hother; auto. congruence.
Qed.

Lemma default_case : forall m v x, is_var t v x -> vlayer x = Some k -> holds s (v, vdefault x) -> In (v, true) N ->
  (forall i C, nth_error sccs i = Some C -> In v C -> length sccs - i <= m) -> R (v, vdefault x).
Proof.
  induction m as [|m IH]; intros v x Hx Hk Hh Hv Hidx.
  all: destruct (approximated_ok t mode sccs v Hsccs (is_var_lt t _ _ Hx)) as (a & Ea & Ha1 & Ha2).
  all: assert (Dx := default_value_is t _ _ Hx).
  all: assert (Hadd : forall r, In r (if a : bool then [{| r_body := []; r_head := (v, default_value t v) |}] else add_for_var t (v, default_value t v) (rules_for t v)) -> In r added)
    by (intros r Hr; apply Hadded; eauto).
  all: destruct a.
  1,3: rewrite <- Dx; apply (HR {| r_body := []; r_head := (v, default_value t v) |}); [apply in_app_iff; right; apply Hadd; left; auto|intros ? []].
  all: assert (Hmode : mode = APPROXIMATE_NEGATIVE_CYCLES) by (destruct mode; auto; specialize (Ha1 eq_refl); discriminate).
  all: destruct (Ha2 Hmode eq_refl) as (i & Hi).
  - specialize (Hidx i [v] Hi (or_introl eq_refl)). assert (i < length sccs) by (apply nth_error_Some; congruence). lia.
  - destruct (proj2 (add_for_var_exact t Ht s0 s Hs Hm v x k Hx Hk) Hh) as (r & Hr & Hall). rewrite <- Dx in Hr.
    rewrite <- Dx. rewrite <- (add_for_var_head t _ _ _ Hr). apply HR; [apply in_app_iff; auto|]. intros [w e] Hf. assert (Hwe := Hall _ Hf).
    destruct (layer_of t w) as [k'|] eqn:El; [|apply Hbase; auto]. destruct (layer_var w k' El) as (y & Hy & Hky).
    destruct (add_for_var_body t _ _ _ _ Hr Hf) as (r' & [w' cv] & Hr' & Hh' & Hc & E1 & E2 & E3). cbn [fst snd] in *. subst w'.
    rewrite (domain_size_is t _ _ Hy) in E3. destruct (var_ok t Ht _ _ Hy) as (_ & Hdd & Hb). specialize (Hdd ltac:(congruence)). rewrite Hb in * by congruence.
    destruct (rule_in_ok t Ht r' Hr') as (HB & (hx & Hhx & Hhlt) & x' & k0 & Hx' & Hk0 & Hnd & Hlay). rewrite Hh' in *. assert (x' = x) by (unfold is_var in *; congruence). assert (hx = x) by (unfold is_var in *; congruence). subst x' hx.
    assert (k0 = k) by congruence. subst k0. destruct (Hlay w cv Hc y k' Hy Hky) as [Hle Heq].
    rewrite Forall_forall in HB. destruct (HB _ Hc) as (y' & Hy' & Hcv). cbn [fst snd] in *. assert (y' = y) by (unfold is_var in *; congruence). subst y'. rewrite Hb in Hcv by congruence.
    assert (Hdep : forall b, (cv = vdefault y <-> b = true) -> In w (dependencies t b v)).
    { intros b Hbb. apply dependencies_In. exists r', (w, cv). splits; auto; [eapply derived_var; eauto|]. cbn [snd]. rewrite (default_value_is t _ _ Hy). auto. }
    destruct (N_true _ _ _ _ HN v w Hv Ea) as [Nd Dd]. destruct (Nat.eq_dec cv (vdefault y)) as [Ec|Ec].
    + apply (lower k') with y; auto; [destruct (Nat.eq_dec k' k); [exfalso; apply Heq; auto|lia]|].
      destruct (Nat.eqb_spec e (vdefault y)); [congruence|]. apply Dd, Hdep. tauto.
    + assert (e = vdefault y) by lia. subst e. assert (Hwt : In (w, true) N) by (apply Nd, Hdep; split; [tauto|discriminate]).
      destruct (Nat.eq_dec k' k) as [->|Hne]; [|apply (lower k') with y; auto; [lia|rewrite Nat.eqb_refl; auto]].
      apply IH; auto. intros j C Hj HwC. unfold sccs_ok in Hsccs. rewrite Hmode in Hsccs. destruct Hsccs as (_ & _ & _ & Htop).
      assert (Hij : i <= j). { apply (Htop i j [v] C v w); auto; [left; auto|]. apply graph_edge. split; [eapply is_var_lt; eauto|]. apply Hdep. split; [tauto|discriminate]. }
      assert (Hne : i <> j).
      { intros <-. rewrite Hi in Hj. injection Hj as <-. destruct HwC as [<-|[]]. apply (Hself r' Hr'). assert (y = x) by (unfold is_var in *; congruence). subst y.
        rewrite Hb in Hhlt by congruence. replace (r_head r') with (v, cv); [auto|]. destruct (r_head r') as [hv hd]. cbn [fst snd] in *. subst hv. f_equal. lia. }
      specialize (Hidx i [v] Hi (or_introl eq_refl)). assert (j < length sccs) by (apply nth_error_Some; congruence). lia.
Qed.
End Layer.

Lemma derivable_all k : derivable k.
Proof.
  induction k as [k IH] using (well_founded_induction Wf_nat.lt_wf). intros v x d Hx Hk Hh HNv. destruct (Nat.eqb_spec d (vdefault x)) as [->|Hne].
  - apply default_case with (k := k) (m := length sccs); auto. intros. lia.
  - apply nondefault_case with (k := k); auto. destruct Hm as (_ & _ & H3). apply (proj1 (H3 v x k d Hx Hk Hh)). auto.
Qed.
Theorem used_derivable f : used t f -> holds s f -> R f.
Proof.
  destruct f as [v d]. intros Hu Hh. destruct (layer_of t v) as [k|] eqn:El; [|apply Hbase; auto]. destruct (layer_var v k El) as (x & Hx & Hk).
  apply (derivable_all k v x d Hx Hk Hh). rewrite <- (default_value_is t _ _ Hx). apply (N_used _ _ _ _ HN (v, d)); auto. cbn [fst]. eapply derived_var; eauto.
Qed.
End Derive.

(** *** Successor states *)
Section Path.
Variable t : task.
Hypothesis Ht : task_ok t.

Lemma Forall2_of_nth {A B} (P : A -> B -> Prop) : forall (l : list A) (m : list B), length l = length m ->
  (forall i a b, nth_error l i = Some a -> nth_error m i = Some b -> P a b) -> Forall2 P l m.
Proof. induction l as [|a l IH]; intros [|b m] Hl H; try discriminate; constructor; [apply (H 0 a b); auto|]. apply IH; [cbn in Hl; lia|]. intros i. apply (H (S i)). Qed.
Lemma state_len s : state_ok t s -> length s = length (t_vars t).
Proof. unfold state_ok. induction 1; cbn; auto. Qed.

Lemma model_state_ok s1 s' : stratified_model t s1 s' -> length s1 = length (t_vars t) ->
  (forall v x d, is_var t v x -> vlayer x = None -> nth_error s1 v = Some d -> d < vdom x) -> state_ok t s'.
Proof.
  intros (L & Hb & Hd) Hl H. apply Forall2_of_nth; [lia|]. intros v d x Hv Hx. destruct (vlayer x) as [k|] eqn:Ek.
  - destruct (Hd v x k d Hx Ek Hv) as [K1 K2]. destruct (Nat.eq_dec d (vdefault x)) as [->|Hne].
    + apply (proj1 (proj2 (var_ok t Ht _ _ Hx))). congruence.
    + specialize (K1 Hne). inversion K1 as [r v' d' Hr Hh _ _ _]; subst. destruct (rule_in_ok t Ht r Hr) as (_ & (y & Hy & Hlt) & _). rewrite Hh in *. cbn in *.
      assert (y = x) by (unfold is_var in *; congruence). subst. auto.
  - apply (H v x d); auto. rewrite <- Hb; auto. unfold layer_of. rewrite Hx. auto.
Qed.
Lemma op_in_ok op : In op (t_ops t) -> operator_ok t op.
Proof. intros H. destruct Ht as (_ & HO & _). rewrite Forall_forall in HO. auto. Qed.

Lemma progress_derived s o s' : state_ok t s -> progress t s o s' ->
  exists op s1, nth_error (t_ops t) o = Some op /\ stratified_model t s1 s' /\ state_ok t s' /\
    forall f, layer_of t (fst f) = None -> holds s' f -> holds s f \/ exists e, In e (op_effs op) /\ all_hold s (eff_cond e) /\ eff_fact e = f.
Proof.
  intros Hs (op & s1 & Hop & Hlen & Hv & Hstr). exists op, s1. assert (Hl := state_len s Hs). splits; auto.
  - apply (model_state_ok s1 s' Hstr); [lia|]. intros v x d Hx Hk Hd. assert (Hvl : v < length s) by (rewrite Hl; apply (is_var_lt t v x Hx)).
    destruct (effect_value_total s (op_effs op) v) as [r Hr]. rewrite (Hv v r Hvl Hr) in Hd. destruct r as [d'|].
    + injection Hd as ->. apply effect_value_some in Hr as (e & He & _ & Ef). assert (Hop' := op_in_ok op (nth_error_In _ _ Hop)). destruct Hop' as [_ HE].
      rewrite Forall_forall in HE. destruct (HE e He) as (_ & (y & Hy & Hlt) & _). rewrite Ef in *. cbn in *. assert (y = x) by (unfold is_var in *; congruence). subst. auto.
    + destruct (state_value t s v x Hs Hx) as (e & He & Hlt). congruence.
  - intros [v d] Hln Hh. unfold holds in Hh. cbn [fst snd] in *. destruct Hstr as (Hlen' & Hb & _). rewrite (Hb v Hln) in Hh.
    assert (Hvl : v < length s) by (rewrite <- Hlen; apply nth_error_Some; congruence).
    destruct (effect_value_total s (op_effs op) v) as [r Hr]. rewrite (Hv v r Hvl Hr) in Hh. destruct r as [d'|]; auto.
    inversion Hh; subst d'. right. now apply effect_value_some.
Qed.

Variable mode : axiom_handling.
Hypothesis Hself : forall r, In r (t_rules t) -> ~ In (r_head r) (r_body r).
Variable t' : task.
Hypothesis Ht' : extended_if_needed t mode = Ok t'.
Variable start : state.
Hypothesis Hstart : evaluated t start.

(** Facts with a derivation of cost at most [C] in the relaxed extended task. *)
Definition within (C : nat) (f : fact) : Prop := exists c, rcost list_max t' start f c /\ c <= C.
Lemma within_mono C C' f : C <= C' -> within C f -> within C' f.
Proof. intros H (c & Hc & Hle). exists c. split; auto. lia. Qed.
Lemma within_op C pre f c : relaxed_op t' pre f c -> (forall g, In g pre -> within C g) -> within (C + c) f.
Proof.
  intros Hro Hpre. destruct (list_choice fact_dec (fun g c' => rcost list_max t' start g c' /\ c' <= C) (nodup fact_dec pre)) as [k Hk].
  { intros g Hg. apply nodup_In in Hg. destruct (Hpre g Hg) as (c' & H1 & H2). eauto. }
  exists (c + list_max (map k (nodup fact_dec pre))). split.
  - apply rc_op with pre; auto; [apply NoDup_nodup|intros; apply nodup_In|]. intros g Hg. apply Hk; auto.
  - assert (list_max (map k (nodup fact_dec pre)) <= C); [|lia]. apply list_max_le'. intros x Hx. apply in_map_iff in Hx as (g & <- & Hg). apply Hk; auto.
Qed.

Lemma extended_shape : t_ops t' = t_ops t /\ t_vars t' = t_vars t /\ t_goal t' = t_goal t /\ t_init t' = t_init t /\
  ((t_rules t = [] /\ t_rules t' = []) \/ exists added, default_value_axioms t mode = Ok added /\ t_rules t' = t_rules t ++ added).
Proof.
  clear Hstart start Hself Ht. unfold extended_if_needed in Ht'. destruct (t_rules t) as [|r0 l0] eqn:E; [injection Ht' as <-; splits; auto|].
  unfold extended_task in Ht'. apply bind_ok in Ht' as (added & Ha & H). injection H as <-. cbn [t_ops t_vars t_goal t_init t_rules]. splits; auto. right. exists added. rewrite E. auto.
Qed.

Lemma within_used C s0 s : state_ok t s -> stratified_model t s0 s -> (forall f, layer_of t (fst f) = None -> holds s f -> within C f) ->
  forall f, used t f -> holds s f -> within C f.
Proof.
  intros Hs Hm Hb f Hu Hh. destruct extended_shape as (_ & _ & _ & _ & [[Er Er']|(added' & Ea & Er)]).
  - destruct (layer_of t (fst f)) as [k|] eqn:El; [|apply Hb; auto]. exists 0. split; [|lia]. apply rc_state.
    destruct f as [v d]. cbn [fst] in El. unfold layer_of in El. destruct (nth_error (t_vars t) v) as [x|] eqn:Ex; [|discriminate].
    destruct Hstart as [Hs' Hm']. destruct (state_value t start v x Hs' Ex) as (d' & Hd' & _).
    assert (D : forall sa sb e, stratified_model t sa sb -> nth_error sb v = Some e -> e = vdefault x).
    { intros sa sb e (_ & _ & K) He. destruct (K v x k e Ex El He) as [K1 _]. destruct (Nat.eq_dec e (vdefault x)); auto. exfalso. specialize (K1 n).
      inversion K1 as [r ? ? Hr]. rewrite Er in Hr. destruct Hr. }
    unfold holds in *. cbn [fst snd] in *. rewrite (D _ _ _ Hm Hh), Hd', (D _ _ _ Hm' Hd'). reflexivity.
  - destruct (default_value_axioms_ok t mode) as (sccs & N & added & H1 & H2 & H3 & H4). assert (added' = added) by congruence. subst added'.
    refine (used_derivable t Ht mode sccs N added H1 H2 H4 Hself (within C) _ s0 s Hs Hm Hb f Hu Hh).
    intros r Hr Hg. apply within_mono with (C + 0); [lia|]. apply within_op with (r_body r); auto. apply ro_rule. rewrite Er. exact Hr.
Qed.

Lemma path_within s os s' : task_path t s os s' -> forall C s0, state_ok t s -> stratified_model t s0 s ->
  (forall f, layer_of t (fst f) = None -> holds s f -> within C f) ->
  forall f, used t f -> holds s' f -> within (C + plan_cost t os) f.
Proof.
  intros Hp. induction Hp as [s|s o s1 os s2 Happ Hpr Hp IH]; intros C s0 Hs Hm Hb f Hu Hh.
  - apply within_mono with C; [lia|]. eapply within_used; eauto.
  - destruct Happ as (op & Hop & Hpre). destruct (progress_derived s o s1 Hs Hpr) as (op' & sx & Hop' & Hm1 & Hs1 & Hf). assert (op' = op) by congruence. subst op'.
    assert (Hin := nth_error_In _ _ Hop).
    replace (C + plan_cost t (o :: os)) with ((C + op_cost op) + plan_cost t os).
    2:{ unfold plan_cost. cbn [map list_sum fold_right]. rewrite Hop. change (fold_right Nat.add 0) with list_sum. lia. }
    apply (IH (C + op_cost op) sx Hs1 Hm1); auto. intros g Hl Hg. destruct (Hf g Hl Hg) as [Hold|(e & He & Hc & <-)].
    + apply within_mono with C; [lia|]. auto.
    + apply within_op with (op_pre op ++ eff_cond e).
      * apply ro_effect; auto. destruct extended_shape as (-> & _). auto.
      * intros c Hc'. apply (within_used C s0 s Hs Hm Hb).
        -- right. exists op. split; auto. apply in_app_iff in Hc' as [?|?]; auto. right. eauto.
        -- apply in_app_iff in Hc' as [?|?]; auto.
Qed.
Lemma plan_within os f : task_plan_from t start os -> In f (t_goal t) -> within (plan_cost t os) f.
Proof.
  intros (s' & Hp & Hg) Hf. destruct Hstart as [Hs Hm]. apply (path_within start os s' Hp 0 start Hs Hm); auto.
  - intros g _ Hh. exists 0. split; auto. apply rc_state. auto.
  - left. auto.
Qed.
End Path.

(** *** Components and cycles *)
Lemma NoDup_part {A} (C : list A) L : In C L -> NoDup (concat L) -> NoDup C.
Proof.
  induction L as [|D L IH]; intros HC ND; [destruct HC|]. cbn [concat] in ND. destruct HC as [->|HC].
  - clear -ND. induction C as [|a C IH]; [constructor|]. inversion ND as [|? ? Hn ND']; subst. constructor; [intros H; apply Hn, in_app_iff; auto|auto].
  - apply IH; auto. clear -ND. induction D as [|a D IH]; auto. inversion ND; subst. auto.
Qed.
Section Cycles.
Variable t : task.
Hypothesis Ht : task_ok t.
Lemma edge_depends v w : edge (nondefault_dependencies t) v w <-> depends t v w.
Proof.
  rewrite graph_edge, dependencies_In. split.
  - intros (_ & r & f & H1 & H2 & H3 & H4 & H5 & H6). apply is_derived_spec in H5 as (x & k & Hx & Hk). exists r, f, x, k. splits; auto. rewrite (default_value_is t _ _ Hx) in H6. intros E. destruct H6 as [H6 _]. specialize (H6 E). discriminate.
  - intros (r & f & x & k & H1 & H2 & H3 & H4 & H5 & H6 & H7). split.
    + destruct (rule_in_ok t Ht r H1) as (_ & (y & Hy & _) & _). rewrite H2 in Hy. eapply is_var_lt; eauto.
    + exists r, f. splits; auto; [apply is_derived_spec; eauto|]. rewrite (default_value_is t _ _ H5). split; [tauto|discriminate].
Qed.
Lemma reach_depends v w : v <> w -> (reach (nondefault_dependencies t) v w <-> depends_on t v w).
Proof.
  intros Hne. split.
  - intros H. induction H as [x|x y z He Hr IH]; [contradiction|]. apply edge_depends in He. destruct (Nat.eq_dec y z) as [->|]; [now apply do_one|]. eapply do_step; eauto.
  - intros H. clear Hne. induction H as [v w He|u v w He _ IH]; apply edge_depends in He; [eapply reach_step; eauto; constructor|eapply reach_step; eauto].
Qed.
Lemma approximated_cyclic sccs v : sccs_in_topological_order (nondefault_dependencies t) sccs -> v < length (t_vars t) ->
  exists a, approximated APPROXIMATE_NEGATIVE_CYCLES sccs v = Ok a /\ (a = true <-> cyclic t v).
Proof.
  intros Hs Hv. unfold approximated, scc_size. destruct (scc_find t sccs v Hs Hv) as (C & -> & HC & HvC). cbn [bind]. eexists. split; [reflexivity|].
  pose proof Hs as (HP & _ & Hmut & _). rewrite Nat.ltb_lt. split.
  - intros Hl. assert (ND : NoDup C).
    { assert (ND : NoDup (concat sccs)) by (eapply Permutation_NoDup; [apply Permutation_sym; exact HP|apply seq_NoDup]). clear -ND HC. eapply NoDup_part; eauto. }
    assert (exists w, In w C /\ w <> v) as (w & Hw & Hne).
    { destruct C as [|a [|b C]]; cbn in Hl; try lia. inversion ND as [|? ? Hn _]; subst. destruct (Nat.eq_dec a v) as [->|]; [|exists a; split; auto; now left].
      exists b. split; [right; now left|]. intros ->. apply Hn. now left. }
    exists w. split; auto. apply (Hmut C v w HC HvC) in Hw as [A B]. split; apply reach_depends; auto.
  - intros (w & Hne & A & B). assert (In w C). { apply (Hmut C v w HC HvC). split; apply reach_depends; auto. }
    destruct C as [|a [|b C]]; [destruct HvC| |cbn; lia]. destruct HvC as [->|[]]. destruct H as [->|[]]. contradiction.
Qed.
End Cycles.
