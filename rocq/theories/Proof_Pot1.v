(** Proofs about potential heuristics, part 1: the linear program. *)
From Coq Require Import QArith Lqa Permutation.
From Verif Require Import Outcome Spec_Task Spec_Relaxation Spec_Projection Spec_LP Spec_OperatorCounting Spec_Potentials Model_Task Model_LPSolver Model_OperatorCounting Model_Potentials Proof_Task Proof_OC1.
Local Open Scope nat_scope.

(** ** Numbers of LP variables *)
Definition off (vs : list variable) (v : nat) : nat := num_lp_vars (firstn v vs).
Lemma off_cons y r v : off (y :: r) (S v) = vdom y + 1 + off r v. Proof. reflexivity. Qed.
Lemma num_cons y r : num_lp_vars (y :: r) = vdom y + 1 + num_lp_vars r. Proof. reflexivity. Qed.
Lemma lp_id_from : forall vs next v x d, nth_error vs v = Some x -> d <= vdom x -> get_lp_var_id (lp_var_ids next vs) v d = Ok (next + off vs v + d).
Proof.
  induction vs as [|y r IH]; intros next v x d Hv Hd; [destruct v; discriminate|]. destruct v as [|v]; cbn [nth_error] in Hv.
  - inv Hv. unfold get_lp_var_id. cbn [lp_var_ids]. unfold vget at 1. cbn [nth_error bind]. apply vget_ok. rewrite (nth_error_nth' _ 0) by (rewrite seq_length; lia). rewrite seq_nth by lia.
    f_equal. unfold off. cbn [firstn]. change (num_lp_vars []) with 0. lia.
  - specialize (IH (next + (vdom y + 1)) v x d Hv Hd). unfold get_lp_var_id in *. cbn [lp_var_ids]. unfold vget at 1 in IH. unfold vget at 1. cbn [nth_error]. rewrite IH. f_equal.
    rewrite off_cons. lia.
Qed.
Lemma num_app l l' : num_lp_vars (l ++ l') = num_lp_vars l + num_lp_vars l'.
Proof. unfold num_lp_vars. now rewrite map_app, list_sum_app. Qed.
Lemma off_next vs v x : nth_error vs v = Some x -> off vs (S v) = off vs v + (vdom x + 1).
Proof.
  revert v. induction vs as [|y r IH]; intros v Hv; [destruct v; discriminate|]. destruct v as [|v]; cbn [nth_error] in Hv.
  - inv Hv. unfold off. cbn. lia.
  - specialize (IH v Hv). rewrite !off_cons. lia.
Qed.
Lemma off_mono vs v w : v <= w -> off vs v <= off vs w.
Proof.
  intros H. unfold off. replace (firstn w vs) with (firstn v vs ++ firstn (w - v) (skipn v vs)); [rewrite num_app; lia|].
  rewrite <- (firstn_skipn v (firstn w vs)). rewrite firstn_firstn, Nat.min_l by lia. now rewrite skipn_firstn_comm.
Qed.
Lemma off_bound vs v x d : nth_error vs v = Some x -> d <= vdom x -> off vs v + d < num_lp_vars vs.
Proof.
  intros Hv Hd. pose proof (off_next vs v x Hv). assert (L : off vs (S v) <= off vs (length vs)) by (apply off_mono; apply nth_error_Some_lt in Hv; lia).
  unfold off at 2 in L. rewrite firstn_all in L. lia.
Qed.
Lemma off_inj vs v x d v' x' d' : nth_error vs v = Some x -> nth_error vs v' = Some x' -> d <= vdom x -> d' <= vdom x' -> off vs v + d = off vs v' + d' -> v = v' /\ d = d'.
Proof.
  intros Hv Hv' Hd Hd' E. pose proof (off_next vs v x Hv). pose proof (off_next vs v' x' Hv').
  destruct (lt_eq_lt_dec v v') as [[L| ->]|L].
  - pose proof (off_mono vs (S v) v' L). lia.
  - split; auto. lia.
  - pose proof (off_mono vs (S v') v L). lia.
Qed.
Lemma off_surj vs : forall i, i < num_lp_vars vs -> exists v x d, nth_error vs v = Some x /\ d <= vdom x /\ i = off vs v + d.
Proof.
  induction vs as [|y r IH]; intros i H; [cbn in H; lia|]. destruct (le_lt_dec i (vdom y)) as [L|L].
  - exists 0, y, i. splits; auto.
  - destruct (IH (i - (vdom y + 1))) as (v & x & d & Hv & Hd & E); [rewrite num_cons in H; lia|].
    exists (S v), x, d. splits; auto. rewrite off_cons. lia.
Qed.

Section Task.
Variable t : task.
Hypothesis Ht : plain_task t.
Hypothesis Hg : NoDup (map fst (t_goal t)).
Variable mp : option Q.
Let vs := t_vars t.
Let ids := lp_var_ids 0 vs.
(** The LP variable of a fact (the value may be the undefined value). *)
Definition pid (f : fact) : nat := off vs (fst f) + snd f.
Definition xfact (f : fact) : Prop := exists x, nth_error vs (fst f) = Some x /\ snd f <= vdom x.

Lemma lp_id f : xfact f -> get_lp_var_id ids (fst f) (snd f) = Ok (pid f).
Proof. intros (x & Hx & Hd). unfold ids. rewrite (lp_id_from vs 0 _ x) by auto. reflexivity. Qed.
Lemma pid_bound f : xfact f -> pid f < num_lp_vars vs.
Proof. intros (x & Hx & Hd). eapply off_bound; eauto. Qed.
Lemma pid_inj f f' : xfact f -> xfact f' -> pid f = pid f' -> f = f'.
Proof. intros (x & Hx & Hd) (x' & Hx' & Hd') E. destruct (off_inj vs _ x _ _ x' _ Hx Hx' Hd Hd' E). destruct f, f'; cbn in *; congruence. Qed.
Lemma pid_surj i : i < num_lp_vars vs -> exists f, xfact f /\ i = pid f.
Proof. intros H. destruct (off_surj vs i H) as (v & x & d & Hv & Hd & E). exists (v, d). split; auto. exists x. auto. Qed.
Lemma fact_x f : fact_ok t f -> xfact f.
Proof. intros (x & Hx & Hd). exists x. split; auto. lia. Qed.

(** ** Constraints of the operators *)
Lemma pre_value_some op v d : NoDup (map fst (op_pre op)) -> pre_value op v = Some d <-> In (v, d) (op_pre op).
Proof.
  intros Hn. unfold pre_value. split.
  - intros H. destruct (find _ _) as [f|] eqn:E; [|discriminate]. inv H. apply find_some in E as [E1 E2]. apply in_rev in E1. apply Nat.eqb_eq in E2. destruct f. cbn in *. now subst.
  - intros H. destruct (find _ _) as [f|] eqn:E.
    + apply find_some in E as [E1 E2]. apply in_rev in E1. apply Nat.eqb_eq in E2. cbn. f_equal. destruct f as [v' d']. cbn in *. subst v'.
      clear -Hn H E1. induction (op_pre op) as [|a r IH]; [contradiction|]. cbn in Hn. inv Hn. destruct H as [->|H], E1 as [E1|E1]; try congruence; auto.
      * exfalso. apply H2. apply in_map_iff. exists (v, d'). auto.
      * subst. exfalso. apply H2. apply in_map_iff. exists (v, d). auto.
    + exfalso. pose proof (find_none _ _ E (v, d)) as K. rewrite <- in_rev in K. specialize (K H). cbn in K. now rewrite Nat.eqb_refl in K.
Qed.
Lemma pre_value_none op v : pre_value op v = None <-> forall d, ~ In (v, d) (op_pre op).
Proof.
  unfold pre_value. split.
  - intros H d Hd. destruct (find _ _) as [f|] eqn:E; [discriminate|]. pose proof (find_none _ _ E (v, d)) as K. rewrite <- in_rev in K. specialize (K Hd). cbn in K. now rewrite Nat.eqb_refl in K.
  - intros H. destruct (find _ _) as [f|] eqn:E; [|auto]. apply find_some in E as [E1 E2]. apply in_rev in E1. apply Nat.eqb_eq in E2. destruct f as [v' d]. cbn in *. subst. exfalso. eapply H; eauto.
Qed.
(** What an operator with effect [e] consumes: the value in the precondition, or the undefined value. *)
Definition undef (v : nat) : fact := (v, match nth_error vs v with Some x => vdom x | None => 0 end).
Definition consumed (op : operator) (e : effect) : fact :=
  match pre_value op (fst (eff_fact e)) with Some d => (fst (eff_fact e), d) | None => undef (fst (eff_fact e)) end.
Definition eterms (op : operator) (e : effect) : list (nat * Q) :=
  if pid (consumed op e) =? pid (eff_fact e) then [] else [(pid (consumed op e), 1%Q); (pid (eff_fact e), (-1)%Q)].
Lemma op_facts op : In op (t_ops t) -> (forall f, In f (op_pre op) -> fact_ok t f) /\ (forall e, In e (op_effs op) -> fact_ok t (eff_fact e)).
Proof.
  intros Ho. destruct Ht as ((_ & H & _) & _). rewrite Forall_forall in H. specialize (H op Ho). destruct H as [H1 H2]. rewrite Forall_forall in H1, H2.
  split; auto. intros e He. destruct (H2 e He) as (_ & H3 & _). exact H3.
Qed.
Lemma undef_x v x : nth_error vs v = Some x -> xfact (undef v).
Proof. intros Hx. exists x. unfold undef. cbn [fst snd]. rewrite Hx. auto. Qed.
Lemma consumed_x op e : In op (t_ops t) -> In e (op_effs op) -> xfact (consumed op e).
Proof.
  intros Ho He. destruct (op_facts op Ho) as [H1 H2]. unfold consumed. destruct (pre_value op _) as [d|] eqn:E.
  - apply pre_value_some in E; [|apply Ht; auto]. apply fact_x. auto.
  - destruct (H2 e He) as (x & Hx & _). eapply undef_x; eauto.
Qed.
Lemma effect_terms_ok op e : In op (t_ops t) -> In e (op_effs op) -> effect_terms t ids op e = Ok (eterms op e).
Proof.
  intros Ho He. destruct (op_facts op Ho) as [H1 H2]. destruct (H2 e He) as (x & Hx & Hd). unfold effect_terms. rewrite (proj2 (vget_ok _ _ _) Hx). cbn [bind].
  assert (E : match pre_value op (fst (eff_fact e)) with Some d => d | None => undefined_value x end = snd (consumed op e)).
  { unfold consumed. destruct (pre_value op _); [reflexivity|]. unfold undef. unfold is_var in Hx. fold vs in Hx. rewrite Hx. reflexivity. }
  rewrite E. assert (E2 : fst (eff_fact e) = fst (consumed op e)) by (unfold consumed; destruct (pre_value op _); reflexivity).
  rewrite E2 at 1. rewrite (lp_id (consumed op e)) by (now apply consumed_x). cbn [bind]. rewrite (lp_id (eff_fact e)) by (apply fact_x; auto). reflexivity.
Qed.
Lemma insert_perm a l : Permutation (a :: l) (insert_term a l).
Proof. induction l as [|b r IH]; cbn [insert_term]; [auto|]. destruct (fst a <=? fst b); [auto|]. rewrite perm_swap. now constructor. Qed.
Lemma sort_perm l : Permutation l (sort_terms l).
Proof. induction l as [|a r IH]; cbn; [auto|]. rewrite <- insert_perm. now constructor. Qed.
Definition oterms (op : operator) : list (nat * Q) := concat (map (eterms op) (op_effs op)).
Definition ocon (op : operator) : lpcon := {| c_terms := sort_terms (oterms op); c_lo := None; c_up := Some (inject_Z (Z.of_nat (op_cost op))) |}.
Lemma op_constraint_ok op : In op (t_ops t) -> op_constraint t ids op = Ok (ocon op).
Proof.
  intros Ho. unfold op_constraint.
  destruct (fold_inv (fun l e => let* l' := effect_terms t ids op e in Ok (l ++ l')) (fun pre l => l = concat (map (eterms op) pre)) (op_effs op) []) as (l & E & Hl).
  - reflexivity.
  - intros pre e post b Heq ->. rewrite effect_terms_ok; [|auto|rewrite Heq; apply in_or_app; right; now left]. cbn [bind]. eexists. split; [reflexivity|].
    rewrite map_app, concat_app. cbn. now rewrite app_nil_r.
  - rewrite E. cbn [bind]. subst l. reflexivity.
Qed.

(** ** The goal *)
Definition goal_value (v d : nat) : Prop := In (v, d) (t_goal t) \/ (undef v = (v, d) /\ forall d', ~ In (v, d') (t_goal t)).
Lemma goal_x v d : v < length vs -> goal_value v d -> xfact (v, d).
Proof.
  intros Hv [H|[H _]].
  - destruct Ht as ((_ & _ & _ & _ & H2) & _). rewrite Forall_forall in H2. apply fact_x; auto.
  - rewrite <- H. destruct (nth_error vs v) as [x|] eqn:E; [eapply undef_x; eauto|]. apply nth_error_None in E. lia.
Qed.
Lemma goal_unique v d d' : goal_value v d -> goal_value v d' -> d = d'.
Proof.
  intros [H|[H H']] [K|[K K']]; try congruence; [|exfalso; eapply K'; eauto|exfalso; eapply H'; eauto].
  clear -Hg H K. induction (t_goal t) as [|a r IH]; [contradiction|]. cbn in Hg. inv Hg. destruct H as [->|H], K as [K|K]; try congruence; auto.
  - exfalso. apply H2. apply in_map_iff. exists (v, d'). auto.
  - subst. exfalso. apply H2. apply in_map_iff. exists (v, d). auto.
Qed.
Lemma full_goal_ok : exists g, full_goal t = Ok g /\ length g = length vs /\ forall v d, nth_error g v = Some d -> goal_value v d.
Proof.
  unfold full_goal.
  destruct (fold_inv (fun g f => vset g (fst f) (Some (snd f))) (fun pre g => length g = length vs /\ forall v, v < length vs ->
     match nth_error g v with Some (Some d) => In (v, d) pre | Some None => forall d, ~ In (v, d) pre | None => False end) (t_goal t) (repeat None (length (t_vars t)))) as (g & E & L & H).
  - split; [apply repeat_length|]. intros v Hv. rewrite (nth_error_repeat _ Hv). auto.
  - intros pre f post b Heq [L H]. assert (Hf : fst f < length vs).
    { assert (Hin : In f (t_goal t)) by (rewrite Heq; apply in_or_app; right; now left).
      destruct Ht as ((_ & _ & _ & _ & H2) & _). rewrite Forall_forall in H2. destruct (H2 f Hin) as (x & Hx & _). eapply nth_error_Some_lt; eauto. }
    exists (upd b (fst f) (Some (snd f))). split; [apply vset_ok; split; [lia|auto]|]. split; [now rewrite upd_length|]. intros v Hv. specialize (H v Hv).
    destruct (Nat.eq_dec (fst f) v) as [<-|Hne].
    + rewrite upd_nth_eq by lia. apply in_or_app. right. left. now destruct f.
    + rewrite upd_nth_neq by auto. destruct (nth_error b v) as [[d|]|]; [apply in_or_app; auto| |auto]. intros d Hd. apply in_app_iff in Hd as [Hd|[Hd|[]]]; [eapply H; eauto|]. subst f. now apply Hne.
  - rewrite E. cbn [bind]. eexists. split; [reflexivity|]. split; [rewrite map_length, combine_length; fold vs; lia|].
    intros v d Hv. rewrite nth_error_map in Hv. destruct (nth_error (combine (t_vars t) g) v) as [[x o]|] eqn:Ec; [|discriminate]. cbn in Hv. inv Hv.
    assert (Hx : nth_error vs v = Some x /\ nth_error g v = Some o).
    { clear -Ec. fold vs in Ec. revert v g Ec. induction vs as [|y r IH]; intros v g Ec; [destruct v; discriminate|]. destruct g as [|z g]; [destruct v; discriminate|]. destruct v; cbn in *; [inv Ec; auto|]. auto. }
    destruct Hx as [Hx Ho]. specialize (H v ltac:(eapply nth_error_Some_lt; eauto)). rewrite Ho in H. unfold goal_value. destruct o as [d|]; [auto|]. right. split; [|auto].
    unfold undef. rewrite Hx. reflexivity.
Qed.

(** ** The program *)
Definition bvar (lo up : option Q) (q : lpvar) : Prop := v_lo q = lo /\ v_up q = up /\ v_int q = false.
Definition program (lvs : list lpvar) : Prop :=
  length lvs = num_lp_vars vs /\
  forall f, xfact f -> exists q, nth_error lvs (pid f) = Some q /\
    ((goal_value (fst f) (snd f) /\ bvar (Some 0%Q) (Some 0%Q) q) \/ (~ goal_value (fst f) (snd f) /\ bvar None mp q)).
Definition ucon (f : fact) : lpcon := {| c_terms := [(pid f, 1%Q); (pid (undef (fst f)), (-1)%Q)]; c_lo := None; c_up := Some 0%Q |}.
Definition rows : list lpcon := map ocon (t_ops t) ++ map ucon (all_facts t).

Lemma construct_ok : exists lvs, construct_lp t mp = Ok {| lp_vars := lvs; lp_cons := rows |} /\ program lvs.
Proof.
  unfold construct_lp. fold vs. fold ids. rewrite (omap_ok _ ocon) by (intros op Ho; now apply op_constraint_ok). cbn [bind].
  destruct full_goal_ok as (g & -> & Lg & Hgv). cbn [bind].
  destruct (fold_inv (fix_goal ids) (fun pre lvs => length lvs = num_lp_vars vs /\
     forall f, xfact f -> exists q, nth_error lvs (pid f) = Some q /\ ((In f pre /\ bvar (Some 0%Q) (Some 0%Q) q) \/ (~ In f pre /\ bvar None mp q)))
     (numbered g) (repeat {| v_lo := None; v_up := mp; v_obj := 1%Q; v_int := false |} (num_lp_vars vs))) as (lvs & E & L & H).
  - split; [apply repeat_length|]. intros f Hf. rewrite nth_error_repeat by (now apply pid_bound). eexists. split; [reflexivity|]. right. split; [auto|]. repeat split.
  - intros pre f post b Heq [L H]. assert (Hf : xfact f).
    { assert (Hin : In f (numbered g)) by (rewrite Heq; apply in_or_app; right; now left). destruct f as [v d]. apply numbered_in in Hin. apply goal_x; [|auto]. rewrite <- Lg. eapply nth_error_Some_lt; eauto. }
    unfold fix_goal. rewrite (lp_id f Hf). cbn [bind]. destruct (H f Hf) as (q & Hq & Hc). rewrite (proj2 (vget_ok _ _ _) Hq). cbn [bind].
    eexists. split; [apply vset_ok; split; [rewrite L; now apply pid_bound|reflexivity]|]. split; [now rewrite upd_length|]. intros f' Hf'.
    destruct (Nat.eq_dec (pid f) (pid f')) as [Ep|Ep].
    + assert (f = f') by (now apply pid_inj). subst f'. rewrite upd_nth_eq by (rewrite L; now apply pid_bound). eexists. split; [reflexivity|]. left. split; [apply in_or_app; right; now left|].
      repeat split. cbn. destruct Hc as [[_ (_ & _ & K)]|[_ (_ & _ & K)]]; exact K.
    + rewrite upd_nth_neq by auto. destruct (H f' Hf') as (q' & Hq' & Hc'). exists q'. split; auto. destruct Hc' as [[K1 K2]|[K1 K2]]; [left|right]; (split; [|exact K2]).
      * apply in_or_app. auto.
      * intros K. apply in_app_iff in K as [K|[K|[]]]; [auto|]. subst. auto.
  - rewrite E. cbn [bind].
    rewrite (omap_ok _ (fun vx => map ucon (map (pair (fst vx)) (seq 0 (vdom (snd vx)))))).
    + cbn [bind]. exists lvs. split.
      * f_equal. f_equal. unfold rows. f_equal. unfold all_facts. rewrite concat_map, map_map. fold vs. reflexivity.
      * split; [exact L|]. intros f Hf. destruct (H f Hf) as (q & Hq & Hc). exists q. split; [exact Hq|]. destruct f as [v d]. destruct Hc as [[K1 K2]|[K1 K2]]; [left|right]; (split; [|exact K2]).
        -- apply numbered_in in K1. cbn. auto.
        -- intros K. apply K1. apply numbered_in. destruct Hf as (x & Hx & _). cbn [fst snd] in *. assert (Lv : v < length g) by (rewrite Lg; eapply nth_error_Some_lt; eauto).
           destruct (nth_error g v) as [d'|] eqn:Ev; [|apply nth_error_None in Ev; lia]. f_equal. eapply goal_unique; eauto.
    + intros [v x] Hin. apply numbered_in in Hin. fold vs in Hin. unfold undef_constraints. cbn [fst snd].
      assert (Eu : undef v = (v, undefined_value x)) by (unfold undef; rewrite Hin; reflexivity).
      change v with (fst (v, undefined_value x)) at 1. change (undefined_value x) with (snd (v, undefined_value x)) at 2. rewrite <- Eu.
      replace (get_lp_var_id ids (fst (undef v)) (undefined_value x)) with (get_lp_var_id ids (fst (undef v)) (snd (undef v))) by (now rewrite Eu).
      rewrite (lp_id (undef v)) by (eapply undef_x; eauto). cbn [bind].
      rewrite (omap_ok _ (fun d => ucon (v, d))); [now rewrite map_map|]. intros d Hd. apply in_seq in Hd.
      pose proof (lp_id (v, d)) as K. cbn [fst snd] in K. rewrite K by (exists x; cbn; split; auto; lia). reflexivity.
Qed.

(** ** What the program says *)
Definition cost (op : operator) : Q := inject_Z (Z.of_nat (op_cost op)).
Definition opot (y : nat -> Q) (op : operator) : Q := qsum (fun e => y (pid (consumed op e)) - y (pid (eff_fact e)))%Q (op_effs op).
Lemma lin_oterms y op : (lin y (c_terms (ocon op)) == opot y op)%Q.
Proof.
  cbn [ocon c_terms]. unfold lin. rewrite <- (qsum_perm _ _ _ (sort_perm (oterms op))). unfold oterms, opot. induction (op_effs op) as [|e r IH]; cbn [map concat qsum]; [reflexivity|].
  rewrite qsum_app, IH. unfold eterms. destruct (Nat.eqb_spec (pid (consumed op e)) (pid (eff_fact e))) as [E|E]; cbn [qsum fst snd]; [rewrite E; ring|ring].
Qed.
Definition psol (tol : Q) (y : nat -> Q) : Prop :=
  (forall v d, v < length vs -> goal_value v d -> (- tol <= y (pid (v, d)) <= tol)%Q) /\
  (forall f b, xfact f -> ~ goal_value (fst f) (snd f) -> mp = Some b -> y (pid f) <= b + tol)%Q /\
  (forall f, fact_ok t f -> y (pid f) <= y (pid (undef (fst f))) + tol)%Q /\
  (forall op, In op (t_ops t) -> opot y op <= cost op + tol)%Q.
Lemma in_facts f : In f (all_facts t) <-> fact_ok t f.
Proof. destruct f as [v d]. rewrite in_all_facts. unfold is_fact, fact_ok. cbn. reflexivity. Qed.
Lemma near_psol tol lvs y : program lvs -> near_feasible tol lvs rows y <-> psol tol y.
Proof.
  intros [L H]. split.
  - intros [N1 N2]. unfold psol. splits.
    + intros v d Hv Hd. destruct (H (v, d) (goal_x v d Hv Hd)) as (q & Hq & [[_ (B1 & B2 & _)]|[K _]]); [|contradiction].
      destruct (N1 _ _ Hq) as [M1 M2]. rewrite B1 in M1. rewrite B2 in M2. cbn [above below] in M1, M2. lra.
    + intros f b Hf Hn Hb. destruct (H f Hf) as (q & Hq & [[K _]|[_ (B1 & B2 & _)]]); [contradiction|]. destruct (N1 _ _ Hq) as [_ M2]. rewrite B2, Hb in M2. cbn [above below] in M2. lra.
    + intros f Hf. destruct (N2 (ucon f)) as [_ M]; [apply in_or_app; right; apply in_map, in_facts, Hf|]. cbn [ucon c_terms c_up below lin qsum fst snd] in M; unfold lin in M; cbn [qsum fst snd] in M. lra.
    + intros op Ho. destruct (N2 (ocon op)) as [_ M]; [apply in_or_app; left; now apply in_map|]. change (lin y (c_terms (ocon op)) - tol <= cost op)%Q in M. rewrite lin_oterms in M. lra.
  - intros (G & B & U & O). split.
    + intros i q Hq. assert (Hi : i < num_lp_vars vs) by (rewrite <- L; eapply nth_error_Some_lt; eauto). destruct (pid_surj i Hi) as (f & Hf & ->).
      destruct (H f Hf) as (q' & Hq' & Hc). assert (q' = q) by congruence. subst q'. destruct Hc as [[K (B1 & B2 & _)]|[K (B1 & B2 & _)]]; rewrite B1, B2.
      * destruct f as [v d]. destruct Hf as (x & Hx & _). specialize (G v d ltac:(eapply nth_error_Some_lt; eauto) K). cbn [above below]. lra.
      * split; [exact I|]. destruct mp as [b|] eqn:E; [|exact I]. specialize (B f b Hf K eq_refl). cbn [below]. lra.
    + intros c Hc. apply in_app_iff in Hc as [Hc|Hc]; apply in_map_iff in Hc as (a & <- & Ha); (split; [exact I|]).
      * change (lin y (c_terms (ocon a)) - tol <= cost a)%Q. rewrite lin_oterms. specialize (O a Ha). lra.
      * apply in_facts in Ha. specialize (U a Ha). cbn [ucon c_terms c_up below]. unfold lin. cbn [qsum fst snd]. lra.
Qed.
Lemma feasible_psol lvs y : program lvs -> feasible lvs rows y <-> psol 0 y.
Proof.
  intros HP. rewrite <- (near_psol 0 lvs y HP). unfold feasible, near_feasible. destruct HP as [L H]. split; intros [F1 F2]; split.
  - intros i v Hv. destruct (F1 i v Hv) as (A & B & _). split; [destruct (v_lo v)|destruct (v_up v)]; cbn [above below] in *; auto; lra.
  - intros c Hc. destruct (F2 c Hc) as (A & B). split; [destruct (c_lo c)|destruct (c_up c)]; cbn [above below] in *; auto; lra.
  - intros i v Hv. destruct (F1 i v Hv) as (A & B). unfold var_ok. assert (Hi : i < num_lp_vars vs) by (rewrite <- L; eapply nth_error_Some_lt; eauto). destruct (pid_surj i Hi) as (f & Hf & ->).
    destruct (H f Hf) as (q' & Hq' & Hc). assert (q' = v) by congruence. subst q'. split; [destruct (v_lo v); cbn [above below] in *; auto; lra|]. split; [destruct (v_up v); cbn [above below] in *; auto; lra|].
    intros K. destruct Hc as [[_ (_ & _ & Hi')]|[_ (_ & _ & Hi')]]; congruence.
  - intros c Hc. destruct (F2 c Hc) as (A & B). split; [destruct (c_lo c)|destruct (c_up c)]; cbn [above below] in *; auto; lra.
Qed.
Lemma zero_psol : (forall b, mp = Some b -> 0 <= b)%Q -> psol 0 (fun _ => 0%Q).
Proof.
  intros Hb. unfold psol. splits.
  - intros. lra.
  - intros f b _ _ E. specialize (Hb b E). lra.
  - intros. lra.
  - intros op _. unfold opot. rewrite (qsum_zero _ (op_effs op)) by (intros; lra). unfold cost. assert (0 <= inject_Z (Z.of_nat (op_cost op)))%Q by (change 0%Q with (inject_Z 0); rewrite <- Zle_Qle; lia). lra.
Qed.
(** No variable occurs twice in a row. *)
Lemma rows_well_formed lvs : program lvs -> well_formed lvs rows.
Proof.
  intros [L _] c Hc. apply in_app_iff in Hc as [Hc|Hc]; apply in_map_iff in Hc as (a & <- & Ha).
  - cbn [ocon c_terms]. pose proof (sort_perm (oterms a)) as HP. split.
    + apply (Permutation_NoDup (Permutation_map fst HP)). destruct Ht as (_ & _ & _ & Hp). specialize (Hp a Ha). destruct Hp as (_ & _ & Hn & _).
      assert (Hx : forall e, In e (op_effs a) -> xfact (consumed a e) /\ xfact (eff_fact e)) by (intros e He; split; [now apply consumed_x|apply fact_x; now apply (op_facts a Ha)]).
      assert (Hf : forall e, fst (consumed a e) = fst (eff_fact e)) by (intros e; unfold consumed; destruct (pre_value a _); reflexivity).
      unfold oterms. clear -Hn Hx Hf. induction (op_effs a) as [|e r IH]; cbn [map concat]; [constructor|]. cbn [map] in Hn. inv Hn. rewrite map_app. destruct (Hx e (or_introl eq_refl)) as [X1 X2].
      assert (D : forall i q, In (i, q) (concat (map (eterms a) r)) -> i <> pid (consumed a e) /\ i <> pid (eff_fact e)).
      { intros i q Hi. apply in_concat in Hi as (l & Hl & Hi). apply in_map_iff in Hl as (e' & <- & He'). destruct (Hx e' (or_intror He')) as [Y1 Y2].
        assert (Hne : fst (eff_fact e') <> fst (eff_fact e)) by (intros E; apply H1; rewrite <- E; apply in_map_iff; exists e'; auto).
        unfold eterms in Hi. destruct (_ =? _); [contradiction|]. destruct Hi as [Hi|[Hi|[]]]; inv Hi; split; intros E; apply pid_inj in E; auto; apply Hne; apply (f_equal fst) in E; rewrite ?Hf in E; exact E. }
      specialize (IH H2 (fun e' He' => Hx e' (or_intror He'))). unfold eterms at 1. destruct (Nat.eqb_spec (pid (consumed a e)) (pid (eff_fact e))) as [E|E]; cbn [map fst app]; [exact IH|].
      constructor; [|constructor; [|exact IH]].
      * intros [K|K]; [now apply E|]. apply in_map_iff in K as ([i q] & K & Hi). cbn in K. subst. destruct (D _ _ Hi) as [D1 D2]. congruence.
      * intros K. apply in_map_iff in K as ([i q] & K & Hi). cbn in K. subst. destruct (D _ _ Hi) as [D1 D2]. congruence.
    + intros i q Hi. apply (Permutation_in _ (Permutation_sym HP)) in Hi. unfold oterms in Hi. apply in_concat in Hi as (l & Hl & Hi). apply in_map_iff in Hl as (e & <- & He). unfold eterms in Hi.
      destruct (_ =? _); [contradiction|]. rewrite L. destruct Hi as [Hi|[Hi|[]]]; inv Hi; apply pid_bound; [now apply consumed_x|apply fact_x; now apply (op_facts a Ha)].
  - apply in_facts in Ha. cbn [ucon c_terms map fst]. pose proof Ha as (x & Hx & Hd). assert (Hu : xfact (undef (fst a))) by (eapply undef_x; eauto). split.
    + constructor; [|repeat constructor; auto]. intros [E|[]]. apply pid_inj in E; [|auto|now apply fact_x]. unfold undef in E. unfold is_var in Hx. fold vs in Hx. rewrite Hx in E. rewrite <- E in Hd. cbn in Hd. lia.
    + intros i q [Hi|[Hi|[]]]; inv Hi; rewrite L; apply pid_bound; [now apply fact_x|auto].
Qed.
End Task.
