(** Proofs about potential heuristics, part 2: solutions of the program as potential functions. *)
From Coq Require Import QArith Lqa Permutation.
From Verif Require Import Outcome Spec_Task Spec_Relaxation Spec_Projection Spec_Cartesian Spec_LP Spec_OperatorCounting Spec_Potentials Model_Task Model_LPSolver Model_OperatorCounting Model_Potentials
  Proof_Task Proof_Cartesian2 Proof_OC1 Proof_Pot1.
Local Open Scope nat_scope.

(** ** Sums over positions *)
Lemma qsum_upd {A} (F : nat * A -> Q) l : forall k i a a', nth_error l i = Some a ->
  (qsum F (combine (seq k (length (upd l i a'))) (upd l i a')) == qsum F (combine (seq k (length l)) l) - F (k + i, a)%nat + F (k + i, a')%nat)%Q.
Proof.
  induction l as [|b r IH]; intros k i a a' Hi; [destruct i; discriminate|]. destruct i as [|i]; cbn [nth_error] in Hi.
  - inv Hi. cbn [upd length seq combine qsum]. rewrite Nat.add_0_r. ring.
  - specialize (IH (S k) i a a' Hi). cbn [upd length seq combine qsum]. rewrite IH. rewrite <- !Nat.add_succ_comm. ring.
Qed.
Lemma qsum_bound {A} (F : A -> Q) l b : (forall a, In a l -> F a <= b)%Q -> (qsum F l <= inject_Z (Z.of_nat (length l)) * b)%Q.
Proof.
  induction l as [|a r IH]; intros H; cbn [qsum length]; [change (inject_Z (Z.of_nat 0)) with 0%Q; lra|]. pose proof (H a (or_introl eq_refl)).
  assert (qsum F r <= inject_Z (Z.of_nat (length r)) * b)%Q by (apply IH; intros c Hc; apply H; now right).
  rewrite Nat2Z.inj_succ. unfold Z.succ. rewrite inject_Z_plus. change (inject_Z 1) with 1%Q. lra.
Qed.
Lemma potential_upd W s v d d' : nth_error s v = Some d -> (potential W (upd s v d') == potential W s - W (v, d) + W (v, d'))%Q.
Proof. intros H. unfold potential. apply (qsum_upd W s 0 v d d' H). Qed.
Definition effs_upd (s : state) (es : list effect) : state := fold_left (fun s e => upd s (fst (eff_fact e)) (snd (eff_fact e))) es s.
Lemma potential_effs W : forall es s, NoDup (map (fun e => fst (eff_fact e)) es) -> (forall e, In e es -> fst (eff_fact e) < length s) ->
  (potential W s - potential W (effs_upd s es) == qsum (fun e => W (fst (eff_fact e), nth (fst (eff_fact e)) s 0%nat) - W (eff_fact e)) es)%Q.
Proof.
  induction es as [|e r IH]; intros s Hn Hb; cbn [effs_upd fold_left qsum]; [ring|]. fold (effs_upd (upd s (fst (eff_fact e)) (snd (eff_fact e))) r).
  cbn [map] in Hn. inv Hn. specialize (IH (upd s (fst (eff_fact e)) (snd (eff_fact e))) H2).
  assert (Hv : nth_error s (fst (eff_fact e)) = Some (nth (fst (eff_fact e)) s 0)) by (apply nth_error_nth'; apply Hb; now left).
  pose proof (potential_upd W s _ _ (snd (eff_fact e)) Hv) as E. 
  assert (IH' : (potential W (upd s (fst (eff_fact e)) (snd (eff_fact e))) - potential W (effs_upd (upd s (fst (eff_fact e)) (snd (eff_fact e))) r) ==
     qsum (fun e0 => W (fst (eff_fact e0), nth (fst (eff_fact e0)) s 0%nat) - W (eff_fact e0)) r)%Q).
  { rewrite IH; [|intros e' He'; rewrite upd_length; apply Hb; now right]. apply qsum_ext. intros e' He'.
    assert (Hne : fst (eff_fact e) <> fst (eff_fact e')) by (intros K; apply H1; rewrite K; apply in_map_iff; exists e'; auto).
    rewrite (nth_error_nth (upd s (fst (eff_fact e)) (snd (eff_fact e))) (fst (eff_fact e')) 0 (x := nth (fst (eff_fact e')) s 0)); [ring|]. rewrite upd_nth_neq by auto. apply nth_error_nth'. apply Hb. now right. }
  rewrite <- surjective_pairing in E. lra.
Qed.
Lemma effs_apply s es : (forall e, In e es -> eff_cond e = []) -> apply_effects s es = effs_upd s es.
Proof.
  intros H. unfold apply_effects, effs_upd.
  assert (G : forall s1, fold_left (fun s1 e => if all_holdb s (eff_cond e) then upd s1 (fst (eff_fact e)) (snd (eff_fact e)) else s1) es s1 = fold_left (fun s e => upd s (fst (eff_fact e)) (snd (eff_fact e))) es s1); [|apply G].
  induction es as [|e r IH]; intros s1; cbn [fold_left]; [auto|]. rewrite (H e) by now left. cbn [all_holdb forallb].
  apply IH. intros e' He'. apply H. now right.
Qed.

Definition qnat (k : nat) : Q := inject_Z (Z.of_nat k).
Lemma qnat_nonneg k : (0 <= qnat k)%Q. Proof. unfold qnat. change 0%Q with (inject_Z 0). rewrite <- Zle_Qle. lia. Qed.
Lemma qnat_S k : (qnat (S k) == qnat k + 1)%Q. Proof. unfold qnat. rewrite Nat2Z.inj_succ. unfold Z.succ. rewrite inject_Z_plus. reflexivity. Qed.
Lemma qnat_le a b : a <= b -> (qnat a <= qnat b)%Q. Proof. intros H. unfold qnat. rewrite <- Zle_Qle. lia. Qed.
Lemma qnat_add a b : (qnat (a + b) == qnat a + qnat b)%Q. Proof. unfold qnat. now rewrite Nat2Z.inj_add, inject_Z_plus. Qed.

Section Task.
Variable t : task.
Hypothesis Ht : plain_task t.
Hypothesis Hg : NoDup (map fst (t_goal t)).
Variable mp : option Q.
Let vs := t_vars t.
Let n := length vs.
Let pid := pid t.

Lemma pot_cartesian : cartesian_task t.
Proof. destruct Ht as (H1 & H2 & H3 & H4). unfold cartesian_task. splits; auto. intros op Ho. destruct (H4 op Ho) as (A & B & _). auto. Qed.
Definition wof (y : nat -> Q) (f : fact) : Q := y (pid f).

Section Solution.
Variables (tol : Q) (y : nat -> Q).
Hypothesis Htol : (0 <= tol)%Q.
Hypothesis Hy : psol t mp tol y.
Let W := wof y.

Lemma step_bound s o op s' : state_ok t s -> nth_error (t_ops t) o = Some op -> applicable t s o -> progress t s o s' ->
  (potential W s <= qnat (op_cost op) + potential W s' + qnat (n + 1) * tol)%Q.
Proof.
  intros Hs Ho (op1 & Ho1 & Hp) Hpr. assert (op1 = op) by congruence. subst op1. apply (next_state t pot_cartesian s o s' Hs) in Hpr as (op1 & Ho2 & ->). assert (op1 = op) by congruence. subst op1.
  assert (Hin : In op (t_ops t)) by (eapply nth_error_In; eauto). destruct Ht as (_ & _ & _ & Hpl). destruct (Hpl op Hin) as (Hc & Hnp & Hne & _).
  rewrite (effs_apply s _ Hc). destruct (op_facts t Ht op Hin) as [Hf1 Hf2].
  assert (Lv : forall e, In e (op_effs op) -> fst (eff_fact e) < length s) by (intros e He; destruct (Hf2 e He) as (x & Hx & _); rewrite (state_ok_length t s Hs); eapply nth_error_Some_lt; eauto).
  pose proof (potential_effs W (op_effs op) s Hne Lv) as E.
  assert (K : (qsum (fun e => W (fst (eff_fact e), nth (fst (eff_fact e)) s 0%nat) - W (eff_fact e)) (op_effs op) <= qsum (fun e => (y (pid (consumed t op e)) - y (pid (eff_fact e))) + tol) (op_effs op))%Q).
  { apply qsum_le. intros e He. unfold W, wof. assert (Hv : nth_error s (fst (eff_fact e)) = Some (nth (fst (eff_fact e)) s 0)) by (apply nth_error_nth'; auto).
    unfold consumed. destruct (pre_value op (fst (eff_fact e))) as [d|] eqn:Ep.
    - apply pre_value_some in Ep; [|auto]. specialize (Hp _ Ep). unfold holds in Hp. cbn [fst snd] in Hp. rewrite Hv in Hp. inv Hp. lra.
    - destruct Hy as (_ & _ & U & _). specialize (U (fst (eff_fact e), nth (fst (eff_fact e)) s 0)). cbn [fst] in U. assert (fact_ok t (fst (eff_fact e), nth (fst (eff_fact e)) s 0)) by (destruct (state_ok_var t s _ _ Hs Hv) as (x & Hx & Hd); exists x; auto).
      specialize (U H). fold pid in U. lra. }
  rewrite qsum_plus in K. pose proof (qsum_bound (fun _ : effect => tol) (op_effs op) tol (fun _ _ => Qle_refl tol)) as K2. destruct Hy as (_ & _ & _ & O). specialize (O op Hin). unfold opot in O. fold pid in O. unfold cost in O. fold (qnat (op_cost op)) in O. fold (qnat (length (op_effs op))) in K2.
  assert (L : length (op_effs op) <= n).
  { rewrite <- (map_length (fun e => fst (eff_fact e))). rewrite <- (seq_length n 0). apply NoDup_incl_length; [exact Hne|]. intros v Hv. apply in_map_iff in Hv as (e & <- & He). apply in_seq. specialize (Lv e He). rewrite (state_ok_length t s Hs) in Lv. unfold n, vs. lia. }
  pose proof (qnat_le _ _ L) as L'. pose proof (qnat_add n 1) as A. change (qnat 1) with 1%Q in A. assert (M : (qnat (length (op_effs op)) * tol <= qnat n * tol)%Q) by (apply Qmult_le_compat_r; auto).
  rewrite A. lra.
Qed.
Lemma goal_bound s : state_ok t s -> goal_state t s -> (potential W s <= qnat n * (2 * tol))%Q.
Proof.
  intros Hs Hgs. unfold potential. replace n with (length (combine (seq 0 (length s)) s)) by (rewrite combine_length, seq_length, (state_ok_length t s Hs); fold vs; fold n; lia).
  apply qsum_bound. intros [v d] Hvd. fold (numbered s) in Hvd. apply numbered_in in Hvd. pose proof (state_ok_var t s v d Hs Hvd) as (x & Hx & Hd). destruct Hy as (G & _ & U & _).
  assert (Hv : v < length (t_vars t)) by (eapply nth_error_Some_lt; eauto). unfold W, wof.
  destruct (in_dec Nat.eq_dec v (map fst (t_goal t))) as [K|K].
  - apply in_map_iff in K as ([v' d'] & E & Hin). cbn in E. subst v'. specialize (Hgs _ Hin). unfold holds in Hgs. cbn [fst snd] in Hgs. assert (d' = d) by congruence. subst d'.
    specialize (G v d Hv (or_introl Hin)). fold pid in G. lra.
  - assert (Gu : goal_value t v (snd (undef t v))). { right. split; [reflexivity|]. intros d' Hd'. apply K. apply in_map_iff. exists (v, d'). auto. }
    specialize (G v _ Hv Gu). specialize (U (v, d) ltac:(exists x; auto)). cbn [fst] in U. fold pid in G, U. change (v, snd (undef t v)) with (undef t v) in G. lra.
Qed.
Lemma path_bound s os s' : task_path t s os s' -> state_ok t s -> (potential W s <= qnat (plan_cost t os) + potential W s' + qnat (length os) * (qnat (n + 1) * tol))%Q.
Proof.
  induction 1 as [s|s o s1 os s2 Ha Hp _ IH]; intros Hs.
  - cbn [length]. change (qnat 0) with 0%Q. change (plan_cost t []) with 0. change (qnat 0) with 0%Q. lra.
  - assert (Hs1 : state_ok t s1) by (eapply (next_ok t pot_cartesian); eauto). specialize (IH Hs1). destruct Ha as (op & Ho & Hpre).
    pose proof (step_bound s o op s1 Hs Ho (ex_intro _ op (conj Ho Hpre)) Hp) as K. cbn [length]. pose proof (qnat_S (length os)) as E.
    assert (Ec : plan_cost t (o :: os) = op_cost op + plan_cost t os) by (unfold plan_cost; cbn; now rewrite Ho). rewrite Ec, (qnat_add (op_cost op)), E. lra.
Qed.
Lemma plan_bound s os : task_plan_from t s os -> state_ok t s -> (potential W s <= qnat (plan_cost t os) + qnat ((length os + 2) * (n + 1)) * tol)%Q.
Proof.
  intros (s' & Hp & Hgs) Hs. pose proof (path_bound s os s' Hp Hs) as K.
  assert (Hs' : state_ok t s'). { clear -Hp Hs Ht Hg. induction Hp; auto. apply IHHp. eapply (next_ok t pot_cartesian); eauto. }
  pose proof (goal_bound s' Hs' Hgs) as K2.
  assert (E : (qnat ((length os + 2) * (n + 1)) == qnat (length os) * qnat (n + 1) + 2 * qnat n + 2)%Q).
  { unfold qnat. rewrite Nat2Z.inj_mul, inject_Z_mult, !Nat2Z.inj_add, !inject_Z_plus. change (inject_Z (Z.of_nat 1)) with 1%Q. change (inject_Z (Z.of_nat 2)) with 2%Q. ring. }
  rewrite E. lra.
Qed.
End Solution.

Lemma exact_consistent y : psol t mp 0 y -> consistent_potential t (wof y) /\ goal_aware_potential t (wof y).
Proof.
  intros Hy. split.
  - intros s o op s' Hs Ho Ha Hp. pose proof (step_bound 0 y ltac:(lra) Hy s o op s' Hs Ho Ha Hp) as K. unfold qnat in K. lra.
  - intros s Hs Hgs. pose proof (goal_bound 0 y ltac:(lra) Hy s Hs Hgs). lra.
Qed.
End Task.

(** ** Every consistent, goal-aware potential function is dominated by a solution *)
Fixpoint table (Y : fact -> Q) (k : nat) (vs : list variable) : list Q :=
  match vs with [] => [] | x :: r => map (fun d => Y (k, d)) (seq 0 (vdom x + 1)) ++ table Y (S k) r end.
Lemma table_nth Y : forall vs k v x d, nth_error vs v = Some x -> d <= vdom x -> nth (off vs v + d) (table Y k vs) 0%Q = Y (k + v, d).
Proof.
  induction vs as [|a r IH]; intros k v x d Hv Hd; [destruct v; discriminate|]. destruct v as [|v]; cbn [nth_error] in Hv.
  - inv Hv. cbn [table]. change (off (x :: r) 0 + d) with d. rewrite app_nth1 by (rewrite map_length, seq_length; lia).
    rewrite (nth_indep _ 0%Q (Y (k, 0))) by (rewrite map_length, seq_length; lia). rewrite (map_nth (fun d => Y (k, d))), seq_nth by lia. now rewrite Nat.add_0_r.
  - cbn [table]. rewrite off_cons, app_nth2 by (rewrite map_length, seq_length; lia). rewrite map_length, seq_length. replace (vdom a + 1 + off r v + d - (vdom a + 1)) with (off r v + d) by lia.
    rewrite (IH (S k) v x d Hv Hd). f_equal. f_equal. lia.
Qed.
Lemma argmax (F : nat -> Q) : forall m, 0 < m -> exists a, a < m /\ forall d, d < m -> (F d <= F a)%Q.
Proof.
  induction m as [|m IH]; intros H; [lia|]. destruct (Nat.eq_dec m 0) as [->|Hm].
  - exists 0. split; [lia|]. intros d Hd. replace d with 0 by lia. lra.
  - destruct IH as (a & La & Ha); [lia|]. destruct (Qlt_le_dec (F a) (F m)) as [C|C].
    + exists m. split; [lia|]. intros d Hd. destruct (Nat.eq_dec d m) as [->|]; [lra|]. specialize (Ha d ltac:(lia)). lra.
    + exists a. split; [lia|]. intros d Hd. destruct (Nat.eq_dec d m) as [->|]; [lra|]. apply Ha. lia.
Qed.
Lemma argmax_state (W : fact -> Q) : forall vs k, Forall (fun x => 0 < vdom x) vs -> exists ms, Forall2 (fun m x => m < vdom x) ms vs /\
  forall v x m d, nth_error vs v = Some x -> nth_error ms v = Some m -> d < vdom x -> (W ((k + v)%nat, d) <= W ((k + v)%nat, m))%Q.
Proof.
  induction vs as [|x r IH]; intros k H; [exists []; split; [constructor|]; intros v y m d Hv; destruct v; discriminate|]. inv H.
  destruct (argmax (fun d => W (k, d)) (vdom x) H2) as (a & La & Ha). destruct (IH (S k) H3) as (ms & Hms & Hm). exists (a :: ms). split; [constructor; auto|].
  intros v y m d Hv Hm' Hd. destruct v as [|v]; cbn [nth_error] in *.
  - inv Hv. inv Hm'. rewrite Nat.add_0_r. auto.
  - replace (k + S v) with (S k + v) by lia. eapply Hm; eauto.
Qed.
(** The state with the values of [ms], except for the given facts. *)
Definition overlay (fs : list fact) (ms : state) : state :=
  map (fun vm => match find (fun f => fst f =? fst vm) fs with Some f => snd f | None => snd vm end) (numbered ms).
Lemma overlay_nth fs ms v m : NoDup (map fst fs) -> nth_error ms v = Some m ->
  exists d, nth_error (overlay fs ms) v = Some d /\ ((In (v, d) fs) \/ (d = m /\ forall d', ~ In (v, d') fs)).
Proof.
  intros Hn Hm. unfold overlay. rewrite nth_error_map. assert (E : nth_error (numbered ms) v = Some (v, m)).
  { assert (G : forall (l : list nat) k i a, nth_error l i = Some a -> nth_error (combine (seq k (length l)) l) i = Some (k + i, a)).
    { induction l as [|b r IH]; intros k i a Hi; [destruct i; discriminate|]. destruct i; cbn in *; [inv Hi; now rewrite Nat.add_0_r|]. rewrite (IH (S k) i a Hi). f_equal. f_equal. lia. }
    apply (G ms 0 v m Hm). }
  rewrite E. cbn [option_map fst snd]. eexists. split; [reflexivity|]. destruct (find _ fs) as [f|] eqn:Ef.
  - apply find_some in Ef as [F1 F2]. apply Nat.eqb_eq in F2. left. destruct f. cbn in *. now subst.
  - right. split; auto. intros d' Hd'. pose proof (find_none _ _ Ef _ Hd') as K. cbn in K. now rewrite Nat.eqb_refl in K.
Qed.
Lemma overlay_in fs ms v d : NoDup (map fst fs) -> In (v, d) fs -> v < length ms -> nth_error (overlay fs ms) v = Some d.
Proof.
  intros Hn Hi Hv. destruct (nth_error ms v) as [m|] eqn:E; [|apply nth_error_None in E; lia]. destruct (overlay_nth fs ms v m Hn E) as (d' & Hd' & [K|[_ K]]); [|exfalso; eapply K; eauto].
  rewrite Hd'. f_equal. clear -Hn Hi K. induction fs as [|a r IH]; [contradiction|]. cbn in Hn. inv Hn. destruct Hi as [->|Hi], K as [K|K]; try congruence; auto.
  - exfalso. apply H1. apply in_map_iff. exists (v, d'). auto.
  - subst. exfalso. apply H1. apply in_map_iff. exists (v, d). auto.
Qed.
Lemma overlay_ok t fs ms : NoDup (map fst fs) -> (forall f, In f fs -> fact_ok t f) -> state_ok t ms -> state_ok t (overlay fs ms).
Proof.
  intros Hn Hf Hms. pose proof (state_ok_length t ms Hms) as L.
  assert (G : forall (l : state) (vs : list variable), length l = length vs -> (forall v d x, nth_error l v = Some d -> nth_error vs v = Some x -> d < vdom x) -> Forall2 (fun x d => x < vdom d) l vs).
  { clear. induction l as [|a r IH]; intros [|b vs] E H; try discriminate; constructor; [apply (H 0); reflexivity|]. apply IH; [cbn in E; lia|]. intros v. apply (H (S v)). }
  apply G; [unfold overlay; rewrite map_length; unfold numbered; rewrite combine_length, seq_length; lia|].
  intros v d x Hd Hx. assert (Hv : v < length ms) by (rewrite L; eapply nth_error_Some_lt; eauto). destruct (nth_error ms v) as [m|] eqn:E; [|apply nth_error_None in E; lia].
  destruct (overlay_nth fs ms v m Hn E) as (d' & Hd' & K). assert (d' = d) by congruence. subst d'. destruct K as [K|[-> _]].
  - destruct (Hf _ K) as (x' & Hx' & Hd''). cbn in *. unfold is_var in Hx'. assert (x' = x) by congruence. now subst.
  - destruct (state_ok_var t ms v m Hms E) as (x' & Hx' & K). unfold is_var in Hx'. assert (x' = x) by congruence. now subst.
Qed.

Section Best.
Variable t : task.
Hypothesis Ht : plain_task t.
Hypothesis Hg : NoDup (map fst (t_goal t)).
Variable W : fact -> Q.
Hypothesis Hc : consistent_potential t W.
Hypothesis Hga : goal_aware_potential t W.

Lemma dominated : exists y, psol t None 0 y /\ forall s, state_ok t s -> (potential W s <= potential (wof t y) s)%Q.
Proof.
  pose proof (pot_cartesian t Ht Hg) as HC. pose proof Ht as ((_ & _ & _ & Hinit & Hgf) & _ & _ & Hpl). rewrite Forall_forall in Hgf.
  assert (Hpos : Forall (fun x => 0 < vdom x) (t_vars t)). { clear -Hinit. unfold state_ok in Hinit. induction Hinit; constructor; auto. lia. }
  destruct (argmax_state W (t_vars t) 0 Hpos) as (ms & Hms & Hmax). cbn [plus] in Hmax. change (state_ok t ms) in Hms.
  set (gs := overlay (t_goal t) ms). assert (Hgs : state_ok t gs) by (apply overlay_ok; auto).
  assert (Hgg : goal_state t gs). { intros [v d] Hf. unfold holds. cbn [fst snd]. apply overlay_in; auto. destruct (Hgf _ Hf) as (x & Hx & _). rewrite (state_ok_length t ms Hms). eapply nth_error_Some_lt; eauto. }
  set (Y := fun f : fact => (W (fst f, if match nth_error (t_vars t) (fst f) with Some x => snd f <? vdom x | None => false end then snd f else nth (fst f) ms 0%nat) - W (fst f, nth (fst f) gs 0%nat))%Q).
  set (y := fun i => nth i (table Y 0 (t_vars t)) 0%Q).
  assert (Ey : forall f, xfact t f -> y (pid t f) = Y f). { intros [v d] (x & Hx & Hd). unfold y, pid. cbn [fst snd] in *. apply (table_nth Y (t_vars t) 0 v x d Hx Hd). }
  assert (EY : forall v d, fact_ok t (v, d) -> Y (v, d) = (W (v, d) - W (v, nth v gs 0%nat))%Q).
  { intros v d (x & Hx & Hd). unfold Y. cbn [fst snd] in *. unfold is_var in Hx. rewrite Hx. apply Nat.ltb_lt in Hd. now rewrite Hd. }
  assert (EU : forall v x, nth_error (t_vars t) v = Some x -> Y (undef t v) = (W (v, nth v ms 0%nat) - W (v, nth v gs 0%nat))%Q).
  { intros v x Hx. unfold Y, undef. cbn [fst snd]. rewrite Hx. now rewrite Nat.ltb_irrefl. }
  assert (Em : forall v x, nth_error (t_vars t) v = Some x -> nth_error ms v = Some (nth v ms 0) /\ nth_error gs v = Some (nth v gs 0)).
  { intros v x Hx. apply nth_error_Some_lt in Hx. split; apply nth_error_nth'; [rewrite (state_ok_length t ms Hms)|rewrite (state_ok_length t gs Hgs)]; exact Hx. }
  exists y. split.
  - unfold psol. splits.
    + intros v d Hv Hd. assert (Hx : exists x, nth_error (t_vars t) v = Some x) by (destruct (nth_error (t_vars t) v) eqn:E; [eauto|apply nth_error_None in E; lia]). destruct Hx as (x & Hx).
      rewrite (Ey (v, d)) by (apply goal_x; auto). destruct Hd as [Hd|[Hd Hn]].
      * rewrite (EY v d) by auto. specialize (Hgg _ Hd). unfold holds in Hgg. cbn [fst snd] in Hgg. rewrite (nth_error_nth _ _ 0 Hgg). lra.
      * rewrite <- Hd. rewrite (EU v x Hx). destruct (Em v x Hx) as [M1 M2]. destruct (overlay_nth (t_goal t) ms v _ Hg M1) as (d' & Hd' & [K|[K _]]); [exfalso; eapply Hn; eauto|].
        fold gs in Hd'. rewrite (nth_error_nth _ _ 0 Hd'), K. lra.
    + discriminate.
    + intros [v d] Hf. pose proof Hf as (x & Hx & Hd). cbn [fst snd] in *. rewrite (Ey (v, d)) by (apply fact_x; auto). rewrite (Ey (undef t v)) by (eapply undef_x; eauto). rewrite (EY v d Hf), (EU v x Hx).
      destruct (Em v x Hx) as [M1 _]. pose proof (Hmax v x _ d Hx M1 Hd). lra.
    + intros op Hop. destruct (In_nth_error _ _ Hop) as (o & Ho). destruct (op_facts t Ht op Hop) as [Hf1 Hf2]. destruct (Hpl op Hop) as (Hcond & Hnp & Hne & _).
      set (s := overlay (op_pre op) ms). assert (Hs : state_ok t s) by (apply overlay_ok; auto).
      assert (Ha : applicable t s o). { exists op. split; auto. intros [v d] Hf. unfold holds. cbn [fst snd]. apply overlay_in; auto. destruct (Hf1 _ Hf) as (x & Hx & _). rewrite (state_ok_length t ms Hms). eapply nth_error_Some_lt; eauto. }
      assert (Hpr : progress t s o (apply_effects s (op_effs op))) by (apply (next_state t HC s o _ Hs); eauto).
      pose proof (Hc s o op _ Hs Ho Ha Hpr) as K. rewrite (effs_apply s _ Hcond) in K.
      assert (Lv : forall e, In e (op_effs op) -> fst (eff_fact e) < length s) by (intros e He; destruct (Hf2 e He) as (x & Hx & _); rewrite (state_ok_length t s Hs); eapply nth_error_Some_lt; eauto).
      pose proof (potential_effs W (op_effs op) s Hne Lv) as E.
      assert (E2 : (opot t y op == qsum (fun e => W (fst (eff_fact e), nth (fst (eff_fact e)) s 0%nat) - W (eff_fact e)) (op_effs op))%Q).
      { unfold opot. apply qsum_ext. intros e He. rewrite (Ey (consumed t op e)) by (now apply consumed_x). rewrite (Ey (eff_fact e)) by (apply fact_x; auto).
        pose proof (Hf2 e He) as Hfe. pose proof Hfe as (x & Hx & Hd). destruct (eff_fact e) as [v d] eqn:Ee. cbn [fst snd] in *. rewrite (EY v d Hfe). unfold consumed. rewrite Ee. cbn [fst].
        destruct (Em v x Hx) as [M1 _]. destruct (overlay_nth (op_pre op) ms v _ Hnp M1) as (d' & Hd' & K'). fold s in Hd'. rewrite (nth_error_nth _ _ 0 Hd').
        destruct (pre_value op v) as [p|] eqn:Ep.
        - apply pre_value_some in Ep; [|auto]. assert (d' = p). { pose proof (overlay_in (op_pre op) ms v p Hnp Ep ltac:(eapply nth_error_Some_lt; eauto)) as K2. fold s in K2. congruence. }
          subst d'. rewrite (EY v p) by auto. ring.
        - destruct K' as [K'|[-> _]]; [exfalso; eapply pre_value_none; eauto|]. rewrite (EU v x Hx). ring. }
      rewrite E2, <- E. unfold cost. lra.
  - intros s Hs. specialize (Hga gs Hgs Hgg).
    assert (E : (potential (wof t y) s == potential W s - potential W gs)%Q).
    { unfold potential. assert (L1 : length s = length gs) by (rewrite (state_ok_length t s Hs), (state_ok_length t gs Hgs); reflexivity).
      assert (G : forall (l l' : state) k, length l = length l' -> (forall i a b, nth_error l i = Some a -> nth_error l' i = Some b -> (wof t y ((k + i)%nat, a) == W ((k + i)%nat, a) - W ((k + i)%nat, b))%Q) ->
        (qsum (wof t y) (combine (seq k (length l)) l) == qsum W (combine (seq k (length l)) l) - qsum W (combine (seq k (length l')) l'))%Q).
      { clear. induction l as [|a r IH]; intros [|b r'] k L H; try discriminate; cbn [length seq combine qsum]; [ring|]. rewrite (IH r' (S k)); [|cbn in L; lia|].
        - pose proof (H 0 a b eq_refl eq_refl) as K. rewrite Nat.add_0_r in K. rewrite K. ring.
        - intros i c d Hc Hd. pose proof (H (S i) c d Hc Hd) as K. now rewrite <- Nat.add_succ_comm in K. }
      apply G; [exact L1|]. intros i a b Ha Hb. cbn [plus]. destruct (state_ok_var t s i a Hs Ha) as (x & Hx & Hd). unfold wof. rewrite (Ey (i, a)) by (exists x; split; [exact Hx|cbn; lia]).
      rewrite (EY i a) by (exists x; auto). rewrite (nth_error_nth _ _ 0 Hb). reflexivity. }
    rewrite E. lra.
Qed.
End Best.
