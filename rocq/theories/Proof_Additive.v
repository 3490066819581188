(** Plans seen through a set of variables: how plans of a task and of its projections relate, and
    when projection costs may be added. *)
From Coq Require Import Sorted Permutation.
From Verif Require Import Outcome Spec_Task Spec_Relaxation Spec_Projection Proof_Task Proof_MixedRadix Proof_MatchTree Proof_PDB1 Proof_PDB2 Proof_PDB3.

Section A.
Variable t : task.
Hypothesis Ht : plain_task t.

Definition mstep (V : nat -> Prop) (op : operator) (s s' : nat -> nat) : Prop :=
  (forall v d, In (v, d) (op_pre op) -> V v -> s v = d) /\
  (forall v d, In (v, d) (efacts op) -> V v -> s' v = d) /\
  (forall v, V v -> ~ In v (map fst (efacts op)) -> s' v = s v).
Inductive mpath (V : nat -> Prop) : (nat -> nat) -> list nat -> (nat -> nat) -> Prop :=
| mp_nil : forall s s', (forall v, V v -> s' v = s v) -> mpath V s [] s'
| mp_cons : forall s o op s1 os s', nth_error (t_ops t) o = Some op -> mstep V op s s1 -> mpath V s1 os s' -> mpath V s (o :: os) s'.
Definition mplan (V : nat -> Prop) (s : nat -> nat) (os : list nat) : Prop :=
  exists s', mpath V s os s' /\ forall v d, In (v, d) (t_goal t) -> V v -> s' v = d.

Definition touches (W : list nat) (o : nat) : bool :=
  match nth_error (t_ops t) o with Some op => existsb (fun f => existsb (Nat.eqb (fst f)) W) (efacts op) | None => false end.
Lemma touches_spec W o op : nth_error (t_ops t) o = Some op -> touches W o = true <-> exists v, In v W /\ In v (map fst (efacts op)).
Proof.
  intros Ho. unfold touches. rewrite Ho, existsb_exists. split.
  - intros (f & Hf & He). apply existsb_exists in He. destruct He as (v & Hv & E). apply Nat.eqb_eq in E. exists v. split; auto. rewrite <- E. now apply in_map.
  - intros (v & Hv & Hi). apply in_map_iff in Hi. destruct Hi as (f & E & Hf). exists f. split; auto. apply existsb_exists. exists v. split; auto. now apply Nat.eqb_eq.
Qed.

(** Restricting a plan to fewer variables, dropping the operators that do not change any of them. *)
Lemma mpath_restrict (V : nat -> Prop) W : (forall v, In v W -> V v) -> forall s os s', mpath V s os s' ->
  forall s0, (forall v, In v W -> s0 v = s v) -> mpath (fun v => In v W) s0 (filter (touches W) os) s'.
Proof.
  intros HW. induction 1 as [s s' He|s o op s1 os s' Ho (Hp & Hf & Hu) _ IH]; intros s0 H0.
  - constructor. intros v Hv. rewrite He by auto. symmetry. auto.
  - cbn [filter]. destruct (touches W o) eqn:Et.
    + econstructor; [exact Ho| |apply IH; reflexivity]. unfold mstep. splits.
      * intros v d Hi Hv. rewrite H0 by auto. eauto.
      * intros v d Hi Hv. eauto.
      * intros v Hv Hn. rewrite H0 by auto. auto.
    + apply IH. intros v Hv. rewrite H0 by auto. symmetry. apply Hu; auto. intros Hi.
      assert (touches W o = true); [|congruence]. apply (touches_spec W o op Ho). eauto.
Qed.
Lemma mplan_restrict (V : nat -> Prop) W s os : (forall v, In v W -> V v) -> mplan V s os -> mplan (fun v => In v W) s (filter (touches W) os).
Proof. intros HW (s' & Hp & Hg). exists s'. split; [eapply mpath_restrict; eauto|]. intros v d Hi Hv. eauto. Qed.

Lemma plan_mplan s os : length s = length (t_vars t) -> task_plan_from t s os -> mplan (fun v => v < length (t_vars t)) (fun v => nth v s 0) os.
Proof.
  intros Hl (s' & Hp & Hg). destruct Ht as ((_ & Hops & _ & _ & Hgo) & Hr & Hlay & Hpl). rewrite Forall_forall in Hops, Hgo.
  assert (HL : forall v, layer_of t v = None).
  { intros v. unfold layer_of. destruct (nth_error (t_vars t) v) eqn:E; auto. apply Hlay. eapply nth_error_In; eauto. }
  exists (fun v => nth v s' 0). split.
  - clear Hg. revert Hl. induction Hp as [s|s o s1 os s' (op & Ho & Hpre) Hpr Hp IH]; intros Hl; [constructor; auto|].
    pose proof (nth_error_In _ _ Ho) as Hin. destruct (Hpl op Hin) as (Hc & Hn1 & Hn2 & _). destruct (Hops op Hin) as [Hpo Heo]. rewrite Forall_forall in Heo.
    assert (Hb : forall e, In e (op_effs op) -> fst (eff_fact e) < length s).
    { intros e He. rewrite Hl. destruct (Heo e He) as (_ & (x & Hx & _) & _). eapply nth_error_Some_lt; eauto. }
    apply (progress_writes t s o op s1 Hr HL Ho Hc Hn2 Hb) in Hpr. destruct Hpr as (Hl1 & Hf & Hu).
    econstructor; [exact Ho| |apply IH; lia]. unfold mstep. splits.
    + intros v d Hi _. apply nth_error_nth. apply (Hpre (v, d) Hi).
    + intros v d Hi _. apply nth_error_nth. apply (Hf (v, d) Hi).
    + intros v _ Hn. specialize (Hu v Hn).
      destruct (nth_error s v) as [x|] eqn:Ex.
      * rewrite (nth_error_nth s v 0 Ex). apply nth_error_nth. congruence.
      * apply nth_error_None in Ex. rewrite !nth_overflow by lia. reflexivity.
  - intros v d Hi _. apply nth_error_nth. apply (Hg (v, d) Hi).
Qed.

Lemma proj_mplan P cs s os : pattern_ok t P -> length cs = length (t_ops t) -> mplan (fun v => In v P) s os -> task_plan_from (project t P cs) (map s P) os.
Proof.
  intros HP Hcs (s' & Hp & Hg). pose proof (sorted_nodup _ (proj1 HP)) as Hnd. exists (map s' P). split.
  - clear Hg. induction Hp as [s s' He|s o op s1 os s' Ho (Hpre & Hf & Hu) _ IH].
    + replace (map s' P) with (map s P); [constructor|]. apply map_ext_in. intros v Hv. symmetry. auto.
    + assert (Hc : exists c, nth_error cs o = Some c).
      { destruct (nth_error cs o) eqn:E; eauto. apply nth_error_None in E. apply nth_error_Some_lt in Ho. lia. }
      destruct Hc as [c Hc]. assert (Hst : applicable (project t P cs) (map s P) o /\ progress (project t P cs) (map s P) o (map s1 P)).
      { apply (proj_step t Ht P HP cs). - unfold pdoms. now rewrite !map_length.
        - exists op, c. split; [split; auto|]. unfold trans. rewrite !map_length. splits; auto.
          + intros [i d] Hi. apply proj_facts_in in Hi. destruct Hi as (v & Hv & Hpos). apply (pos_in_spec P Hnd) in Hpos. cbn [fst snd]. rewrite (map_nth_error s _ _ Hpos). f_equal.
            apply (Hpre v d Hv). eapply nth_error_In; eauto.
          + intros [i d] Hi. apply proj_facts_in in Hi. destruct Hi as (v & Hv & Hpos). apply (pos_in_spec P Hnd) in Hpos. cbn [fst snd]. rewrite (map_nth_error s1 _ _ Hpos). f_equal.
            apply (Hf v d Hv). eapply nth_error_In; eauto.
          + intros i Hi. rewrite !nth_error_map. destruct (nth_error P i) as [v|] eqn:Ev; auto. cbn [option_map]. f_equal. apply Hu; [eapply nth_error_In; eauto|].
            intros Hv. apply Hi. apply in_map_iff in Hv. destruct Hv as ([v' d] & E & Hin). cbn [fst] in E. subst v'. apply in_map_iff. exists (i, d). split; auto. apply proj_facts_in. exists v. split; auto. now apply pos_in_spec. }
      econstructor; [apply Hst|apply Hst|exact IH].
  - intros [i d] Hi. cbn [project t_goal] in Hi. apply proj_facts_in in Hi. destruct Hi as (v & Hv & Hpos). apply (pos_in_spec P Hnd) in Hpos. unfold holds. cbn [fst snd]. rewrite (map_nth_error s' _ _ Hpos). f_equal.
    apply (Hg v d Hv). eapply nth_error_In; eauto.
Qed.

Lemma mplan_proj Q cs s os : pattern_ok t Q -> length cs = length (t_ops t) -> task_plan_from (project t Q cs) (map s Q) os -> mplan (fun v => In v Q) s os.
Proof.
  intros HQ Hcs (a' & Hp & Hg). pose proof (sorted_nodup _ (proj1 HQ)) as Hnd.
  set (val := fun (a : list nat) v => match pos_in Q v with Some i => nth i a 0 | None => 0 end).
  assert (Hval : forall a, length a = length Q -> forall i v, nth_error Q i = Some v -> nth_error a i = Some (val a v)).
  { intros a Ha i v Hi. unfold val. rewrite (proj2 (pos_in_spec Q Hnd v i) Hi). apply nth_error_nth'. rewrite Ha. eapply nth_error_Some_lt; eauto. }
  assert (G : forall a os a', task_path (project t Q cs) a os a' -> length a = length Q -> length a' = length Q /\
     forall s, (forall v, In v Q -> val a v = s v) -> mpath (fun v => In v Q) s os (val a')).
  { clear Hp Hg. induction 1 as [a|a o a1 osx a2 Ha Hpr Hp IH]; intros Hl.
    - split; auto. intros s0 Hs. now constructor.
    - destruct (proj1 (proj_step t Ht Q HQ cs o a a1 ltac:(unfold pdoms; now rewrite map_length)) (conj Ha Hpr)) as (op & c & [Ho Hc] & (Hl1 & Hpre & Hf & Hu)).
      destruct (IH ltac:(lia)) as [Hl2 IH2]. split; auto. intros s0 Hs. econstructor; [exact Ho| |apply IH2; reflexivity]. unfold mstep. splits.
      + intros v d Hi Hv. rewrite <- Hs by auto. apply In_nth_error in Hv. destruct Hv as [i Hi2]. assert (Hin : In (i, d) (proj_facts Q (op_pre op))) by (apply proj_facts_in; exists v; split; auto; now apply pos_in_spec).
        specialize (Hpre _ Hin). cbn [fst snd] in Hpre. rewrite (Hval a Hl i v Hi2) in Hpre. congruence.
      + intros v d Hi Hv. apply In_nth_error in Hv. destruct Hv as [i Hi2]. assert (Hin : In (i, d) (proj_facts Q (efacts op))) by (apply proj_facts_in; exists v; split; auto; now apply pos_in_spec).
        specialize (Hf _ Hin). cbn [fst snd] in Hf. rewrite (Hval a1 ltac:(lia) i v Hi2) in Hf. congruence.
      + intros v Hv Hn. rewrite <- Hs by auto. apply In_nth_error in Hv. destruct Hv as [i Hi2].
        assert (Hin : ~ In i (map fst (proj_facts Q (efacts op)))).
        { intros Hi. apply Hn. apply in_map_iff in Hi. destruct Hi as ([i' d] & E & Hi). cbn [fst] in E. subst i'. apply proj_facts_in in Hi. destruct Hi as (v' & Hv' & Hpos). apply (pos_in_spec Q Hnd) in Hpos.
          assert (v' = v) by congruence. subst v'. apply in_map_iff. exists (v, d). auto. }
        specialize (Hu i Hin). rewrite (Hval a1 ltac:(lia) i v Hi2), (Hval a Hl i v Hi2) in Hu. congruence. }
  destruct (G _ _ _ Hp ltac:(now rewrite map_length)) as [Hl' G2]. exists (val a'). split.
  - apply G2. intros v Hv. apply In_nth_error in Hv. destruct Hv as [i Hi]. pose proof (Hval (map s Q) ltac:(now rewrite map_length) i v Hi) as H. rewrite (map_nth_error s _ _ Hi) in H. congruence.
  - intros v d Hi Hv. apply In_nth_error in Hv. destruct Hv as [i Hi2]. assert (Hin : In (i, d) (proj_facts Q (t_goal t))) by (apply proj_facts_in; exists v; split; auto; now apply pos_in_spec).
    specialize (Hg _ Hin). unfold holds in Hg. cbn [fst snd] in Hg. rewrite (Hval a' Hl' i v Hi2) in Hg. congruence.
Qed.

Lemma proj_plan_cost P cs os : length cs = length (t_ops t) -> plan_cost (project t P cs) os = list_sum (map (fun o => nth o cs 0) os).
Proof.
  intros Hl. unfold plan_cost. f_equal. apply map_ext. intros o. destruct (nth_error (t_ops (project t P cs)) o) as [p|] eqn:E.
  - apply proj_nth in E. destruct E as (op & c & [_ Hc] & ->). cbn [proj_op op_cost]. symmetry. now apply nth_error_nth.
  - cbn [project t_ops] in E. apply nth_error_None in E. rewrite map_length, combine_length, Hl, Nat.min_id in E. symmetry. apply nth_overflow. lia.
Qed.

Lemma sum_add {A} (f g : A -> nat) l : list_sum (map (fun x => f x + g x) l) = list_sum (map f l) + list_sum (map g l).
Proof. induction l as [|x l IH]; cbn [map list_sum fold_right]; auto. change (fold_right Nat.add 0) with list_sum. rewrite IH. lia. Qed.
Lemma sum_swap {A B} (f : A -> B -> nat) la lb : list_sum (map (fun a => list_sum (map (f a) lb)) la) = list_sum (map (fun b => list_sum (map (fun a => f a b) la)) lb).
Proof.
  induction la as [|a la IH]; cbn [map list_sum fold_right].
  - induction lb as [|b lb IHb]; cbn [map list_sum fold_right]; auto.
  - change (fold_right Nat.add 0) with list_sum. rewrite IH, <- sum_add. f_equal. 
Qed.
Lemma sum_le {A} (f g : A -> nat) l : (forall x, In x l -> f x <= g x) -> list_sum (map f l) <= list_sum (map g l).
Proof. induction l as [|x l IH]; intros H; cbn [map list_sum fold_right]; auto. change (fold_right Nat.add 0) with list_sum. specialize (H x (or_introl eq_refl)) as Hx. assert (list_sum (map f l) <= list_sum (map g l)) by (apply IH; intros; apply H; now right). lia. Qed.
Lemma sum_filter {A} (f : A -> nat) (g : A -> bool) l : list_sum (map f (filter g l)) = list_sum (map (fun x => if g x then f x else 0) l).
Proof. induction l as [|x l IH]; cbn [filter map list_sum fold_right]; auto. change (fold_right Nat.add 0) with list_sum. destruct (g x); cbn [map list_sum fold_right]; change (fold_right Nat.add 0) with list_sum; rewrite IH; auto. Qed.

(** Values of projections can be added when each operator's cost is split among the patterns it affects. *)
Lemma additive_bound (V : nat -> Prop) c Ps hs s os :
  mplan V s os ->
  Forall (fun pc => pattern_ok t (fst pc) /\ length (snd pc) = length (t_ops t) /\ forall v, In v (fst pc) -> V v) Ps ->
  (forall o, list_sum (map (fun pc => if touches (fst pc) o then nth o (snd pc) 0 else 0) Ps) <= c o) ->
  Forall2 (fun pc h => perfect_value (project t (fst pc) (snd pc)) (map s (fst pc)) h) Ps hs ->
  exists ns, hs = map Some ns /\ list_sum ns <= list_sum (map c os).
Proof.
  intros Hm Hok Hc HF.
  assert (G : exists ns, hs = map Some ns /\ list_sum ns <= list_sum (map (fun pc => list_sum (map (fun o => if touches (fst pc) o then nth o (snd pc) 0 else 0) os)) Ps)).
  { clear Hc. induction HF as [|pc h Ps hs Hv HF IH]; [exists []; auto|]. inversion Hok as [|? ? (HP & Hl & HV) Hok']; subst. destruct (IH Hok') as (ns & -> & Hle).
    assert (Hpl : task_plan_from (project t (fst pc) (snd pc)) (map s (fst pc)) (filter (touches (fst pc)) os)) by (apply proj_mplan; auto; eapply mplan_restrict; eauto).
    destruct h as [n|]; cbn [perfect_value] in Hv; [|exfalso; eapply Hv; eauto].
    exists (n :: ns). split; auto. cbn [map list_sum fold_right]. change (fold_right Nat.add 0) with list_sum.
    destruct Hv as [_ Hmin]. specialize (Hmin _ (ex_intro _ _ (conj Hpl eq_refl))). rewrite proj_plan_cost, sum_filter in Hmin by auto. lia. }
  destruct G as (ns & E & Hle). exists ns. split; auto. eapply Nat.le_trans; [exact Hle|].
  rewrite (sum_swap (fun pc o => if touches (fst pc) o then nth o (snd pc) 0 else 0)). apply sum_le. intros o _. apply Hc.
Qed.
End A.
