(** Executing abstract plans in the concrete task. *)
From Coq Require Import Sorted Permutation.
From Verif Require Import Outcome Spec_Task Spec_Relaxation Spec_Projection Spec_PDBPlan Model_Task Proof_Task Model_PDB Model_PDBPlan Model_PDBCegar
  Proof_MixedRadix Proof_PDB1 Proof_PDB2 Proof_PDB3.
Import ListNotations.

Lemma existsb_in x l : existsb (Nat.eqb x) l = true <-> In x l.
Proof. rewrite existsb_exists. split; [intros (y & Hy & E); apply Nat.eqb_eq in E; now subst|intros H; exists x; split; [auto|apply Nat.eqb_refl]]. Qed.

Section T.
Variable t : task.
Hypothesis Ht : plain_task t.
Notation nv := (length (t_vars t)).
Variable black : list nat.

Lemma init_len : length (t_init t) = nv.
Proof. destruct Ht as ((_ & _ & _ & H & _) & _). unfold state_ok in H. symmetry. clear -H. induction H; cbn [length]; auto. Qed.
Lemma fact_lt f : fact_ok t f -> fst f < nv.
Proof. intros (x & Hx & _). eapply nth_error_Some_lt; eauto. Qed.
Lemma goal_lt f : In f (t_goal t) -> fst f < nv.
Proof. intros Hf. destruct Ht as ((_ & _ & _ & _ & Hg) & _). rewrite Forall_forall in Hg. apply fact_lt. auto. Qed.

Lemma apply_ok op s : In op (t_ops t) -> length s = nv -> apply_op_to_state s op = Ok (changes (efacts op) s).
Proof.
  intros Hop Hl. assert (Hr : forall e, In e (op_effs op) -> fst (eff_fact e) < nv).
  { intros e He. destruct Ht as ((_ & Ho & _) & _). rewrite Forall_forall in Ho. destruct (Ho op Hop) as [_ H2].
    rewrite Forall_forall in H2. apply fact_lt. apply H2. auto. }
  unfold apply_op_to_state, efacts. revert s Hl Hr. induction (op_effs op) as [|e es IH]; intros s Hl Hr; cbn [fold_outcome map changes fold_left]; auto.
  unfold vset. rewrite Hl, (proj2 (Nat.ltb_lt _ _) (Hr e (or_introl eq_refl))). cbn [bind]. rewrite IH; [reflexivity|now rewrite upd_length|intros; apply Hr; now right].
Qed.
Lemma violated_ok op s : In op (t_ops t) -> length s = nv -> exists fl, violated_preconditions black op s = Ok fl /\
  forall v, In v fl <-> exists d, In (v, d) (op_pre op) /\ ~ In v black /\ nth v s 0 <> d.
Proof.
  intros Hop Hl. assert (Hr : forall f, In f (op_pre op) -> fst f < nv).
  { intros f Hf. destruct Ht as ((_ & Ho & _) & _). rewrite Forall_forall in Ho. destruct (Ho op Hop) as [H1 _].
    rewrite Forall_forall in H1. apply fact_lt. auto. }
  destruct (fold_collect (fun fl f => if existsb (Nat.eqb (fst f)) black then Ok fl else let* x := vget s (fst f) in if x =? snd f then Ok fl else Ok (fl ++ [fst f]))
    (fun f v => v = fst f /\ ~ In (fst f) black /\ nth (fst f) s 0 <> snd f) (op_pre op)) with (ops := @nil nat) as (fl & E & H).
  { intros f fl Hf. destruct (existsb (Nat.eqb (fst f)) black) eqn:Eb.
    - apply existsb_in in Eb. exists []. rewrite app_nil_r. split; auto. intros v. split; [intros []|tauto].
    - assert (Hb : ~ In (fst f) black) by (intros H; apply existsb_in in H; congruence). unfold vget. rewrite (nth_error_nth' s 0) by (rewrite Hl; auto). cbn [bind].
      destruct (Nat.eqb_spec (nth (fst f) s 0) (snd f)) as [E|E].
      + exists []. rewrite app_nil_r. split; auto. intros v. split; [intros []|tauto].
      + exists [fst f]. split; auto. intros v. cbn [In]. split; [intros [<-|[]]; auto|intros [-> _]; auto]. }
  exists fl. split; [exact E|]. intros v. rewrite H. split.
  - intros ([v' d] & Hf & -> & H1 & H2). exists d. auto.
  - intros (d & Hd & H1 & H2). exists (v, d). auto.
Qed.
Lemma all_hold_ok s : length s = nv -> exists b, all_hold (t_goal t) s = Ok b /\ (b = true <-> goal_state t s).
Proof.
  intros Hl. unfold goal_state. assert (Hr := goal_lt). revert Hr. induction (t_goal t) as [|f r IH]; intros Hr; cbn [all_hold].
  - exists true. split; auto. split; auto. intros _ f [].
  - assert (Hn : nth_error s (fst f) = Some (nth (fst f) s 0)) by (apply nth_error_nth'; rewrite Hl; apply Hr; now left).
    unfold vget. rewrite Hn. cbn [bind]. destruct (Nat.eqb_spec (nth (fst f) s 0) (snd f)) as [E|E].
    + destruct IH as (b & Eb & Hb); [intros; apply Hr; now right|]. exists b. split; auto. rewrite Hb. split.
      * intros H g [<-|Hg]; [unfold holds; congruence|auto].
      * intros H g Hg. apply H. now right.
    + exists false. split; auto. split; [discriminate|]. intros H. specialize (H f (or_introl eq_refl)). unfold holds in H. congruence.
Qed.
Lemma goal_flaws_ok goals s : incl goals (t_goal t) -> length s = nv -> exists fl, goal_flaws black goals s = Ok fl /\
  forall v, In v fl <-> exists d, In (v, d) goals /\ ~ In v black /\ nth v s 0 <> d.
Proof.
  intros Hg Hl. destruct (fold_collect (fun fl f => let* x := vget s (fst f) in
      if negb (x =? snd f) && negb (existsb (Nat.eqb (fst f)) black) then Ok (fl ++ [fst f]) else Ok fl)
    (fun f v => v = fst f /\ ~ In (fst f) black /\ nth (fst f) s 0 <> snd f) goals) with (ops := @nil nat) as (fl & E & H).
  { intros f fl Hf. unfold vget. rewrite (nth_error_nth' s 0) by (rewrite Hl; apply goal_lt; auto). cbn [bind].
    destruct (Nat.eqb_spec (nth (fst f) s 0) (snd f)) as [E|E]; cbn [negb andb].
    - exists []. rewrite app_nil_r. split; auto. intros v. split; [intros []|tauto].
    - destruct (existsb (Nat.eqb (fst f)) black) eqn:Eb; cbn [negb].
      + apply existsb_in in Eb. exists []. rewrite app_nil_r. split; auto. intros v. split; [intros []|tauto].
      + assert (Hb : ~ In (fst f) black) by (intros H; apply existsb_in in H; congruence).
        exists [fst f]. split; auto. intros v. cbn [In]. split; [intros [<-|[]]; auto|intros [-> _]; auto]. }
  exists fl. split; [exact E|]. intros v. rewrite H. split.
  - intros ([v' d] & Hf & -> & H1 & H2). exists d. auto.
  - intros (d & Hd & H1 & H2). exists (v, d). auto.
Qed.

Section Pat.
Variable pat : list nat.
Hypothesis Hpat : pattern_ok t pat.
Notation T := (project t pat (task_costs t)).
Notation Ppre op := (proj_facts pat (op_pre op)).
Notation Peff op := (proj_facts pat (efacts op)).

Lemma proj_nth_error s i v : nth_error pat i = Some v -> nth_error (proj_state pat s) i = Some (nth v s 0).
Proof. intros H. unfold proj_state. rewrite nth_error_map, H. reflexivity. Qed.
Lemma pos_spec v i : pos_in pat v = Some i <-> nth_error pat i = Some v.
Proof. apply pos_in_spec. apply sorted_nodup. apply Hpat. Qed.

Lemma op_effs_data op : In op (t_ops t) -> NoDup (map fst (efacts op)) /\ (forall f, In f (efacts op) -> fst f < nv) /\ (forall e, In e (op_effs op) -> eff_cond e = []).
Proof.
  intros Hop. destruct Ht as (Hok & _ & _ & Hpl). destruct (Hpl op Hop) as (H1 & _ & H3 & _). unfold efacts. splits.
  - rewrite map_map. exact H3.
  - intros f Hf. apply in_map_iff in Hf. destruct Hf as (e & <- & He). destruct Hok as (_ & Ho & _). rewrite Forall_forall in Ho. destruct (Ho op Hop) as [_ H2].
    rewrite Forall_forall in H2. apply fact_lt. apply H2. auto.
  - exact H1.
Qed.

Lemma proj_changes op s b : In op (t_ops t) -> length s = nv -> trans (Ppre op) (Peff op) (proj_state pat s) b -> proj_state pat (changes (efacts op) s) = b.
Proof.
  intros Hop Hl (Hlb & _ & He & Hu). destruct (op_effs_data op Hop) as (Hn & Hr & _).
  apply nth_error_ext. intros i. destruct (nth_error pat i) as [v|] eqn:Ei.
  - rewrite (proj_nth_error _ i v Ei). assert (Hv : v < nv) by (apply Hpat; eapply nth_error_In; eauto).
    destruct (in_dec Nat.eq_dec v (map fst (efacts op))) as [Hin|Hin].
    + apply in_map_iff in Hin. destruct Hin as ([v' d] & Ev & Hf). cbn [fst] in Ev. subst v'.
      assert (Hp : In (i, d) (Peff op)) by (apply proj_facts_in; exists v; split; auto; now apply pos_spec).
      pose proof (He _ Hp) as Hb. cbn [fst snd] in Hb. rewrite Hb. f_equal. apply nth_error_nth. apply (changes_in (efacts op) s Hn) with (f := (v, d)); auto. intros f Hf0. rewrite Hl. auto.
    + rewrite Hu.
      * rewrite (proj_nth_error s i v Ei). f_equal. pose proof (changes_other (efacts op) s v Hin) as Hc. rewrite (nth_error_nth' s 0) in Hc by (rewrite Hl; auto). now apply nth_error_nth.
      * intros H. apply in_map_iff in H. destruct H as ([i' d] & E & H). cbn [fst] in E. subst i'. apply proj_facts_in in H. destruct H as (v' & H1 & H2). apply pos_spec in H2.
        assert (v' = v) by congruence. subst v'. apply Hin. apply in_map_iff. exists (v, d). auto.
  - assert (L : length pat <= i) by now apply nth_error_None. symmetry. rewrite (proj2 (nth_error_None b i)).
    + symmetry. apply nth_error_None. unfold proj_state. now rewrite map_length.
    + rewrite Hlb. unfold proj_state. now rewrite map_length.
Qed.
Lemma changes_progress o op s : nth_error (t_ops t) o = Some op -> length s = nv -> progress t s o (changes (efacts op) s).
Proof.
  intros Ho Hl. destruct (op_effs_data op (nth_error_In _ _ Ho)) as (Hn & Hr & Hc). destruct Ht as (_ & Hru & Hla & _).
  apply (progress_writes t s o op); auto.
  - intros v. unfold layer_of. destruct (nth_error (t_vars t) v) as [x|] eqn:E; auto. apply Hla. eapply nth_error_In; eauto.
  - unfold efacts in Hn. now rewrite map_map in Hn.
  - intros e He. rewrite Hl. apply Hr. now apply in_map.
  - fold (efacts op). unfold writes. splits; [apply changes_length| |intros v Hv; now apply changes_other]. intros f Hf. apply changes_in; auto. intros g Hg. rewrite Hl. auto.
Qed.

Lemma step_ok b w : forall step s fl0, length s = nv -> (step <> [] \/ fl0 <> []) ->
  (forall o, In o step -> applicable T (proj_state pat s) o /\ progress T (proj_state pat s) o b /\ exists op, nth_error (t_ops T) o = Some op /\ op_cost op = w) ->
  exists s' fl, apply_step t black step s fl0 = Ok (s', fl) /\
    ((fl = [] /\ length s' = nv /\ proj_state pat s' = b /\
      (black = [] -> exists o op, nth_error (t_ops t) o = Some op /\ op_cost op = w /\ applicable t s o /\ progress t s o s')) \/
     (fl <> [] /\ forall v, In v fl -> In v fl0 \/ (~ In v pat /\ ~ In v black /\ v < nv))).
Proof.
  induction step as [|o step IH]; intros s fl0 Hl Hne Hst; cbn [apply_step].
  - exists s, fl0. split; auto. right. destruct Hne as [Hne|Hne]; [congruence|]. split; auto.
  - destruct (Hst o (or_introl eq_refl)) as (Ha & Hp & op' & Eo' & Ew).
    assert (Hlen : length (proj_state pat s) = length (pdoms t pat)) by (unfold proj_state, pdoms; now rewrite !map_length).
    destruct (proj1 (proj_step t Ht pat Hpat (task_costs t) o (proj_state pat s) b Hlen) (conj Ha Hp)) as (op & c & [Ho Hc] & Htr).
    assert (Hcw : op_cost op = w).
    { apply (proj_nth t pat (task_costs t)) in Eo'. destruct Eo' as (op2 & c2 & [Ho2 Hc2] & ->). cbn [proj_op op_cost] in Ew. subst c2.
      unfold task_costs in Hc2. rewrite nth_error_map, Ho in Hc2. cbn in Hc2. congruence. }
    pose proof (nth_error_In _ _ Ho) as Hop. unfold vget. rewrite Ho. cbn [bind].
    destruct (violated_ok op s Hop Hl) as (fl & -> & Hfl). cbn [bind]. destruct fl as [|v0 fl].
    + rewrite (apply_ok op s Hop Hl). cbn [bind]. exists (changes (efacts op) s), []. split; auto. left. splits; auto.
      * now rewrite changes_length.
      * now apply proj_changes.
      * intros Eb. exists o, op. splits; auto; [|now apply changes_progress]. exists op. split; auto. intros [v d] Hf. unfold holds. cbn [fst snd].
        assert (Hv : v < nv). { destruct Ht as ((_ & Hoo & _) & _). rewrite Forall_forall in Hoo. destruct (Hoo op Hop) as [H1 _]. rewrite Forall_forall in H1. exact (fact_lt (v, d) (H1 _ Hf)). }
        rewrite (nth_error_nth' s 0) by now rewrite Hl. f_equal. destruct (Nat.eq_dec (nth v s 0) d); auto.
        destruct (proj2 (Hfl v)). exists d. rewrite Eb. auto.
    + destruct (IH s (fl0 ++ v0 :: fl) Hl) as (s' & fl' & E & H).
      * right. intros Ee. apply app_eq_nil in Ee. destruct Ee. discriminate.
      * intros o' Ho'. apply Hst. now right.
      * exists s', fl'. split; auto. destruct H as [H|[H1 H2]]; [left|right].
        -- destruct H as (A & B & C & D). splits; auto.
        -- split; auto. intros v Hv. destruct (H2 v Hv) as [Hi|Hi]; auto. apply in_app_iff in Hi. destruct Hi as [Hi|Hi]; auto. right.
           apply Hfl in Hi. destruct Hi as (d & Hd & Hb & Hne2). splits; auto.
           ++ intros Hvp. apply In_nth_error in Hvp. destruct Hvp as [i Hi]. destruct Htr as (_ & Hpre & _).
              assert (Hpi : In (i, d) (Ppre op)) by (apply proj_facts_in; exists v; split; auto; now apply pos_spec).
              specialize (Hpre _ Hpi). cbn [fst snd] in Hpre. rewrite (proj_nth_error s i v Hi) in Hpre. congruence.
           ++ destruct Ht as ((_ & Hoo & _) & _). rewrite Forall_forall in Hoo. destruct (Hoo op Hop) as [H3 _]. rewrite Forall_forall in H3. exact (fact_lt (v, d) (H3 _ Hd)).
Qed.

Lemma plan_ok : forall a plan c, wildcard_plan T a plan c -> forall s, a = proj_state pat s -> length s = nv ->
  exists s' fl, apply_plan t black plan s = Ok (s', fl) /\
    ((fl = [] /\ length s' = nv /\ goal_state T (proj_state pat s') /\ (black = [] -> exists os, task_path t s os s' /\ plan_cost t os = c)) \/
     (fl <> [] /\ forall v, In v fl -> ~ In v pat /\ ~ In v black /\ v < nv)).
Proof.
  induction 1 as [a Hg|a b step plan w c Hne Hst _ IH]; intros s -> Hl; cbn [apply_plan].
  - exists s, []. split; auto. left. splits; auto. intros _. exists []. split; [constructor|reflexivity].
  - destruct (step_ok b w step s [] Hl (or_introl Hne) Hst) as (s1 & fl & -> & H). cbn [bind]. destruct H as [(-> & Hl1 & Hp1 & Hb1)|(Hf & H)].
    + destruct (IH s1 (eq_sym Hp1) Hl1) as (s2 & fl & E & H). exists s2, fl. split; auto. destruct H as [(A & B & C & D)|H]; [left|right; auto]. splits; auto.
      intros Eb. destruct (Hb1 Eb) as (o & op & Ho & Hw & Ha & Hpr). destruct (D Eb) as (os & Hos & Hc). exists (o :: os). split; [econstructor; eauto|].
      unfold plan_cost in *. cbn [map list_sum fold_right]. change (fold_right Nat.add 0) with list_sum. rewrite Ho, Hc, Hw. reflexivity.
    + destruct fl as [|v fl]; [congruence|]. exists s1, (v :: fl). split; auto. right. split; auto. intros u Hu. destruct (H u Hu) as [[]|]; auto.
Qed.
End Pat.
End T.
