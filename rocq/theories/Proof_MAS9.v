(** The transitions of operators in atomic systems. *)
From Verif Require Import Outcome Spec_Task Spec_Relaxation Spec_Projection Model_MAS Proof_MAS1 Proof_MAS8.
From Verif Require Import Model_Task Proof_Task Proof_RelaxHeur Proof_PDB3.

Definition last_on (fs : list fact) (v : nat) : option nat := fold_left (fun acc f => if fst f =? v then Some (snd f) else acc) fs None.
Lemma last_on_app fs f v : last_on (fs ++ [f]) v = if fst f =? v then Some (snd f) else last_on fs v.
Proof. unfold last_on. now rewrite fold_left_app. Qed.
Lemma last_on_some fs v x : last_on fs v = Some x -> In (v, x) fs.
Proof.
  induction fs as [|f fs IH] using rev_ind; [discriminate|]. rewrite last_on_app. destruct (Nat.eqb_spec (fst f) v) as [E|E].
  - intros H. inversion H; subst. apply in_or_app. right. left. now destruct f.
  - intros H. apply in_or_app. auto.
Qed.
Lemma last_on_none fs v : last_on fs v = None -> forall f, In f fs -> fst f <> v.
Proof.
  induction fs as [|f fs IH] using rev_ind; [intros _ f []|]. rewrite last_on_app. destruct (Nat.eqb_spec (fst f) v) as [E|E]; [discriminate|].
  intros H g Hg. apply in_app_or in Hg as [Hg|[<-|[]]]; auto.
Qed.
Lemma NoDup_fst_eq (fs : list fact) v x y : NoDup (map fst fs) -> In (v, x) fs -> In (v, y) fs -> x = y.
Proof.
  induction fs as [|f fs IH]; intros Hn; [intros []|]. cbn [map] in Hn. inversion Hn as [|? ? Hni Hn']; subst. intros [->|H1] [H2|H2].
  - now inversion H2.
  - exfalso. apply Hni. apply in_map_iff. exists (v, y). auto.
  - subst f. exfalso. apply Hni. apply in_map_iff. exists (v, x). auto.
  - auto.
Qed.
Lemma NoDup_eff_eq (es : list effect) e e' : NoDup (map (fun e => fst (eff_fact e)) es) -> In e es -> In e' es -> fst (eff_fact e) = fst (eff_fact e') -> e = e'.
Proof.
  induction es as [|f es IH]; intros Hn; [intros []|]. cbn [map] in Hn. inversion Hn as [|? ? Hni Hn']; subst. intros [->|H1] [H2|H2] E; auto.
  - exfalso. apply Hni. rewrite E. apply in_map_iff. eauto.
  - subst f. exfalso. apply Hni. rewrite <- E. apply in_map_iff. eauto.
Qed.

Definition pre_range (dom : nat) (op : operator) (v x : nat) : Prop := match pre_value op v with None => x < dom | Some p => x = p end.
Lemma effect_trans_In dom op v e x y : In (x, y) (effect_trans dom op v e) <->
  pre_range dom op v x /\
  ((match last_on (eff_cond e) v with None => True | Some z => z = x end /\ y = snd (eff_fact e)) \/
   (eff_cond e <> [] /\ ((exists f, In f (eff_cond e) /\ fst f <> v) \/ match last_on (eff_cond e) v with None => True | Some z => x <> z end) /\ y = x)).
Proof.
  unfold effect_trans. fold (last_on (eff_cond e) v). set (own := last_on (eff_cond e) v). set (rng := match pre_value op v with None => seq 0 dom | Some x => [x] end).
  assert (Hr : forall z, In z rng <-> pre_range dom op v z).
  { intros z. unfold rng, pre_range. destruct (pre_value op v); [cbn [In]; intuition|]. rewrite in_seq. intuition lia. }
  assert (Ho : existsb (fun f => negb (fst f =? v)) (eff_cond e) = true <-> exists f, In f (eff_cond e) /\ fst f <> v).
  { rewrite existsb_exists. split; intros (f & A & B); exists f; split; auto; [now apply negb_true_iff, Nat.eqb_neq in B|now apply negb_true_iff, Nat.eqb_neq]. }
  rewrite in_app_iff. 
  assert (H1 : In (x, y) (flat_map (fun x => if match own with None => true | Some y => y =? x end then [(x, snd (eff_fact e))] else []) rng) <->
     pre_range dom op v x /\ match own with None => True | Some z => z = x end /\ y = snd (eff_fact e)).
  { rewrite in_flat_map. split.
    - intros (z & Hz & Hin). destruct own as [w|].
      + destruct (Nat.eqb_spec w z); [|destruct Hin]. destruct Hin as [E|[]]. inversion E; subst. split; [now apply Hr|auto].
      + destruct Hin as [E|[]]. inversion E; subst. split; [now apply Hr|auto].
    - intros (A & B & ->). exists x. split; [now apply Hr|]. destruct own as [w|]; [subst w; rewrite Nat.eqb_refl|]; now left. }
  rewrite H1. clear H1.
  assert (H2 : In (x, y) match eff_cond e with [] => [] | _ => flat_map (fun x => if existsb (fun f => negb (fst f =? v)) (eff_cond e) || match own with None => true | Some y => negb (x =? y) end then [(x, x)] else []) rng end <->
     pre_range dom op v x /\ eff_cond e <> [] /\ ((exists f, In f (eff_cond e) /\ fst f <> v) \/ match own with None => True | Some z => x <> z end) /\ y = x).
  { set (oth := existsb (fun f => negb (fst f =? v)) (eff_cond e)) in *.
    assert (H3 : In (x, y) (flat_map (fun x => if oth || match own with None => true | Some y => negb (x =? y) end then [(x, x)] else []) rng) <->
       pre_range dom op v x /\ ((exists f, In f (eff_cond e) /\ fst f <> v) \/ match own with None => True | Some z => x <> z end) /\ y = x).
    { rewrite in_flat_map. split.
      - intros (z & Hz & Hin). destruct (oth || match own with None => true | Some y => negb (z =? y) end) eqn:E; [|destruct Hin]. destruct Hin as [X|[]]. inversion X; subst. split; [now apply Hr|]. split; auto.
        apply orb_true_iff in E as [E|E]; [left; now apply Ho|right]. destruct own; auto. now apply negb_true_iff, Nat.eqb_neq in E.
      - intros (A & B & ->). exists x. split; [now apply Hr|]. assert (E : oth || match own with None => true | Some y => negb (x =? y) end = true).
        { apply orb_true_iff. destruct B as [B|B]; [left; now apply Ho|right]. destruct own; auto. now apply negb_true_iff, Nat.eqb_neq. }
        rewrite E. now left. }
    destruct (eff_cond e) as [|f0 r0]; [cbn [In]; split; [intros []|intros (_ & X & _); congruence]|]. rewrite H3. intuition discriminate. }
  rewrite H2. tauto.
Qed.

Lemma effs_on_In op v e : In e (effs_on op v) <-> In e (op_effs op) /\ fst (eff_fact e) = v.
Proof. unfold effs_on. now rewrite filter_In, Nat.eqb_eq. Qed.
Lemma pres_on_In op v f : In f (pres_on op v) <-> In f (op_pre op) /\ fst f = v.
Proof. unfold pres_on. now rewrite filter_In, Nat.eqb_eq. Qed.
Lemma op_trans_In dom op v x y : In (x, y) (op_trans dom op v) <->
  (exists e, In e (op_effs op) /\ fst (eff_fact e) = v /\ In (x, y) (effect_trans dom op v e)) \/
  ((forall e, In e (op_effs op) -> fst (eff_fact e) <> v) /\ x = y /\ In (v, x) (op_pre op)).
Proof.
  unfold op_trans. pose proof (effs_on_In op v) as HE. destruct (effs_on op v) as [|e0 r0].
  - rewrite in_map_iff. split.
    + intros (f & E & Hf). inversion E; subst. apply pres_on_In in Hf as [A B]. right. splits; auto; [|destruct f; cbn [fst snd] in *; now subst]. intros e He Ee. apply (HE e). auto.
    + intros [(e & A & B & _)|(A & -> & B)]; [exfalso; apply (HE e); auto|]. exists (v, y). split; auto. apply pres_on_In. auto.
  - rewrite in_flat_map. split.
    + intros (e & He & Hin). left. exists e. apply HE in He as [A B]. auto.
    + intros [(e & A & B & C)|(A & _)]; [exists e; split; auto; apply HE; auto|]. exfalso. destruct (proj1 (HE e0) (or_introl eq_refl)) as [B C]. exact (A e0 B C).
Qed.
Lemma relevant_false op v : relevant op v = false <-> (forall e, In e (op_effs op) -> fst (eff_fact e) <> v) /\ (forall f, In f (op_pre op) -> fst f <> v).
Proof.
  unfold relevant. pose proof (effs_on_In op v) as HE. pose proof (pres_on_In op v) as HP. split.
  - destruct (effs_on op v) as [|e0 r0]; [|discriminate]. destruct (pres_on op v) as [|f0 r1]; [|discriminate]. intros _. split; [intros e A B; apply (HE e); auto|intros f A B; apply (HP f); auto].
  - intros [A B]. destruct (effs_on op v) as [|e0 r0]; [|exfalso; destruct (proj1 (HE e0) (or_introl eq_refl)); eapply A; eauto].
    destruct (pres_on op v) as [|f0 r1]; auto. exfalso. destruct (proj1 (HP f0) (or_introl eq_refl)). eapply B; eauto.
Qed.

Lemma pre_value_range t dom op v xv x : operator_ok t op -> nth_error (t_vars t) v = Some xv -> dom = vdom xv -> pre_range dom op v x -> x < dom.
Proof.
  intros [Hp _] Hv -> H. unfold pre_range in H. destruct (pre_value op v) as [p|] eqn:E; auto. subst p. apply (last_on_some (op_pre op)) in E. rewrite Forall_forall in Hp. destruct (Hp _ E) as (xv' & A & B). cbn [fst snd] in *. unfold is_var in A. congruence.
Qed.
Lemma op_trans_range t dom op v xv x y : operator_ok t op -> nth_error (t_vars t) v = Some xv -> dom = vdom xv -> In (x, y) (op_trans dom op v) -> x < dom /\ y < dom.
Proof.
  intros Hop Hv Hd H. pose proof Hop as [Hp He]. rewrite Forall_forall in Hp, He. apply op_trans_In in H as [(e & A & B & C)|(A & -> & C)].
  - apply effect_trans_In in C as (D & E). assert (Hx : x < dom) by (eapply pre_value_range; eauto). split; auto. destruct E as [[_ ->]|(_ & _ & ->)]; auto.
    destruct (He e A) as (_ & (xv' & F & G) & _). rewrite B in F. unfold is_var in F. rewrite Hd. congruence.
  - destruct (Hp _ C) as (xv' & F & G). cbn [fst snd] in *. unfold is_var in F. assert (xv' = xv) by congruence. subst. auto.
Qed.

(** Every transition of the task is one of the atomic system. *)
Definition conditions_distinct (t : task) : Prop := forall op e, In op (t_ops t) -> In e (op_effs op) -> NoDup (map fst (eff_cond e)).
Lemma effect_value_none s es v : effect_value s es v None -> forall e, In e es -> all_hold s (eff_cond e) -> fst (eff_fact e) <> v.
Proof.
  intros H. remember None as r eqn:Er. induction H; try discriminate; [intros e []|]. intros e' Hin. apply in_app_or in Hin as [Hin|[<-|[]]]; auto.
Qed.
Lemma not_all_hold s fs : ~ all_hold s fs -> exists f, In f fs /\ ~ holds s f.
Proof.
  induction fs as [|f fs IH]; intros H; [exfalso; apply H; intros f []|].
  assert (D : holds s f \/ ~ holds s f) by (unfold holds; destruct (nth_error s (fst f)) as [x|]; [destruct (Nat.eq_dec x (snd f)) as [->|]; [now left|right; congruence]|right; discriminate]).
  destruct D as [D|D]; [|exists f; split; auto; now left]. destruct IH as (g & A & B); [intros G; apply H; intros g [<-|Hg]; auto|]. exists g. split; auto. now right.
Qed.

Lemma op_step_sound t s o s' op v dom x y : no_derived t -> conditions_distinct t -> nth_error (t_ops t) o = Some op -> all_hold s (op_pre op) -> progress t s o s' ->
  nth_error s v = Some x -> nth_error s' v = Some y -> x < dom -> op_step dom op v x y.
Proof.
  intros [_ Hnd] Hcd Ho Hpre (op' & s1 & Ho' & Hlen & Hval & Hm) Hx Hy Hlt. assert (op' = op) by congruence. subst op'.
  destruct Hm as (_ & Hm & _). rewrite (Hm v (Hnd v)) in Hy. assert (Hvl : v < length s) by (eapply nth_error_Some_lt; eauto).
  assert (Hrng : pre_range dom op v x).
  { unfold pre_range. destruct (pre_value op v) as [p|] eqn:E; auto. apply (last_on_some (op_pre op)) in E. specialize (Hpre _ E). unfold holds in Hpre. cbn [fst snd] in Hpre. congruence. }
  destruct (effect_value_total s (op_effs op) v) as [r Hr]. rewrite (Hval v r Hvl Hr) in Hy. unfold op_step. destruct r as [d|].
  - inversion Hy; subst d. apply effect_value_some in Hr as (e & He & Hc & Ef). destruct (relevant op v) eqn:Er; [|apply relevant_false in Er as [A _]; exfalso; apply (A e He); now rewrite Ef].
    apply op_trans_In. left. exists e. rewrite Ef. splits; auto. apply effect_trans_In. split; auto. left. rewrite Ef. split; auto.
    destruct (last_on (eff_cond e) v) as [z|] eqn:El; auto. apply last_on_some in El. specialize (Hc _ El). unfold holds in Hc. cbn [fst snd] in Hc. congruence.
  - rewrite Hx in Hy. inversion Hy; subst y. destruct (relevant op v) eqn:Er; auto. apply op_trans_In.
    pose proof (effect_value_none _ _ _ Hr) as Hnone. destruct (effs_on op v) as [|e0 r0] eqn:Ee.
    + right. assert (Hno : forall e, In e (op_effs op) -> fst (eff_fact e) <> v) by (intros e A B; assert (G : In e (effs_on op v)) by (now apply effs_on_In); rewrite Ee in G; destruct G). splits; auto.
      destruct (pres_on op v) as [|f0 r1] eqn:Ep; [unfold relevant in Er; rewrite Ee, Ep in Er; discriminate|].
      assert (G : In f0 (pres_on op v)) by (rewrite Ep; now left). apply pres_on_In in G as [G1 G2]. pose proof (Hpre f0 G1) as G3. unfold holds in G3. rewrite G2, Hx in G3. inversion G3; subst x. rewrite <- G2. now destruct f0.
    + left. assert (G : In e0 (effs_on op v)) by (rewrite Ee; now left). apply effs_on_In in G as [G1 G2]. exists e0. splits; auto. apply effect_trans_In. split; auto. right.
      destruct (not_all_hold s (eff_cond e0)) as (f & F1 & F2); [intros H; apply (Hnone e0 G1 H G2)|]. splits; auto; [intros E; rewrite E in F1; destruct F1|].
      destruct (Nat.eq_dec (fst f) v) as [Ev|Ev]; [right|left; eauto]. destruct (last_on (eff_cond e0) v) as [z|] eqn:El; auto. apply last_on_some in El.
      intros ->. apply F2. unfold holds. rewrite Ev, Hx. f_equal. apply (NoDup_fst_eq (eff_cond e0) v); auto; [apply (Hcd op); auto; eapply nth_error_In; eauto|]. rewrite <- Ev. now destruct f.
Qed.

(** Without conditional effects the atomic systems together determine the transitions of the task. *)
Lemma op_step_exact dom op v x y : (forall e, In e (op_effs op) -> eff_cond e = []) -> NoDup (map fst (op_pre op)) -> NoDup (map (fun e => fst (eff_fact e)) (op_effs op)) ->
  op_step dom op v x y ->
  (forall f, In f (op_pre op) -> fst f = v -> snd f = x) /\ (forall e, In e (op_effs op) -> fst (eff_fact e) = v -> snd (eff_fact e) = y) /\
  ((forall e, In e (op_effs op) -> fst (eff_fact e) <> v) -> y = x).
Proof.
  intros Hc Hp He. unfold op_step. destruct (relevant op v) eqn:Er.
  - intros H. apply op_trans_In in H as [(e & A & B & C)|(A & -> & C)].
    + apply effect_trans_In in C as (D & E). rewrite (Hc e A) in E. destruct E as [[_ ->]|(E & _)]; [|congruence]. splits.
      * intros f F1 F2. unfold pre_range in D. destruct (pre_value op v) as [p|] eqn:Ep; [|exfalso; exact (last_on_none (op_pre op) v Ep f F1 F2)]. subst p. apply (last_on_some (op_pre op)) in Ep. apply (NoDup_fst_eq (op_pre op) v); auto. rewrite <- F2. now destruct f.
      * intros e' A' B'. f_equal. f_equal. symmetry. apply (NoDup_eff_eq (op_effs op)); auto. congruence.
      * intros H. exfalso. exact (H e A B).
    + splits; auto.
      * intros f F1 F2. apply (NoDup_fst_eq (op_pre op) v); auto. rewrite <- F2. now destruct f.
      * intros e A' B'. exfalso. exact (A e A' B').
  - apply relevant_false in Er as [A B]. intros [-> _]. splits; auto; [intros f F1 F2; exfalso; eapply B; eauto|intros e F1 F2; exfalso; eapply A; eauto].
Qed.
