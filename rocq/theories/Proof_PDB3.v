(** Pattern databases, part 3: the distance table is the perfect heuristic of the projected task. *)
From Coq Require Import Sorted Permutation.
From Verif Require Import Outcome Spec_Task Spec_Relaxation Spec_Projection Model_Task Proof_Task Model_PQ Model_Graph Model_PDB
  Proof_Graph Proof_MixedRadix Proof_MatchTree Proof_PDB1 Proof_PDB2 Proof_RelaxHeur.

(* ---- progression with unconditional effects ---- *)
Lemma ev_in s es v d : (forall e, In e es -> eff_cond e = []) -> NoDup (map (fun e => fst (eff_fact e)) es) ->
  In (v, d) (map eff_fact es) -> effect_value s es v (Some d).
Proof.
  induction es as [|e es IH] using rev_ind; intros Hc Hn Hi; [destruct Hi|].
  rewrite map_app in Hn, Hi. cbn [map] in Hn, Hi. apply in_app_iff in Hi.
  assert (Hn2 : NoDup (fst (eff_fact e) :: map (fun e => fst (eff_fact e)) es)) by (eapply Permutation_NoDup; [|exact Hn]; symmetry; apply Permutation_cons_append).
  inversion Hn2 as [|? ? Hx Hn']; subst. destruct Hi as [Hi|[Hi|[]]].
  - apply effect_value_skip; [|apply IH; auto; intros; apply Hc, in_app_iff; auto]. intros _ E. apply Hx. rewrite E.
    apply in_map_iff in Hi. destruct Hi as (e' & E' & He'). apply in_map_iff. exists e'. rewrite E'. auto.
  - apply effect_value_last; auto. rewrite (Hc e) by (apply in_app_iff; right; now left). intros f [].
Qed.
Lemma ev_out s es v : ~ In v (map (fun e => fst (eff_fact e)) es) -> effect_value s es v None.
Proof.
  induction es as [|e es IH] using rev_ind; intros Hi; [constructor|]. rewrite map_app, in_app_iff in Hi. cbn [map In] in Hi.
  apply effect_value_skip; [intros _; tauto|apply IH; tauto].
Qed.
Lemma ev_none s es v : (forall e, In e es -> eff_cond e = []) -> effect_value s es v None -> ~ In v (map (fun e => fst (eff_fact e)) es).
Proof.
  intros Hc H. remember None as r eqn:Er. induction H; try discriminate; [intros []|].
  rewrite map_app, in_app_iff. cbn [map In]. intros [Hi|[Hi|[]]].
  - apply IHeffect_value; auto. intros; apply Hc, in_app_iff; auto.
  - apply H; auto. rewrite (Hc e) by (apply in_app_iff; right; now left). intros f [].
Qed.

Definition writes (es : list fact) (b a : list nat) : Prop :=
  length a = length b /\ (forall f, In f es -> nth_error a (fst f) = Some (snd f)) /\ (forall v, ~ In v (map fst es) -> nth_error a v = nth_error b v).

Lemma progress_writes T b o op a : t_rules T = [] -> (forall v, layer_of T v = None) -> nth_error (t_ops T) o = Some op ->
  (forall e, In e (op_effs op) -> eff_cond e = []) -> NoDup (map (fun e => fst (eff_fact e)) (op_effs op)) ->
  (forall e, In e (op_effs op) -> fst (eff_fact e) < length b) ->
  progress T b o a <-> writes (map eff_fact (op_effs op)) b a.
Proof.
  intros Hr Hl Ho Hc Hn Hin. unfold writes. rewrite map_map. split.
  - intros (op1 & s1 & Ho1 & Hlen & Hv & Hm). rewrite Ho in Ho1; inversion Ho1; subst op1. destruct Hm as (Hl2 & Hs & _).
    assert (s1 = a) by (apply nth_error_ext; intros; symmetry; apply Hs; auto). subst s1. splits; auto.
    + intros [v d] Hf. cbn [fst snd]. rewrite (Hv v (Some d)); auto; [|now apply ev_in].
      apply in_map_iff in Hf. destruct Hf as (e & Ee & He). specialize (Hin e He). rewrite Ee in Hin. exact Hin.
    + intros v Hv'. destruct (lt_dec v (length b)) as [Hlt|Hge]; [apply (Hv v None); auto; now apply ev_out|].
      rewrite (proj2 (nth_error_None b v)) by lia. apply nth_error_None. lia.
  - intros (Hlen & Hf & Hu). exists op, a. splits; auto.
    + intros v [d|] Hv He.
      * apply effect_value_some in He. destruct He as (e & He & _ & Ee). apply (Hf (v, d)). apply in_map_iff. exists e; auto.
      * apply Hu. eapply ev_none; eauto.
    + unfold stratified_model. splits; auto. intros v x k d Hx Hk. specialize (Hl v). unfold layer_of in Hl. unfold is_var in Hx. rewrite Hx in Hl. congruence.
Qed.

Section T.
Variable t : task.
Hypothesis Ht : plain_task t.
Variable pat : list nat.
Hypothesis Hpat : pattern_ok t pat.
Notation doms := (pdoms t pat).
Variable cs : list nat.
Hypothesis Hcs : length cs = length (t_ops t).
Notation T := (project t pat cs).
Notation Ppre op := (proj_facts pat (op_pre op)).
Notation Peff op := (proj_facts pat (efacts op)).

Lemma facts_pre_ok fs : (forall f, In f fs -> fact_ok t f) -> forall f, In f (proj_facts pat fs) -> pre_ok doms f.
Proof.
  intros H [i d] Hf. apply proj_facts_in in Hf. destruct Hf as (v & Hv & Hp). apply (pos_in_spec pat (sorted_nodup _ (proj1 Hpat))) in Hp.
  destruct (pdoms_nth t pat Hpat i v Hp) as (x & Hx & Hd). exists (vdom x). cbn [fst snd]. split; auto.
  destruct (H (v, d) Hv) as (y & Hy & Hlt). cbn [fst snd] in *. unfold is_var in Hy. rewrite Hx in Hy; inversion Hy; subst; auto.
Qed.
Lemma op_data op : In op (t_ops t) -> op_plain op /\ NoDup (map fst (Ppre op)) /\ NoDup (map fst (Peff op)) /\
  (forall f, In f (Ppre op) -> pre_ok doms f) /\ (forall f, In f (Peff op) -> pre_ok doms f) /\
  map fst (filter (hasv (Peff op)) (Ppre op)) = map fst (filter (hasv (Ppre op)) (Peff op)) /\
  (forall f, In f (op_pre op) -> fst f < length (t_vars t)) /\ (forall e, In e (op_effs op) -> fst (eff_fact e) < length (t_vars t)).
Proof.
  intros Ho. destruct Ht as ((_ & Hops & _) & _ & _ & Hpl). rewrite Forall_forall in Hops. destruct (Hops op Ho) as [Hp He].
  pose proof (Hpl op Ho) as Hop. pose proof Hop as (_ & Hn1 & Hn2 & _). pose proof (sorted_nodup _ (proj1 Hpat)) as Hnd.
  rewrite Forall_forall in Hp, He. splits; auto.
  - now apply proj_facts_fst.
  - apply proj_facts_fst; auto. unfold efacts. now rewrite map_map.
  - now apply facts_pre_ok.
  - apply facts_pre_ok. intros f Hf. apply in_map_iff in Hf. destruct Hf as (e & <- & Hi). apply He; auto.
  - now apply aligned with (t := t).
  - intros f Hf. destruct (Hp f Hf) as (x & Hx & _). eapply nth_error_Some_lt; eauto.
  - intros e Hi. destruct (He e Hi) as (_ & (x & Hx & _) & _). eapply nth_error_Some_lt; eauto.
Qed.

Definition nth_op (o : nat) (op : operator) (c : nat) : Prop := nth_error (t_ops t) o = Some op /\ nth_error cs o = Some c.
Lemma proj_nth o p : nth_error (t_ops T) o = Some p <-> exists op c, nth_op o op c /\ p = proj_op pat op c.
Proof.
  cbn [project t_ops]. rewrite nth_error_map.
  assert (G : forall (l : list operator) (l' : list nat) k, nth_error (combine l l') k = match nth_error l k, nth_error l' k with Some x, Some y => Some (x, y) | _, _ => None end).
  { induction l as [|x l IH]; intros [|y l'] [|k]; cbn [combine nth_error]; auto. now destruct (nth_error l k). }
  rewrite G. unfold nth_op. destruct (nth_error (t_ops t) o) as [op|], (nth_error cs o) as [c|]; cbn [option_map fst snd]; split; try discriminate.
  - intros H; inversion H; eauto.
  - intros (op' & c' & (H1 & H2) & ->). congruence.
  - intros (op' & c' & (H1 & H2) & ->). discriminate.
  - intros (op' & c' & (H1 & H2) & ->). discriminate.
  - intros (op' & c' & (H1 & H2) & ->). discriminate.
Qed.
Lemma proj_efacts op c : map eff_fact (op_effs (proj_op pat op c)) = Peff op.
Proof. cbn [proj_op op_effs]. rewrite map_map. cbn [eff_fact]. apply map_id. Qed.
Lemma proj_layers v : layer_of T v = None.
Proof.
  unfold layer_of. cbn [project t_vars]. rewrite nth_error_map. destruct (nth_error pat v) as [u|] eqn:E; cbn [option_map]; auto.
  destruct Ht as (_ & _ & Hl & _). apply Hl. apply nth_In. apply Hpat. eapply nth_error_In; eauto.
Qed.

Lemma proj_step o b a : length b = length doms ->
  (applicable T b o /\ progress T b o a) <-> exists op c, nth_op o op c /\ trans (Ppre op) (Peff op) b a.
Proof.
  intros Hlb. split.
  - intros [(p & Hp & Hpre) Hpr]. pose proof Hp as Hp2. apply proj_nth in Hp. destruct Hp as (op & c & Hop & ->). exists op, c. split; auto.
    destruct (op_data op (nth_error_In _ _ (proj1 Hop))) as (_ & Hn1 & Hn2 & Hk1 & Hk2 & _).
    apply (progress_writes T b o (proj_op pat op c) a) in Hpr; auto using proj_layers.
    + rewrite proj_efacts in Hpr. destruct Hpr as (H1 & H2 & H3). unfold trans. splits; auto. 
    + intros e He. cbn [proj_op op_effs] in He. apply in_map_iff in He. destruct He as (f & <- & _). reflexivity.
    + rewrite <- (map_map eff_fact fst). rewrite proj_efacts. exact Hn2.
    + intros e He. rewrite Hlb. apply pre_ok_lt. apply Hk2. rewrite <- (proj_efacts op c). now apply in_map.
  - intros (op & c & Hop & (H1 & H2 & H3 & H4)).
    assert (Hp : nth_error (t_ops T) o = Some (proj_op pat op c)) by (apply proj_nth; eauto).
    destruct (op_data op (nth_error_In _ _ (proj1 Hop))) as (_ & Hn1 & Hn2 & Hk1 & Hk2 & _). split.
    + exists (proj_op pat op c). split; auto.
    + apply (progress_writes T b o (proj_op pat op c) a); auto using proj_layers.
      * intros e He. cbn [proj_op op_effs] in He. apply in_map_iff in He. destruct He as (f & <- & _). reflexivity.
      * rewrite <- (map_map eff_fact fst). rewrite proj_efacts. exact Hn2.
      * intros e He. rewrite Hlb. apply pre_ok_lt. apply Hk2. rewrite <- (proj_efacts op c). now apply in_map.
      * rewrite proj_efacts. unfold writes. splits; auto.
Qed.
Lemma proj_cost o op c : nth_op o op c -> match nth_error (t_ops T) o with Some op => op_cost op | None => 0 end = c.
Proof. intros H. assert (Hp : nth_error (t_ops T) o = Some (proj_op pat op c)) by (apply proj_nth; eauto). rewrite Hp. reflexivity. Qed.

(* ---- abstract operators of the whole task ---- *)
Definition abs_of (o : nat) (op : operator) (c : nat) (ao : abs_op) : Prop :=
  exists z, choice doms (filter (fun f => negb (hasv (Ppre op) f)) (Peff op)) z /\
    filter (hasv (Ppre op)) (Peff op) ++ ceff z <> [] /\
    ao = mk_abs doms o c (filter (fun f => negb (hasv (Peff op) f)) (Ppre op) ++ cprev z)
           (filter (hasv (Peff op)) (Ppre op) ++ cpre z) (filter (hasv (Ppre op)) (Peff op) ++ ceff z).

Lemma ops_for_op_ok v2i o op c ops : (forall v, v < length (t_vars t) -> index_of v2i v = Ok (pos_in pat v)) -> In op (t_ops t) ->
  exists new, abstract_operators_for_op (the_projection t pat) v2i o op c ops = Ok (ops ++ new) /\ forall ao, In ao new <-> abs_of o op c ao.
Proof.
  intros Hv Hop. destruct (op_data op Hop) as (Hpl & Hn1 & Hn2 & Hk1 & Hk2 & Hal & Hb1 & Hb2).
  unfold abstract_operators_for_op. rewrite (split_effects_ok t pat Hpat v2i op Hv) by auto. cbn [bind app].
  rewrite (split_pre_ok t pat Hpat v2i op Hv) by auto. cbn [bind app]. fold (efacts op).
  apply (multiply_out_ok (the_projection t pat) eq_refl).
  - exact Hal.
  - apply nodup_start; auto.
  - intros f Hf. apply pre_ok_lt. apply Hk1. apply filter_In in Hf. tauto.
  - intros f Hf. apply pre_ok_lt. apply Hk2. apply filter_In in Hf. tauto.
Qed.

Lemma ops_ok v2i costs : (forall v, v < length (t_vars t) -> index_of v2i v = Ok (pos_in pat v)) ->
  cs = match costs with [] => task_costs t | _ => costs end ->
  exists ops, abstract_operators t (the_projection t pat) v2i costs = Ok ops /\ forall ao, In ao ops <-> exists o op c, nth_op o op c /\ abs_of o op c ao.
Proof.
  intros Hv Ecs. unfold abstract_operators.
  destruct (fold_collect (fun ops io =>
    let* cost := match costs with [] => Ok (op_cost (snd io)) | _ => vget costs (fst io) end in
    abstract_operators_for_op (the_projection t pat) v2i (fst io) (snd io) cost ops)
    (fun io ao => exists c, nth_error cs (fst io) = Some c /\ abs_of (fst io) (snd io) c ao)
    (combine (seq 0 (length (t_ops t))) (t_ops t))) with (ops := @nil abs_op) as (ops & E & H).
  { intros [o op] ops Hi. cbn [fst snd]. assert (Ho : nth_error (t_ops t) o = Some op).
    { clear -Hi. assert (G : forall l k, In (o, op) (combine (seq k (length l)) l) -> k <= o /\ nth_error l (o - k) = Some op).
      { induction l as [|x l IH]; intros k H; cbn [length seq combine In] in H; [destruct H|]. destruct H as [H|H]; [inversion H; subst; rewrite Nat.sub_diag; auto|].
        destruct (IH (S k) H) as [H1 H2]. split; [lia|]. replace (o - k) with (S (o - S k)) by lia. exact H2. }
      destruct (G _ _ Hi) as [_ G2]. now rewrite Nat.sub_0_r in G2. }
    assert (Hc : exists c, nth_error cs o = Some c).
    { destruct (nth_error cs o) eqn:E; eauto. apply nth_error_None in E. apply nth_error_Some_lt in Ho. lia. }
    destruct Hc as [c Hc]. assert (Ec : match costs with [] => Ok (op_cost op) | _ => vget costs o end = Ok c).
    { subst cs. destruct costs as [|c0 cr]; [|unfold vget; now rewrite Hc]. unfold task_costs in Hc. rewrite nth_error_map, Ho in Hc. cbn in Hc. congruence. }
    rewrite Ec. cbn [bind]. destruct (ops_for_op_ok v2i o op c ops Hv (nth_error_In _ _ Ho)) as (new & E & Hnew). exists new. split; auto. intros ao. rewrite Hnew. split; [eauto|].
    intros (c' & Hc' & H). congruence. }
  exists ops. cbn [app] in E. split; auto. intros ao. rewrite H. split.
  - intros ([o op] & Hi & c & Hc & Ha). cbn [fst snd] in *. exists o, op, c. split; auto. split; auto.
    assert (G : forall l k, In (o, op) (combine (seq k (length l)) l) -> k <= o /\ nth_error l (o - k) = Some op).
    { induction l as [|x l IH]; intros k H0; cbn [length seq combine In] in H0; [destruct H0|]. destruct H0 as [H0|H0]; [inversion H0; subst; rewrite Nat.sub_diag; auto|].
      destruct (IH (S k) H0) as [H1 H2]. split; [lia|]. replace (o - k) with (S (o - S k)) by lia. exact H2. }
    destruct (G _ _ Hi) as [_ G2]. now rewrite Nat.sub_0_r in G2.
  - intros (o & op & c & [Ho Hc] & Ha). exists (o, op). cbn [fst snd]. split; [|eauto].
    assert (G : forall l k j, nth_error l j = Some op -> In (k + j, op) (combine (seq k (length l)) l)).
    { induction l as [|x l IH]; intros k [|j] Hj; cbn [length seq combine nth_error In] in *; try discriminate; [left; inversion Hj; f_equal; lia|].
      right. replace (k + S j) with (S k + j) by lia. auto. }
    exact (G _ 0 o Ho).
Qed.

(* ---- predecessors ---- *)
Definition edge_rel (i j w : nat) : Prop :=
  exists o op b, nth_op o op w /\ abs_edge doms (Ppre op) (Peff op) (dig doms i) b /\ in_range doms b /\ j = horner doms b.

Lemma dig_in i v d : nth_error doms v = Some d -> nth_error (dig doms i) v = Some (nth v (dig doms i) 0).
Proof. intros H. apply nth_error_nth'. rewrite dig_length. eapply nth_error_Some_lt; eauto. Qed.

Lemma ao_matches o op c i z : In op (t_ops t) -> i < prodl doms -> choice doms (filter (fun f => negb (hasv (Ppre op) f)) (Peff op)) z ->
  let prev := filter (fun f => negb (hasv (Peff op) f)) (Ppre op) ++ cprev z in
  let pre := filter (hasv (Peff op)) (Ppre op) ++ cpre z in
  let eff := filter (hasv (Ppre op)) (Peff op) ++ ceff z in
  (forall f, In f (prev ++ eff) -> pre_ok doms f) /\
  (matches (fun v => nth v (dig doms i) 0) (ao_pre (mk_abs doms o c prev pre eff)) <-> forall f, In f (prev ++ eff) -> nth_error (dig doms i) (fst f) = Some (snd f)) /\
  ((forall f, In f (prev ++ eff) -> nth_error (dig doms i) (fst f) = Some (snd f)) ->
     in_range doms (changes pre (dig doms i)) /\ (Z.of_nat i + ao_hash (mk_abs doms o c prev pre eff) = Z.of_nat (horner doms (changes pre (dig doms i))))%Z).
Proof.
  intros Hop Hi Hz prev pre eff. destruct (op_data op Hop) as (Hpl & Hn1 & Hn2 & Hk1 & Hk2 & Hal & Hb1 & Hb2).
  assert (Hok : forall f, In f (prev ++ eff) -> pre_ok doms f).
  { intros f Hf. unfold prev, eff in Hf. rewrite !in_app_iff in Hf. destruct Hf as [[Hf|Hf]|[Hf|Hf]].
    - apply Hk1. apply filter_In in Hf. tauto.
    - apply Hk2. apply in_Peff with (Ppre := Ppre op). right. apply (choice_facts doms (Ppre op) (Peff op) z Hz). auto.
    - apply Hk2. apply filter_In in Hf. tauto.
    - apply Hk2. apply in_Peff with (Ppre := Ppre op). right. apply (choice_facts doms (Ppre op) (Peff op) z Hz). auto. }
  split; [exact Hok|]. cbn [mk_abs ao_pre ao_hash]. split.
  - unfold matches. split; intros H f Hf.
    + destruct (Hok f Hf) as (d & Hd & _). rewrite (dig_in i _ d Hd). f_equal. apply H. eapply Permutation_in; [symmetry; apply fsort_perm|exact Hf].
    + assert (Hf' : In f (prev ++ eff)) by (eapply Permutation_in; [apply fsort_perm|exact Hf]). specialize (H f Hf'). now apply nth_error_nth.
  - intros H. assert (Hdl : length (dig doms i) = length doms) by apply dig_length. split.
    + apply changes_range; [apply dig_range, (pdoms_pos t Ht pat Hpat)|]. intros f Hf. apply (preA_ok doms (Ppre op) (Peff op) Hk1 z Hz f Hf).
    + rewrite (changes_hash doms pre eff (dig doms i)); auto.
      * rewrite horner_dig by (auto; apply (pdoms_pos t Ht pat Hpat)). reflexivity.
      * unfold pre, eff. apply preA_effA. exact Hal.
      * apply (nodup_preA doms (Ppre op) (Peff op) Hn1 Hn2 Hal z Hz).
      * intros f Hf. apply H. apply in_app_iff. auto.
Qed.

Lemma ao_edges ops i j w : (forall ao, In ao ops <-> exists o op c, nth_op o op c /\ abs_of o op c ao) -> i < prodl doms ->
  edge_rel i j w <-> exists ao, In ao ops /\ matches (fun v => nth v (dig doms i) 0) (ao_pre ao) /\ (Z.of_nat i + ao_hash ao = Z.of_nat j)%Z /\ ao_cost ao = w.
Proof.
  intros Hops Hi. split.
  - intros (o & op & b & Hop & (z & Hz & Hne & Ha & Eb) & Hb & ->).
    destruct (ao_matches o op w i z (nth_error_In _ _ (proj1 Hop)) Hi Hz) as (_ & Hm & Hh).
    eexists. split; [apply Hops; exists o, op, w; split; auto; exists z; splits; eauto|]. split; [apply Hm; exact Ha|]. split; [|reflexivity].
    destruct (Hh Ha) as [_ ->]. now rewrite Eb.
  - intros (ao & Hao & Hm & Hh & Hw). apply Hops in Hao. destruct Hao as (o & op & c & Hop & z & Hz & Hne & ->). cbn [mk_abs ao_cost] in Hw. subst c.
    destruct (ao_matches o op w i z (nth_error_In _ _ (proj1 Hop)) Hi Hz) as (_ & Hm2 & Hh2). pose proof (proj1 Hm2 Hm) as Hm9. destruct (Hh2 Hm9) as [Hr E].
    exists o, op. eexists. split; [auto|]. split; [exists z; splits; eauto|]. split; [exact Hr|]. rewrite Hh in E. lia.
Qed.
Lemma ao_wf ops : (forall ao, In ao ops <-> exists o op c, nth_op o op c /\ abs_of o op c ao) ->
  forall ao, In ao ops -> fsorted (ao_pre ao) /\ Forall (pre_ok doms) (ao_pre ao).
Proof.
  intros Hops ao Hao. apply Hops in Hao. destruct Hao as (o & op & c & Hop & z & Hz & Hne & ->).
  pose proof (nth_error_In _ _ (proj1 Hop)) as Ho. destruct (op_data op Ho) as (Hpl & Hn1 & Hn2 & _).
  assert (Hpos : 0 < prodl doms) by (apply prodl_pos, (pdoms_pos t Ht pat Hpat)).
  destruct (ao_matches o op c 0 z Ho Hpos Hz) as (Hok & _). cbn [mk_abs ao_pre]. split.
  - apply fsort_sorted. apply (nodup_A doms); auto.
  - apply Forall_forall. intros f Hf. apply Hok. eapply Permutation_in; [apply fsort_perm|exact Hf].
Qed.

Lemma regress_ok ops mt i : (forall ao, In ao ops <-> exists o op c, nth_op o op c /\ abs_of o op c ao) ->
  match_tree (the_projection t pat) ops = Ok mt -> i < prodl doms ->
  exists es, regress (the_projection t pat) ops mt i = Ok es /\ forall j w, In (j, w) es <-> edge_rel i j w.
Proof.
  intros Hops Emt Hi. destruct (match_tree_spec (the_projection t pat) ops) as (mt' & E & Hwf & Hmem); [apply (pdoms_pos t Ht pat Hpat)|now apply ao_wf|].
  rewrite Emt in E; inversion E; subst mt'. clear E.
  assert (Hval : forall v d, nth_error (pj_doms (the_projection t pat)) v = Some d -> unrank (the_projection t pat) i v = Ok (nth v (dig doms i) 0) /\ nth v (dig doms i) 0 < d).
  { intros v d Hd. split; [eapply unrank_ok; eauto|]. eapply in_range_nth; [apply dig_range, (pdoms_pos t Ht pat Hpat)| |exact Hd]. eapply dig_in; eauto. }
  destruct (mget_ok _ _ _ Hval (length (pj_doms (the_projection t pat))) 0 mt ltac:(lia) Hwf) as [ids Eids].
  unfold regress. rewrite Eids. cbn [bind].
  assert (Hids : forall o, In o ids <-> exists ao, nth_error ops o = Some ao /\ matches (fun v => nth v (dig doms i) 0) (ao_pre ao)).
  { intros o. rewrite <- (Hmem _ _ Hval o). unfold mem. split; [eauto|]. intros (l & El & Hl). rewrite Eids in El; inversion El; subst; auto. }
  destruct (fold_collect (fun es id => let* ao := vget ops id in let p := (Z.of_nat i + ao_hash ao)%Z in let* _ := guard (0 <=? p)%Z in Ok (es ++ [(Z.to_nat p, ao_cost ao)]))
    (fun id e => exists ao, nth_error ops id = Some ao /\ e = (Z.to_nat (Z.of_nat i + ao_hash ao), ao_cost ao)) ids) with (ops := @nil (nat * nat)) as (es & E & H).
  { intros o es Ho. apply Hids in Ho. destruct Ho as (ao & Hao & Hm). unfold vget. rewrite Hao. cbn [bind].
    assert (Hp : exists j, (Z.of_nat i + ao_hash ao = Z.of_nat j)%Z).
    { pose proof (nth_error_In _ _ Hao) as Hin. apply Hops in Hin. destruct Hin as (o1 & op & c & Hop & z & Hz & Hne & ->).
      destruct (ao_matches o1 op c i z (nth_error_In _ _ (proj1 Hop)) Hi Hz) as (_ & Hm2 & Hh2). pose proof (proj1 Hm2 Hm) as Hm9. destruct (Hh2 Hm9) as [_ Ej]. eauto. }
    destruct Hp as [j Hj]. rewrite (proj2 (Z.leb_le 0 _)) by lia. cbn [guard bind]. eexists. split; [reflexivity|].
    intros b. cbn [In]. split; [intros [<-|[]]; eauto|]. intros (ao' & Hao' & ->). left. congruence. }
  exists es. cbn [app] in E. split; [exact E|]. intros j w. rewrite H, (ao_edges ops i j w Hops Hi). split.
  - intros (o & Ho & ao & Hao & Ee). inversion Ee; subst j w. apply Hids in Ho. destruct Ho as (ao' & Hao' & Hm). assert (ao' = ao) by congruence. subst ao'.
    exists ao. splits; auto; [eapply nth_error_In; eauto|].
    pose proof (nth_error_In _ _ Hao) as Hin. apply Hops in Hin. destruct Hin as (o1 & op & c & Hop & z & Hz & Hne & ->).
    destruct (ao_matches o1 op c i z (nth_error_In _ _ (proj1 Hop)) Hi Hz) as (_ & Hm2 & Hh2). pose proof (proj1 Hm2 Hm) as Hm9. destruct (Hh2 Hm9) as [_ Ej]. rewrite Ej. lia.
  - intros (ao & Hin & Hm & Hh & Hw). apply In_nth_error in Hin. destruct Hin as [o Ho]. exists o. split; [apply Hids; eauto|]. exists ao. split; auto. rewrite Hh, Nat2Z.id. congruence.
Qed.

(* ---- goals ---- *)
Lemma goals_ok v2i : (forall v, v < length (t_vars t) -> index_of v2i v = Ok (pos_in pat v)) -> abstract_goals t v2i = Ok (proj_facts pat (t_goal t)).
Proof.
  intros Hv. unfold abstract_goals.
  assert (G : forall fs gs, (forall f, In f fs -> fst f < length (t_vars t)) ->
    fold_outcome (fun gs f => let* i := index_of v2i (fst f) in match i with Some i => Ok (gs ++ [(i, snd f)]) | None => Ok gs end) fs gs = Ok (gs ++ proj_facts pat fs)).
  { induction fs as [|[v d] r IH]; intros gs Hf; cbn [fold_outcome proj_facts]; [now rewrite app_nil_r|].
    cbn [fst snd]. rewrite Hv by (apply (Hf (v, d)); now left). cbn [bind]. destruct (pos_in pat v); cbn [bind]; rewrite IH by (intros; apply Hf; now right); [now rewrite <- app_assoc|reflexivity]. }
  apply G. intros f Hf. destruct Ht as ((_ & _ & _ & _ & Hg) & _). rewrite Forall_forall in Hg. destruct (Hg f Hf) as (x & Hx & _). eapply nth_error_Some_lt; eauto.
Qed.
Definition goal_ix (i : nat) : Prop := goal_state T (dig doms i).
Lemma is_goal_ok i : exists b, is_goal_state (the_projection t pat) (proj_facts pat (t_goal t)) i = Ok b /\ (b = true <-> goal_ix i).
Proof.
  unfold goal_ix, goal_state. cbn [project t_goal].
  assert (Hin : forall f, In f (proj_facts pat (t_goal t)) -> pre_ok doms f).
  { apply facts_pre_ok. destruct Ht as ((_ & _ & _ & _ & Hg) & _). now rewrite Forall_forall in Hg. }
  revert Hin. generalize (proj_facts pat (t_goal t)) as gs. induction gs as [|[v d] r IH]; intros Hin; cbn [is_goal_state].
  - exists true. split; auto. split; auto. intros _ f [].
  - destruct (Hin (v, d) (or_introl eq_refl)) as (dm & Hd & _). cbn [fst] in Hd. rewrite (unrank_ok t Ht pat Hpat i v dm Hd). cbn [bind].
    assert (Hn := dig_in i v dm Hd). destruct (Nat.eqb_spec (nth v (dig doms i) 0) d) as [Ed|Ed].
    + destruct IH as (b & Eb & Hb); [intros; apply Hin; now right|]. exists b. split; auto. rewrite Hb. split.
      * intros H f [<-|Hf]; [|now apply H]. unfold holds. cbn [fst snd]. now rewrite Hn, Ed.
      * intros H f Hf. apply H. now right.
    + exists false. split; auto. split; [discriminate|]. intros H. specialize (H (v, d) (or_introl eq_refl)). unfold holds in H. cbn [fst snd] in H. rewrite Hn in H. congruence.
Qed.

Lemma init_ok P bag (HP : pq_contract P bag) : forall l d q, exists d' q' gs,
  fold_outcome (fun dq i => let '(d, q) := dq in let* g := is_goal_state (the_projection t pat) (proj_facts pat (t_goal t)) i in
      if g then Ok (d ++ [Some 0], pq_push P q 0 i) else Ok (d ++ [None], q)) l (d, q) = Ok (d ++ d', q') /\
  Permutation (bag q') (bag q ++ map (pair 0) gs) /\ (forall i, In i gs <-> In i l /\ goal_ix i) /\ (NoDup l -> NoDup gs) /\
  Forall2 (fun i x => (goal_ix i /\ x = Some 0) \/ (~ goal_ix i /\ x = None)) l d'.
Proof.
  induction l as [|i l IH]; intros d q; cbn [fold_outcome].
  - exists [], q, []. cbn [map]. rewrite !app_nil_r. splits; auto. intros i. cbn [In]. tauto.
  - destruct (is_goal_ok i) as (b & Eb & Hb). rewrite Eb. cbn [bind]. destruct b.
    + destruct (IH (d ++ [Some 0]) (pq_push P q 0 i)) as (d' & q' & gs & E & Hp & Hg & Hn & HF). exists (Some 0 :: d'), q', (i :: gs). splits.
      * cbn [bind]. rewrite E. now rewrite <- app_assoc.
      * cbn [map]. eapply perm_trans; [exact Hp|]. eapply perm_trans; [apply Permutation_app_tail; apply (pq_push_ok P bag HP)|]. cbn [app]. apply Permutation_middle.
      * intros j. cbn [In]. rewrite Hg. destruct Hb as [Hb _]. specialize (Hb eq_refl). split; [intros [->|?]; tauto|tauto].
      * intros Hnd. inversion Hnd; subst. constructor; [rewrite Hg; tauto|auto].
      * constructor; auto. left. split; auto. now apply Hb.
    + destruct (IH (d ++ [None]) q) as (d' & q' & gs & E & Hp & Hg & Hn & HF). exists (None :: d'), q', gs.
      assert (Hng : ~ goal_ix i) by (intros H; apply Hb in H; discriminate). splits; auto.
      * cbn [bind]. rewrite E. now rewrite <- app_assoc.
      * intros j. cbn [In]. rewrite Hg. split; [tauto|]. intros [[->|?] ?]; tauto.
      * intros Hnd. inversion Hnd; auto.
Qed.

(* ---- walks and plans ---- *)
Lemma walk_plan E i c : (forall i j w, i < prodl doms -> (In (j, w) (E i) <-> edge_rel i j w)) ->
  walk_cost E (fun i => i < prodl doms /\ goal_ix i) i c -> i < prodl doms /\ plan_costs_from T (dig doms i) c.
Proof.
  intros HE. induction 1 as [i [Hi Hg]|i c j w _ [Hi IH] Hin].
  - split; auto. exists []. split; [exists (dig doms i); split; [constructor|exact Hg]|reflexivity].
  - apply HE in Hin; auto. destruct Hin as (o & op & b & Hop & Hae & Hb & ->). split; [now apply horner_lt|].
    destruct IH as (os & (s' & Hpath & Hg) & Hc). destruct (op_data op (nth_error_In _ _ (proj1 Hop))) as (Hpl & Hn1 & Hn2 & Hk1 & Hk2 & Hal & _).
    rewrite dig_horner by auto. exists (o :: os).
    assert (Hst : applicable T b o /\ progress T b o (dig doms i)).
    { apply proj_step; [now apply in_range_length|]. exists op, w. split; auto. apply (edge_trans doms (Ppre op) (Peff op)); auto. apply dig_length. }
    split; [exists s'; split; auto; econstructor; [apply Hst|apply Hst|exact Hpath]|].
    unfold plan_cost in *. cbn [map list_sum fold_right]. change (fold_right Nat.add 0) with list_sum. rewrite Hc, (proj_cost o op w Hop). lia.
Qed.

Lemma writes_range b a op : In op (t_ops t) -> in_range doms b -> trans (Ppre op) (Peff op) b a -> in_range doms a.
Proof.
  intros Hop Hb (Hl & _ & He & Hu). destruct (op_data op Hop) as (Hpl & Hn1 & Hn2 & Hk1 & Hk2 & Hal & _).
  apply in_range_intro; [rewrite Hl; now apply in_range_length|]. intros i x d Hx Hd.
  destruct (in_dec Nat.eq_dec i (map fst (Peff op))) as [Hi|Hi].
  - apply in_map_iff in Hi. destruct Hi as (f & <- & Hf). rewrite (He f Hf) in Hx. inversion Hx; subst x. destruct (Hk2 f Hf) as (d' & Hd' & Hlt). rewrite Hd in Hd'; inversion Hd'; subst; auto.
  - rewrite (Hu i Hi) in Hx. eapply in_range_nth; eauto.
Qed.

Lemma plan_walk E : (forall i j w, i < prodl doms -> (In (j, w) (E i) <-> edge_rel i j w)) ->
  forall os b, in_range doms b -> task_plan_from T b os ->
  exists c, walk_cost E (fun i => i < prodl doms /\ goal_ix i) (horner doms b) c /\ c <= plan_cost T os.
Proof.
  intros HE. induction os as [|o os IH]; intros b Hb (s' & Hpath & Hg).
  - inversion Hpath; subst. exists 0. split; [|unfold plan_cost; cbn; lia]. constructor. split; [now apply horner_lt|]. unfold goal_ix. rewrite dig_horner; auto.
  - inversion Hpath as [|? ? a ? ? Ha Hp Hr]; subst.
    destruct (proj1 (proj_step o b a (in_range_length _ _ Hb)) (conj Ha Hp)) as (op & c & Hop & Htr).
    pose proof (writes_range b a op (nth_error_In _ _ (proj1 Hop)) Hb Htr) as Hra.
    destruct (IH a Hra) as (c1 & Hw & Hle); [exists s'; auto|].
    assert (Hpc : plan_cost T (o :: os) = c + plan_cost T os).
    { unfold plan_cost. cbn [map list_sum fold_right]. change (fold_right Nat.add 0) with list_sum. now rewrite (proj_cost o op c Hop). }
    destruct (list_eq_dec Nat.eq_dec a b) as [->|Hne]; [exists c1; split; auto; lia|].
    exists (c1 + c). split; [|lia]. econstructor; [exact Hw|]. apply HE; [now apply horner_lt|].
    destruct (op_data op (nth_error_In _ _ (proj1 Hop))) as (Hpl & Hn1 & Hn2 & Hk1 & Hk2 & Hal & _).
    exists o, op, b. splits; auto. rewrite dig_horner by auto. apply trans_edge; auto.
Qed.

Theorem compute_pdb_ok P bag (HP : pq_contract P bag) q0 costs : bag q0 = [] -> fits t pat ->
  cs = match costs with [] => task_costs t | _ => costs end ->
  exists f0, forall fuel, f0 <= fuel -> exists db, compute_pdb P q0 fuel t pat costs = Ok db /\ db_pj db = the_projection t pat /\
    length (db_dist db) = prodl doms /\ forall a, in_range doms a -> perfect_value T a (nth (horner doms a) (db_dist db) None).
Proof.
  intros Hq0 Hf Ecs. destruct (v2i_ok t pat Hpat) as (v2i & Ev & Hv). destruct (ops_ok v2i costs Hv Ecs) as (ops & Eops & Hops).
  destruct (match_tree_spec (the_projection t pat) ops) as (mt & Emt & _ & _); [apply (pdoms_pos t Ht pat Hpat)|now apply ao_wf|].
  destruct (init_ok P bag HP (seq 0 (prodl doms)) [] q0) as (d & q & gs & Ei & Hp & Hg & Hn & HF).
  set (E := fun i => match regress (the_projection t pat) ops mt i with Ok l => l | _ => [] end).
  assert (HE : forall i, i < prodl doms -> regress (the_projection t pat) ops mt i = Ok (E i)).
  { intros i Hi. destruct (regress_ok ops mt i Hops Emt Hi) as (es & Ees & _). unfold E. now rewrite Ees. }
  assert (HE2 : forall i j w, i < prodl doms -> (In (j, w) (E i) <-> edge_rel i j w)).
  { intros i j w Hi. destruct (regress_ok ops mt i Hops Emt Hi) as (es & Ees & H). unfold E. rewrite Ees. apply H. }
  assert (Hguard : guard ((length costs =? 0) || (length costs =? length (t_ops t))) = Ok tt).
  { destruct costs; [reflexivity|]. rewrite <- Ecs, Hcs, Nat.eqb_refl, orb_true_r. reflexivity. }
  set (f0 := S (length (bag q) + list_sum (map (fun s => length (E s)) (seq 0 (prodl doms))))).
  exists f0. intros fuel Hfuel. unfold compute_pdb. rewrite (new_projection_ok t Ht pat Hpat Hf). cbn [bind]. rewrite Hguard. cbn [bind].
  rewrite Ev. cbn [bind]. rewrite Eops. cbn [bind]. rewrite Emt. cbn [bind]. rewrite (goals_ok v2i Hv). cbn [bind].
  unfold compute_distances. cbn [the_projection pj_num] in *. fold (the_projection t pat) in *.
  match type of Ei with ?l = _ => match goal with |- context [bind (bind ?m _) _] => change m with l end end. rewrite Ei. cbn [bind app].
  assert (Hlen : length d = prodl doms).
  { clear -HF. rewrite <- (seq_length (prodl doms) 0). symmetry. induction HF; cbn [length]; auto. }
  destruct (dijkstra_exact P bag HP (prodl doms) E (regress (the_projection t pat) ops mt) HE) with (src := fun i => i < prodl doms /\ goal_ix i) (fuel := fuel) (d := d) (q := q) as (dd & Edd & Hex1 & Hex2).
  - intros s j w Hs Hin. apply HE2 in Hin; auto. destruct Hin as (o & op & b & _ & _ & Hb & ->). now apply horner_lt.
  - tauto.
  - exact Hlen.
  - intros s Hs. assert (Hx : exists x, nth_error d s = Some x /\ ((goal_ix s /\ x = Some 0) \/ (~ goal_ix s /\ x = None))).
    { assert (G : forall l d', Forall2 (fun i x => (goal_ix i /\ x = Some 0) \/ (~ goal_ix i /\ x = None)) l d' -> forall k i, nth_error l k = Some i ->
        exists x, nth_error d' k = Some x /\ ((goal_ix i /\ x = Some 0) \/ (~ goal_ix i /\ x = None))).
      { clear. induction 1 as [|i0 x0 l d' H _ IH]; intros [|k] i Hk; cbn [nth_error] in *; try discriminate; [inversion Hk; subst; eauto|eauto]. }
      apply (G _ _ HF). rewrite (nth_error_nth' _ 0) by now rewrite seq_length. now rewrite seq_nth. }
    destruct Hx as (x & Hx & Hc). rewrite (nth_error_nth d s None Hx). destruct Hc as [[Hc ->]|[Hc ->]]; [left|right]; tauto.
  - eapply Permutation_NoDup; [symmetry; exact Hp|]. rewrite Hq0. cbn [app]. specialize (Hn (seq_NoDup _ _)). clear -Hn. induction Hn as [|x l Hx _ IH]; cbn [map]; constructor; auto.
    intros Hi. apply in_map_iff in Hi. destruct Hi as (y & Ey & Hy). inversion Ey; subst; contradiction.
  - intros k s. assert (Hin : In (k, s) (bag q) <-> In (k, s) (map (pair 0) gs)).
    { rewrite Hq0 in Hp. cbn [app] in Hp. split; apply Permutation_in; [exact Hp|symmetry; exact Hp]. }
    rewrite Hin, in_map_iff. split.
    + intros (y & Ey & Hy). inversion Ey; subst. apply Hg in Hy. rewrite in_seq in Hy. split; auto. split; [lia|tauto].
    + intros [-> [Hs Hgs]]. exists s. split; auto. apply Hg. rewrite in_seq. split; [lia|auto].
  - unfold f0 in Hfuel. lia.
  - rewrite Edd. cbn [bind]. eexists. split; [reflexivity|]. cbn [db_pj db_dist]. splits; auto. intros a Ha.
    specialize (Hex2 (horner doms a) (horner_lt _ _ Ha)). destruct (nth (horner doms a) dd None) as [c|]; cbn [perfect_value].
    + destruct Hex2 as [Hw Hmin]. destruct (walk_plan E _ _ HE2 Hw) as [_ Hpl]. rewrite dig_horner in Hpl by auto. split; auto.
      intros c' (os & Hos & <-). destruct (plan_walk E HE2 os a Ha Hos) as (c1 & Hc1 & Hle). specialize (Hmin c1 Hc1). lia.
    + intros os Hos. destruct (plan_walk E HE2 os a Ha Hos) as (c1 & Hc1 & _). exact (Hex2 c1 Hc1).
Qed.

Lemma pdb_value_ok db s : db_pj db = the_projection t pat -> length (db_dist db) = prodl doms -> state_ok t s ->
  pdb_value db s = Ok (nth (horner doms (proj_state pat s)) (db_dist db) None).
Proof.
  intros Hpj Hl Hs. unfold pdb_value. rewrite Hpj, (rank_ok t pat Hpat s Hs). cbn [bind]. unfold vget.
  rewrite (nth_error_nth' _ None); [reflexivity|]. rewrite Hl. apply horner_lt. now apply (proj_state_range t pat Hpat).
Qed.
End T.
