(** Pattern databases, part 1: projections, index tables, abstract operators. *)
From Coq Require Import Sorted Permutation.
From Verif Require Import Outcome Spec_Task Spec_Relaxation Spec_Projection Model_Task Proof_Task Model_PDB Proof_MixedRadix Proof_MatchTree.
From Verif Require Model_Evaluators Prop_Evaluators.

Definition pdoms (t : task) (pat : list nat) : list nat :=
  map (fun v => vdom (nth v (t_vars t) {| vdom := 0; vlayer := None; vdefault := 0 |})) pat.
Definition the_projection (t : task) (pat : list nat) : projection :=
  {| pj_pattern := pat; pj_doms := pdoms t pat; pj_mults := mults_from 1 (pdoms t pat); pj_num := prodl (pdoms t pat) |}.
Definition fits (t : task) (pat : list nat) : Prop := (Z.of_nat (prodl (pdoms t pat)) <= Model_Evaluators.INT_MAX)%Z.

Lemma sorted_unique_spec l : StronglySorted lt l -> sorted_unique l = true.
Proof.
  induction 1 as [|x l Hs IH Hall]; [reflexivity|]. destruct l as [|y l]; [reflexivity|]. cbn [sorted_unique].
  inversion Hall; subst. apply andb_true_iff. split; [now apply Nat.ltb_lt|exact IH].
Qed.
Lemma sorted_nodup l : StronglySorted lt l -> NoDup l.
Proof. induction 1 as [|x l _ IH Hall]; constructor; auto. intros Hi. rewrite Forall_forall in Hall. specialize (Hall x Hi). lia. Qed.

Section T.
Variable t : task.
Hypothesis Ht : plain_task t.
Variable pat : list nat.
Hypothesis Hpat : pattern_ok t pat.

Lemma dom_pos v x : nth_error (t_vars t) v = Some x -> 0 < vdom x.
Proof. destruct Ht as [(Hv & _) _]. intros H. apply nth_error_In in H. rewrite Forall_forall in Hv. destruct (Hv x H) as [? _]. lia. Qed.
Lemma pdoms_pos : Forall (fun d => 0 < d) (pdoms t pat).
Proof.
  apply Forall_forall. intros d Hd. unfold pdoms in Hd. apply in_map_iff in Hd. destruct Hd as (v & <- & Hv).
  destruct Hpat as [_ Hr]. apply (dom_pos v). apply nth_error_nth'. auto.
Qed.

Lemma make_projection_ok : forall vars pj, (forall v, In v vars -> v < length (t_vars t)) -> 0 < pj_num pj ->
  (Z.of_nat (pj_num pj * prodl (pdoms t vars)) <= Model_Evaluators.INT_MAX)%Z ->
  make_projection t vars pj = Ok {| pj_pattern := pj_pattern pj ++ vars; pj_doms := pj_doms pj ++ pdoms t vars;
    pj_mults := pj_mults pj ++ mults_from (pj_num pj) (pdoms t vars); pj_num := pj_num pj * prodl (pdoms t vars) |}.
Proof.
  induction vars as [|v r IH]; intros pj Hin Hn Hf; cbn [make_projection pdoms map prodl mults_from] in *.
  - rewrite !app_nil_r, Nat.mul_1_r. destruct pj; reflexivity.
  - specialize (Hin v (or_introl eq_refl)) as Hv. unfold vget at 1. rewrite (nth_error_nth' _ {| vdom := 0; vlayer := None; vdefault := 0 |} Hv). cbn [bind].
    set (d := vdom (nth v (t_vars t) _)) in *. fold (pdoms t r) in *.
    assert (Hd : 0 < d) by (apply (dom_pos v); apply nth_error_nth'; auto).
    assert (Hpr : 0 < prodl (pdoms t r)).
    { apply prodl_pos, Forall_forall. intros e He. unfold pdoms in He. apply in_map_iff in He. destruct He as (u & <- & Hu). apply (dom_pos u). apply nth_error_nth'. apply Hin. now right. }
    assert (Hle : (Z.of_nat (pj_num pj) * Z.of_nat d <= Model_Evaluators.INT_MAX)%Z) by nia.
    rewrite Prop_Evaluators.C58_is_product_within_limit; try lia.
    2-4: unfold Prop_Evaluators.is_int, Model_Evaluators.INT_MIN, Model_Evaluators.INT_MAX in *; nia.
    rewrite (proj2 (Z.leb_le _ _) Hle). cbn [bind].
    rewrite IH; cbn [pj_num pj_pattern pj_doms pj_mults].
    + rewrite <- !app_assoc. cbn [app]. rewrite <- Nat.mul_assoc. reflexivity.
    + intros u Hu. apply Hin. now right.
    + nia.
    + rewrite <- Nat.mul_assoc. exact Hf.
Qed.

Lemma no_cond_effects : existsb (fun op => existsb (fun e => match eff_cond e with [] => false | _ => true end) (op_effs op)) (t_ops t) = false.
Proof.
  destruct (existsb _ (t_ops t)) eqn:E; auto. apply existsb_exists in E. destruct E as (op & Ho & E). apply existsb_exists in E. destruct E as (e & He & E).
  destruct Ht as (_ & _ & _ & Hop). destruct (Hop op Ho) as (Hc & _). rewrite (Hc e He) in E. discriminate.
Qed.
Lemma new_projection_ok : fits t pat -> new_projection t pat = Ok (the_projection t pat).
Proof.
  intros Hf. unfold new_projection. destruct Ht as (_ & Hr & _). unfold has_rules. rewrite Hr. rewrite no_cond_effects.
  destruct Hpat as [Hs Hin]. rewrite (sorted_unique_spec _ Hs). cbn [guard bind]. rewrite make_projection_ok; auto; cbn [pj_num pj_pattern pj_doms pj_mults]; try lia.
  - rewrite Nat.mul_1_l. reflexivity.
  - rewrite Nat.mul_1_l. exact Hf.
Qed.

Lemma pdoms_nth i v : nth_error pat i = Some v -> exists x, nth_error (t_vars t) v = Some x /\ nth_error (pdoms t pat) i = Some (vdom x).
Proof.
  intros H. destruct Hpat as [_ Hin]. specialize (Hin v (nth_error_In _ _ H)).
  eexists. split; [apply nth_error_nth'; exact Hin|]. unfold pdoms. now rewrite (map_nth_error _ _ _ H).
Qed.

Lemma proj_state_range s : state_ok t s -> in_range (pdoms t pat) (proj_state pat s).
Proof.
  intros Hs. apply in_range_intro; [unfold pdoms, proj_state; now rewrite !map_length|].
  intros i x d Hx Hd. unfold proj_state in Hx. rewrite nth_error_map in Hx. destruct (nth_error pat i) as [v|] eqn:Ev; [|discriminate]. cbn in Hx. inversion Hx; subst x.
  destruct (pdoms_nth i v Ev) as (y & Ey & Ed). rewrite Ed in Hd; inversion Hd; subst d.
  clear Hx Ed Hd Ev. revert v Ey. induction Hs as [|x0 y0 s vs Hxy _ IH]; intros [|v] Ey; cbn [nth_error nth] in *; try discriminate; [inversion Ey; subst; auto|]. apply (IH v Ey).
Qed.

Lemma rank_from_ok s : state_ok t s -> forall vars m i, (forall v, In v vars -> v < length (t_vars t)) ->
  rank_from s vars (mults_from m (pdoms t vars)) i = Ok (i + m * horner (pdoms t vars) (proj_state vars s)).
Proof.
  intros Hs. assert (Hlen : length s = length (t_vars t)) by (clear -Hs; induction Hs; cbn; auto).
  induction vars as [|v r IH]; intros m i Hin; cbn [rank_from pdoms map mults_from proj_state horner]; [f_equal; lia|].
  unfold vget. rewrite (nth_error_nth' s 0) by (rewrite Hlen; apply Hin; now left). cbn [bind]. fold (pdoms t r). fold (proj_state r s). rewrite IH by (intros; apply Hin; now right). f_equal. lia.
Qed.
Lemma rank_ok s : state_ok t s -> rank (the_projection t pat) s = Ok (horner (pdoms t pat) (proj_state pat s)).
Proof. intros Hs. unfold rank. cbn [the_projection pj_pattern pj_mults]. rewrite rank_from_ok by (auto; apply Hpat). f_equal. lia. Qed.

Lemma unrank_ok i v d : nth_error (pdoms t pat) v = Some d -> unrank (the_projection t pat) i v = Ok (nth v (dig (pdoms t pat) i) 0).
Proof.
  intros Hd. unfold unrank. cbn [the_projection pj_mults pj_doms]. unfold vget.
  rewrite mults_nth by (eapply nth_error_Some_lt; eauto). rewrite Hd. cbn [bind]. rewrite Nat.mul_1_l.
  assert (0 < prodl (firstn v (pdoms t pat))).
  { apply prodl_pos, Forall_forall. intros x Hx. pose proof pdoms_pos as Hp. rewrite Forall_forall in Hp. apply Hp. rewrite <- (firstn_skipn v (pdoms t pat)). apply in_or_app; auto. }
  assert (0 < d) by (pose proof pdoms_pos as Hp; rewrite Forall_forall in Hp; apply Hp; eapply nth_error_In; eauto).
  destruct (Nat.eqb_spec (prodl (firstn v (pdoms t pat))) 0); [lia|]. destruct (Nat.eqb_spec d 0); [lia|]. cbn [orb]. f_equal.
  symmetry. apply nth_error_nth. apply dig_nth; auto. apply pdoms_pos.
Qed.

(* ---- variable_to_index ---- *)
Lemma pos_in_spec p : NoDup p -> forall v i, pos_in p v = Some i <-> nth_error p i = Some v.
Proof.
  induction 1 as [|x r Hx _ IH]; intros v i; cbn [pos_in]; [split; [discriminate|destruct i; discriminate]|].
  destruct (Nat.eqb_spec x v) as [->|Hne].
  - split; [intros H; inversion H; reflexivity|]. destruct i as [|i]; auto. cbn [nth_error]. intros H. apply nth_error_In in H. contradiction.
  - destruct (pos_in r v) as [j|] eqn:E; cbn [option_map].
    + split; [intros H; inversion H; subst; cbn [nth_error]; now apply IH|]. destruct i as [|i]; cbn [nth_error]; intros H; [congruence|]. apply IH in H. congruence.
    + split; [discriminate|]. destruct i as [|i]; cbn [nth_error]; intros H; [congruence|]. apply IH in H. congruence.
Qed.
Lemma pos_in_none p v : pos_in p v = None <-> ~ In v p.
Proof.
  induction p as [|x r IH]; cbn [pos_in In]; [tauto|]. destruct (Nat.eqb_spec x v); [split; [discriminate|tauto]|].
  destruct (in_dec Nat.eq_dec v r) as [Hi|Hi].
  - destruct (pos_in r v); cbn [option_map]; [split; [discriminate|tauto]|]. destruct IH as [IH _]. specialize (IH eq_refl). contradiction.
  - destruct IH as [_ IH]. rewrite (IH Hi). cbn [option_map]. tauto.
Qed.

Lemma v2i_ok : exists v2i, variable_to_index t pat = Ok v2i /\ forall v, v < length (t_vars t) -> index_of v2i v = Ok (pos_in pat v).
Proof.
  destruct Hpat as [Hs Hin]. pose proof (sorted_nodup _ Hs) as Hnd. unfold variable_to_index.
  assert (G : forall p i l, (forall v, In v p -> v < length l) -> NoDup p ->
    exists l', fold_outcome (fun v2i iv => vset v2i (snd iv) (Some (fst iv))) (combine (seq i (length p)) p) l = Ok l' /\ length l' = length l /\
      forall v, nth_error l' v = match pos_in p v with Some j => Some (Some (i + j)) | None => nth_error l v end).
  { induction p as [|x p IH]; intros i l Hl Hn; [exists l; auto|]. inversion Hn as [|? ? Hx Hn']; subst. cbn [length seq combine fold_outcome fst snd].
    unfold vset at 1. rewrite (proj2 (Nat.ltb_lt x (length l))) by (apply Hl; now left). cbn [bind].
    destruct (IH (S i) (upd l x (Some i))) as (l' & E & Hlen & Hv); auto; [intros v Hv; rewrite upd_length; apply Hl; now right|].
    exists l'. split; [exact E|]. rewrite upd_length in Hlen. split; auto. intros v. rewrite Hv. cbn [pos_in]. destruct (Nat.eqb_spec x v) as [->|Hne].
    - rewrite (proj2 (pos_in_none p v) Hx). rewrite upd_nth_eq by (apply Hl; now left). do 2 f_equal. lia.
    - destruct (pos_in p v) as [j|]; cbn [option_map]; [do 2 f_equal; lia|]. now rewrite upd_nth_neq by auto. }
  destruct (G pat 0 (repeat None (length (t_vars t)))) as (l & E & Hl & Hv); auto; [intros v Hv; rewrite repeat_length; auto|].
  exists l. split; [exact E|]. intros v Hv'. unfold index_of, vget. rewrite Hv. destruct (pos_in pat v); [reflexivity|].
  rewrite nth_error_repeat by auto. reflexivity.
Qed.

(* ---- projected facts ---- *)
Lemma proj_facts_in p fs i d : In (i, d) (proj_facts p fs) <-> exists v, In (v, d) fs /\ pos_in p v = Some i.
Proof.
  induction fs as [|[v e] r IH]; cbn [proj_facts In]; [split; [intros []|intros (v & [] & _)]|].
  destruct (pos_in p v) as [j|] eqn:E; cbn [In]; rewrite IH; split.
  - intros [H|(u & Hu & Hp)]; [inversion H; subst; exists v; auto|exists u; auto].
  - intros (u & [H|Hu] & Hp); [inversion H; subst; left; congruence|right; exists u; auto].
  - intros (u & Hu & Hp). exists u; auto.
  - intros (u & [H|Hu] & Hp); [inversion H; subst; congruence|exists u; auto].
Qed.
Lemma proj_facts_fst p fs : NoDup p -> NoDup (map fst fs) -> NoDup (map fst (proj_facts p fs)).
Proof.
  intros Hp. induction fs as [|[v e] r IH]; cbn [proj_facts map fst]; intros H; [constructor|]. inversion H as [|? ? Hv Hn]; subst.
  destruct (pos_in p v) as [j|] eqn:E; [|auto]. cbn [map fst]. constructor; auto. intros Hi. apply in_map_iff in Hi. destruct Hi as ([j' d] & Ej & Hi). cbn [fst] in Ej. subst j'.
  apply proj_facts_in in Hi. destruct Hi as (u & Hu & Hpu). apply Hv. apply (pos_in_spec p Hp) in E, Hpu. assert (u = v) by congruence. subst u. apply in_map_iff. exists (v, d); auto.
Qed.
Lemma proj_facts_app p a b : proj_facts p (a ++ b) = proj_facts p a ++ proj_facts p b.
Proof. induction a as [|[v d] a IH]; cbn [app proj_facts]; auto. destruct (pos_in p v); cbn [app]; now rewrite IH. Qed.

Definition hasv (fs : list fact) (f : fact) : bool := existsb (fun g => fst g =? fst f) fs.
Lemma hasv_spec fs f : hasv fs f = true <-> In (fst f) (map fst fs).
Proof.
  unfold hasv. rewrite existsb_exists, in_map_iff. split; intros (g & H1 & H2).
  - apply Nat.eqb_eq in H2. exists g; auto.
  - exists g; split; auto. now apply Nat.eqb_eq.
Qed.
Lemma hasv_proj p fs v i d : NoDup p -> pos_in p v = Some i -> hasv (proj_facts p fs) (i, d) = existsb (fun f => fst f =? v) fs.
Proof.
  intros Hp Hv. apply Bool.eq_true_iff_eq. rewrite hasv_spec, existsb_exists. cbn [fst]. rewrite in_map_iff. split.
  - intros ([j e] & Ej & Hi). cbn [fst] in Ej; subst j. apply proj_facts_in in Hi. destruct Hi as (u & Hu & Hpu). exists (u, e). split; auto. cbn [fst]. apply Nat.eqb_eq.
    apply (pos_in_spec p Hp) in Hv, Hpu. congruence.
  - intros ([u e] & Hi & Hu). cbn [fst] in Hu. apply Nat.eqb_eq in Hu. subst u. exists (i, e). split; auto. apply proj_facts_in. eauto.
Qed.

Definition efacts (op : operator) : list fact := map eff_fact (op_effs op).

Lemma split_effects_ok v2i op : (forall v, v < length (t_vars t) -> index_of v2i v = Ok (pos_in pat v)) ->
  forall effs eff ewp, (forall e, In e effs -> fst (eff_fact e) < length (t_vars t)) ->
  split_effects v2i op effs eff ewp =
    Ok (eff ++ filter (hasv (proj_facts pat (op_pre op))) (proj_facts pat (map eff_fact effs)),
        ewp ++ filter (fun f => negb (hasv (proj_facts pat (op_pre op)) f)) (proj_facts pat (map eff_fact effs))).
Proof.
  intros Hv. pose proof (sorted_nodup _ (proj1 Hpat)) as Hnd.
  induction effs as [|e r IH]; intros eff ewp Hin; cbn [split_effects map proj_facts filter]; [now rewrite !app_nil_r|].
  specialize (Hin e (or_introl eq_refl)) as He. destruct (eff_fact e) as [v d] eqn:Ee. cbn [fst] in He. rewrite (Hv v He). cbn [bind].
  destruct (pos_in pat v) as [i|] eqn:Ep; [|apply IH; intros; apply Hin; now right].
  cbn [filter]. rewrite (hasv_proj pat (op_pre op) v i d Hnd Ep). destruct (existsb (fun f => fst f =? v) (op_pre op)); cbn [negb]; rewrite IH by (intros; apply Hin; now right);
    rewrite <- app_assoc; reflexivity.
Qed.
Lemma split_pre_ok v2i op : (forall v, v < length (t_vars t) -> index_of v2i v = Ok (pos_in pat v)) ->
  forall fs pre prev, (forall f, In f fs -> fst f < length (t_vars t)) ->
  split_pre v2i op fs pre prev =
    Ok (pre ++ filter (hasv (proj_facts pat (efacts op))) (proj_facts pat fs),
        prev ++ filter (fun f => negb (hasv (proj_facts pat (efacts op)) f)) (proj_facts pat fs)).
Proof.
  intros Hv. pose proof (sorted_nodup _ (proj1 Hpat)) as Hnd.
  induction fs as [|[v d] r IH]; intros pre prev Hin; cbn [split_pre proj_facts filter]; [now rewrite !app_nil_r|].
  specialize (Hin (v, d) (or_introl eq_refl)) as He. cbn [fst] in He. rewrite (Hv v He). cbn [bind].
  destruct (pos_in pat v) as [i|] eqn:Ep; [|apply IH; intros; apply Hin; now right].
  cbn [filter]. rewrite (hasv_proj pat (efacts op) v i d Hnd Ep).
  assert (Ex : existsb (fun e => fst (eff_fact e) =? v) (op_effs op) = existsb (fun f => fst f =? v) (efacts op)).
  { unfold efacts. induction (op_effs op) as [|e l IHl]; cbn [existsb map]; auto. now rewrite IHl. }
  rewrite Ex. destruct (existsb (fun f => fst f =? v) (efacts op)); cbn [negb]; rewrite IH by (intros; apply Hin; now right);
    rewrite <- app_assoc; reflexivity.
Qed.

(** Alignment carries over to the projection. *)
Fixpoint proj_vars (p vs : list nat) : list nat :=
  match vs with [] => [] | v :: r => match pos_in p v with Some i => i :: proj_vars p r | None => proj_vars p r end end.
Lemma proj_facts_vars p fs : map fst (proj_facts p fs) = proj_vars p (map fst fs).
Proof. induction fs as [|[v d] r IH]; cbn [proj_facts map fst proj_vars]; auto. destruct (pos_in p v); cbn [map fst]; now rewrite IH. Qed.
Lemma map_fst_filter (g : nat -> bool) (fs : list fact) : map fst (filter (fun f => g (fst f)) fs) = filter g (map fst fs).
Proof. induction fs as [|f r IH]; cbn [filter map]; auto. destruct (g (fst f)); cbn [map]; now rewrite IH. Qed.
Lemma filter_hasv_proj p fs gs : NoDup p -> map fst (filter (hasv (proj_facts p gs)) (proj_facts p fs)) =
  proj_vars p (filter (fun v => existsb (fun f => fst f =? v) gs) (map fst fs)).
Proof.
  intros Hp. induction fs as [|[v d] r IH]; cbn [proj_facts map fst filter]; auto.
  destruct (pos_in p v) as [i|] eqn:Ep.
  - cbn [filter]. rewrite (hasv_proj p gs v i d Hp Ep). destruct (existsb (fun f => fst f =? v) gs); cbn [map fst proj_vars]; [rewrite Ep|]; now rewrite IH.
  - destruct (existsb (fun f => fst f =? v) gs); cbn [proj_vars]; [rewrite Ep|]; now rewrite IH.
Qed.
Lemma aligned op : op_plain op ->
  map fst (filter (hasv (proj_facts pat (efacts op))) (proj_facts pat (op_pre op))) =
  map fst (filter (hasv (proj_facts pat (op_pre op))) (proj_facts pat (efacts op))).
Proof.
  intros (_ & _ & _ & Ha). pose proof (sorted_nodup _ (proj1 Hpat)) as Hnd. rewrite !filter_hasv_proj by auto. f_equal.
  unfold efacts. rewrite map_map. rewrite <- Ha. apply filter_ext. intros v. clear Ha.
  induction (op_effs op) as [|e l IHl]; cbn [existsb map]; auto. now rewrite IHl.
Qed.

Lemma nth_error_app_l {A} (a b : list A) i x : nth_error a i = Some x -> nth_error (a ++ b) i = Some x.
Proof. intros H. rewrite nth_error_app1; auto. eapply nth_error_Some_lt; eauto. Qed.

(* ---- sorting ---- *)
Lemma finsert_perm f l : Permutation (finsert f l) (f :: l).
Proof. induction l as [|g r IH]; cbn [finsert]; auto. destruct (fact_ltb g f); auto. eapply perm_trans; [apply perm_skip, IH|apply perm_swap]. Qed.
Lemma fsort_perm l : Permutation (fsort l) l.
Proof. induction l as [|f r IH]; cbn [fsort fold_right]; auto. fold (fsort r). eapply perm_trans; [apply finsert_perm|]. now apply perm_skip. Qed.
Lemma finsert_sorted f l : fsorted l -> ~ In (fst f) (map fst l) -> fsorted (finsert f l).
Proof.
  induction 1 as [|g r Hs IH Hall]; cbn [finsert map In]; intros Hn; [repeat constructor|].
  unfold fact_ltb. destruct (Nat.ltb_spec (fst g) (fst f)) as [Hlt|Hge]; cbn [orb].
  - constructor; [apply IH; tauto|]. rewrite Forall_forall in *. intros x Hx. apply (Permutation_in _ (finsert_perm f r)) in Hx. destruct Hx as [<-|Hx]; auto.
  - destruct (Nat.eqb_spec (fst g) (fst f)) as [He|Hne]; [tauto|]. cbn [andb]. constructor; [now constructor|]. constructor; [lia|].
    rewrite Forall_forall in *. intros x Hx. specialize (Hall x Hx). lia.
Qed.
Lemma fsort_sorted l : NoDup (map fst l) -> fsorted (fsort l).
Proof.
  induction l as [|f r IH]; cbn [fsort fold_right map]; intros H; [constructor|]. fold (fsort r). inversion H as [|? ? Hf Hn]; subst.
  apply finsert_sorted; auto. intros Hi. apply Hf. eapply Permutation_in; [apply Permutation_map, fsort_perm|exact Hi].
Qed.
Lemma adjacent_ok l : fsorted l -> adjacent_distinct l = true.
Proof.
  induction 1 as [|f r Hs IH Hall]; [reflexivity|]. destruct r as [|g r]; [reflexivity|]. cbn [adjacent_distinct]. inversion Hall; subst.
  apply andb_true_iff. split; [apply negb_true_iff, Nat.eqb_neq; lia|exact IH].
Qed.

(* ---- hash effects ---- *)
Fixpoint hsum (doms : list nat) (pre eff : list fact) : Z :=
  match pre, eff with
  | (v, x) :: pre, (_, y) :: eff => ((Z.of_nat x - Z.of_nat y) * Z.of_nat (prodl (firstn v doms)) + hsum doms pre eff)%Z
  | _, _ => 0%Z
  end.
Lemma hash_effect_ok doms : forall pre eff, map fst pre = map fst eff -> (forall f, In f pre -> fst f < length doms) ->
  hash_effect (mults_from 1 doms) pre eff = Ok (hsum doms pre eff).
Proof.
  induction pre as [|[v x] pre IH]; intros [|[v' y] eff] Hm Hl; cbn [map fst] in Hm; try discriminate; [reflexivity|].
  inversion Hm; subst v'. cbn [hash_effect hsum]. rewrite Nat.eqb_refl. cbn [guard bind]. unfold vget.
  rewrite mults_nth by (apply (Hl (v, x)); now left). cbn [bind]. rewrite IH; auto; [|intros; apply Hl; now right]. cbn [bind]. do 4 f_equal. lia.
Qed.

Definition changes (l : list fact) (a : list nat) : list nat := fold_left (fun b f => upd b (fst f) (snd f)) l a.
Lemma changes_length l : forall a, length (changes l a) = length a.
Proof. induction l as [|f l IH]; intros a; cbn [changes fold_left]; auto. fold (changes l (upd a (fst f) (snd f))). rewrite IH. apply upd_length. Qed.
Lemma changes_other l : forall a v, ~ In v (map fst l) -> nth_error (changes l a) v = nth_error a v.
Proof.
  induction l as [|f l IH]; intros a v H; cbn [changes fold_left map In] in *; auto. fold (changes l (upd a (fst f) (snd f))).
  rewrite IH by tauto. apply upd_nth_neq. intros E; apply H; left; congruence.
Qed.
Lemma changes_in l : forall a, NoDup (map fst l) -> (forall f, In f l -> fst f < length a) -> forall f, In f l -> nth_error (changes l a) (fst f) = Some (snd f).
Proof.
  induction l as [|g l IH]; intros a Hn Hl f Hf; [destruct Hf|]. cbn [map] in Hn. inversion Hn as [|? ? Hg Hn']; subst.
  cbn [changes fold_left]. fold (changes l (upd a (fst g) (snd g))). destruct Hf as [<-|Hf].
  - rewrite changes_other by auto. apply upd_nth_eq. apply Hl. now left.
  - apply IH; auto. intros h Hh. rewrite upd_length. apply Hl. now right.
Qed.
Lemma changes_range doms l : forall a, in_range doms a -> (forall f, In f l -> pre_ok doms f) -> in_range doms (changes l a).
Proof.
  induction l as [|f l IH]; intros a Ha Hl; cbn [changes fold_left]; auto. fold (changes l (upd a (fst f) (snd f))).
  apply IH; [|intros; apply Hl; now right]. destruct (Hl f (or_introl eq_refl)) as (d & Hd & Hx). eapply in_range_upd; eauto.
Qed.
Lemma changes_hash doms : forall pre eff a, length a = length doms -> map fst pre = map fst eff -> NoDup (map fst pre) ->
  (forall f, In f eff -> nth_error a (fst f) = Some (snd f)) ->
  (Z.of_nat (horner doms (changes pre a)) = Z.of_nat (horner doms a) + hsum doms pre eff)%Z.
Proof.
  induction pre as [|[v x] pre IH]; intros [|[v' y] eff] a Hl Hm Hn Ha; cbn [map fst] in Hm; try discriminate; cbn [changes fold_left hsum]; [lia|].
  inversion Hm; subst v'. cbn [map fst] in Hn. inversion Hn as [|? ? Hv Hn']; subst. cbn [fst snd]. fold (changes pre (upd a v x)).
  assert (Hmt : map fst pre = map fst eff) by congruence.
  rewrite (IH eff); auto.
  - rewrite (horner_upd doms a v x y) by (auto; apply (Ha (v, y)); now left). lia.
  - now rewrite upd_length.
  - intros f Hf. rewrite upd_nth_neq; [apply Ha; now right|]. intros ->. apply Hv. rewrite Hmt. now apply in_map.
Qed.
End T.
