(** Merge-and-shrink: no transition is listed twice, if operators mention a variable once. *)
From Coq Require Import Permutation Sorted.
From Verif Require Import Outcome Spec_Task Spec_Relaxation Spec_Projection Model_PQ Model_Graph Model_MAS Spec_FTS Model_MASRun Spec_MergeStrategy.
From Verif Require Import Proof_MAS1 Proof_MAS2 Proof_MAS4 Proof_MAS5 Proof_MAS11 Proof_MAS12 Proof_MAS13 Proof_Pot5 Proof_MAA1 Proof_MAA7.

Definition nd (infos : list info) : Prop := Forall (fun i => NoDup (i_trans i)) infos.
Lemma nd_upd infos k i : nd infos -> NoDup (i_trans i) -> nd (upd infos k i).
Proof. unfold nd. revert k. induction infos as [|x r IH]; intros [|k] H Hi; cbn [upd]; auto; inversion H; subst; constructor; auto. Qed.
Lemma nd_nth infos k i : nd infos -> nth_error infos k = Some i -> NoDup (i_trans i).
Proof. unfold nd. rewrite Forall_forall. intros H E. apply H. eapply nth_error_In; eauto. Qed.
Lemma nd_snoc infos i : nd infos -> NoDup (i_trans i) -> nd (infos ++ [i]).
Proof. intros H Hi. apply Forall_app. split; auto. Qed.
Lemma strictly_nodup l : strictly l -> NoDup l.
Proof. unfold strictly. induction 1 as [|x l _ IH HF]; constructor; auto. rewrite Forall_forall in HF. intros Hx. destruct (HF x Hx) as [_ N]. now apply N. Qed.
Lemma sort_unique_nodup l : NoDup (sort_unique l). Proof. apply strictly_nodup, sort_unique_strict. Qed.

Lemma combine_labels_nd l2l infos l2l' infos' : combine_labels l2l infos = Ok (l2l', infos') -> nd infos -> nd infos'.
Proof.
  intros E H. unfold combine_labels in E. apply (fold_keeps _ (fun st => nd (snd st)) _ _ _ E H).
  intros k1 st st' _ HI E1. unfold combine_from in E1. apply bind_ok in E1 as (a & _ & E1). destruct (is_active a); [|inv E1; auto].
  apply (fold_keeps _ (fun st => nd (snd st)) _ _ _ E1 HI). intros k2 [l is] u' _ HI2 E2. cbn [snd] in HI2. unfold combine_pair in E2. apply bind_ok in E2 as (x & Hx & E2). apply bind_ok in E2 as (y & Hy & E2). destruct (is_active y && _); [|inv E2; auto].
  apply bind_ok in E2 as (m & _ & E2). apply bind_ok in E2 as (i1 & E3 & E2). apply bind_ok in E2 as (i2 & E4 & E2). inv E2. cbn [snd]. apply vget_ok in Hx. apply vset_ok in E3 as [_ ->]. apply vset_ok in E4 as [_ ->]. apply nd_upd; [apply nd_upd; auto; cbn [merge_infos i_trans]; exact (nd_nth _ _ _ HI2 Hx)|constructor].
Qed.

(** Merging *)
Lemma product_nodup n2 tr2 : NoDup tr2 -> (forall x, In x tr2 -> fst x < n2 /\ snd x < n2) -> forall tr1, NoDup tr1 -> NoDup (product_trans n2 tr1 tr2).
Proof.
  intros H2 Hb. unfold product_trans. induction 1 as [|a tr1 Ha H1 IH]; cbn [flat_map]; [constructor|]. apply NoDup_app_disj; auto.
  - clear IH. induction H2 as [|b tr2 Hb2 H2 IH]; cbn [map]; constructor; [|apply IH; intros x Hx; apply Hb; now right].
    intros Hin. apply in_map_iff in Hin as (c & E & Hc). inv E. assert (b = c) by (destruct b, c; cbn [fst snd] in *; f_equal; lia). subst. auto.
  - intros x Hx Hy. apply in_map_iff in Hx as (b & <- & Hb1). apply in_flat_map in Hy as (a' & Ha' & Hy). apply in_map_iff in Hy as (b' & E & Hb'). inv E. destruct (Hb b Hb1) as [B1 B2], (Hb b' Hb') as [B3 B4].
    assert (a' = a); [|subst; auto]. destruct a as [s1 t1], a' as [s2 t2], b as [p1 r1], b' as [p2 r2]. cbn [fst snd] in *.
    assert (s2 = s1) by (apply (f_equal (fun z => z / n2)) in H0; rewrite !Nat.div_add_l, !Nat.div_small in H0 by lia; lia). assert (t2 = t1) by (apply (f_equal (fun z => z / n2)) in H3; rewrite !Nat.div_add_l, !Nat.div_small in H3 by lia; lia). congruence.
Qed.
Lemma merge_ts_nd ord L maxl T1 T2 T : (forall k i s t, nth_error (ts_infos T2) k = Some i -> In (s, t) (i_trans i) -> s < ts_n T2 /\ t < ts_n T2) ->
  merge_ts ord L maxl T1 T2 = Ok T -> nd (ts_infos T1) -> nd (ts_infos T2) -> nd (ts_infos T).
Proof.
  intros Hb E H1 H2. unfold merge_ts in E. apply bind_ok in E as ([[l2l infos] dead] & E1 & E). apply bind_ok in E as (fin & E2 & E). inv E. cbn [ts_infos].
  assert (Hi : nd infos).
  { apply (fold_keeps _ (fun st => nd (snd (fst st))) _ _ _ E1); [constructor|]. intros i1 st st' Hi1 HI E3. unfold merge_group in E3. destruct (is_active i1); [|inv E3; auto]. apply bind_ok in E3 as (bs & _ & E3).
    apply (fold_keeps _ (fun st => nd (snd (fst st))) _ _ _ E3 HI). intros b [[m is] dd] st2 _ HI2 E4. unfold merge_bucket in E4. apply bind_ok in E4 as (i2 & Hi2 & E4). apply vget_ok in Hi2.
    assert (Hp : NoDup (product_trans (ts_n T2) (i_trans i1) (i_trans i2))). { apply product_nodup; [exact (nd_nth _ _ _ H2 Hi2)| |unfold nd in H1; rewrite Forall_forall in H1; auto]. intros [s0 t0] Hin. eapply Hb; eauto. }
    destruct (product_trans _ _ _) as [|tr trs]; [inv E4; auto|]. apply bind_ok in E4 as (c & _ & E4). apply bind_ok in E4 as (m2 & _ & E4). inv E4. cbn [fst snd] in *. apply nd_snoc; auto. cbn [i_trans]. exact (Permutation_NoDup (Permutation_sym (sort_perm trans_le _)) Hp). }
  destruct dead as [|d ds]; [inv E2; auto|]. apply bind_ok in E2 as (c & _ & E2). apply bind_ok in E2 as (m & _ & E2). inv E2. cbn [snd]. apply nd_snoc; auto. constructor.
Qed.

(** Abstraction *)
Lemma abstract_ts_nd T cls m T' : abstract_ts T cls m = Ok T' -> nd (ts_infos T').
Proof.
  unfold abstract_ts. intros E. apply bind_ok in E as (gs & _ & E). apply bind_ok in E as (is & Ei & E). apply bind_ok in E as ([l2l is'] & Ec & E). apply bind_ok in E as (x & _ & E). inv E. cbn [ts_infos].
  apply (combine_labels_nd _ _ _ _ Ec). clear Ec. revert is Ei. induction (ts_infos T) as [|i r IH]; intros is E; cbn [omap] in E; [inv E; constructor|]. apply bind_ok in E as (y & Ey & E). apply bind_ok in E as (ys & Eys & E). inv E. constructor; [|exact (IH _ Eys)].
  unfold abstract_info in Ey. apply bind_ok in Ey as (tr & _ & Ey). inv Ey. apply sort_unique_nodup.
Qed.

(** Label reduction *)
Lemma reduce_ts_nd L mp only T T' : nd (ts_infos T) -> reduce_ts L mp only T = Ok T' -> nd (ts_infos T').
Proof.
  intros H E. unfold reduce_ts in E. apply bind_ok in E as ([l2l infos] & E1 & E). inv E. cbn [ts_infos]. destruct only.
  - apply (fold_keeps _ (fun st => nd (snd st)) _ _ _ E1 H). intros [new olds] [m is] st' _ HI E2. cbn [snd] in HI. unfold reduce_equivalent in E2. destruct olds as [|o olds]; [discriminate|]. apply bind_ok in E2 as (k & _ & E2). destruct k as [k|]; [|discriminate].
    apply bind_ok in E2 as (i & Hi & E2). apply bind_ok in E2 as (is2 & E3 & E2). apply bind_ok in E2 as (m1 & _ & E2). apply bind_ok in E2 as (m2 & _ & E2). inv E2. cbn [snd]. apply vget_ok in Hi. apply vset_ok in E3 as [_ ->]. apply nd_upd; auto. cbn [same_cost_mapping i_trans]. exact (nd_nth _ _ _ HI Hi).
  - apply bind_ok in E1 as ([[l1 is1] rm] & E1 & E2). apply bind_ok in E2 as (is2 & E2 & E3). apply (combine_labels_nd _ _ _ _ E3). clear E3.
    assert (H1 : nd is1).
    { apply (fold_keeps _ (fun st => nd (snd (fst st))) _ _ _ E1 H). intros [new olds] [[m is] rm0] st' _ HI E4. cbn [fst snd] in HI. unfold reduce_combinable in E4. apply bind_ok in E4 as ([[[a b] c] d] & _ & E4). apply bind_ok in E4 as (m2 & _ & E4). apply bind_ok in E4 as (cc & _ & E4). inv E4. cbn [fst snd]. apply nd_snoc; auto. apply sort_unique_nodup. }
    apply (fold_keeps _ nd _ _ _ E2 H1). intros e is is' _ HI E4. unfold remove_from in E4. apply bind_ok in E4 as (i & Hi & E4). apply bind_ok in E4 as (c & _ & E4). apply vget_ok in Hi. apply vset_ok in E4 as [_ ->]. apply nd_upd; auto. cbn [remove_labels i_trans]. exact (nd_nth _ _ _ HI Hi).
Qed.

(** The atomic systems *)
Lemma add_group_nd : forall infos k tr l c infos' k', add_group infos k tr l c = (infos', k') -> NoDup tr -> nd infos -> nd infos'.
Proof.
  induction infos as [|i r IH]; intros k tr l c infos' k' E Ht H; cbn [add_group] in E; [inv E; repeat constructor; auto|]. inversion H; subst. destruct (trans_list_eqb tr (i_trans i)).
  - inv E. constructor; auto.
  - destruct (add_group r (S k) tr l c) as [r' k1] eqn:Er. inv E. constructor; auto. eapply IH; eauto.
Qed.
Lemma filter_by_one {A} (f : A -> nat) v : forall l, NoDup (map f l) -> length (filter (fun x => f x =? v) l) <= 1.
Proof.
  induction l as [|a l IH]; cbn [map filter length]; intros H; [lia|]. inversion H; subst. destruct (Nat.eqb_spec (f a) v) as [E|N]; auto. cbn [length].
  assert (Q : filter (fun x => f x =? v) l = []); [|rewrite Q; cbn [length]; auto]. clear IH H. induction l as [|b l IH]; cbn [filter]; auto. cbn [map In] in *. inversion H3; subst. destruct (Nat.eqb_spec (f b) (f a)); [exfalso; auto|auto].
Qed.
Lemma op_trans_nd dom op v : NoDup (map fst (op_pre op)) -> (forall e, In e (op_effs op) -> eff_cond e = []) -> NoDup (map (fun e => fst (eff_fact e)) (op_effs op)) -> NoDup (op_trans dom op v).
Proof.
  intros Hp Hc He. unfold op_trans. assert (H1 : length (effs_on op v) <= 1) by exact (filter_by_one (fun e => fst (eff_fact e)) v (op_effs op) He). assert (H2 : length (pres_on op v) <= 1) by exact (filter_by_one fst v (op_pre op) Hp).
  assert (Hin : forall e, In e (effs_on op v) -> eff_cond e = []) by (intros e H; apply filter_In in H as [H _]; auto).
  destruct (effs_on op v) as [|e [|e' r]]; cbn [length] in H1; [|clear H2|lia].
  - destruct (pres_on op v) as [|a [|b r]]; cbn [length] in H2; try lia; cbn [map]; repeat constructor. intros [].
  - cbn [flat_map]. rewrite app_nil_r. unfold effect_trans. rewrite (Hin e (or_introl eq_refl)). cbn [fold_left]. rewrite app_nil_r.
    assert (Hr : NoDup (match pre_value op v with None => seq 0 dom | Some x => [x] end)) by (destruct (pre_value op v); [repeat constructor; intros []|apply seq_NoDup]).
    revert Hr. generalize (match pre_value op v with None => seq 0 dom | Some x => [x] end) as r. induction 1 as [|x r Hx Hr IH]; cbn [flat_map app]; constructor; auto.
    intros Hin'. apply in_flat_map in Hin' as (y & Hy & [E|[]]). inv E. auto.
Qed.
Lemma build_ops_nd dom v : forall ops done l2l infos l2l' infos', (forall op, In op ops -> NoDup (map fst (op_pre op)) /\ ((forall e, In e (op_effs op) -> eff_cond e = []) -> NoDup (map (fun e => fst (eff_fact e)) (op_effs op)))) ->
  nd infos -> build_ops dom v done ops l2l infos = Ok (l2l', infos') -> nd infos'.
Proof.
  induction ops as [|op r IH]; intros done l2l infos l2l' infos' Ho H E; cbn [build_ops] in E; [inv E; auto|]. destruct (Model_MAS.relevant op v).
  - destruct (add_group infos 0 _ (length done) (op_cost op)) as [is k] eqn:Ea. apply bind_ok in E as (m & _ & E). eapply IH; [intros op' Hop'; apply Ho; now right| |exact E]. eapply add_group_nd; [exact Ea| |exact H].
    destruct (cond_seen (done ++ [op])) eqn:Ec; [apply sort_unique_nodup|]. destruct (Ho op (or_introl eq_refl)) as [P1 P2].
    assert (Hc : forall e, In e (op_effs op) -> eff_cond e = []). { intros e He. unfold cond_seen in Ec. rewrite existsb_app in Ec. apply orb_false_iff in Ec as [_ Ec]. cbn [existsb] in Ec. rewrite orb_false_r in Ec. destruct (eff_cond e) eqn:Ee; auto. exfalso. assert (X : existsb (fun e => match eff_cond e with [] => false | _ => true end) (op_effs op) = true) by (apply existsb_exists; exists e; rewrite Ee; auto). congruence. }
    apply op_trans_nd; auto.
  - eapply IH; [intros op' Hop'; apply Ho; now right|exact H|exact E].
Qed.
Lemma atomic_ts_nd t v T : mentions_once t -> atomic_ts t v = Ok T -> nd (ts_infos T).
Proof.
  unfold atomic_ts. intros Ho E. apply bind_ok in E as (x & _ & E). apply bind_ok in E as (i & _ & E). apply bind_ok in E as ([l2l infos] & Eb & E). apply build_ops_nd in Eb; auto; [|constructor].
  apply bind_ok in E as ([l2l' infos'] & E1 & E). inv E. cbn [ts_infos]. destruct (irrelevant_labels (t_ops t) v) as [|a irr] eqn:Ei; [inv E1; auto|].
  apply bind_ok in E1 as (c & _ & E1). apply bind_ok in E1 as (m & _ & E1). inv E1. apply nd_snoc; auto. cbn [i_trans]. apply FinFun.Injective_map_NoDup; [intros y z E; now inv E|apply seq_NoDup].
Qed.

Section RUN.
Variable P : pqueue.
Variable bag : PQ P -> list (nat * nat).
Hypothesis HP : pq_contract P bag.
Variable q0 : PQ P.
Hypothesis Hq0 : bag q0 = [].
Variable ord : list (nat * list nat) -> list (nat * list nat).
Hypothesis Hord : forall b, Permutation (ord b) b.
Variable ci cg : bool.
Variable t : task.
Hypothesis Ht : mas_task t.
Hypothesis Hm : mentions_once t.

Definition fts_nd (F : fts) : Prop := forall i f, at_factor F i f -> nd (ts_infos (f_ts f)).
Lemma abstraction_nd F i cls F' : fts_nd F -> apply_abstraction P q0 ci cg F i cls = Ok F' -> fts_nd F'.
Proof.
  intros H E. unfold apply_abstraction in E. apply bind_ok in E as (f & Hf & E). destruct (_ =? _); [inv E; auto|]. apply bind_ok in E as (m & _ & E). apply bind_ok in E as (T & ET & E). apply bind_ok in E as (D & _ & E). apply bind_ok in E as (r & _ & E). inv E.
  apply get_factor_ok in Hf. intros k g Hk. unfold at_factor in Hk. cbn [set_factors F_factors] in *. destruct (Nat.eq_dec k i) as [->|N]; [|rewrite upd_nth_neq in Hk by auto; apply (H k g Hk)].
  rewrite upd_nth_eq in Hk by (eapply nth_error_Some_lt; eauto). inv Hk. cbn [f_ts]. eapply abstract_ts_nd; eauto.
Qed.
Lemma mapping_nd F mp comb F' : fts_nd F -> apply_label_mapping F mp comb = Ok F' -> fts_nd F'.
Proof.
  intros H E. unfold apply_label_mapping in E. apply bind_ok in E as (L & EL & E). apply bind_ok in E as (fs & Ef & E). inv E.
  intros k g Hk. unfold at_factor in Hk. cbn [F_factors] in *. assert (H' : forall i f, nth_error (F_factors F) i = Some (Some f) -> nd (ts_infos (f_ts f))) by exact H. clear H EL. revert H' Ef Hk. generalize (F_factors F) as fs0. generalize 0 as i0. clear. intros i0 fs0. revert i0 fs k.
  induction fs0 as [|[f|] r IH]; intros i0 fs k H E Hk; cbn [reduce_all] in E.
  - inv E. destruct k; discriminate.
  - apply bind_ok in E as (T & ET & E). apply bind_ok in E as (rs & Er & E). inv E. destruct k as [|k]; cbn [nth_error] in Hk.
    + inv Hk. cbn [f_ts]. eapply reduce_ts_nd; eauto. apply (H 0 f eq_refl).
    + eapply IH; eauto. intros j g' Hj. apply (H (S j) g' Hj).
  - apply bind_ok in E as (rs & Er & E). inv E. destruct k as [|k]; cbn [nth_error] in Hk; [discriminate|]. eapply IH; eauto. intros j g' Hj. apply (H (S j) g' Hj).
Qed.
Lemma built_nd e F : built P q0 ord ci cg t e F -> fts_nd F.
Proof.
  induction 1 as [F E|e F i j f g F' HB IH Hne Hf Hg Nf Ng E|e F i f x cls F' HB IH Hf Hx HG HU Hgr E|e F i f x cls F' HB IH Hf Hx HG HA _ E|e F i f pu pi F' HB IH Hf Hi Hpu Hpi E|e F mp comb F' HB IH HG Hloc E].
  - unfold create_fts in E. apply bind_ok in E as (fs & Ef & E). inv E. intros i f Hi. unfold at_factor in Hi. cbn [F_factors] in *. rewrite nth_error_map in Hi. destruct (nth_error fs i) as [f'|] eqn:Ei; [|discriminate]. cbn [option_map] in Hi. inv Hi.
    revert Ef i Ei. generalize (seq 0 (length (t_vars t))) as vs. clear -Hm. intros vs. revert fs. induction vs as [|v r IH]; intros fs E i Hi; cbn [omap] in E; [inv E; destruct i; discriminate|]. apply bind_ok in E as (y & Ey & E). apply bind_ok in E as (ys & Eys & E). inv E. destruct i as [|i]; cbn [nth_error] in Hi; [|eapply IH; eauto].
    inv Hi. unfold atomic_factor in Ey. apply bind_ok in Ey as (x & _ & Ey). apply bind_ok in Ey as (T & ET & Ey). apply bind_ok in Ey as (D & _ & Ey). inv Ey. cbn [f_ts]. eapply atomic_ts_nd; eauto.
  - destruct (built_inv P bag HP q0 Hq0 ord Hord ci cg t Ht e F HB) as [lab HI]. unfold merge_factors in E. rewrite Hf, Hg in E. cbn [bind] in E. apply bind_ok in E as (T & ET & E). apply bind_ok in E as (D & _ & E). inv E. intros k h Hk. unfold at_factor in Hk. cbn [set_factors F_factors] in *. apply merged_nth in Hk. destruct Hk as [(A & B & Hk)|[A ->]]; [exact (IH k h Hk)|].
    apply get_factor_ok in Hf, Hg. cbn [f_ts]. apply (merge_ts_nd ord _ _ _ _ _ (fun k0 i0 s0 t0 => g_trans _ _ _ _ (w_g _ _ _ (fi_wf _ _ _ _ _ _ (in_fac _ _ _ _ _ HI j g Hg))) k0 i0 s0 t0) ET); [exact (IH i f Hf)|exact (IH j g Hg)].
  - eapply abstraction_nd; eauto.
  - eapply abstraction_nd; eauto.
  - unfold prune_step in E. rewrite Hf in E. cbn [bind] in E. apply bind_ok in E as (cls & _ & E). eapply abstraction_nd; eauto.
  - eapply mapping_nd; eauto.
Qed.
End RUN.
