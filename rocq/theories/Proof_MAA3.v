(** Exact label reduction: one application of a mapping. *)
From Coq Require Import Permutation.
From Verif Require Import Outcome Spec_Task Spec_Relaxation Spec_Projection Spec_Partition Model_PQ Model_Graph Model_Equivalence Proof_Equivalence Model_MAS Spec_FTS Model_MASRun Model_MASAlgorithm Spec_LabelReduction.
From Verif Require Import Proof_MAS1 Proof_MAS2 Proof_MAS4 Proof_MAS5 Proof_MAS11 Proof_MAS12 Proof_MAS13 Proof_Pot5 Proof_OC1 Proof_MAA1 Proof_MAA2.

Lemma same_shape_refl F : same_shape F F.
Proof. split; auto. intros i. destruct (nth_error (F_factors F) i) as [[f|]|]; auto. Qed.
Lemma same_shape_trans F F' F'' : same_shape F F' -> same_shape F' F'' -> same_shape F F''.
Proof.
  intros [A B] [A' B']. split; [congruence|]. intros i. specialize (B i). specialize (B' i).
  destruct (nth_error (F_factors F) i) as [[f|]|], (nth_error (F_factors F') i) as [[f'|]|], (nth_error (F_factors F'') i) as [[f''|]|]; auto; try contradiction.
  destruct B as (B1 & B2 & B3 & B4 & B5), B' as (C1 & C2 & C3 & C4 & C5). splits; congruence.
Qed.
Lemma same_product_refl F : same_product F F.
Proof. intros x y c. tauto. Qed.
Lemma same_product_trans F F' F'' : same_product F F' -> same_product F' F'' -> same_product F F''.
Proof. intros A B x y c. etransitivity; [apply A|apply B]. Qed.

Lemma active_labels_In L l : In l (active_labels L) <-> exists c, active L l c.
Proof. exact (acts_In L l). Qed.

Section ONE.
Variable maxl : nat.
Definition wf_fts (F : fts) : Prop := forall i f, at_factor F i f -> twf (F_labels F) maxl (f_ts f).

Lemma combinable_rel F ts : wf_fts F -> fts_labels F ->
  exists rel, compute_combinable_equivalence_relation ts F = Ok rel /\ is_partition (active_labels (F_labels F)) (partition_of rel) /\
    forall a b c d, active (F_labels F) a c -> active (F_labels F) b d -> (same_block (partition_of rel) a b <-> combinable F ts a b).
Proof.
  intros W HL. unfold compute_combinable_equivalence_relation.
  destruct (refine_nil (active_labels (F_labels F)) (NoDup_filter _ (seq_NoDup _ _)) (other_groups ts 0 (F_factors F))) as (rel & E & HP & HS).
  - intros X HX. apply other_groups_In in HX as (k & f & i & Hf & _ & Hi & _ & ->). specialize (W k f Hf). split.
    + apply (NoDup_concat_in (map i_labels (ts_infos (f_ts f)))); [exact (proj1 (HL k f Hf))|]. now apply in_map.
    + intros l Hl. apply active_labels_In. apply In_nth_error in Hi as [p Hp]. exact (proj2 (g_group _ _ _ _ (w_g _ _ _ W) p i l Hp Hl)).
  - exists rel. splits; auto. intros a b c d Ha Hb. rewrite HS by (apply active_labels_In; eauto). split.
    + intros HI k f Hk Hf. apply get_factor_ok in Hf. pose proof (w_g _ _ _ (W k f Hf)) as G. destruct (g_label _ _ _ _ G a c Ha) as (p & i & Hp & Hi & Hin). exists p. intros l [<-|[<-|[]]]; auto.
      assert (Hb' : In b (i_labels i)). { apply (HI (i_labels i)); auto. apply other_groups_In. exists k, f, i. splits; auto; try (eapply nth_error_In; eauto; fail); apply Proof_MAS1.active_In; eauto. }
      exact (proj1 (g_group _ _ _ _ G p i b Hi Hb')).
    + intros HC X HX. apply other_groups_In in HX as (k & f & i & Hf & Hk & Hi & _ & ->). pose proof (w_g _ _ _ (W k f Hf)) as G. destruct (HC k f) as [p Hp]; [lia|now apply get_factor_ok|].
      pose proof (Hp a (or_introl eq_refl)) as Pa. pose proof (Hp b (or_intror (or_introl eq_refl))) as Pb. apply In_nth_error in Hi as [q Hq].
      split; intros Hin.
      * destruct (g_group _ _ _ _ G q i a Hq Hin) as [Eq _]. destruct (g_label _ _ _ _ G b d Hb) as (p' & i' & Hp' & Hi' & Hin'). assert (p' = q) by congruence. subst p'. congruence.
      * destruct (g_group _ _ _ _ G q i b Hq Hin) as [Eq _]. destruct (g_label _ _ _ _ G a c Ha) as (p' & i' & Hp' & Hi' & Hin'). assert (p' = q) by congruence. subst p'. congruence.
Qed.

Lemma active_fun L a c d : active L a c -> active L a d -> c = d.
Proof. unfold active. congruence. Qed.

Lemma label_mapping_ok ord F ts : (forall b, Permutation (ord b) b) -> wf_fts F -> fts_labels F ->
  exists gs, label_mapping_for ord ts F = Ok (numbered (length (F_labels F)) gs) /\ label_groups (F_labels F) (numbered (length (F_labels F)) gs) /\
    (forall i f en, i <> ts -> get_factor F i = Ok f -> In en (numbered (length (F_labels F)) gs) -> one_local_group (f_ts f) (snd en)) /\
    (forall a b c, active (F_labels F) a c -> active (F_labels F) b c -> a <> b -> combinable F ts a b -> exists g, In g gs /\ In a g /\ In b g).
Proof.
  intros Hord W HL. unfold label_mapping_for. destruct (combinable_rel F ts W HL) as (rel & -> & (P1 & P2 & P3) & HS). cbn [bind].
  destruct (compute_label_mapping_ok ord Hord (F_labels F) rel P1) as (gs & -> & M1 & M2 & M3 & M4).
  { intros l Hl. apply P2 in Hl. now apply active_labels_In. }
  exists gs. split; auto.
  assert (Hin : forall e, In e (numbered (length (F_labels F)) gs) -> In (snd e) gs) by (intros e He; rewrite <- (numbered_snd (length (F_labels F)) gs); now apply in_map).
  splits.
  - unfold label_groups. splits.
    + intros j e He. exact (proj1 (numbered_nth _ _ _ _ He)).
    + now rewrite numbered_snd.
    + intros e He. destruct (M3 _ (Hin e He)) as (A & c & B & _ & C). split; auto. exists c. intros l Hl. now apply C.
  - intros i f en Hi Hf Hen. destruct (M3 _ (Hin en Hen)) as (A & c & B & HB & C). destruct (snd en) as [|a r] eqn:Es; [cbn [length] in A; lia|].
    assert (Hc : forall l, In l (a :: r) -> one_local_group (f_ts f) [a; l]).
    { intros l Hl. destruct (C a (or_introl eq_refl)) as [C1 C2]. destruct (C l Hl) as [C3 C4]. apply (proj1 (HS a l c c C2 C4)) with (k := i); auto. exists B. auto. }
    destruct (Hc a (or_introl eq_refl)) as [k Hk]. exists k. intros l Hl. destruct (Hc l Hl) as [k' Hk']. rewrite (Hk' l (or_intror (or_introl eq_refl))). rewrite <- (Hk' a (or_introl eq_refl)). apply Hk. now left.
  - intros a b c Ha Hb Hab HC. destruct (proj2 (HS a b c c Ha Hb) HC) as (B & HB & Hia & Hib). exact (M4 B a b c HB Hia Hib Hab Ha Hb).
Qed.
End ONE.

(** ** The shape after a mapping *)
Lemma reduce_ts_shape L mp oe T T' : reduce_ts L mp oe T = Ok T' -> ts_n T' = ts_n T /\ ts_goals T' = ts_goals T /\ ts_init T' = ts_init T.
Proof. unfold reduce_ts. intros E. apply bind_ok in E as ([l i] & _ & E). inv E. auto. Qed.
Lemma reduce_all_nth L mp comb : forall fs i0 fs', reduce_all L mp comb i0 fs = Ok fs' -> length fs' = length fs /\
  forall k, match nth_error fs k with
            | Some (Some f) => exists T, reduce_ts L mp (negb (i0 + k =? comb)) (f_ts f) = Ok T /\ nth_error fs' k = Some (Some {| f_ts := T; f_rep := f_rep f; f_dist := f_dist f |})
            | Some None => nth_error fs' k = Some None
            | None => nth_error fs' k = None
            end.
Proof.
  induction fs as [|[f|] r IH]; intros i0 fs' E; cbn [reduce_all] in E.
  - inv E. split; auto. intros [|k]; reflexivity.
  - apply bind_ok in E as (T & ET & E). apply bind_ok in E as (r' & Er & E). inv E. destruct (IH _ _ Er) as [A B]. split; [cbn [length]; lia|]. intros [|k]; cbn [nth_error].
    + rewrite Nat.add_0_r. exists T. auto.
    + specialize (B k). now rewrite <- plus_n_Sm.
  - apply bind_ok in E as (r' & Er & E). inv E. destruct (IH _ _ Er) as [A B]. split; [cbn [length]; lia|]. intros [|k]; cbn [nth_error]; auto. specialize (B k). now rewrite <- plus_n_Sm.
Qed.
Lemma mapping_shape F mp comb F' : apply_label_mapping F mp comb = Ok F' -> same_shape F F'.
Proof.
  unfold apply_label_mapping. intros E. apply bind_ok in E as (L & _ & E). apply bind_ok in E as (fs & Ef & E). inv E. destruct (reduce_all_nth _ _ _ _ _ _ Ef) as [A B]. split; auto. cbn [F_factors]. intros i. specialize (B i). destruct (nth_error (F_factors F) i) as [[f|]|]; [|rewrite B; auto..].
  destruct B as (T & ET & ->). cbn [f_ts f_rep f_dist]. destruct (reduce_ts_shape _ _ _ _ _ ET) as (X & Y & Z). splits; auto.
Qed.

(** ** Local labels after a mapping *)
Lemma set_local_nth k : forall ls m m', set_local m ls k = Ok m' -> forall l, ~ In l ls -> nth_error m' l = nth_error m l.
Proof.
  unfold set_local. induction ls as [|x r IH]; intros m m' E l Hl; cbn [fold_outcome] in E; [inv E; auto|]. apply bind_ok in E as (m1 & E1 & E). apply vset_ok in E1 as [_ ->]. rewrite (IH _ _ E l) by (intros H; apply Hl; now right). apply upd_nth_neq. intros ->. apply Hl. now left.
Qed.
Lemma reduce_equiv_l2l : forall mp l2l infos l2l' infos', fold_outcome reduce_equivalent mp (l2l, infos) = Ok (l2l', infos') ->
  NoDup (map fst mp) -> (forall e e', In e mp -> In e' mp -> ~ In (fst e) (snd e')) -> NoDup (concat (map snd mp)) ->
  (forall l, ~ In l (map fst mp) -> ~ In l (concat (map snd mp)) -> nth_error l2l' l = nth_error l2l l) /\
  (forall e, In e mp -> exists first rest k, snd e = first :: rest /\ nth_error l2l first = Some (Some k) /\ nth_error l2l' (fst e) = Some (Some k)).
Proof.
  induction mp as [|[new olds] r IH]; intros l2l infos l2l' infos' E Hn Hd Hc; cbn [fold_outcome] in E; [inv E; split; [auto|intros e []]|].
  apply bind_ok in E as ([l1 i1] & E1 & E). cbn [map fst snd concat] in *. inversion Hn; subst.
  assert (Hc' : NoDup (concat (map snd r))) by (clear -Hc; induction olds as [|y x IH]; cbn [app] in Hc; auto; inversion Hc; auto).
  destruct (IH _ _ _ _ E H2 (fun e e' He He' => Hd e e' (or_intror He) (or_intror He')) Hc') as [A B]. clear IH.
  unfold reduce_equivalent in E1. destruct olds as [|first rest] eqn:Eo; [discriminate|]. apply bind_ok in E1 as (k & Ek & E1). destruct k as [k|]; [|discriminate]. apply bind_ok in E1 as (i & _ & E1). apply bind_ok in E1 as (is & _ & E1). apply bind_ok in E1 as (m1 & Em & E1). apply bind_ok in E1 as (m2 & Es & E1). inv E1.
  apply vget_ok in Ek. apply vset_ok in Em as [Hnl ->].
  assert (K : forall l, l <> new -> ~ In l (first :: rest) -> nth_error l1 l = nth_error l2l l) by (intros l N1 N2; rewrite (set_local_nth _ _ _ _ Es l N2); apply upd_nth_neq; congruence).
  split.
  - intros l N1 N2. rewrite A; [|intros ?; apply N1; now right|intros ?; apply N2; apply in_app_iff; auto]. apply K; [intros ->; apply N1; now left|]. intros ?. apply N2, in_app_iff. auto.
  - intros e [<-|He]; cbn [fst snd].
    + exists first, rest, k. splits; auto. rewrite A; auto.
      * rewrite (set_local_nth _ _ _ _ Es new); [now apply upd_nth_eq|]. apply (Hd (new, first :: rest) (new, first :: rest)); now left.
      * intros Hin. apply in_concat in Hin as (ls & Hls & Hin). apply in_map_iff in Hls as (e' & <- & He'). apply (Hd (new, first :: rest) e'); auto. now left. now right.
    + destruct (B e He) as (f' & r' & k' & E1 & E2 & E3). exists f', r', k'. splits; auto. rewrite <- E2. symmetry. apply K.
      * intros ->. apply (Hd (new, first :: rest) e); [now left|now right|]. rewrite E1. now left.
      * intros Hin. assert (H' : In f' (concat (map snd r))) by (apply in_concat; exists (snd e); split; [now apply in_map|rewrite E1; now left]). clear -Hc Hin H'. induction (first :: rest) as [|y z IH]; [destruct Hin|]. cbn [app] in Hc. inversion Hc; subst. destruct Hin as [->|Hin]; [apply H1, in_app_iff; auto|auto].
Qed.

Lemma groups_fresh L mp : label_groups L mp -> NoDup (map fst mp) /\ (forall e e', In e mp -> In e' mp -> ~ In (fst e) (snd e')) /\ forall e, In e mp -> length L <= fst e.
Proof.
  intros (A & B & C).
  assert (F : forall e, In e mp -> length L <= fst e) by (intros e He; apply In_nth_error in He as [j Hj]; rewrite (A j e Hj); lia). splits; auto.
  - clear -A. revert A. generalize (length L). induction mp as [|e r IH]; intros n A; [constructor|]. cbn [map]. constructor.
    + intros Hin. apply in_map_iff in Hin as (e' & Ee & He'). apply In_nth_error in He' as [j Hj]. pose proof (A (S j) e' Hj). pose proof (A 0 e eq_refl). lia.
    + apply (IH (S n)). intros j e' Hj. rewrite (A (S j) e' Hj). lia.
  - intros e e' He He' Hin. destruct (C e' He') as [_ [c Hc]]. specialize (Hc _ Hin). apply active_lt in Hc. specialize (F e He). lia.
Qed.

(** ** Fewer labels *)
Lemma groups_fewer L mp L' : label_groups L mp -> costs_at L mp L' -> length (active_labels L') + length mp <= length (active_labels L).
Proof.
  intros H [Hl HR]. change active_labels with acts. pose proof H as (A & B & C). pose proof (concat_length_2 mp (fun e He => proj1 (C e He))) as H2.
  set (keep := filter (fun l => negb (member l (concat (map snd mp)))) (acts L)).
  assert (K1 : length keep + length (concat (map snd mp)) <= length (acts L)).
  { rewrite <- app_length. apply NoDup_incl_length.
    - apply NoDup_app_disj; auto; [apply NoDup_filter, NoDup_filter, seq_NoDup|]. intros l Hin. apply filter_In in Hin as [_ Hin]. now apply member_not, negb_true_iff.
    - intros l Hin. apply in_app_or in Hin as [Hin|Hin]; [apply filter_In in Hin; tauto|]. apply acts_In. eapply groups_old; eauto. now apply old_concat. }
  assert (K2 : length (acts L') <= length keep + length mp).
  { rewrite <- (map_length fst mp), <- app_length. apply NoDup_incl_length; [apply NoDup_filter, seq_NoDup|]. intros l Hin. apply acts_In in Hin as [c Hin]. apply in_or_app. apply HR in Hin as [[X Y]|(olds & X & _)].
    - left. apply filter_In. split; [apply acts_In; eauto|]. apply negb_true_iff, member_not. now rewrite <- old_concat.
    - right. apply in_map_iff. exists (l, olds). auto. }
  lia.
Qed.

(** ** Nothing is left to combine for the same system *)
Lemma entry_unique (mp : label_mapping) (l : nat) e e' : NoDup (concat (map snd mp)) -> In e mp -> In e' mp -> In l (snd e) -> In l (snd e') -> e = e'.
Proof.
  induction mp as [|x r IH]; cbn [map concat]; [intros _ []|]. intros Hn He He' Hl Hl'.
  assert (D : forall y, In y r -> In l (snd y) -> In l (snd x) -> False).
  { intros y Hy Hly Hx. assert (H' : In l (concat (map snd r))) by (apply in_concat; exists (snd y); split; auto; now apply in_map). clear -Hn Hx H'. induction (snd x) as [|a z IH]; [destruct Hx|]. cbn [app] in Hn. inversion Hn; subst. destruct Hx as [->|Hx]; [apply H1, in_app_iff; auto|auto]. }
  destruct He as [<-|He], He' as [<-|He']; auto; [destruct (D e'); auto|destruct (D e); auto|].
  apply IH; auto. clear -Hn. induction (snd x) as [|y z IH]; cbn [app] in Hn; auto. inversion Hn; auto.
Qed.
Lemma mapping_irreducible F ts mp F' : label_groups (F_labels F) mp ->
  (forall i f en, i <> ts -> get_factor F i = Ok f -> In en mp -> one_local_group (f_ts f) (snd en)) ->
  (forall a b c, active (F_labels F) a c -> active (F_labels F) b c -> a <> b -> combinable F ts a b -> exists e, In e mp /\ In a (snd e) /\ In b (snd e)) ->
  apply_label_mapping F mp ts = Ok F' -> costs_at (F_labels F) mp (F_labels F') -> irreducible F' ts.
Proof.
  intros HG Hloc Hcomp E [HL HR] f0 _ a b c Ha Hb HC. destruct (groups_fresh _ _ HG) as (G1 & G2 & G3). pose proof HG as (_ & GN & GC).
  (* a label of the old system that behaves like the given one *)
  assert (Hpre : forall a, active (F_labels F') a c -> exists p, active (F_labels F) p c /\ (p = a /\ ~ old_labels mp a \/ exists e, In e mp /\ fst e = a /\ In p (snd e)) /\
    forall k f f', k <> ts -> get_factor F k = Ok f -> get_factor F' k = Ok f' -> nth_error (ts_l2l (f_ts f')) a = nth_error (ts_l2l (f_ts f)) p).
  { intros l Hl. unfold apply_label_mapping in E. apply bind_ok in E as (L' & _ & E). apply bind_ok in E as (fs & Ef & E). inv E. destruct (reduce_all_nth _ _ _ _ _ _ Ef) as [_ Hnth]. cbn [F_factors F_labels] in *.
    assert (HT : forall k f f', k <> ts -> get_factor F k = Ok f -> get_factor {| F_labels := L'; F_max := F_max F; F_factors := fs |} k = Ok f' ->
      (forall x, ~ In x (map fst mp) -> ~ In x (concat (map snd mp)) -> nth_error (ts_l2l (f_ts f')) x = nth_error (ts_l2l (f_ts f)) x) /\
      (forall e, In e mp -> exists first rest k, snd e = first :: rest /\ nth_error (ts_l2l (f_ts f)) first = Some (Some k) /\ nth_error (ts_l2l (f_ts f')) (fst e) = Some (Some k))).
    { intros k f f' Hk Hf Hf'. apply get_factor_ok in Hf, Hf'. cbn [F_factors] in Hf'. specialize (Hnth k). rewrite Hf in Hnth. destruct Hnth as (T & ET & EN). rewrite Hf' in EN. inversion EN; subst f'. cbn [f_ts].
      cbn [Nat.add] in ET. rewrite (proj2 (Nat.eqb_neq k ts) Hk) in ET. cbn [negb] in ET. unfold reduce_ts in ET. apply bind_ok in ET as ([l2l is] & EF & ET). inv ET. cbn [ts_l2l]. exact (reduce_equiv_l2l _ _ _ _ _ EF G1 G2 GN). }
    apply HR in Hl as [[X Y]|(olds & X & Y)].
    - exists l. splits; auto. intros k f f' Hk Hf Hf'. apply (proj1 (HT k f f' Hk Hf Hf')); [|now rewrite <- old_concat]. intros Hin. apply in_map_iff in Hin as (e & <- & He). apply G3 in He. apply active_lt in X. lia.
    - destruct Y as [(p & Hp & Hpc) _]. exists p. splits; auto; [right; exists (l, olds); auto|]. intros k f f' Hk Hf Hf'. destruct (proj2 (HT k f f' Hk Hf Hf') _ X) as (first & rest & kk & E1 & E2 & E3). cbn [fst snd] in *. rewrite E3, <- E2. destruct (Hloc k f _ Hk Hf X) as [k' Hk']. cbn [snd] in Hk'. rewrite (Hk' p Hp). apply Hk'. rewrite E1. now left. }
  destruct (Hpre a Ha) as (p & Pa & Pc & Pl). destruct (Hpre b Hb) as (q & Qa & Qc & Ql).
  assert (Hpq : combinable F ts p q).
  { intros k f Hk Hf. apply get_factor_ok in Hf. destruct (mapping_fw F F' mp ts k f E Hf) as [f' Hf']. apply get_factor_ok in Hf. apply get_factor_ok in Hf'. destruct (HC k f' Hk Hf') as [kk Hkk]. exists kk. intros l [<-|[<-|[]]].
    - rewrite <- (Pl k f f' Hk Hf Hf'). apply Hkk. now left.
    - rewrite <- (Ql k f f' Hk Hf Hf'). apply Hkk. right. now left. }
  destruct (Nat.eq_dec p q) as [Epq|Npq].
  - subst q. destruct Pc as [[Ep Pn]|(e & He & Ee & Hin)], Qc as [[Eq Qn]|(e' & He' & Ee' & Hin')].
    + congruence.
    + subst a. exfalso. apply Pn. exists e'. auto.
    + subst b. exfalso. apply Qn. exists e. auto.
    + rewrite <- Ee, <- Ee'. f_equal. eapply entry_unique; eauto.
  - destruct (Hcomp p q c Pa Qa Npq Hpq) as (e & He & Hp & Hq). destruct Pc as [[Ep Pn]|(e1 & He1 & Ee1 & Hin1)]; [subst a; exfalso; apply Pn; exists e; auto|]. destruct Qc as [[Eq Qn]|(e2 & He2 & Ee2 & Hin2)]; [subst b; exfalso; apply Qn; exists e; auto|].
    rewrite <- Ee1, <- Ee2. f_equal. rewrite (entry_unique mp p e1 e GN He1 He Hin1 Hp). symmetry. eapply entry_unique; eauto.
Qed.
