(** h^m: tuples, sorting, partial tuples. *)
From Coq Require Import Sorted.
From Verif Require Import Outcome Spec_Task Spec_Relaxation Spec_HM Model_Task Proof_Task Model_MAS Proof_MAS1 Model_HM.

Definition flt (f g : fact) : Prop := fst f < fst g.
Notation ssorted := (StronglySorted flt).

Lemma fact_eqb_eq (f g : fact) : fact_eqb f g = true <-> f = g.
Proof. destruct f, g. unfold fact_eqb. cbn [fst snd]. rewrite andb_true_iff, !Nat.eqb_eq. split; [intros [-> ->]; auto|now inversion 1]. Qed.
Lemma mem_In f l : mem f l = true <-> In f l.
Proof.
  unfold mem. rewrite existsb_exists. split; [intros (g & Hg & E); apply fact_eqb_eq in E; now subst|].
  intros H. exists f. split; auto. now apply fact_eqb_eq.
Qed.
Lemma mem_not f l : mem f l = false <-> ~ In f l.
Proof. rewrite <- mem_In. destruct (mem f l); split; congruence. Qed.
Lemma tuple_eqb_eq a b : tuple_eqb a b = true <-> a = b.
Proof.
  revert b. induction a as [|f a IH]; intros [|g b]; cbn [tuple_eqb]; try (split; congruence).
  rewrite andb_true_iff, fact_eqb_eq, IH. split; [intros [-> ->]; auto|now inversion 1].
Qed.
Lemma tuple_in a b : tuple_in_tuple a b = true <-> incl a b.
Proof. unfold tuple_in_tuple. rewrite forallb_forall. split; intros H f Hf; apply mem_In; auto. Qed.

(** Sorting *)
Lemma insert_ss x l : ssorted l -> ~ In (fst x) (map fst l) -> ssorted (insert trans_le x l).
Proof.
  induction 1 as [|y r Hr IH Hy]; intros Hn; cbn [insert].
  - constructor; constructor.
  - cbn [map In] in Hn. unfold trans_le at 1. destruct (fst x <? fst y) eqn:E; cbn [orb].
    + apply Nat.ltb_lt in E. constructor; [now constructor|]. constructor; auto. eapply Forall_impl; [|exact Hy]. unfold flt. intros; lia.
    + apply Nat.ltb_ge in E. replace (fst x =? fst y) with false by (symmetry; apply Nat.eqb_neq; intros E'; apply Hn; left; auto). cbn [andb].
      constructor; [apply IH; tauto|]. apply Forall_forall. intros z Hz. change (Model_MAS.insert trans_le x r) with (insert trans_le x r) in Hz.
      assert (Hz' : z = x \/ In z r).
      { clear -Hz. induction r as [|a r IH]; cbn [insert] in Hz; [destruct Hz as [->|[]]; auto|]. destruct (trans_le x a); [destruct Hz as [->|Hz]; auto|]. destruct Hz as [->|Hz]; [right; now left|]. destruct (IH Hz); [auto|right; now right]. }
      destruct Hz' as [->|Hz']; [unfold flt; assert (fst x <> fst y) by (intros E'; apply Hn; left; auto); lia|]. rewrite Forall_forall in Hy. auto.
Qed.
Lemma sort_ss l : NoDup (map fst l) -> ssorted (sort trans_le l).
Proof.
  induction l as [|x l IH]; cbn [map]; intros H; [constructor|]. inversion_clear H. cbn [sort fold_right]. change (fold_right (insert trans_le) [] l) with (sort trans_le l).
  apply insert_ss; auto. intros Hin. apply in_map_iff in Hin as (z & E & Hz). apply sort_In in Hz. apply H0. rewrite <- E. now apply in_map.
Qed.
Lemma insert_nd (x : fact) l : NoDup (map fst (x :: l)) <-> NoDup (map fst (insert trans_le x l)).
Proof.
  assert (P : Permutation.Permutation (x :: l) (insert trans_le x l)).
  { induction l as [|y l IH]; cbn [insert]; auto. destruct (trans_le x y); auto. eapply Permutation.perm_trans; [apply Permutation.perm_swap|]. now apply Permutation.perm_skip. }
  apply (Permutation.Permutation_map fst) in P. split; intros H; [exact (Permutation.Permutation_NoDup P H)|exact (Permutation.Permutation_NoDup (Permutation.Permutation_sym P) H)].
Qed.
Lemma sort_nd (l : list fact) : NoDup (map fst l) <-> NoDup (map fst (sort trans_le l)).
Proof.
  induction l as [|x l IH]; [reflexivity|]. cbn [sort fold_right]. change (fold_right (insert trans_le) [] l) with (sort trans_le l). rewrite <- insert_nd. cbn [map]. rewrite !NoDup_cons_iff, IH.
  assert (forall v, In v (map fst l) <-> In v (map fst (sort trans_le l))) as E by (intros v; rewrite !in_map_iff; split; intros (z & E & Hz); exists z; (split; [exact E|]); [now apply sort_In|now apply sort_In in Hz]).
  rewrite E. tauto.
Qed.

Lemma ss_nd l : ssorted l -> NoDup (map fst l).
Proof.
  induction 1 as [|x l Hl IH Hx]; cbn [map]; constructor; auto. intros Hin. apply in_map_iff in Hin as (z & E & Hz). rewrite Forall_forall in Hx. apply Hx in Hz. unfold flt in Hz. lia.
Qed.
Lemma ss_consistent l : ssorted l -> consistent l.
Proof.
  intros H. apply ss_nd in H. induction l as [|x l IH]; intros f g Hf Hg E; [destruct Hf|]. cbn [map] in H. inversion_clear H.
  destruct Hf as [<-|Hf], Hg as [<-|Hg]; auto.
  - exfalso. apply H0. rewrite E. now apply in_map.
  - exfalso. apply H0. rewrite <- E. now apply in_map.
  - apply IH; auto.
Qed.
Lemma ss_same a b : ssorted a -> ssorted b -> (forall f, In f a <-> In f b) -> a = b.
Proof.
  intros Ha. revert b. induction Ha as [|x a Ha IH Hx]; intros b Hb E.
  - destruct b as [|y b]; auto. destruct (proj2 (E y)); now left.
  - destruct Hb as [|y b Hb Hy]; [destruct (proj1 (E x)); now left|]. rewrite Forall_forall in Hx, Hy.
    assert (x = y).
    { destruct (proj1 (E x)) as [|H1]; [now left|auto|]. destruct (proj2 (E y)) as [|H2]; [now left|auto|].
      apply Hy in H1. apply Hx in H2. unfold flt in *. lia. }
    subst y. f_equal. apply IH; auto. intros f. specialize (E f). cbn [In] in E. split; intros Hf.
    + destruct (proj1 E (or_intror Hf)); auto. subst f. apply Hx in Hf. unfold flt in Hf. lia.
    + destruct (proj2 E (or_intror Hf)); auto. subst f. apply Hy in Hf. unfold flt in Hf. lia.
Qed.
Lemma ss_filter p l : ssorted l -> ssorted (filter p l).
Proof.
  induction 1 as [|x l Hl IH Hx]; cbn [filter]; [constructor|]. destruct (p x); auto. constructor; auto. rewrite Forall_forall in *. intros z Hz. apply filter_In in Hz. now apply Hx.
Qed.

(** Subsequences and partial tuples *)
Inductive subseq : list fact -> list fact -> Prop :=
| sub_nil : subseq [] []
| sub_take : forall f a b, subseq a b -> subseq (f :: a) (f :: b)
| sub_skip : forall f a b, subseq a b -> subseq a (f :: b).
Lemma subseq_nil l : subseq [] l.
Proof. induction l; constructor; auto. Qed.
Lemma subseq_incl a l : subseq a l -> incl a l.
Proof. induction 1; intros z Hz; auto; [destruct Hz as [<-|Hz]; [now left|right; auto]|right; auto]. Qed.
Lemma subseq_ss a l : subseq a l -> ssorted l -> ssorted a.
Proof.
  induction 1 as [|f a b H IH|f a b H IH]; intros Hl; auto; inversion_clear Hl; auto. constructor; auto.
  rewrite Forall_forall in *. intros z Hz. apply H1. eapply subseq_incl; eauto.
Qed.
Lemma subseq_filter p l : subseq (filter p l) l.
Proof. induction l as [|x l IH]; cbn [filter]; [constructor|]. destruct (p x); now constructor. Qed.

Lemma partial_In l : forall tup sz x, 1 <= sz ->
  (In x (partial_aux l tup sz) <-> exists y, x = tup ++ y /\ subseq y l /\ y <> [] /\ length y <= sz).
Proof.
  induction l as [|f r IH]; intros tup sz x Hs; cbn [partial_aux].
  - split; [intros []|]. intros (y & -> & Hy & Hn & _). inversion Hy; subst. now destruct Hn.
  - cbn [In]. rewrite in_app_iff, (IH tup sz) by auto. split.
    + intros [<-|[Hx|(y & -> & Hy & Hn & Hl)]].
      * exists [f]. splits; auto; [constructor; apply subseq_nil|discriminate].
      * destruct (sz =? 1) eqn:E; [destruct Hx|]. apply Nat.eqb_neq in E. apply IH in Hx; [|lia]. destruct Hx as (y & -> & Hy & Hn & Hl).
        exists (f :: y). rewrite <- app_assoc. splits; auto; [now constructor|discriminate|cbn [length]; lia].
      * exists y. splits; auto. now constructor.
    + intros (y & -> & Hy & Hn & Hl). inversion Hy as [|g a b Hab|g a b Hab]; subst.
      * destruct a as [|g a]; [now left|]. right; left. cbn [length] in Hl. replace (sz =? 1) with false by (symmetry; apply Nat.eqb_neq; lia).
        apply IH; [lia|]. exists (g :: a). rewrite <- app_assoc. splits; auto; [discriminate|cbn [length]; lia].
      * right; right. exists y. splits; auto.
Qed.
Lemma partial_tuples_In m l x : 1 <= m -> (In x (partial_tuples m l) <-> subseq x l /\ x <> [] /\ length x <= m).
Proof.
  intros Hm. unfold partial_tuples. rewrite partial_In by auto. cbn [app]. split; [intros (y & -> & H); tauto|]. intros H. exists x. tauto.
Qed.

(** The keys of the table *)
Definition key (t : task) (m : nat) (x : tuple) : Prop :=
  ssorted x /\ Forall (fact_ok t) x /\ x <> [] /\ length x <= m.
Lemma all_tuples_aux_In vars : forall i sz base x, 1 <= sz ->
  (In x (all_tuples_aux vars i sz base) <->
   exists y, x = base ++ y /\ y <> [] /\ length y <= sz /\ ssorted y /\
     Forall (fun f => i <= fst f /\ exists v, nth_error vars (fst f - i) = Some v /\ snd f < vdom v) y).
Proof.
  induction vars as [|v r IH]; intros i sz base x Hs; cbn [all_tuples_aux].
  - split; [intros []|]. intros (y & -> & Hn & _ & _ & Hy). destruct y as [|f y]; [now destruct Hn|]. inversion_clear Hy. destruct H as (_ & w & E & _). destruct (fst f - i); discriminate.
  - rewrite in_app_iff, (IH (S i) sz base) by auto. rewrite in_flat_map. split.
    + intros [(j & Hj & Hx)|(y & -> & Hn & Hl & Hss & Hy)].
      * apply in_seq in Hj. cbv zeta in Hx. destruct Hx as [<-|Hx].
        -- exists [(i, j)]. splits; auto; [discriminate|repeat constructor|]. repeat constructor; cbn [fst]; auto. exists v. rewrite Nat.sub_diag. cbn [snd nth_error]. split; auto. lia.
        -- destruct (1 <? sz) eqn:E; [|destruct Hx]. apply Nat.ltb_lt in E. apply IH in Hx; [|lia]. destruct Hx as (y & -> & Hn & Hl & Hss & Hy).
           exists ((i, j) :: y). rewrite <- app_assoc. splits; auto; [discriminate|cbn [length]; lia| |].
           ++ constructor; auto. eapply Forall_impl; [|exact Hy]. intros f [Hf _]. unfold flt. cbn [fst]. lia.
           ++ constructor; [cbn [fst snd]; split; auto; exists v; rewrite Nat.sub_diag; cbn [nth_error]; split; auto; lia|].
              eapply Forall_impl; [|exact Hy]. intros f (Hf & w & Hw & Hd). split; [lia|]. exists w. split; auto. replace (fst f - i) with (S (fst f - S i)) by lia. auto.
      * exists y. splits; auto. eapply Forall_impl; [|exact Hy]. intros f (Hf & w & Hw & Hd). split; [lia|]. exists w. split; auto. replace (fst f - i) with (S (fst f - S i)) by lia. auto.
    + intros (y & -> & Hn & Hl & Hss & Hy). destruct y as [|[a j] y]; [now destruct Hn|]. inversion Hss as [|? ? Hss' Hlt]; subst. inversion Hy as [|? ? (Ha & w & Hw & Hd) Hy']; subst. cbn [fst snd] in *.
      destruct (Nat.eq_dec a i) as [->|Hai].
      * left. exists j. rewrite Nat.sub_diag in Hw. cbn [nth_error] in Hw. inversion Hw; subst w. split; [apply in_seq; lia|]. cbv zeta. destruct y as [|g y]; [now left|].
        right. cbn [length] in Hl. replace (1 <? sz) with true by (symmetry; apply Nat.ltb_lt; lia). apply IH; [lia|]. exists (g :: y). rewrite <- app_assoc. splits; auto; [discriminate|cbn [length]; lia|].
        rewrite Forall_forall in *. intros f Hf. specialize (Hlt f Hf). unfold flt in Hlt. cbn [fst] in Hlt. destruct (Hy' f Hf) as (Hf1 & w & Hw' & Hd'). split; [lia|]. exists w. split; auto. replace (fst f - i) with (S (fst f - S i)) in Hw' by lia. auto.
      * right. exists ((a, j) :: y). splits; auto. constructor.
        -- cbn [fst snd]. split; [lia|]. exists w. split; auto. replace (a - i) with (S (a - S i)) in Hw by lia. auto.
        -- rewrite Forall_forall in *. intros f Hf. specialize (Hlt f Hf). unfold flt in Hlt. cbn [fst] in Hlt. destruct (Hy' f Hf) as (Hf1 & w' & Hw' & Hd'). split; [lia|]. exists w'. split; auto. replace (fst f - i) with (S (fst f - S i)) in Hw' by lia. auto.
Qed.
Lemma all_tuples_In t m x : 1 <= m -> (In x (all_tuples t m) <-> key t m x).
Proof.
  intros Hm. unfold all_tuples. rewrite all_tuples_aux_In by auto. cbn [app]. unfold key. split.
  - intros (y & -> & Hn & Hl & Hss & Hy). splits; auto. eapply Forall_impl; [|exact Hy]. intros f (_ & w & Hw & Hd). rewrite Nat.sub_0_r in Hw. exists w. auto.
  - intros (Hss & Hy & Hn & Hl). exists x. splits; auto. eapply Forall_impl; [|exact Hy]. intros f (w & Hw & Hd). split; [lia|]. exists w. rewrite Nat.sub_0_r. auto.
Qed.
Lemma partial_key t m l x : 1 <= m -> ssorted l -> Forall (fact_ok t) l -> In x (partial_tuples m l) -> key t m x /\ incl x l.
Proof.
  intros Hm Hss Hok Hx. apply partial_tuples_In in Hx as (Hsub & Hn & Hl); auto. pose proof (subseq_incl _ _ Hsub) as Hi. split; auto.
  split; [eapply subseq_ss; eauto|]. splits; auto. rewrite Forall_forall in *. auto.
Qed.
