(** Exact label reduction: the three methods. *)
From Coq Require Import Permutation.
From Verif Require Import Outcome Spec_Task Spec_Relaxation Spec_Projection Spec_Partition Model_PQ Model_Graph Model_Equivalence Model_MAS Spec_FTS Model_MASRun Model_MASAlgorithm Spec_LabelReduction.
From Verif Require Import Proof_MAS1 Proof_MAS2 Proof_MAS4 Proof_MAS5 Proof_MAS11 Proof_MAS12 Proof_MAS13 Proof_Pot5 Proof_OC1 Proof_MAA1 Proof_MAA2 Proof_MAA3 Prop_PDB Prop_MAS.

(** ** Going around the systems *)
Definition rot (order : list nat) (s : nat) : list nat := skipn s order ++ firstn s order.
Definition next_pos (order : list nat) (s : nat) : nat := if S s =? length order then 0 else S s.
Lemma rot_next order s y : nth_error order s = Some y -> exists r, rot order s = y :: r /\ rot order (next_pos order s) = r ++ [y].
Proof.
  intros H. pose proof (nth_error_Some_lt _ _ _ H) as Hlt.
  assert (A : skipn s order = y :: skipn (S s) order).
  { clear Hlt. revert s H. induction order as [|x r IH]; intros [|s] H; cbn [nth_error] in H; try discriminate; [inv H; reflexivity|]. cbn [skipn]. rewrite (IH s H). reflexivity. }
  assert (B : firstn (S s) order = firstn s order ++ [y]).
  { clear Hlt A. revert s H. induction order as [|x r IH]; intros [|s] H; cbn [nth_error] in H; try discriminate; [inv H; reflexivity|]. cbn [firstn app]. f_equal. now apply IH. }
  exists (skipn (S s) order ++ firstn s order). unfold rot. rewrite A. split; [reflexivity|]. unfold next_pos. destruct (Nat.eqb_spec (S s) (length order)) as [E|N].
  - change (skipn 0 order) with order. change (firstn 0 order) with (@nil nat). rewrite app_nil_r. rewrite E, skipn_all. cbn [app]. rewrite <- B, E. symmetry. apply firstn_all.
  - rewrite B. now rewrite app_assoc.
Qed.
Lemma next_pos_lt order s : s < length order -> next_pos order s < length order.
Proof. unfold next_pos. destruct (Nat.eqb_spec (S s) (length order)); lia. Qed.
Lemma rot_perm order s : Permutation (rot order s) order.
Proof. unfold rot. eapply perm_trans; [apply Permutation_app_comm|]. now rewrite firstn_skipn. Qed.
Definition valid (num : nat) (order : list nat) (s : nat) : list nat := filter (fun x => x <? num) (rot order s).
Lemma filter_perm {A} (f : A -> bool) l l' : Permutation l l' -> Permutation (filter f l) (filter f l').
Proof.
  induction 1; cbn [filter]; auto.
  - destruct (f x); auto.
  - destruct (f x), (f y); auto. apply perm_swap.
  - eapply perm_trans; eauto.
Qed.
Lemma skip_ok order num wrap : forall fuel s pre v post, s < length order -> rot order s = pre ++ v :: post -> (forall x, In x pre -> num <= x) -> v < num ->
  (wrap = false -> In v (skipn s order) /\ length pre + s < length order) -> length pre < fuel ->
  exists s', skip_invalid fuel order num wrap s = Ok s' /\ s' < length order /\ nth_error order s' = Some v /\ valid num order s' = valid num order s.
Proof.
  induction fuel as [|fuel IH]; intros s pre v post Hs E Hpre Hv Hw Hf; [lia|]. cbn [skip_invalid].
  destruct (nth_error order s) as [x|] eqn:Ex; [|apply nth_error_None in Ex; lia]. rewrite (proj2 (vget_ok order s x) Ex). cbn [bind].
  destruct (rot_next order s x Ex) as (r & R1 & R2). destruct pre as [|y pre]; cbn [app] in E.
  - assert (x = v) by congruence. subst x. destruct (Nat.leb_spec num v); [lia|]. exists s. splits; auto.
  - assert (x = y) by congruence. subst y. destruct (Nat.leb_spec num x) as [Hx|Hx]; [|specialize (Hpre x (or_introl eq_refl)); lia].
    replace (if wrap && (S s =? length order) then 0 else S s) with (next_pos order s).
    2: { unfold next_pos. destruct wrap; cbn [andb]; auto. destruct (Hw eq_refl) as [_ Hl]. cbn [length] in Hl. destruct (Nat.eqb_spec (S s) (length order)); auto. lia. }
    assert (Er : r = pre ++ v :: post) by congruence.
    destruct (IH (next_pos order s) pre v (post ++ [x])) as (s' & A & B & C & D); auto.
    + now apply next_pos_lt.
    + rewrite R2, Er. now rewrite <- app_assoc.
    + intros z Hz. apply Hpre. now right.
    + intros Ew. destruct (Hw Ew) as [H1 H2]. cbn [length] in H2. unfold next_pos. destruct (Nat.eqb_spec (S s) (length order)); [lia|]. split; [|lia].
      assert (Hsk : skipn s order = x :: skipn (S s) order). { clear -Ex. revert s Ex. induction order as [|a l IH]; intros [|s] H; cbn [nth_error] in H; try discriminate; [inv H; reflexivity|]. cbn [skipn]. rewrite (IH s H). reflexivity. }
      rewrite Hsk in H1. destruct H1 as [->|H1]; auto. lia.
    + cbn [length] in Hf. lia.
    + exists s'. splits; auto. rewrite D. unfold valid. rewrite R1, R2, filter_app. cbn [filter]. rewrite (proj2 (Nat.ltb_ge x num) Hx). now rewrite app_nil_r.
Qed.
Lemma first_valid num : forall l, (exists x, In x l /\ x < num) -> exists pre v post, l = pre ++ v :: post /\ (forall x, In x pre -> num <= x) /\ v < num.
Proof.
  induction l as [|y r IH]; intros (x & Hx & Hn); [destruct Hx|]. destruct (Nat.lt_ge_cases y num) as [Hy|Hy].
  - exists [], y, r. splits; auto. intros z [].
  - destruct Hx as [<-|Hx]; [lia|]. destruct IH as (pre & v & post & -> & A & B); [eauto|]. exists (y :: pre), v, post. splits; auto. intros z [<-|Hz]; auto.
Qed.
Lemma start_ok order num : (exists x, In x order /\ x < num) -> exists s v r, skip_invalid (S (length order)) order num false 0 = Ok s /\ s < length order /\ nth_error order s = Some v /\ valid num order s = v :: r.
Proof.
  intros H. destruct (first_valid num order H) as (pre & v & post & E & A & B).
  destruct (skip_ok order num false (S (length order)) 0 pre v post) as (s & C & D & F & G); auto.
  - rewrite E, app_length. cbn [length]. lia.
  - unfold rot. cbn [skipn firstn]. now rewrite app_nil_r.
  - intros _. cbn [skipn]. rewrite E. split; [apply in_app_iff; right; now left|]. rewrite app_length. cbn [length]. lia.
  - rewrite E, app_length. lia.
  - destruct (rot_next order s v F) as (r & R & _). exists s, v, (filter (fun x => x <? num) r). splits; auto. unfold valid. rewrite R. cbn [filter]. now rewrite (proj2 (Nat.ltb_lt v num) B).
Qed.
Lemma next_ok order num s x r : s < length order -> nth_error order s = Some x -> valid num order s = x :: r ->
  exists s' v r', next_index order num s = Ok s' /\ s' < length order /\ nth_error order s' = Some v /\ valid num order s' = v :: r' /\ valid num order s' = r ++ [x].
Proof.
  intros Hs Hx Hv. destruct (rot_next order s x Hx) as (q & R1 & R2).
  assert (Hxn : x < num). { assert (In x (valid num order s)) by (rewrite Hv; now left). apply filter_In in H as [_ H]. now apply Nat.ltb_lt. }
  assert (Hn : valid num order (next_pos order s) = r ++ [x]).
  { unfold valid in *. rewrite R1 in Hv. cbn [filter] in Hv. rewrite (proj2 (Nat.ltb_lt x num) Hxn) in Hv. inv Hv. rewrite R2, filter_app. cbn [filter]. now rewrite (proj2 (Nat.ltb_lt x num) Hxn). }
  destruct (first_valid num (rot order (next_pos order s))) as (pre & v & post & E & A & B); [exists x; split; auto; rewrite R2; apply in_app_iff; right; now left|].
  unfold next_index. fold (next_pos order s).
  destruct (skip_ok order num true (S (length order)) (next_pos order s) pre v post) as (s' & C & D & F & G); auto.
  - now apply next_pos_lt.
  - discriminate.
  - rewrite <- (Permutation_length (rot_perm order (next_pos order s))), E, app_length. lia.
  - destruct (rot_next order s' v F) as (r' & R & _). exists s', v, (filter (fun x => x <? num) r'). splits; auto; [|congruence]. unfold valid. rewrite R. cbn [filter]. now rewrite (proj2 (Nat.ltb_lt v num) B).
Qed.

Section REDUCE.
Variable P : pqueue.
Variable bag : PQ P -> list (nat * nat).
Hypothesis HP : pq_contract P bag.
Variable q0 : PQ P.
Hypothesis Hq0 : bag q0 = [].
Variable ord : list (nat * list nat) -> list (nat * list nat).
Hypothesis Hord : forall b, Permutation (ord b) b.
Variable ci cg : bool.
Variable t : task.
Hypothesis Ht : mas_task t.
Notation built := (built P q0 ord ci cg t).

Lemma built_wf e F : built e F -> wf_fts (max_labels t) F.
Proof. intros HB. destruct (built_inv P bag HP q0 Hq0 ord Hord ci cg t Ht e F HB) as [lab HI]. intros i f Hf. exact (fi_wf _ _ _ _ _ _ (in_fac _ _ _ _ _ HI i f Hf)). Qed.

Definition reduced (e : bool) (F F' : fts) : Prop := built e F' /\ same_shape F F' /\ same_product F F'.
Lemma reduced_refl e F : built e F -> reduced e F F.
Proof. intros. unfold reduced. splits; auto using same_shape_refl, same_product_refl. Qed.
Lemma reduced_trans e F F' F'' : reduced e F F' -> reduced e F' F'' -> reduced e F F''.
Proof. intros (A & B & C) (D & E & G). unfold reduced. splits; auto; [eapply same_shape_trans; eauto|eapply same_product_trans; eauto]. Qed.

Lemma attempt_ok e F ts : built e F -> exists mp, label_mapping_for ord ts F = Ok mp /\
  (mp = [] -> irreducible F ts) /\
  (mp <> [] -> exists F', apply_label_mapping F mp ts = Ok F' /\ reduced e F F' /\ irreducible F' ts /\ length (active_labels (F_labels F')) < length (active_labels (F_labels F))).
Proof.
  intros HB. pose proof (built_wf e F HB) as W. pose proof (built_labels P q0 ord Hord ci cg t e F HB) as HL.
  destruct (label_mapping_ok (max_labels t) ord F ts Hord W HL) as (gs & E & HG & Hloc & Hcomp). set (mp := numbered (length (F_labels F)) gs) in *. exists mp. splits; auto.
  - intros E0. apply numbered_nil in E0. subst gs. intros f _ a b c Ha Hb HC. destruct (Nat.eq_dec a b) as [?|N]; auto. destruct (Hcomp a b c Ha Hb N HC) as (g & [] & _).
  - intros Hne. destruct (C44_label_reduction P bag q0 ord ci cg t e F mp ts HP Hq0 Hord Ht HB HG Hloc) as (F' & E' & HR & _ & _ & HPr).
    assert (Hcost : costs_at (F_labels F) mp (F_labels F')).
    { destruct (built_inv P bag HP q0 Hq0 ord Hord ci cg t Ht e F HB) as [lab HI]. destruct (reduce_sound ci cg t lab F mp ts HI HG Hloc) as (F1 & E1 & _ & HC & _). congruence. }
    exists F'. splits; auto.
    + unfold reduced. splits; [eapply built_reduce; eauto|eapply mapping_shape; eauto|exact HPr].
    + apply (mapping_irreducible F ts mp F'); auto. intros a b c Ha Hb N HC. destruct (Hcomp a b c Ha Hb N HC) as (g & Hg & X & Y). assert (Hin : In g (map snd mp)) by (unfold mp; now rewrite numbered_snd). apply in_map_iff in Hin as (en & <- & Hen). exists en. auto.
    + pose proof (groups_fewer _ _ _ HG Hcost). destruct mp; [congruence|]. cbn [length] in H. lia.
Qed.
Lemma reduce_once_ok e F ts : built e F -> exists F', reduce_once ord ts F = Ok F' /\ reduced e F F' /\ irreducible F' ts.
Proof.
  intros HB. unfold reduce_once. destruct (attempt_ok e F ts HB) as (mp & -> & A & B). cbn [bind]. destruct mp as [|en mp].
  - exists F. splits; auto. now apply reduced_refl.
  - destruct B as (F' & E & R & I & _); [discriminate|]. exists F'. auto.
Qed.

Lemma loop_ok e bounded order num : NoDup order -> (forall k, k < num -> In k order) -> forall fuel tso u x r a b F,
  tso < length order -> nth_error order tso = Some x -> valid num order tso = x :: r -> valid num order tso = a ++ b -> length b = u -> u < num ->
  length (F_factors F) = num -> built e F -> (forall k, In k b -> irreducible F k) ->
  (bounded = false -> length (active_labels (F_labels F)) * num + (num - u) <= fuel) ->
  exists F', reduce_loop ord fuel bounded order num tso u F = Ok F' /\ reduced e F F' /\ (bounded = false -> forall k, k < num -> irreducible F' k).
Proof.
  intros Hnd Hall. induction fuel as [|fuel IH]; intros tso u x r a b F Ht' Hx Hv Hab Hb Hu Hnum HB Hirr Hfuel; cbn [reduce_loop].
  - destruct bounded; [|specialize (Hfuel eq_refl); lia]. exists F. splits; auto; [now apply reduced_refl|discriminate].
  - rewrite (proj2 (vget_ok order tso x) Hx). cbn [bind].
    assert (Hxn : x < num). { assert (H : In x (valid num order tso)) by (rewrite Hv; now left). apply filter_In in H as [_ H]. now apply Nat.ltb_lt. }
    destruct (nth_error (F_factors F) x) as [fx|] eqn:Ef; [|apply nth_error_None in Ef; lia]. rewrite (proj2 (vget_ok _ _ _) Ef). cbn [bind].
    assert (Hlen : length (valid num order tso) = num).
    { transitivity (length (seq 0 num)); [|apply seq_length]. apply Permutation_length, NoDup_Permutation; [apply NoDup_filter; exact (Permutation_NoDup (Permutation_sym (rot_perm order tso)) Hnd)|apply seq_NoDup|].
      intros k. unfold valid. rewrite filter_In, in_seq. cbv beta. split; [intros [_ Hk]; apply Nat.ltb_lt in Hk; lia|]. intros [_ Hk]. split; [|apply Nat.ltb_lt; lia]. apply (Permutation_in _ (Permutation_sym (rot_perm order tso))), Hall. lia. }
    assert (Ha : exists a', a = x :: a' /\ r = a' ++ b).
    { destruct a as [|y a']; [|exists a'; cbn [app] in Hab; rewrite Hv in Hab; inv Hab; auto]. cbn [app] in Hab. rewrite Hab, Hb in Hlen. lia. }
    destruct Ha as (a' & -> & ->). destruct (next_ok order num tso x (a' ++ b) Ht' Hx Hv) as (s' & v & r' & N1 & N2 & N3 & N4 & N5).
    (* what one attempt does *)
    assert (Hatt : exists mp, match fx with Some _ => label_mapping_for ord x F | None => Ok [] end = Ok mp /\ (mp = [] -> irreducible F x) /\
      (mp <> [] -> exists F', apply_label_mapping F mp x = Ok F' /\ reduced e F F' /\ irreducible F' x /\ length (active_labels (F_labels F')) < length (active_labels (F_labels F)))).
    { destruct fx as [f|]; [exact (attempt_ok e F x HB)|]. exists []. splits; auto; [|congruence]. intros _ f Hf. apply get_factor_ok in Hf. congruence. }
    destruct Hatt as (mp & -> & A1 & A2). cbn [bind].
    destruct mp as [|en mp]; cbn [bind].
    + specialize (A1 eq_refl). destruct (Nat.eqb_spec (S u) num) as [E|N].
      * exists F. splits; auto; [now apply reduced_refl|]. intros _ k Hk.
        assert (Hin : In k (valid num order tso)) by (unfold valid; apply filter_In; split; [apply (Permutation_in _ (Permutation_sym (rot_perm order tso))); auto|now apply Nat.ltb_lt]).
        assert (a' = []). { rewrite Hv in Hlen. cbn [length] in Hlen. rewrite app_length in Hlen. destruct a'; auto. cbn [length] in Hlen. lia. } subst a'. rewrite Hv in Hin. cbn [app] in Hin. destruct Hin as [<-|Hin]; auto.
      * rewrite N1. cbn [bind]. apply (IH s' (S u) v r' a' (b ++ [x])); auto.
        -- now rewrite N5, app_assoc.
        -- rewrite app_length. cbn [length]. lia.
        -- lia.
        -- intros k Hk. apply in_app_iff in Hk as [Hk|[<-|[]]]; auto.
        -- intros Eb. specialize (Hfuel Eb). lia.
    + destruct A2 as (F' & -> & R1 & R2 & R3); [discriminate|]. cbn [bind]. destruct R1 as (RB & RS & RP).
      assert (Hnum' : length (F_factors F') = num) by (rewrite (proj1 RS); auto).
      destruct (Nat.eqb_spec 1 num) as [E|N].
      * exists F'. splits; auto; [unfold reduced; splits; auto|]. intros _ k Hk. assert (k = x) by lia. now subst.
      * rewrite N1. cbn [bind].
        destruct (IH s' 1 v r' (a' ++ b) [x] F') as (F2 & E2 & R4 & R5); auto; [lia|intros k [<-|[]]; auto| |].
        -- intros Eb. specialize (Hfuel Eb).
           assert (H : length (active_labels (F_labels F')) * num + num <= length (active_labels (F_labels F)) * num) by (rewrite <- Nat.mul_succ_l; apply Nat.mul_le_mono_r; lia). lia.
        -- exists F2. splits; auto. apply (reduced_trans e F F' F2); auto. unfold reduced. splits; auto.
Qed.

Lemma reduce_ok e F m order i j : built e F -> F_factors F <> [] -> NoDup order -> (forall k, k < length (F_factors F) -> In k order) ->
  exists F', reduce ord m order i j F = Ok F' /\ reduced e F F' /\
    (m = AllSystemsFixpoint -> forall k, k < length (F_factors F') -> irreducible F' k).
Proof.
  intros HB Hne Hnd Hall. unfold reduce.
  assert (Hpos : 0 < length (F_factors F)) by (destruct (F_factors F); [congruence|cbn [length]; lia]).
  assert (Hex : exists x, In x order /\ x < length (F_factors F)) by (exists 0; split; auto).
  destruct m.
  - destruct (reduce_once_ok e F i HB) as (F1 & -> & R1 & _). cbn [bind]. destruct (reduce_once_ok e F1 j (proj1 R1)) as (F2 & -> & R2 & _). exists F2. splits; auto; [eapply reduced_trans; eauto|discriminate].
  - destruct (start_ok order (length (F_factors F)) Hex) as (s & v & r & -> & S1 & S2 & S3). cbn [bind].
    destruct (loop_ok e true order (length (F_factors F)) Hnd Hall (length (F_factors F)) s 0 v r (v :: r) [] F) as (F' & E & R & _); auto; [now rewrite app_nil_r|intros k []|discriminate|].
    exists F'. splits; auto. discriminate.
  - destruct (start_ok order (length (F_factors F)) Hex) as (s & v & r & -> & S1 & S2 & S3). cbn [bind].
    destruct (loop_ok e false order (length (F_factors F)) Hnd Hall (S (length (active_labels (F_labels F))) * S (length (F_factors F))) s 0 v r (v :: r) [] F) as (F' & E & R & I); auto; [now rewrite app_nil_r|intros k []|intros _; cbn [Nat.mul]; rewrite Nat.mul_succ_r; lia|].
    exists F'. splits; auto. intros _ k Hk. apply I; auto. now rewrite <- (proj1 (proj1 (proj2 R))).
Qed.
End REDUCE.

Lemma system_order_ok o shuffle vars : (forall l, Permutation (shuffle l) l) -> Permutation (system_order o shuffle vars) (seq 0 (vars * 2 - 1)).
Proof.
  intros Hs. unfold system_order. destruct o; auto. apply NoDup_Permutation; [|apply seq_NoDup|].
  - assert (G : forall n l, (forall x, In x l -> x < n) -> NoDup l -> NoDup (map (fun i => n - 1 - i) l)).
    { intros n l Hl Hd. induction Hd as [|x l Hx Hd IH]; cbn [map]; constructor; [|apply IH; intros; apply Hl; now right]. intros Hin. apply in_map_iff in Hin as (y & E & Hy). pose proof (Hl x (or_introl eq_refl)). pose proof (Hl y (or_intror Hy)). assert (y = x) by lia. now subst. }
    apply G; [intros x Hx; apply in_seq in Hx; lia|apply seq_NoDup].
  - intros x. rewrite in_map_iff, in_seq. split.
    + intros (y & <- & Hy). apply in_seq in Hy. lia.
    + intros Hx. exists (vars * 2 - 1 - 1 - x). rewrite in_seq. lia.
Qed.
