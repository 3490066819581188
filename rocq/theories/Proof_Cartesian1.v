(** Cartesian sets, splitting a domain, and when an operator leads from one Cartesian set to another. *)
From Coq Require Import Sorted.
From Verif Require Import Outcome Spec_Task Spec_Cartesian Model_Task Model_Cartesian Proof_Task Proof_Registry Proof_LMCut1.
From Verif Require Model_MAS Proof_MAS1.

Definition has (c : cset) (v d : nat) : Prop := nth d (nth v c []) false = true.
Definition shape (c : cset) (doms : list nat) : Prop := length c = length doms /\ forall v, length (nth v c []) = nth v doms 0.

Lemma nth_false_lt (b : list bool) d : nth d b false = true -> d < length b.
Proof. intros H. destruct (le_lt_dec (length b) d) as [Hg|]; auto. rewrite nth_overflow in H by lia. discriminate. Qed.
Lemma has_lt c v d : has c v d -> v < length c /\ d < length (nth v c []).
Proof.
  intros H. apply nth_false_lt in H. split; auto. destruct (le_lt_dec (length c) v) as [Hg|]; auto.
  rewrite nth_overflow in H by lia. cbn in H. lia.
Qed.
Lemma test_ok c v d : v < length c -> d < length (nth v c []) -> cs_test c v d = Ok (nth d (nth v c []) false).
Proof.
  intros Hv Hd. unfold cs_test, vget. rewrite (nth_error_nth' c [] Hv). cbn [bind]. now rewrite (nth_error_nth' _ false Hd).
Qed.
Lemma test_has c v d : cs_test c v d = Ok true <-> has c v d.
Proof.
  split; intros H.
  - unfold cs_test in H. apply bind_ok in H as (b & Hb & H). apply vget_ok in Hb. apply vget_ok in H. unfold has.
    rewrite (nth_error_nth _ _ [] Hb). exact (nth_error_nth _ _ false H).
  - destruct (has_lt _ _ _ H) as [H1 H2]. rewrite (test_ok _ _ _ H1 H2). unfold has in H. now rewrite H.
Qed.
Lemma nth_upd {A} (l : list A) i j x d : i < length l -> nth j (upd l i x) d = if i =? j then x else nth j l d.
Proof.
  intros H. destruct (Nat.ltb_spec j (length l)) as [Hs|Hs].
  - pose proof (upd_nth l i j x) as U. rewrite (nth_error_nth' (upd l i x) d) in U by now rewrite upd_length.
    rewrite (nth_error_nth' l d Hs) in U. rewrite (proj2 (Nat.ltb_lt i (length l)) H), andb_true_r in U.
    destruct (Nat.eqb_spec i j); congruence.
  - rewrite !nth_overflow by (try rewrite upd_length; lia). destruct (Nat.eqb_spec i j); [lia|auto].
Qed.
Lemma put_ok x c v d doms : shape c doms -> v < length c -> d < nth v doms 0 -> exists c', cs_put x c v d = Ok c' /\ shape c' doms /\
  forall v' d', has c' v' d' <-> if (v =? v') && (d =? d') then x = true else has c v' d'.
Proof.
  intros [S1 S2] Hv Hd. unfold cs_put, vget. rewrite (nth_error_nth' c [] Hv). cbn [bind]. rewrite vset_lt by (rewrite S2; auto). cbn [bind].
  rewrite vset_lt by auto. eexists. split; [reflexivity|]. split.
  - split; [now rewrite upd_length|]. intros v'. rewrite nth_upd by auto. destruct (Nat.eqb_spec v v') as [->|]; auto. rewrite upd_length. auto.
  - intros v' d'. unfold has. rewrite nth_upd by auto. destruct (Nat.eqb_spec v v') as [->|]; cbn [andb]; [|tauto].
    rewrite nth_upd by (rewrite S2; auto). destruct (Nat.eqb_spec d d'); tauto.
Qed.
Lemma fill_ok x c v doms : shape c doms -> v < length c -> exists c', cs_fill x c v = Ok c' /\ shape c' doms /\
  forall v' d', has c' v' d' <-> if v =? v' then x = true /\ d' < nth v doms 0 else has c v' d'.
Proof.
  intros [S1 S2] Hv. unfold cs_fill, vget. rewrite (nth_error_nth' c [] Hv). cbn [bind]. rewrite vset_lt by auto. eexists. split; [reflexivity|]. split.
  - split; [now rewrite upd_length|]. intros v'. rewrite nth_upd by auto. destruct (Nat.eqb_spec v v') as [->|]; auto. rewrite repeat_length. auto.
  - intros v' d'. unfold has. rewrite nth_upd by auto. destruct (Nat.eqb_spec v v') as [->|]; [|tauto]. rewrite S2.
    destruct (le_lt_dec (nth v' doms 0) d') as [Hg|Hl].
    + rewrite nth_overflow by (rewrite repeat_length; auto). split; [discriminate|lia].
    + rewrite nth_indep with (d' := x) by (rewrite repeat_length; auto). rewrite nth_repeat. tauto.
Qed.
Lemma set_single_ok c v d doms : shape c doms -> v < length c -> d < nth v doms 0 -> exists c', cs_set_single c v d = Ok c' /\ shape c' doms /\
  forall v' d', has c' v' d' <-> if v =? v' then d' = d else has c v' d'.
Proof.
  intros S Hv Hd. unfold cs_set_single. destruct (fill_ok false c v doms S Hv) as (c1 & E1 & S1 & H1). unfold cs_remove_all. rewrite E1. cbn [bind].
  assert (Hv1 : v < length c1) by (destruct S as [S _], S1 as [S1 _]; lia).
  destruct (put_ok true c1 v d doms S1 Hv1 Hd) as (c2 & E2 & S2 & H2). exists c2. split; [exact E2|]. split; auto.
  intros v' d'. rewrite H2. specialize (H1 v' d'). destruct (Nat.eqb_spec v v') as [->|]; cbn [andb]; [|exact H1]. destruct (Nat.eqb_spec d d') as [->|]; [tauto|].
  split; [intros H; apply H1 in H as [? _]; discriminate|congruence].
Qed.
Lemma full_has doms v d : has (full_cset doms) v d <-> d < nth v doms 0.
Proof.
  unfold has, full_cset. destruct (le_lt_dec (length doms) v) as [Hg|Hl].
  - rewrite (nth_overflow doms) by auto. rewrite (nth_overflow (map _ _)) by (rewrite map_length; auto). destruct d; split; try discriminate; lia.
  - rewrite nth_indep with (d' := repeat true 0) by (rewrite map_length; auto). rewrite (map_nth (fun d => repeat true d)).
    destruct (le_lt_dec (nth v doms 0) d) as [Hg|Hl2].
    + rewrite nth_overflow by (rewrite repeat_length; auto). split; [discriminate|lia].
    + rewrite nth_indep with (d' := true) by (rewrite repeat_length; auto). rewrite nth_repeat. tauto.
Qed.
Lemma full_shape doms : shape (full_cset doms) doms.
Proof.
  split; [unfold full_cset; now rewrite map_length|]. intros v. unfold full_cset. destruct (le_lt_dec (length doms) v) as [Hg|Hl].
  - rewrite !nth_overflow; auto. rewrite map_length. auto.
  - rewrite nth_indep with (d' := repeat true 0) by (rewrite map_length; auto). rewrite (map_nth (fun d => repeat true d)). apply repeat_length.
Qed.
Lemma intersects_ok c c' v doms : shape c doms -> shape c' doms -> v < length c -> exists b, cs_intersects c c' v = Ok b /\
  (b = true <-> exists d, has c v d /\ has c' v d).
Proof.
  intros [S1 S2] [S1' S2'] Hv. unfold cs_intersects, vget. rewrite (nth_error_nth' c [] Hv). cbn [bind]. rewrite (nth_error_nth' c' []) by lia. cbn [bind].
  eexists. split; [reflexivity|]. unfold has. assert (L : length (nth v c []) = length (nth v c' [])) by (rewrite S2, S2'; auto).
  revert L. generalize (nth v c []) (nth v c' []). induction l as [|x l IH]; intros [|y l'] L; try discriminate.
  - cbn. split; [discriminate|]. intros ([|d] & H & _); discriminate.
  - cbn [combine existsb fst snd]. rewrite orb_true_iff, (IH l') by (cbn in L; lia). rewrite andb_true_iff. split.
    + intros [[-> ->]|(d & H1 & H2)]; [exists 0; auto|exists (S d); auto].
    + intros ([|d] & H1 & H2); cbn in H1, H2; [left; auto|right; eauto].
Qed.

Lemma count_ge b wanted : NoDup wanted -> (forall d, In d wanted -> nth d b false = true) -> length wanted <= length (filter (fun x : bool => x) b).
Proof.
  intros Hnd Hw. assert (E : length (filter (fun x : bool => x) b) = length (filter (fun i => nth i b false) (seq 0 (length b)))).
  { clear. induction b as [|x b IH]; [reflexivity|]. cbn [length seq filter nth]. rewrite <- seq_shift.
    assert (G : forall l, length (filter (fun i => nth i (x :: b) false) (map S l)) = length (filter (fun i => nth i b false) l)).
    { induction l as [|i l IHl]; [reflexivity|]. cbn [map filter nth]. destruct (nth i b false); cbn [length]; auto. }
    destruct x; cbn [length]; rewrite G, IH; reflexivity. }
  rewrite E. apply NoDup_incl_length; auto. intros d Hd. apply filter_In. split; auto. apply in_seq. specialize (Hw _ Hd). apply nth_false_lt in Hw. lia.
Qed.

Lemma split_fold c x doms (Sc : shape c doms) : forall wanted c1 c2, shape c1 doms -> shape c2 doms -> (forall d, In d wanted -> has c x d) ->
  exists c1' c2', fold_outcome (fun (cc : cset * cset) value =>
    let* b := cs_test c x value in
    let* _ := guard b in
    let* c1 := cs_remove (fst cc) x value in
    let* c2 := cs_add (snd cc) x value in
    Ok (c1, c2)) wanted (c1, c2) = Ok (c1', c2') /\ shape c1' doms /\ shape c2' doms /\
   (forall v d, has c1' v d <-> has c1 v d /\ ~ (v = x /\ In d wanted)) /\
   (forall v d, has c2' v d <-> has c2 v d \/ (v = x /\ In d wanted)).
Proof.
  induction wanted as [|a wanted IH]; intros c1 c2 S1 S2 Hw.
  - exists c1, c2. splits; auto; intros; cbn [In]; tauto.
  - cbn [fold_outcome]. assert (Ha := Hw a (or_introl eq_refl)). rewrite (proj2 (test_has _ _ _) Ha). cbn [bind guard fst snd].
    destruct (has_lt _ _ _ Ha) as [Hx Hd]. destruct Sc as [Sc1 Sc2]. rewrite Sc2 in Hd.
    assert (L1 : x < length c1) by (destruct S1; lia). assert (L2 : x < length c2) by (destruct S2; lia).
    destruct (put_ok false c1 x a doms S1 L1 Hd) as (c1a & E1 & S1a & H1). destruct (put_ok true c2 x a doms S2 L2 Hd) as (c2a & E2 & S2a & H2).
    unfold cs_remove, cs_add. rewrite E1. cbn [bind]. rewrite E2. cbn [bind].
    destruct (IH c1a c2a S1a S2a) as (c1' & c2' & E & S1' & S2' & G1 & G2); [intros; apply Hw; now right|].
    exists c1', c2'. splits; auto.
    + intros v d. rewrite G1, H1. cbn [In]. destruct (Nat.eqb_spec x v) as [->|Hn]; cbn [andb]; [|assert (v <> x) by congruence; tauto].
      destruct (Nat.eqb_spec a d) as [->|]; [|tauto]. split; [intros [? _]; discriminate|tauto].
    + intros v d. rewrite G2, H2. cbn [In]. destruct (Nat.eqb_spec x v) as [->|Hn]; cbn [andb]; [|assert (v <> x) by congruence; tauto].
      destruct (Nat.eqb_spec a d) as [->|]; tauto.
Qed.
Lemma split_domain_ok c x wanted doms : shape c doms -> wanted <> [] -> NoDup wanted -> (forall d, In d wanted -> has c x d) ->
  (exists d, has c x d /\ ~ In d wanted) ->
  exists c1 c2, split_domain c x wanted = Ok (c1, c2) /\ shape c1 doms /\ shape c2 doms /\
   (forall v d, has c1 v d <-> has c v d /\ ~ (v = x /\ In d wanted)) /\
   (forall v d, has c2 v d <-> has c v d /\ (v = x -> In d wanted)).
Proof.
  intros Sc Hne Hnd Hw (d0 & Hd0 & Hn0). destruct (has_lt _ _ _ Hd0) as [Hx _]. unfold split_domain.
  destruct wanted as [|a w0] eqn:Ew; [congruence|]. rewrite <- Ew in *. assert (G1 : 1 <=? length wanted = true) by (subst; reflexivity). rewrite G1. cbn [guard bind].
  unfold cs_count, vget at 1. rewrite (nth_error_nth' c [] Hx). cbn [bind].
  assert (G2 : length wanted <? length (filter (fun x : bool => x) (nth x c [])) = true).
  { apply Nat.ltb_lt. apply (count_ge (nth x c []) (d0 :: wanted)); [constructor; auto|]. intros d [<-|H]; auto. apply Hw; auto. }
  rewrite G2. cbn [guard bind]. unfold cs_remove_all. destruct (fill_ok false c x doms Sc Hx) as (c2 & E2 & S2 & H2). rewrite E2. cbn [bind].
  destruct (split_fold c x doms Sc wanted c c2 Sc S2 Hw) as (c1' & c2' & E & S1' & S2' & K1 & K2). exists c1', c2'. splits; auto.
  intros v d. rewrite K2, H2. destruct (Nat.eqb_spec x v) as [->|Hxv].
  - split; [intros [[? _]|[_ H]]; [discriminate|auto]|]. intros [_ H]. right. auto.
  - split; [intros [H|[? _]]; [|congruence]; split; auto; congruence|]. tauto.
Qed.

Lemma includes_facts_ok c doms : shape c doms -> forall fs, (forall f, In f fs -> snd f < nth (fst f) doms 0) -> exists b, includes_facts c fs = Ok b /\
  (b = true <-> forall f, In f fs -> has c (fst f) (snd f)).
Proof.
  intros [S1 S2]. induction fs as [|f fs IH]; intros Hf.
  - exists true. split; auto. split; auto. intros _ f [].
  - cbn [includes_facts]. assert (Hd := Hf f (or_introl eq_refl)).
    assert (Hv : fst f < length c). { rewrite S1. destruct (le_lt_dec (length doms) (fst f)); auto. rewrite nth_overflow in Hd by lia. lia. }
    rewrite test_ok by (try rewrite S2; auto). cbn [bind]. destruct (nth (snd f) (nth (fst f) c []) false) eqn:E.
    + destruct IH as (b & Eb & Hb); [intros; apply Hf; now right|]. exists b. split; auto. rewrite Hb. split; intros H.
      * intros g [<-|Hg]; auto.
      * intros g Hg. apply H. now right.
    + exists false. split; auto. split; [discriminate|]. intros H. specialize (H f (or_introl eq_refl)). unfold has in H. congruence.
Qed.

(* ---- values of preconditions and postconditions ---- *)
Definition preV (op : operator) (x : nat) : option nat := lookup_value (preconditions_of op) x.
Definition postV (op : operator) (x : nat) : option nat := lookup_value (postconditions_of op) x.

Definition lef (a b : nat * nat) : Prop := fst a <= fst b.
Lemma insert_sorted f l : StronglySorted lef l -> StronglySorted lef (Model_MAS.insert Model_MAS.trans_le f l).
Proof.
  induction 1 as [|g l Hl IH Hf]; cbn [Model_MAS.insert]; [repeat constructor|]. unfold Model_MAS.trans_le at 1.
  destruct ((fst f <? fst g) || (fst f =? fst g) && (snd f <=? snd g)) eqn:E.
  - constructor; [constructor; auto|]. rewrite orb_true_iff, andb_true_iff, Nat.ltb_lt, Nat.eqb_eq in E. assert (Hfg : fst f <= fst g) by lia.
    constructor; auto. eapply Forall_impl; [|exact Hf]. unfold lef. intros; lia.
  - constructor; auto. rewrite orb_false_iff, andb_false_iff, Nat.ltb_ge, Nat.eqb_neq in E. apply Forall_forall. intros y Hy.
    apply Proof_MAS1.insert_In in Hy as [->|Hy]; [unfold lef; lia|]. rewrite Forall_forall in Hf. auto.
Qed.
Lemma sort_sorted l : StronglySorted lef (Model_MAS.sort Model_MAS.trans_le l).
Proof. unfold Model_MAS.sort. induction l; cbn [fold_right]; [constructor|]. apply insert_sorted; auto. Qed.
Lemma lookup_In l x d : lookup_value l x = Some d -> In (x, d) l.
Proof.
  induction l as [|[v e] l IH]; cbn [lookup_value fst snd]; [discriminate|]. destruct (Nat.eqb_spec v x) as [->|].
  - intros [= ->]. now left.
  - destruct (x <? v); [discriminate|]. right; auto.
Qed.
Lemma lookup_sorted l x d : StronglySorted lef l -> In (x, d) l -> (forall d', In (x, d') l -> d' = d) -> lookup_value l x = Some d.
Proof.
  induction 1 as [|[v e] l Hl IH Hf]; intros Hin Hu; [destruct Hin|]. cbn [lookup_value fst snd]. destruct (Nat.eqb_spec v x) as [->|Hv].
  - f_equal. apply Hu. now left.
  - destruct Hin as [[= -> ->]|Hin]; [congruence|]. destruct (Nat.ltb_spec x v) as [Hlt|_].
    + rewrite Forall_forall in Hf. specialize (Hf _ Hin). unfold lef in Hf. cbn in Hf. lia.
    + apply IH; auto. intros d' H. apply Hu. now right.
Qed.
Lemma NoDup_fst_unique (l : list (nat * nat)) x d d' : NoDup (map fst l) -> In (x, d) l -> In (x, d') l -> d = d'.
Proof.
  induction l as [|[v e] l IH]; intros Hn H1 H2; [destruct H1|]. cbn in Hn. inversion Hn as [|? ? Hv Hn']; subst.
  destruct H1 as [[= -> ->]|H1], H2 as [[= E]|H2]; auto.
  - destruct Hv. apply (in_map fst) in H2. exact H2.
  - subst v. destruct Hv. apply (in_map fst) in H1. exact H1.
Qed.
Lemma preV_spec op x d : NoDup (map fst (op_pre op)) -> preV op x = Some d <-> In (x, d) (op_pre op).
Proof.
  intros Hn. unfold preV, preconditions_of. split; intros H.
  - apply lookup_In in H. now apply Proof_MAS1.sort_In in H.
  - apply lookup_sorted; [apply sort_sorted|now apply Proof_MAS1.sort_In|]. intros d' H'. apply (proj1 (Proof_MAS1.sort_In _ _ _)) in H'. symmetry. eapply NoDup_fst_unique; eauto.
Qed.

Definition ltf (a b : nat * nat) : Prop := fst a < fst b.
Lemma map_put_In m k v y : In y (map_put m k v) -> y = (k, v) \/ In y m.
Proof.
  induction m as [|[k' v'] m IH]; cbn [map_put]; [intros [<-|[]]; auto|]. destruct (k <? k'); [intros [<-|H]; auto|]. destruct (k =? k').
  - intros [<-|H]; auto. right; now right.
  - intros [<-|H]; [right; now left|]. destruct (IH H); auto. right; now right.
Qed.
Lemma map_put_ok m k v : StronglySorted ltf m -> StronglySorted ltf (map_put m k v) /\ forall x, lookup_value (map_put m k v) x = if k =? x then Some v else lookup_value m x.
Proof.
  induction 1 as [|[k' v'] m Hm IH Hf]; cbn [map_put].
  - split; [repeat constructor|]. intros x. cbn [lookup_value fst snd]. destruct (Nat.eqb_spec k x); auto. destruct (x <? k); auto.
  - destruct (Nat.ltb_spec k k') as [Hlt|Hge].
    + split.
      * constructor; [constructor; auto|]. constructor; [exact Hlt|]. eapply Forall_impl; [|exact Hf]. unfold ltf; cbn. intros; lia.
      * intros x. cbn [lookup_value fst snd]. destruct (Nat.eqb_spec k x); auto. destruct (Nat.ltb_spec x k); auto.
        destruct (Nat.eqb_spec k' x); [lia|]. destruct (Nat.ltb_spec x k'); auto. lia.
    + destruct (Nat.eqb_spec k k') as [->|Hne].
      * split; [constructor; auto|]. intros x. cbn [lookup_value fst snd]. destruct (Nat.eqb_spec k' x); auto.
      * destruct IH as [I1 I2]. split.
        -- constructor; auto. apply Forall_forall. intros y Hy. apply map_put_In in Hy as [->|Hy]; [unfold ltf; cbn; lia|]. rewrite Forall_forall in Hf; auto.
        -- intros x. cbn [lookup_value fst snd]. rewrite I2. destruct (Nat.eqb_spec k' x) as [->|].
           ++ destruct (Nat.eqb_spec k x); auto. congruence.
           ++ destruct (Nat.ltb_spec x k'); auto. destruct (Nat.eqb_spec k x); auto. lia.
Qed.

(** The value of the last effect on [x]. *)
Definition last_eff (es : list effect) (x : nat) (r0 : option nat) : option nat :=
  fold_left (fun r e => if fst (eff_fact e) =? x then Some (snd (eff_fact e)) else r) es r0.
Lemma last_eff_none es x : forall r0, last_eff es x r0 = match last_eff es x None with Some d => Some d | None => r0 end.
Proof.
  unfold last_eff. induction es as [|e es IH]; intros r0; [reflexivity|]. cbn [fold_left]. destruct (fst (eff_fact e) =? x); [|apply IH].
  rewrite (IH (Some _)). destruct (fold_left _ es None); reflexivity.
Qed.
Lemma last_eff_In es x d : forall r0, last_eff es x r0 = Some d -> r0 = Some d \/ exists e, In e es /\ eff_fact e = (x, d).
Proof.
  unfold last_eff. induction es as [|e es IH]; intros r0 H; [auto|]. cbn [fold_left] in H. destruct (IH _ H) as [H1|(e' & H1 & H2)].
  - destruct (Nat.eqb_spec (fst (eff_fact e)) x) as [<-|]; [right|auto]. injection H1 as <-. exists e. split; [now left|]. destruct (eff_fact e); auto.
  - right. exists e'. split; auto. now right.
Qed.
Lemma last_eff_Some es x : forall r0 e, In e es -> fst (eff_fact e) = x -> exists d, last_eff es x r0 = Some d.
Proof.
  intros r0 e Hin Hx. rewrite last_eff_none. revert Hin. unfold last_eff. generalize (@None nat) as r1. induction es as [|e' es IH]; intros r1 [].
  - subst e'. cbn [fold_left]. rewrite (proj2 (Nat.eqb_eq _ _) Hx). change (exists d, match last_eff es x (Some (snd (eff_fact e))) with Some d => Some d | None => r0 end = Some d).
    rewrite last_eff_none. destruct (last_eff es x None); eauto.
  - cbn [fold_left]. apply IH; auto.
Qed.
Lemma postV_spec op x : NoDup (map fst (op_pre op)) -> postV op x = last_eff (op_effs op) x (preV op x).
Proof.
  intros Hn. unfold postV, postconditions_of.
  assert (G1 : forall fs m, StronglySorted ltf m -> StronglySorted ltf (fold_left (fun m f => map_put m (fst f) (snd f)) fs m) /\
    forall r, lookup_value (fold_left (fun m f => map_put m (fst f) (snd f)) fs m) x = r <-> fold_left (fun r (f : fact) => if fst f =? x then Some (snd f) else r) fs (lookup_value m x) = r).
  { induction fs as [|f fs IH]; intros m Hm; [split; auto; intros; cbn; tauto|]. cbn [fold_left]. destruct (map_put_ok m (fst f) (snd f) Hm) as [H1 H2].
    destruct (IH _ H1) as [I1 I2]. split; auto. intros r. rewrite I2, H2. tauto. }
  assert (G2 : forall es m, StronglySorted ltf m -> lookup_value (fold_left (fun m e => map_put m (fst (eff_fact e)) (snd (eff_fact e))) es m) x = last_eff es x (lookup_value m x)).
  { unfold last_eff. induction es as [|e es IH]; intros m Hm; [auto|]. cbn [fold_left]. destruct (map_put_ok m (fst (eff_fact e)) (snd (eff_fact e)) Hm) as [H1 H2].
    rewrite IH; auto. now rewrite H2. }
  destruct (G1 (op_pre op) []) as [H1 H2]; [constructor|]. rewrite G2 by auto. f_equal. apply H2. cbn [lookup_value].
  (* the precondition value *)
  assert (K : forall fs r0 d, NoDup (map fst fs) -> In (x, d) fs -> fold_left (fun r (f : fact) => if fst f =? x then Some (snd f) else r) fs r0 = Some d).
  { induction fs as [|[v e] fs IH]; intros r0 d Hnd Hin; [destruct Hin|]. cbn [fold_left fst snd]. cbn in Hnd. inversion Hnd as [|? ? Hv Hnd']; subst.
    destruct Hin as [[= -> ->]|Hin]; [|apply IH; auto]. rewrite Nat.eqb_refl. clear -Hv. generalize (Some d) as r. induction fs as [|[v e] fs IH]; intros r; [auto|].
    cbn [fold_left fst snd]. cbn in Hv. destruct (Nat.eqb_spec v x) as [->|]; [tauto|]. apply IH. tauto. }
  assert (K' : forall fs r0, (forall d, ~ In (x, d) fs) -> fold_left (fun r (f : fact) => if fst f =? x then Some (snd f) else r) fs r0 = r0).
  { induction fs as [|[v e] fs IH]; intros r0 Hno; [auto|]. cbn [fold_left fst snd]. destruct (Nat.eqb_spec v x) as [->|]; [destruct (Hno e); now left|].
    apply IH. intros d H. apply (Hno d). now right. }
  destruct (preV op x) as [d|] eqn:E.
  - apply K; auto. now apply preV_spec.
  - apply K'. intros d H. apply (preV_spec op x d Hn) in H. congruence.
Qed.
