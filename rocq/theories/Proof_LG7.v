(** lm_zg: the landmark graph extracted from the labels. *)
From Verif Require Import Outcome Spec_Task Spec_Relaxation Spec_Landmarks Spec_LandmarkGeneration Model_DefaultRules Model_LandmarkGeneration.
From Verif Require Import Proof_DefaultRules Proof_OC1 Proof_LG1 Proof_LG2 Proof_LG3 Proof_LG4 Proof_LG5 Proof_LG6.
Local Open Scope nat_scope.

Lemma find_none i l : find_ordering i l = None <-> forall ty, ~ In (i, ty) l.
Proof.
  unfold find_ordering. destruct (find (fun p : nat * ordering_type => fst p =? i) l) as [[j ty]|] eqn:E.
  - apply find_some in E as [H1 H2]. cbn in H2. apply Nat.eqb_eq in H2. subst j. split; [discriminate|]. intros K. elim (K ty H1).
  - split; auto. intros _ ty K. assert (F := find_none _ _ E _ K). cbn in F. apply Nat.eqb_neq in F. congruence.
Qed.
Lemma nodup_nth {A} (l : list A) i j a : NoDup l -> nth_error l i = Some a -> nth_error l j = Some a -> i = j.
Proof. intros H Hi Hj. eapply NoDup_nth_error; eauto; [eapply nth_error_Some_lt; eauto|congruence]. Qed.

Record node_ok (A : list fact) (G : fact -> Prop) (O : fact -> fact -> Prop) (n : node) : Prop := {
  no_goal : n_goal n = true <-> G (n_atom n);
  no_derived_flag : n_derived n = false;
  no_parents : forall j ty, In (j, ty) (n_parents n) <-> ty = Natural /\ exists b, nth_error A j = Some b /\ O b (n_atom n);
  no_children : forall j ty, In (j, ty) (n_children n) <-> ty = Natural /\ exists b, nth_error A j = Some b /\ O (n_atom n) b
}.
Record ginv (A : list fact) (G : fact -> Prop) (O : fact -> fact -> Prop) (g : list node) : Prop := {
  gi_atoms : map n_atom g = A;
  gi_nodup : NoDup A;
  gi_in : forall a b, O a b -> In a A /\ In b A;
  gi_nodes : forall n, In n g -> node_ok A G O n
}.
Lemma ginv_ext A (G G' : fact -> Prop) (O O' : fact -> fact -> Prop) g : (forall a, In a A -> (G a <-> G' a)) -> (forall a b, O a b <-> O' a b) -> ginv A G O g -> ginv A G' O' g.
Proof.
  intros HG HO [H1 H2 H3 H4]. constructor; auto.
  - intros a b K. apply H3, HO, K.
  - intros n Hn. destruct (H4 n Hn) as [N1 N2 N3 N4]. constructor; auto.
    + rewrite N1. apply HG. rewrite <- H1. now apply in_map.
    + intros j ty. rewrite N3. split; intros (K1 & b & K2 & K3); split; auto; exists b; split; auto; now apply HO.
    + intros j ty. rewrite N4. split; intros (K1 & b & K2 & K3); split; auto; exists b; split; auto; now apply HO.
Qed.
Lemma atom_at A G O g i n : ginv A G O g -> nth_error g i = Some n -> nth_error A i = Some (n_atom n).
Proof. intros H Hi. rewrite <- (gi_atoms _ _ _ _ H). now apply map_nth_error. Qed.
Lemma node_at A G O g i a : ginv A G O g -> nth_error A i = Some a -> exists n, nth_error g i = Some n /\ n_atom n = a /\ node_ok A G O n.
Proof.
  intros H Hi. rewrite <- (gi_atoms _ _ _ _ H), nth_error_map in Hi. destruct (nth_error g i) as [n|] eqn:E; [|discriminate]. injection Hi as <-. exists n. splits; auto. apply (gi_nodes _ _ _ _ H). eapply nth_error_In; eauto.
Qed.
Lemma position_ok A G O g a : ginv A G O g -> match position a g with Some i => nth_error A i = Some a | None => ~ In a A end.
Proof.
  intros H. destruct (position a g) as [i|] eqn:E.
  - destruct (position_some a g i E) as (n & Hn & <-). eapply atom_at; eauto.
  - intros K. rewrite <- (gi_atoms _ _ _ _ H) in K. apply in_map_iff in K as (n & Ea & Hn). elim (position_none a g E n Hn Ea).
Qed.
Lemma ginv_new A G O g a fl : ginv A G O g -> ~ In a A -> (fl = true <-> G a) -> ginv (A ++ [a]) G O (g ++ [new_node a fl]).
Proof.
  intros [H1 H2 H3 H4] Na Hfl. constructor.
  - rewrite map_app, H1. reflexivity.
  - now apply NoDup_snoc.
  - intros x y K. rewrite !in_app_iff. destruct (H3 x y K). auto.
  - assert (X : forall j x, (nth_error (A ++ [a]) j = Some x /\ x <> a) <-> (nth_error A j = Some x /\ x <> a)).
    { intros j x. split; intros [K Nx]; split; auto; [|rewrite nth_error_app1; auto; eapply nth_error_Some_lt; eauto]. destruct (Nat.lt_ge_cases j (length A)) as [L|L]; [rewrite nth_error_app1 in K; auto|].
      rewrite nth_error_app2 in K by auto. destruct (j - length A) as [|k]; cbn in K; [congruence|destruct k; discriminate]. }
    assert (Nl : forall x, ~ O a x) by (intros x K; apply Na, (H3 a x K)). assert (Nr : forall x, ~ O x a) by (intros x K; apply Na, (H3 x a K)).
    intros n Hn. apply in_app_iff in Hn as [Hn|[<-|[]]].
    + destruct (H4 n Hn) as [N1 N2 N3 N4]. constructor; auto.
      * intros j ty. rewrite N3. split; intros (K1 & b & K2 & K3); split; auto; exists b; (split; [|auto]); apply (X j b); split; auto; intros ->; apply (Nl _ K3).
      * intros j ty. rewrite N4. split; intros (K1 & b & K2 & K3); split; auto; exists b; (split; [|auto]); apply (X j b); split; auto; intros ->; apply (Nr _ K3).
    + constructor; cbn [new_node n_goal n_atom n_derived n_parents n_children In]; auto.
      * intros j ty. split; [intros []|]. intros (_ & b & _ & K). elim (Nr b K).
      * intros j ty. split; [intros []|]. intros (_ & b & _ & K). elim (Nl b K).
Qed.
Lemma ginv_mark A G O g i n : ginv A G O g -> nth_error g i = Some n -> ginv A (fun a => G a \/ a = n_atom n) O (upd g i (mark_goal n)).
Proof.
  intros H Hi. assert (Li := nth_error_Some_lt _ _ _ Hi). assert (Ai := atom_at _ _ _ _ _ _ H Hi). destruct H as [H1 H2 H3 H4]. constructor; auto.
  - rewrite <- H1. apply nth_error_ext. intros k. rewrite !nth_error_map, upd_nth. destruct ((i =? k) && (i <? length g)) eqn:E; auto. apply andb_true_iff in E as [E _]. apply Nat.eqb_eq in E. subst k. rewrite Hi. reflexivity.
  - intros n' Hn'. apply In_nth_error in Hn' as (k & Hk). rewrite upd_nth in Hk. destruct (Nat.eqb_spec i k) as [Eik|Nk]; [subst k|].
    + apply Nat.ltb_lt in Li. rewrite Li in Hk. cbn in Hk. injection Hk as <-. destruct (H4 n (nth_error_In _ _ Hi)) as [N1 N2 N3 N4]. constructor; cbn [mark_goal n_goal n_atom n_derived n_parents n_children]; auto. split; auto.
    + cbn in Hk. destruct (H4 n' (nth_error_In _ _ Hk)) as [N1 N2 N3 N4]. constructor; auto. rewrite N1. split; auto. intros [K|K]; auto. elim Nk. apply (nodup_nth A i k (n_atom n) H2 Ai). rewrite <- K, <- H1. now apply map_nth_error.
Qed.
Lemma ginv_order A G O g i j a b : ginv A G O g -> nth_error A i = Some a -> nth_error A j = Some b -> a <> b ->
  exists g', add_ordering_if_stronger g i j = Ok g' /\ ginv A G (fun x y => O x y \/ x = a /\ y = b) g'.
Proof.
  intros H Ha Hb Nab. destruct (node_at _ _ _ _ _ _ H Ha) as (na & Hna & Ea & Oa). destruct (node_at _ _ _ _ _ _ H Hb) as (nb & Hnb & Eb & Ob). unfold add_ordering_if_stronger.
  rewrite (proj2 (vget_ok g i na) Hna). cbn [bind]. destruct (find_ordering j (n_children na)) as [ty|] eqn:Ef.
  - exists g. split; auto. assert (K : O a b).
    { unfold find_ordering in Ef. destruct (find (fun p : nat * ordering_type => fst p =? j) (n_children na)) as [[j' ty']|] eqn:E2; [|discriminate]. apply find_some in E2 as [K1 K2]. cbn in K2. apply Nat.eqb_eq in K2. subst j'.
      apply (no_children _ _ _ _ Oa) in K1 as (_ & c & K1 & K2). rewrite Ea in K2. congruence. }
    eapply ginv_ext; [| |exact H]; [tauto|]. intros x y. split; auto. intros [|[-> ->]]; auto.
  - assert (Li := nth_error_Some_lt _ _ _ Hna). assert (Lj := nth_error_Some_lt _ _ _ Hnb). assert (Nij : i <> j) by (intros ->; congruence).
    unfold vset at 1. assert (Li' := Li). apply Nat.ltb_lt in Li'. rewrite Li'. cbn [bind]. unfold vget. rewrite (upd_nth_neq g i j _ Nij), Hnb. cbn [bind]. unfold vset. rewrite upd_length. apply Nat.ltb_lt in Lj as Lj'. rewrite Lj'.
    eexists. split; [reflexivity|]. set (g' := upd (upd g i (add_child na (j, Natural))) j (add_parent nb (i, Natural))).
    assert (Hg' : forall k, nth_error g' k = if j =? k then Some (add_parent nb (i, Natural)) else if i =? k then Some (add_child na (j, Natural)) else nth_error g k).
    { intros k. unfold g'. rewrite !upd_nth, upd_length, Li', Lj', !andb_true_r. reflexivity. }
    assert (Uj : forall k c, nth_error A k = Some c -> (c = b <-> k = j)) by (intros k c Hc; split; intros ->; [eapply nodup_nth; eauto; apply (gi_nodup _ _ _ _ H)|congruence]).
    assert (Ui : forall k c, nth_error A k = Some c -> (c = a <-> k = i)) by (intros k c Hc; split; intros ->; [eapply nodup_nth; eauto; apply (gi_nodup _ _ _ _ H)|congruence]).
    constructor.
    + rewrite <- (gi_atoms _ _ _ _ H). apply nth_error_ext. intros k. rewrite !nth_error_map, Hg'. destruct (Nat.eqb_spec j k) as [<-|Nk]; [rewrite Hnb; reflexivity|]. destruct (Nat.eqb_spec i k) as [<-|Nk']; [rewrite Hna; reflexivity|reflexivity].
    + apply (gi_nodup _ _ _ _ H).
    + intros x y [K|[-> ->]]; [now apply (gi_in _ _ _ _ H)|]. split; eapply nth_error_In; eauto.
    + intros n Hn. apply In_nth_error in Hn as (k & Hk). rewrite Hg' in Hk. destruct (Nat.eqb_spec j k) as [Ejk|Nk]; [subst k|].
      { injection Hk as <-. destruct Ob as [N1 N2 N3 N4]. constructor; cbn [add_parent n_goal n_atom n_derived n_parents n_children]; auto; rewrite Eb in *.
        - intros q ty. rewrite in_app_iff, N3. cbn [In]. split.
          + intros [(K1 & c & K2 & K3)|[K|[]]]; [split; auto; exists c; auto|]. injection K as <- <-. split; auto. exists a. auto.
          + intros (-> & c & K2 & [K3|[K3 _]]); [left; eauto|right; left]. apply (Ui q c K2) in K3. now subst.
        - intros q ty. rewrite N4. split; intros (K1 & c & K2 & K3); split; auto; exists c; split; auto. destruct K3 as [K3|[K3 _]]; auto. congruence. }
      destruct (Nat.eqb_spec i k) as [Eik|Nk']; [subst k|].
      { injection Hk as <-. destruct Oa as [N1 N2 N3 N4]. constructor; cbn [add_child n_goal n_atom n_derived n_parents n_children]; auto; rewrite Ea in *.
        - intros q ty. rewrite N3. split; intros (K1 & c & K2 & K3); split; auto; exists c; split; auto. destruct K3 as [K3|[_ K3]]; auto. congruence.
        - intros q ty. rewrite in_app_iff, N4. cbn [In]. split.
          + intros [(K1 & c & K2 & K3)|[K|[]]]; [split; auto; exists c; auto|]. injection K as <- <-. split; auto. exists b. auto.
          + intros (-> & c & K2 & [K3|[_ K3]]); [left; eauto|right; left]. apply (Uj q c K2) in K3. now subst. }
      assert (Ak := atom_at _ _ _ _ _ _ H Hk). destruct (gi_nodes _ _ _ _ H n (nth_error_In _ _ Hk)) as [N1 N2 N3 N4]. constructor; auto.
      * intros q ty. rewrite N3. split; intros (K1 & c & K2 & K3); split; auto; exists c; split; auto. destruct K3 as [K3|[_ K3]]; auto. apply (Uj k _ Ak) in K3. congruence.
      * intros q ty. rewrite N4. split; intros (K1 & c & K2 & K3); split; auto; exists c; split; auto. destruct K3 as [K3|[K3 _]]; auto. apply (Ui k _ Ak) in K3. congruence.
Qed.

Section Extract.
Variables (io : list Z -> list Z) (il : list fact -> list fact).
Hypothesis Hil : forall l a, In a (il l) <-> In a l.
Variable t : task.
Hypothesis Hro : relax_ok t.
Hypothesis Hinit : state_ok t (t_init t).
Variables (use_orders : bool) (m : layer).
Notation av a := (avoiding t true (fun b => b = a)).
Notation R := (avoiding t true (fun _ => False)).
Hypothesis Hm1 : forall f, m f <> [] <-> R f.
Hypothesis Hm2 : forall f a, R f -> (In a (m f) <-> fact_ok t a /\ ~ av a f).

Lemma self f : R f -> In f (m f).
Proof. intros H. apply Hm2; auto. split; [eapply av_fact; eauto|]. intros K. apply (av_not_X _ _ _ _ K). auto. Qed.
Lemma not_both a b : a <> b -> R b -> In a (m b) -> In b (m a) -> False.
Proof.
  intros N Hb H1 H2. assert (Ha : R a) by (apply Hm1; eapply in_nonempty; eauto). apply Hm2 in H1 as [_ H1]; auto. apply Hm2 in H2 as [_ H2]; auto. destruct (landmark_antisym t a b N Ha); auto.
Qed.

Lemma goal_node A G O g a : ginv A G O g -> exists g' i A', create_goal_landmark g a = Ok (g', i) /\ ginv A' (fun b => G b \/ b = a) O g' /\ nth_error A' i = Some a /\ forall b, In b A' <-> In b A \/ b = a.
Proof.
  intros H. unfold create_goal_landmark. assert (P := position_ok _ _ _ _ a H). destruct (position a g) as [i|].
  - destruct (node_at _ _ _ _ _ _ H P) as (n & Hn & <- & _). rewrite (proj2 (vget_ok g i n) Hn). cbn [bind]. unfold vset. assert (L := nth_error_Some_lt _ _ _ Hn). apply Nat.ltb_lt in L. rewrite L. cbn [bind].
    eexists _, i, A. split; [reflexivity|]. split; [now apply ginv_mark|]. split; auto. intros b. split; auto. intros [| ->]; auto. eapply nth_error_In; eauto.
  - eexists _, _, (A ++ [a]). split; [reflexivity|]. split; [|split].
    + apply ginv_new; auto; [|split; auto]. eapply ginv_ext; [| |exact H]; [|tauto]. intros b Hb. split; auto. intros [| ->]; tauto.
    + rewrite <- (gi_atoms _ _ _ _ H), nth_error_app2, map_length, Nat.sub_diag by (rewrite map_length; auto). reflexivity.
    + intros b. rewrite in_app_iff. cbn [In]. intuition.
Qed.

Lemma label_nodes A G O g goal gi : ginv A G O g -> nth_error A gi = Some goal -> R goal -> ~ G goal \/ G goal -> (forall a, In a (m goal) -> a <> goal -> ~ O goal a) ->
  (forall a, G a -> In a A) ->
  exists g' A', extract_from_goal_labels il t use_orders m goal gi g = Ok g' /\ ginv A' G (fun x y => O x y \/ use_orders = true /\ y = goal /\ x <> goal /\ In x (m goal)) g' /\ forall b, In b A' <-> In b A \/ In b (m goal).
Proof.
  intros H Hgi HR _ HO HG. unfold extract_from_goal_labels. assert (Hf : fact_ok t goal) by (eapply av_fact; eauto). rewrite (fget_ok t m goal Hf). cbn [bind].
  destruct (fold_inv (fun g a =>
    if fact_eqb a goal then Ok g else
    let (g, i) := match position a g with Some i => (g, i) | None => (g ++ [new_node a false], length g) end in
    if use_orders then
      let* n := vget g i in
      let* _ := guard (match find_ordering gi (n_parents n) with None => true | Some _ => false end) in
      let* gn := vget g gi in
      let* _ := guard (match find_ordering i (n_children gn) with None => true | Some _ => false end) in
      add_ordering_if_stronger g i gi
    else Ok g) (fun pre g => exists A', ginv A' G (fun x y => O x y \/ use_orders = true /\ y = goal /\ x <> goal /\ In x pre) g /\ nth_error A' gi = Some goal /\ forall b, In b A' <-> In b A \/ In b pre) (il (m goal)) g) as (g' & E & A' & I1 & I2 & I3).
  - exists A. splits; auto; [|intros b; cbn [In]; tauto]. eapply ginv_ext; [| |exact H]; [tauto|]. intros x y. cbn [In]. tauto.
  - intros pre a post g1 E (A1 & I1 & I2 & I3). assert (Ham : In a (m goal)) by (apply Hil; rewrite E; apply in_app_iff; right; now left).
    destruct (fact_eqb a goal) eqn:Eg.
    { apply fact_eqb_spec in Eg. subst a. exists g1. split; auto. exists A1. splits; auto.
      - eapply ginv_ext; [| |exact I1]; [tauto|]. intros x y. rewrite in_app_iff. cbn [In]. intuition congruence.
      - intros b. rewrite I3, in_app_iff. cbn [In]. assert (Hg0 : In goal A) by (eapply nth_error_In; eauto). intuition (subst; auto). }
    apply fact_eqb_false in Eg.
    assert (P : exists A2 i, ginv A2 G (fun x y => O x y \/ use_orders = true /\ y = goal /\ x <> goal /\ In x pre)
      (fst (match position a g1 with Some i => (g1, i) | None => (g1 ++ [new_node a false], length g1) end)) /\ nth_error A2 gi = Some goal /\ nth_error A2 i = Some a /\ i = snd (match position a g1 with Some i => (g1, i) | None => (g1 ++ [new_node a false], length g1) end) /\
      forall b, In b A2 <-> In b A \/ In b (pre ++ [a])).
    { assert (P := position_ok _ _ _ _ a I1). destruct (position a g1) as [i|]; cbn [fst snd].
      - exists A1, i. splits; auto. intros b. rewrite I3, in_app_iff. cbn [In]. assert (K := nth_error_In _ _ P). apply I3 in K. intuition (subst; auto).
      - exists (A1 ++ [a]), (length g1). splits; auto.
        + apply ginv_new; auto. split; [discriminate|]. intros K. elim P. apply I3. left. auto.
        + rewrite nth_error_app1; auto. eapply nth_error_Some_lt; eauto.
        + rewrite <- (gi_atoms _ _ _ _ I1), nth_error_app2, map_length, Nat.sub_diag by (rewrite map_length; auto). reflexivity.
        + intros b. rewrite !in_app_iff, I3. tauto. }
    destruct P as (A2 & i & J1 & J2 & J3 & J4 & J5). destruct (match position a g1 with Some i => (g1, i) | None => (g1 ++ [new_node a false], length g1) end) as [g2 i2]. cbn [fst snd] in *. subst i2.
    destruct use_orders eqn:Eu.
    + destruct (node_at _ _ _ _ _ _ J1 J3) as (na & Hna & Ea & Oa). destruct (node_at _ _ _ _ _ _ J1 J2) as (nb & Hnb & Eb & Ob).
      rewrite (proj2 (vget_ok g2 i na) Hna). cbn [bind]. assert (NO : ~ (O goal a \/ true = true /\ a = goal /\ goal <> goal /\ In goal pre)) by (intros [K|(_ & K & _)]; [now apply (HO a Ham Eg)|congruence]).
      replace (find_ordering gi (n_parents na)) with (@None ordering_type).
      2:{ symmetry. apply find_none. intros ty K. apply (no_parents _ _ _ _ Oa) in K as (_ & c & K1 & K2). rewrite Ea in K2. assert (c = goal) by congruence. subst c. auto. }
      cbn [guard bind]. rewrite (proj2 (vget_ok g2 gi nb) Hnb). cbn [bind]. replace (find_ordering i (n_children nb)) with (@None ordering_type).
      2:{ symmetry. apply find_none. intros ty K. apply (no_children _ _ _ _ Ob) in K as (_ & c & K1 & K2). rewrite Eb in K2. assert (c = a) by congruence. subst c. auto. }
      cbn [guard bind]. destruct (ginv_order _ _ _ _ i gi a goal J1 J3 J2 Eg) as (g3 & E3 & K). exists g3. split; auto. exists A2. splits; auto. eapply ginv_ext; [| |exact K]; [tauto|].
      intros x y. rewrite in_app_iff. cbn [In]. intuition (subst; auto).
    + exists g2. split; auto. exists A2. splits; auto. eapply ginv_ext; [| |exact J1]; [tauto|]. intros x y. intuition discriminate.
  - exists g', A'. splits; auto.
    + eapply ginv_ext; [| |exact I1]; [tauto|]. intros x y. cbv beta; rewrite Hil. tauto.
    + intros b. rewrite I3, Hil. tauto.
Qed.

Lemma goals_nodes gs : (forall y, In y gs -> R y) -> exists g A, fold_outcome (fun g goal => let* r := create_goal_landmark g goal in extract_from_goal_labels il t use_orders m goal (snd r) (fst r)) gs [] = Ok g /\
  ginv A (fun a => In a gs) (fun x y => use_orders = true /\ In y gs /\ x <> y /\ In x (m y)) g /\ forall a, In a A <-> exists y, In y gs /\ In a (m y).
Proof.
  intros HR. destruct (fold_inv (fun g goal => let* r := create_goal_landmark g goal in extract_from_goal_labels il t use_orders m goal (snd r) (fst r)) (fun pre g => exists A,
    ginv A (fun a => In a pre) (fun x y => use_orders = true /\ In y pre /\ x <> y /\ In x (m y)) g /\ forall a, In a A <-> exists y, In y pre /\ In a (m y)) gs []) as (g & E & A & H1 & H2).
  - exists []. split.
    + constructor; auto; [constructor|intros a b (_ & [] & _)|intros n []].
    + intros a. cbn [In]. split; [intros []|intros (y & [] & _)].
  - intros pre goal post g E (A & H1 & H2). assert (Hg : R goal) by (apply HR; rewrite E; apply in_app_iff; right; now left). destruct (goal_node _ _ _ _ goal H1) as (g1 & i & A1 & E1 & K1 & K2 & K3). rewrite E1. cbn [bind fst snd].
    destruct (label_nodes _ _ _ _ goal i K1 K2 Hg) as (g2 & A2 & E2 & L1 & L2).
    + right. auto.
    + intros a Ha Na (_ & K4 & _ & K5). apply (not_both a goal Na Hg Ha K5).
    + intros a [Ha| ->]; [|eapply nth_error_In; eauto]. apply K3. left. apply H2. exists a. split; auto. apply self, HR. rewrite E. apply in_app_iff. auto.
    + exists g2. split; auto. exists A2. split.
      * eapply ginv_ext; [| |exact L1].
        -- intros a _. rewrite in_app_iff. cbn [In]. intuition.
        -- intros x y. rewrite in_app_iff. cbn [In]. intuition (subst; auto).
      * intros a. rewrite L2, K3, H2. split.
        -- intros [[(y & Q1 & Q2)| ->]|Q]; [exists y|exists goal; split; [|now apply self]|exists goal]; rewrite in_app_iff; cbn [In]; auto.
        -- intros (y & Q1 & Q2). apply in_app_iff in Q1 as [Q1|[<-|[]]]; eauto.
  - exists g, A. auto.
Qed.
Lemma unreached_ok gs : Forall (fact_ok t) gs -> exists u, unreached_goal t m gs = Ok u /\ match u with Some f => In f gs /\ ~ R f | None => forall f, In f gs -> R f end.
Proof.
  induction 1 as [|f gs Hf _ (u & E & IH)]; cbn [unreached_goal]; [exists None; split; auto; intros f []|]. rewrite (fget_ok t m f Hf). cbn [bind]. destruct (is_reached (m f)) eqn:Er.
  - apply reached_iff, Hm1 in Er. exists u. split; auto. destruct u as [f'|]; [destruct IH; split; auto; now right|]. intros f' [<-|Hf']; auto.
  - exists (Some f). split; auto. split; [now left|]. intros K. apply Hm1, reached_iff in K. congruence.
Qed.
Theorem extract_ok : exists g, extract_landmarks il t use_orders m = Ok g /\
  ((exists f, In f (t_goal t) /\ ~ R f /\ g = [new_node f true]) \/
   ((forall f, In f (t_goal t) -> R f) /\ exists A, ginv A (fun a => In a (t_goal t)) (fun x y => use_orders = true /\ In y (t_goal t) /\ x <> y /\ In x (m y)) g /\ forall a, In a A <-> exists y, In y (t_goal t) /\ In a (m y))).
Proof.
  unfold extract_landmarks. destruct (unreached_ok (t_goal t)) as (u & E & H); [now destruct Hro as (_ & _ & K)|]. rewrite E. cbn [bind]. destruct u as [f|].
  - exists [new_node f true]. split; auto. left. exists f. destruct H. auto.
  - destruct (goals_nodes (t_goal t) H) as (g & A & Eg & H1 & H2). exists g. split; auto. right. split; auto. exists A. auto.
Qed.
End Extract.

Section ZG.
Variables (io : list Z -> list Z) (il : list fact -> list fact).
Hypothesis Hio : forall l i, In i (io l) <-> In i l.
Hypothesis Hil : forall l a, In a (il l) <-> In a l.
Variable t : task.
Hypothesis Hro : relax_ok t.
Hypothesis Hinit : state_ok t (t_init t).
Variable use_orders : bool.
Notation av a := (avoiding t true (fun b => b = a)).
Notation R := (avoiding t true (fun _ => False)).

(** Which graph is generated, before and after adding the achievers. *)
Theorem zg_graph : exists g g', compute_landmark_graph io il t (ZhuGivan use_orders) = Ok g' /\ Forall2 (achieved t) g g' /\
  ((exists f, In f (t_goal t) /\ ~ R f /\ g = [new_node f true]) \/
   ((forall f, In f (t_goal t) -> R f) /\ exists A,
      ginv A (fun a => In a (t_goal t)) (fun x y => use_orders = true /\ In y (t_goal t) /\ x <> y /\ fact_ok t x /\ ~ av x y) g /\
      forall a, In a A <-> fact_ok t a /\ needed t true a)).
Proof.
  unfold compute_landmark_graph. rewrite (new_exploration_ok t Hro). cbn [bind generate_relaxed_landmarks].
  destruct (labels_exact io il Hio Hil t Hro Hinit) as (m & E & M1 & M2 & M3). rewrite E. cbn [bind].
  destruct (extract_ok il Hil t Hro Hinit use_orders m M1 M3) as (g & Eg & H). rewrite Eg. cbn [bind fst snd].
  assert (H' : (exists f, In f (t_goal t) /\ ~ R f /\ g = [new_node f true]) \/
   ((forall f, In f (t_goal t) -> R f) /\ exists A,
      ginv A (fun a => In a (t_goal t)) (fun x y => use_orders = true /\ In y (t_goal t) /\ x <> y /\ fact_ok t x /\ ~ av x y) g /\
      forall a, In a A <-> fact_ok t a /\ needed t true a)).
  { destruct H as [H|(HR & A & H1 & H2)]; [auto|right]. split; auto. exists A. split.
    - eapply ginv_ext; [| |exact H1]; [tauto|]. intros x y. split; intros (K1 & K2 & K3 & K4); splits; auto; try (apply M3 in K4; auto; tauto); apply M3; auto; tauto.
    - intros a. rewrite H2. split.
      + intros (y & K1 & K2). apply M3 in K2 as [K2 K3]; auto. split; auto. intros K. apply K3, K, K1.
      + intros [Ha Hn]. assert (G : forall l, (forall f, In f l -> av a f) \/ exists f, In f l /\ ~ av a f) by (intros l; apply all_avoid; auto). destruct (G (t_goal t)) as [K|(f & K1 & K2)]; [elim (Hn K)|]. exists f. split; auto. apply M3; auto. }
  destruct (calc_achievers_ok t Hro Hinit g {| ex_reached := fun _ => false; ex_excluded := fun _ => false |}) as (g' & ex' & E' & H5); [|intros f; reflexivity|].
  { apply Forall_forall. intros n Hn. destruct H' as [(f & K1 & _ & ->)|(_ & A & K1 & K2)].
    - destruct Hn as [<-|[]]. cbn. destruct Hro as (_ & _ & HG). rewrite Forall_forall in HG. auto.
    - apply K2. rewrite <- (gi_atoms _ _ _ _ K1). now apply in_map. }
  rewrite E'. cbn [bind fst]. exists g, g'. auto.
Qed.
End ZG.
