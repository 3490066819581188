(** Landmark progression: what one notification does to the bits. *)
From Verif Require Import Outcome Spec_Task Spec_Relaxation Spec_Landmarks Model_Task Model_Landmarks Proof_Task Proof_PerState2.
Local Open Scope nat_scope.

Lemma state_eqb_ok s s' : state_eqb s s' = true <-> s = s'.
Proof. unfold state_eqb. destruct (list_eq_dec Nat.eq_dec s s'); split; auto; discriminate. Qed.

Definition T (l : landmark) (s : state) : bool :=
  if lm_disjunctive l then existsb (holdsb s) (lm_atoms l) else forallb (holdsb s) (lm_atoms l).
Lemma T_ok l s : T l s = true <-> lm_true l s.
Proof.
  unfold T, lm_true. destruct (lm_disjunctive l).
  - rewrite existsb_exists. split; intros (f & A & B); exists f; split; auto; apply holdsb_spec; auto.
  - rewrite forallb_forall. split; intros H f Hf; apply holdsb_spec; auto.
Qed.
Lemma T_false l s : T l s = false <-> ~ lm_true l s.
Proof. rewrite <- T_ok. destruct (T l s); split; congruence. Qed.
Lemma lm_dec l s : lm_true l s \/ ~ lm_true l s.
Proof. rewrite <- T_ok. destruct (T l s); auto. Qed.

Lemma any_of_ok {A} (p : A -> outcome bool) q l : (forall x, In x l -> p x = Ok (q x)) -> any_of p l = Ok (existsb q l).
Proof.
  induction l as [|x l IH]; intros H; cbn [any_of existsb]; auto. rewrite H by (left; auto). cbn [bind].
  destruct (q x); cbn [orb]; auto. apply IH. intros y Hy. apply H. right; auto.
Qed.
Lemma all_of_ok {A} (p : A -> outcome bool) q l : (forall x, In x l -> p x = Ok (q x)) -> all_of p l = Ok (forallb q l).
Proof.
  induction l as [|x l IH]; intros H; cbn [all_of forallb]; auto. rewrite H by (left; auto). cbn [bind].
  destruct (q x); cbn [andb]; auto. apply IH. intros y Hy. apply H. right; auto.
Qed.

Definition bit (b : list bool) (i : nat) : bool := nth i b false.
Lemma vget_bit b i : i < length b -> vget b i = Ok (bit b i).
Proof. intros H. unfold bit. apply vget_ok. apply nth_error_nth'. auto. Qed.
Lemma vset_bit (b : list bool) i x : i < length b -> vset b i x = Ok (upd b i x).
Proof. intros H. apply vset_ok. auto. Qed.
Lemma bit_upd (b : list bool) i x j : i < length b -> bit (upd b i x) j = if j =? i then x else bit b j.
Proof.
  intros H. unfold bit. destruct (Nat.eqb_spec j i) as [->|Hn].
  - apply nth_error_nth. apply upd_nth_eq. auto.
  - destruct (Nat.lt_ge_cases j (length b)) as [Hj|Hj].
    + apply nth_error_nth. rewrite upd_nth_neq by auto. apply nth_error_nth'. auto.
    + rewrite !nth_overflow; auto. rewrite upd_length. auto.
Qed.
Lemma bit_repeat x n i : i < n -> bit (repeat x n) i = x.
Proof. unfold bit. revert i. induction n as [|n IH]; intros [|i] H; cbn [repeat nth]; try lia; auto. apply IH. lia. Qed.

Section graph.
Variable t : task.
Variable g : graph.
Hypothesis Hg : graph_ok t g.
Notation n := (length g).
Definition lengthy (s : state) := length s = length (t_vars t).

Lemma state_lengthy s : state_ok t s -> lengthy s.
Proof. unfold lengthy. induction 1; cbn [length]; auto. Qed.
Lemma progress_lengthy s o s' : lengthy s -> progress t s o s' -> lengthy s'.
Proof. intros H (op & s1 & _ & L & _ & L' & _). unfold lengthy in *. congruence. Qed.

Lemma is_true_ok l s : In l g -> lengthy s -> is_true l s = Ok (T l s).
Proof.
  intros Hl Hs. pose proof (graph_atoms t g Hg l Hl) as HA. rewrite Forall_forall in HA. unfold is_true, T.
  assert (E : forall f, In f (lm_atoms l) -> atom_true s f = Ok (holdsb s f)).
  { intros f Hf. destruct (HA f Hf) as (x & Hx & _). unfold atom_true, holdsb, is_var in *.
    apply nth_error_Some_lt in Hx. unfold vget. destruct (nth_error s (fst f)) as [y|] eqn:E.
    - cbn [bind]. auto.
    - apply nth_error_None in E. unfold lengthy in Hs. lia. }
  destruct (lm_disjunctive l); [apply any_of_ok | apply all_of_ok]; auto.
Qed.

Lemma nodes_fold {B} (step : B -> nat * landmark -> outcome B) (Inv : nat -> B -> Prop) b :
  (forall i l b, nth_error g i = Some l -> Inv i b -> exists b', step b (i, l) = Ok b' /\ Inv (S i) b') ->
  Inv 0 b -> exists b', fold_outcome step (nodes g) b = Ok b' /\ Inv n b'.
Proof.
  intros Hstep H0. unfold nodes.
  assert (K : forall (g1 : graph) k b, (forall i l, nth_error g1 i = Some l -> nth_error g (k + i) = Some l) -> Inv k b ->
     exists b', fold_outcome step (combine (seq k (length g1)) g1) b = Ok b' /\ Inv (k + length g1) b').
  { induction g1 as [|l g1 IH]; intros k c Hn Hk; cbn [length seq combine fold_outcome].
    - exists c. split; auto. rewrite Nat.add_0_r. auto.
    - destruct (Hstep k l c) as (c' & E & Hc'); auto. { rewrite <- (Nat.add_0_r k). apply Hn. auto. }
      rewrite E. cbn [bind]. destruct (IH (S k) c') as (c2 & E2 & H2); auto.
      { intros i l' Hi. replace (S k + i) with (k + S i) by lia. apply Hn. auto. }
      exists c2. split; auto. replace (k + S (length g1)) with (S k + length g1) by lia. auto. }
  apply (K g 0 b); auto.
Qed.

Definition node_lt i l (H : nth_error g i = Some l) : i < n := nth_error_Some_lt _ _ _ H.

(** Bitwise result of a loop that only touches the bit of the node at hand. *)
Lemma future_fold (step : list bool -> nat * landmark -> outcome (list bool)) (F : nat -> landmark -> bool) b :
  (forall i l b, nth_error g i = Some l -> length b = n ->
     step b (i, l) = if F i l then vset b i true else Ok b) ->
  length b = n ->
  exists b', fold_outcome step (nodes g) b = Ok b' /\ length b' = n /\
    forall i l, nth_error g i = Some l -> bit b' i = bit b i || F i l.
Proof.
  intros Hs Hb.
  destruct (nodes_fold step (fun k c => length c = n /\
      (forall i l, nth_error g i = Some l -> bit c i = if i <? k then bit b i || F i l else bit b i)) b)
    as (b' & E & L & HB).
  - intros i l c Hi [L HB]. pose proof (node_lt i l Hi) as Hlt. rewrite Hs by auto.
    assert (HB' : forall v, v = bit b i || F i l -> forall j l', nth_error g j = Some l' ->
       (if j =? i then v else bit c j) = if j <? S i then bit b j || F j l' else bit b j).
    { intros v -> j l' Hj. destruct (Nat.eqb_spec j i) as [->|Hne].
      - assert (l' = l) by congruence. subst l'. replace (i <? S i) with true by (symmetry; apply Nat.ltb_lt; lia). auto.
      - rewrite (HB j l') by auto. destruct (Nat.ltb_spec j i), (Nat.ltb_spec j (S i)); auto; lia. }
    destruct (F i l) eqn:EF.
    + rewrite vset_bit by lia. eexists. splits; eauto. { rewrite upd_length. auto. }
      intros j l' Hj. rewrite bit_upd by lia. apply (HB' true); auto. rewrite orb_true_r. auto.
    + exists c. splits; auto. intros j l' Hj. rewrite <- (HB' (bit c i)); auto.
      * destruct (Nat.eqb_spec j i) as [->|]; auto.
      * rewrite (HB i l) by auto. rewrite Nat.ltb_irrefl, orb_false_r. auto.
  - split; auto.
  - exists b'. splits; auto. intros i l Hi. rewrite (HB i l Hi).
    replace (i <? n) with true; auto. symmetry. apply Nat.ltb_lt. eapply node_lt; eauto.
Qed.

Lemma pair_fold (step : list bool * list bool -> nat * landmark -> outcome (list bool * list bool))
    (P F : nat -> landmark -> bool) pa fu :
  (forall i l p f, nth_error g i = Some l -> length p = n -> length f = n -> bit p i = bit pa i ->
     step (p, f) (i, l) = Ok (if P i l then upd p i false else p, if F i l then upd f i true else f)) ->
  length pa = n -> length fu = n ->
  exists pa' fu', fold_outcome step (nodes g) (pa, fu) = Ok (pa', fu') /\ length pa' = n /\ length fu' = n /\
    forall i l, nth_error g i = Some l -> bit pa' i = bit pa i && negb (P i l) /\ bit fu' i = bit fu i || F i l.
Proof.
  intros Hs Hp Hf.
  destruct (nodes_fold step (fun k c => length (fst c) = n /\ length (snd c) = n /\
      (forall i l, nth_error g i = Some l ->
         bit (fst c) i = (if i <? k then bit pa i && negb (P i l) else bit pa i) /\
         bit (snd c) i = (if i <? k then bit fu i || F i l else bit fu i))) (pa, fu))
    as ([pa' fu'] & E & L1 & L2 & HB).
  - intros i l [p f] Hi (L1 & L2 & HB). cbn [fst snd] in *. pose proof (node_lt i l Hi) as Hlt.
    destruct (HB i l Hi) as [HBi1 HBi2]. rewrite Nat.ltb_irrefl in HBi1, HBi2.
    rewrite Hs by auto. eexists. split; [reflexivity|]. cbn [fst snd].
    assert (Li : forall (c : bool) (b : list bool) x, length b = n -> length (if c then upd b i x else b) = n).
    { intros [] b x Hb; auto. rewrite upd_length. auto. }
    assert (Bi : forall (c : bool) (b : list bool) x j, length b = n ->
       bit (if c then upd b i x else b) j = if j =? i then (if c then x else bit b i) else bit b j).
    { intros [] b x j Hb. - rewrite bit_upd by lia. auto. - destruct (Nat.eqb_spec j i) as [->|]; auto. }
    splits; auto. intros j l' Hj. rewrite !Bi by auto. destruct (HB j l' Hj) as [HBj1 HBj2].
    destruct (Nat.eqb_spec j i) as [->|Hne].
    + assert (l' = l) by congruence. subst l'. replace (i <? S i) with true by (symmetry; apply Nat.ltb_lt; lia).
      rewrite HBi1, HBi2. split.
      * destruct (P i l); cbn [negb]; rewrite ?andb_false_r, ?andb_true_r; auto.
      * destruct (F i l); rewrite ?orb_true_r, ?orb_false_r; auto.
    + rewrite HBj1, HBj2. destruct (Nat.ltb_spec j i), (Nat.ltb_spec j (S i)); auto; lia.
  - cbn [fst snd]. splits; auto.
  - exists pa', fu'. splits; auto. intros i l Hi. specialize (HB i l Hi).
    replace (i <? n) with true in HB; auto. symmetry. apply Nat.ltb_lt. eapply node_lt; eauto.
Qed.

Definition node_in i l (H : nth_error g i = Some l) : In l g := nth_error_In _ _ H.

Definition has_false_parent (s : state) (l : landmark) : bool :=
  existsb (fun pr : nat * ordering_type => match nth_error g (fst pr) with Some a => negb (T a s) | None => false end) (lm_parents l).

(** The initial state. *)
Lemma initial_bits s pa fu : lengthy s -> length pa = n -> length fu = n ->
  (forall i l, nth_error g i = Some l -> T l s = true -> bit pa i = true) ->
  exists pa' fu', fold_outcome (initial_step g s) (nodes g) (pa, fu) = Ok (pa', fu') /\
    length pa' = n /\ length fu' = n /\
    forall i l, nth_error g i = Some l -> bit pa' i = bit pa i && T l s /\
      bit fu' i = bit fu i || (negb (T l s) || has_false_parent s l).
Proof.
  intros Hs Hp Hf HT.
  destruct (pair_fold (initial_step g s) (fun i l => negb (T l s)) (fun i l => negb (T l s) || has_false_parent s l) pa fu)
    as (pa' & fu' & E & L1 & L2 & HB); auto.
  - intros i l p f Hi Lp Lf Hb. pose proof (node_lt i l Hi) as Hlt. unfold initial_step. cbn [fst snd].
    rewrite (is_true_ok l s) by (auto; eapply node_in; eauto). cbn [bind]. destruct (T l s) eqn:ET; cbn [negb orb].
    + rewrite vget_bit by lia. cbn [bind]. rewrite Hb, (HT i l) by auto. cbn [guard bind].
      unfold some_parent_false.
      rewrite (any_of_ok _ (fun pr : nat * ordering_type => match nth_error g (fst pr) with Some a => negb (T a s) | None => false end)).
      2:{ intros [j ty] Hj. cbn [fst]. destruct (graph_ends t g Hg i l Hi j ty) as [_ HP]. destruct (HP Hj) as (a & Ha & _).
          unfold vget. rewrite Ha. cbn [bind]. rewrite (is_true_ok a s) by (auto; eapply node_in; eauto). auto. }
      cbn [bind]. unfold has_false_parent. destruct existsb; auto. rewrite vset_bit by lia. auto.
    + rewrite !vset_bit by lia. auto.
  - exists pa', fu'. splits; auto. intros i l Hi. destruct (HB i l Hi) as [A B]. rewrite A, B, negb_involutive. auto.
Qed.

Lemma landmark_bits pp pfu p s pa fu : lengthy p -> lengthy s -> length pp = n -> length pfu = n ->
  length pa = n -> length fu = n ->
  (forall i l, nth_error g i = Some l -> T l p = true -> bit pp i = true) ->
  exists pa' fu', fold_outcome (landmark_step pp pfu p s) (nodes g) (pa, fu) = Ok (pa', fu') /\
    length pa' = n /\ length fu' = n /\
    forall i l, nth_error g i = Some l ->
      bit pa' i = bit pa i && negb (bit pfu i && negb (T l s) && negb (bit pp i)) /\
      bit fu' i = bit fu i || (bit pfu i && (negb (T l s) || T l p)).
Proof.
  intros Hlp Hs Lpp Lpfu Hp Hf HT.
  apply (pair_fold (landmark_step pp pfu p s) (fun i l => bit pfu i && negb (T l s) && negb (bit pp i))
                                              (fun i l => bit pfu i && (negb (T l s) || T l p)) pa fu); auto.
  intros i l q f Hi Lp Lf Hb. pose proof (node_lt i l Hi) as Hlt. pose proof (node_in i l Hi) as Hin.
  unfold landmark_step. cbn [fst snd]. rewrite vget_bit by lia. cbn [bind]. destruct (bit pfu i); cbn [andb]; auto.
  rewrite (is_true_ok l s) by auto. cbn [bind]. destruct (T l s); cbn [negb andb orb].
  - rewrite (is_true_ok l p) by auto. cbn [bind]. destruct (T l p) eqn:EP; auto.
    rewrite vget_bit by lia. cbn [bind]. rewrite (HT i l) by auto. cbn [guard bind]. rewrite vset_bit by lia. auto.
  - rewrite vset_bit by lia. cbn [bind]. rewrite vget_bit by lia. cbn [bind]. destruct (bit pp i); cbn [negb]; auto.
    rewrite vset_bit by lia. auto.
Qed.

Definition gn_due (s : state) (pa : list bool) (l : landmark) : bool :=
  existsb (fun c : nat * ordering_type => is_gn (snd c) && (negb (bit pa (fst c)) && negb (T l s))) (lm_children l).
Definition reasonable_due (pa : list bool) (l : landmark) : bool :=
  existsb (fun c : nat * ordering_type => is_reasonable (snd c) && negb (bit pa (fst c))) (lm_parents l).

Lemma existsb_filter {A} (f q : A -> bool) l : existsb q (filter f l) = existsb (fun x => f x && q x) l.
Proof. induction l as [|x l IH]; cbn [filter existsb]; auto. destruct (f x); cbn [existsb andb orb]; rewrite IH; auto. Qed.

Lemma on_or_off (b : bool) (step : list bool -> nat * landmark -> outcome (list bool)) (F : nat -> landmark -> bool) c :
  (forall i l b, nth_error g i = Some l -> length b = n -> step b (i, l) = if F i l then vset b i true else Ok b) ->
  length c = n ->
  exists c', fold_outcome step (if b then nodes g else []) c = Ok c' /\ length c' = n /\
    forall i l, nth_error g i = Some l -> bit c' i = bit c i || (b && F i l).
Proof.
  intros Hs Hc. destruct b.
  - apply (future_fold step F c); auto.
  - exists c. splits; auto. intros i l _. cbn [andb]. rewrite orb_false_r. auto.
Qed.

Lemma others_bits opt s pa fu : lengthy s -> length pa = n -> length fu = n ->
  exists f1 f2 f3,
    fold_outcome (goal_step s) (if prog_goal opt then nodes g else []) fu = Ok f1 /\
    fold_outcome (gn_step s pa) (if prog_gn opt then nodes g else []) f1 = Ok f2 /\
    fold_outcome (reasonable_step pa) (if prog_r opt then nodes g else []) f2 = Ok f3 /\ length f3 = n /\
    forall i l, nth_error g i = Some l ->
      bit f3 i = bit fu i || (prog_goal opt && (lm_goal l && negb (T l s))) || (prog_gn opt && gn_due s pa l)
                 || (prog_r opt && reasonable_due pa l).
Proof.
  intros Hs Hp Hf.
  destruct (on_or_off (prog_goal opt) (goal_step s) (fun i l => lm_goal l && negb (T l s)) fu) as (f1 & E1 & L1 & H1); auto.
  { intros i l b Hi Lb. unfold goal_step. cbn [fst snd]. destruct (lm_goal l); cbn [andb]; auto.
    rewrite (is_true_ok l s) by (auto; eapply node_in; eauto). cbn [bind]. destruct (T l s); auto. }
  destruct (on_or_off (prog_gn opt) (gn_step s pa) (fun i l => gn_due s pa l) f1) as (f2 & E2 & L2 & H2); auto.
  { intros i l b Hi Lb. unfold gn_step, gn_due. cbn [fst snd].
    rewrite (any_of_ok _ (fun c : nat * ordering_type => negb (bit pa (fst c)) && negb (T l s))).
    - cbn [bind]. rewrite existsb_filter. auto.
    - intros [j ty] Hj. apply filter_In in Hj as [Hj _]. cbn [fst].
      destruct (graph_ends t g Hg i l Hi j ty) as [HC _]. destruct (HC Hj) as (a & Ha & _). apply node_lt in Ha.
      rewrite vget_bit by lia. cbn [bind]. destruct (bit pa j); cbn [negb andb]; auto.
      rewrite (is_true_ok l s) by (auto; eapply node_in; eauto). auto. }
  destruct (on_or_off (prog_r opt) (reasonable_step pa) (fun i l => reasonable_due pa l) f2) as (f3 & E3 & L3 & H3); auto.
  { intros i l b Hi Lb. unfold reasonable_step, reasonable_due. cbn [fst snd].
    rewrite (any_of_ok _ (fun c : nat * ordering_type => negb (bit pa (fst c)))).
    - cbn [bind]. rewrite existsb_filter. auto.
    - intros [j ty] Hj. apply filter_In in Hj as [Hj _]. cbn [fst].
      destruct (graph_ends t g Hg i l Hi j ty) as [_ HC]. destruct (HC Hj) as (a & Ha & _). apply node_lt in Ha.
      rewrite vget_bit by lia. auto. }
  exists f1, f2, f3. splits; auto. intros i l Hi. rewrite (H3 i l Hi), (H2 i l Hi), (H1 i l Hi). auto.
Qed.
End graph.
