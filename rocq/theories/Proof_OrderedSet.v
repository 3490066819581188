(** OrderedSet histories. *)
From Verif Require Import Outcome Spec_OrderedSet Model_OrderedSet.
From Coq Require Import Permutation.

Section P.
Context {T : Type}.
Variable eqb : T -> T -> bool.
Hypothesis eqb_ok : forall x y, reflect (x = y) (eqb x y).
Notation fo := (first_occurrences eqb).

Lemma existsb_In x l : existsb (eqb x) l = true <-> In x l.
Proof.
  rewrite existsb_exists. split.
  - intros (y & Hy & E). destruct (eqb_ok x y); [subst; auto|discriminate].
  - intros H. exists x. split; auto. destruct (eqb_ok x x); auto.
Qed.
Lemma existsb_notIn x l : existsb (eqb x) l = false <-> ~ In x l.
Proof. rewrite <- existsb_In. destruct (existsb (eqb x) l); split; intros; try congruence; tauto. Qed.

Lemma In_fo x l : In x (fo l) <-> In x l.
Proof.
  induction l as [|y l IH]; cbn; [tauto|]. rewrite filter_In, IH. split; [tauto|].
  intros [H|H]; auto. destruct (eqb_ok y x); auto.
Qed.
Lemma NoDup_fo l : NoDup (fo l).
Proof.
  induction l as [|y l IH]; cbn; constructor.
  - rewrite filter_In. intros [_ H]. destruct (eqb_ok y y); [discriminate|congruence].
  - now apply NoDup_filter.
Qed.
Lemma fo_snoc l x : fo (l ++ [x]) = if existsb (eqb x) l then fo l else fo l ++ [x].
Proof.
  induction l as [|y l IH]; cbn; auto. rewrite IH.
  destruct (eqb_ok x y) as [->|Hn]; cbn [orb].
  - destruct (existsb (eqb y) l); auto. rewrite filter_app. cbn.
    destruct (eqb_ok y y); [|congruence]. cbn. now rewrite app_nil_r.
  - destruct (existsb (eqb x) l); auto. rewrite filter_app. cbn.
    destruct (eqb_ok y x); [congruence|]. reflexivity.
Qed.

Lemma swap_perm (l : list T) i j : Permutation l (swap l i j).
Proof.
  unfold swap. destruct (nth_error l i) as [x|] eqn:Ei; auto. destruct (nth_error l j) as [y|] eqn:Ej; auto.
  destruct (Nat.eq_dec i j) as [->|Hne].
  - rewrite Ei in Ej. inv Ej. rewrite !upd_same; auto. rewrite upd_same; auto.
  - apply Permutation_nth_error. split; [now rewrite !upd_length|].
    exists (fun k => if k =? i then j else if k =? j then i else k). split.
    + intros a b. destruct (Nat.eqb_spec a i), (Nat.eqb_spec a j), (Nat.eqb_spec b i), (Nat.eqb_spec b j); intros; subst; lia.
    + intros k. rewrite !upd_nth, upd_length.
      pose proof (nth_error_Some_lt _ _ _ Ei). pose proof (nth_error_Some_lt _ _ _ Ej).
      destruct (Nat.eqb_spec k i), (Nat.eqb_spec k j), (Nat.eqb_spec j k), (Nat.eqb_spec i k); subst; try congruence; auto;
      repeat match goal with |- context [?a <? ?b] => destruct (Nat.ltb_spec a b); try lia end; auto.
Qed.
Lemma shuffle_perm cs : forall k (l : list T), Permutation l (shuffle_from k cs l).
Proof. induction cs as [|c cs IH]; intros; cbn; auto. eapply Permutation_trans; [apply swap_perm|apply IH]. Qed.

Definition os_inv (s : oset) (acc : list T) : Prop :=
  Permutation (ordered_items s) (fo acc) /\ Permutation (unordered_items s) (fo acc).

Lemma os_step_inv s acc op : os_inv s acc -> exists s', os_step eqb s op = Ok s' /\ os_inv s' (inserted [op] acc).
Proof.
  intros [H1 H2]. destruct op as [x| | |cs]; cbn [os_step inserted].
  - unfold os_insert, hs_insert.
    assert (Hm : existsb (eqb x) (unordered_items s) = existsb (eqb x) acc).
    { apply eq_true_iff_eq. rewrite !existsb_In, <- (In_fo x acc). split; apply Permutation_in; auto using Permutation_sym. }
    rewrite Hm. unfold os_check. cbn [ordered_items unordered_items].
    assert (Hlen : length (unordered_items s) = length (ordered_items s)).
    { rewrite (Permutation_length H1), (Permutation_length H2). reflexivity. }
    destruct (existsb (eqb x) acc) eqn:E; cbn [length].
    + rewrite Hlen, Nat.eqb_refl. cbn. eexists; split; [reflexivity|]. split; cbn; rewrite fo_snoc, E; auto.
    + rewrite app_length, Hlen. cbn [length]. rewrite Nat.add_1_r, Nat.eqb_refl. cbn. eexists; split; [reflexivity|].
      split; cbn; rewrite fo_snoc, E.
      * now apply Permutation_app_tail.
      * eapply Permutation_trans; [apply perm_skip; exact H2|]. apply Permutation_cons_append.
  - eexists; split; [reflexivity|]. split; apply perm_nil.
  - eexists; split; [reflexivity|]. split; apply perm_nil.
  - eexists; split; [reflexivity|]. split; cbn; auto.
    eapply Permutation_trans; [apply Permutation_sym, shuffle_perm|auto].
Qed.

Lemma inserted_cons (op : os_op T) ops acc : inserted (op :: ops) acc = inserted ops (inserted [op] acc).
Proof. destruct op; reflexivity. Qed.

Lemma os_run_inv ops : forall s acc, os_inv s acc ->
  exists s', fold_outcome (os_step eqb) ops s = Ok s' /\ os_inv s' (inserted ops acc).
Proof.
  induction ops as [|op ops IH]; intros s acc HI; cbn [fold_outcome]; [eauto|].
  destruct (os_step_inv s acc op HI) as (s1 & -> & HI1). cbn [bind]. rewrite inserted_cons. auto.
Qed.

Lemma os_run_exact ops : no_shuffle ops -> forall s acc, ordered_items s = fo acc -> os_inv s acc ->
  forall s', fold_outcome (os_step eqb) ops s = Ok s' -> ordered_items s' = fo (inserted ops acc).
Proof.
  induction ops as [|op ops IH]; intros Hns s acc Ho HI s' Hr; cbn [fold_outcome] in Hr; [inv Hr; auto|].
  destruct (os_step_inv s acc op HI) as (s1 & E1 & HI1). rewrite E1 in Hr. cbn [bind] in Hr. rewrite inserted_cons.
  eapply IH; eauto.
  - intros c Hc. apply (Hns c). now right.
  - destruct op as [x| | |cs]; cbn [os_step inserted] in *.
    + unfold os_insert, hs_insert in E1.
      assert (Hm : existsb (eqb x) (unordered_items s) = existsb (eqb x) acc).
      { apply eq_true_iff_eq. rewrite !existsb_In, <- (In_fo x acc). split; apply Permutation_in; [apply HI|apply Permutation_sym, HI]. }
      rewrite Hm in E1. destruct (existsb (eqb x) acc) eqn:E; bindinv E1; injection E1 as <-; cbn; rewrite fo_snoc, E, Ho; auto.
    + inv E1. reflexivity.
    + inv E1. reflexivity.
    + exfalso. apply (Hns cs). now left.
Qed.

Lemma ordered_set_history ops :
  exists s, os_run eqb ops = Ok s /\
    NoDup (ordered_items s) /\
    (forall x, os_contains eqb s x = true <-> In x (inserted ops [])) /\
    (forall x, In x (ordered_items s) <-> In x (inserted ops [])) /\
    os_size s = Ok (length (first_occurrences eqb (inserted ops []))) /\
    (no_shuffle ops -> ordered_items s = first_occurrences eqb (inserted ops [])).
Proof.
  assert (H0 : os_inv (@os_empty T) []) by (split; apply perm_nil).
  destruct (os_run_inv ops _ _ H0) as (s & Es & HI). exists s. splits; auto.
  - eapply Permutation_NoDup; [apply Permutation_sym, HI|apply NoDup_fo].
  - intros x. unfold os_contains. rewrite existsb_In, <- (In_fo x (inserted ops [])).
    split; apply Permutation_in; [apply HI|apply Permutation_sym, HI].
  - intros x. rewrite <- (In_fo x (inserted ops [])).
    split; apply Permutation_in; [apply HI|apply Permutation_sym, HI].
  - unfold os_size, os_check. rewrite (Permutation_length (proj1 HI)), (Permutation_length (proj2 HI)), Nat.eqb_refl. reflexivity.
  - intros Hns. eapply os_run_exact; eauto. reflexivity.
Qed.
End P.
