(** Signatures of states: the order on them. *)
From Coq Require Import Permutation Sorted.
From Verif Require Import Outcome Spec_Task Model_PQ Model_Graph Model_Equivalence Model_MAS Spec_FTS Model_MASAlgorithm Spec_Shrink.
From Verif Require Import Proof_MAS1 Proof_MAS2 Proof_OC1 Proof_Pot5 Proof_MAA1 Proof_MAA6.

(** ** Sorting *)
Definition total {A} (le : A -> A -> bool) : Prop := forall a b, le a b = true \/ le b a = true.
Definition transitive {A} (le : A -> A -> bool) : Prop := forall a b c, le a b = true -> le b c = true -> le a c = true.
Definition antisym {A} (le : A -> A -> bool) : Prop := forall a b, le a b = true -> le b a = true -> a = b.
Definition sorted_by {A} (le : A -> A -> bool) (l : list A) : Prop := StronglySorted (fun a b => le a b = true) l.
Lemma insert_sorted {A} (le : A -> A -> bool) x l : total le -> transitive le -> sorted_by le l -> sorted_by le (insert le x l).
Proof.
  intros Ht Htr. unfold sorted_by. induction 1 as [|y l Hl IH Hf]; cbn [insert]; [repeat constructor|]. destruct (le x y) eqn:E.
  - constructor; [constructor; auto|]. constructor; auto. eapply Forall_impl; [|exact Hf]. intros z Hz. eapply Htr; eauto.
  - constructor; auto. apply Forall_forall. intros z Hz. apply insert_In in Hz as [->|Hz]; [destruct (Ht x y); congruence|]. rewrite Forall_forall in Hf. auto.
Qed.
Lemma sort_sorted {A} (le : A -> A -> bool) l : total le -> transitive le -> sorted_by le (sort le l).
Proof. intros Ht Htr. unfold sort. induction l; cbn [fold_right]; [constructor|]. apply insert_sorted; auto. Qed.

Definition lex {A K} (p : A -> K) (eqb : K -> K -> bool) (le : K -> K -> bool) (rest : A -> A -> bool) (a b : A) : bool :=
  if negb (eqb (p a) (p b)) then le (p a) (p b) else rest a b.
Section LEX.
Variables (A K : Type) (p : A -> K) (eqb le : K -> K -> bool) (rest : A -> A -> bool).
Hypothesis He : forall x y, eqb x y = true <-> x = y.
Hypothesis Ht : total le.
Hypothesis Htr : transitive le.
Hypothesis Ha : antisym le.
Lemma lex_le a b : lex p eqb le rest a b = true -> le (p a) (p b) = true.
Proof. unfold lex. destruct (eqb (p a) (p b)) eqn:E; cbn [negb]; auto. intros _. apply He in E. rewrite E. destruct (Ht (p b) (p b)); auto. Qed.
Lemma lex_rest a b : lex p eqb le rest a b = true -> p a = p b -> rest a b = true.
Proof. unfold lex. intros H E. apply He in E. now rewrite E in H. Qed.
Lemma lex_total : total rest -> total (lex p eqb le rest).
Proof.
  intros Hr a b. unfold lex. destruct (eqb (p a) (p b)) eqn:E; cbn [negb].
  - apply He in E. rewrite E. rewrite (proj2 (He _ _) eq_refl). cbn [negb]. apply Hr.
  - destruct (eqb (p b) (p a)) eqn:E'; cbn [negb]; [apply He in E'; rewrite E' in E; rewrite (proj2 (He _ _) eq_refl) in E; discriminate|]. apply Ht.
Qed.
Lemma lex_trans : transitive rest -> transitive (lex p eqb le rest).
Proof.
  intros Hr a b c H1 H2. pose proof (lex_le _ _ H1) as L1. pose proof (lex_le _ _ H2) as L2. unfold lex. destruct (eqb (p a) (p c)) eqn:E; cbn [negb]; [|eauto].
  apply He in E. assert (Eb : p a = p b) by (apply Ha; auto; rewrite E; auto). apply (Hr a b c); apply lex_rest; auto; congruence.
Qed.
Lemma lex_between a b c : lex p eqb le rest a b = true -> lex p eqb le rest b c = true -> p a = p c -> p b = p a /\ rest a b = true /\ rest b c = true.
Proof.
  intros H1 H2 E. pose proof (lex_le _ _ H1) as L1. pose proof (lex_le _ _ H2) as L2. assert (Eb : p a = p b) by (apply Ha; auto; rewrite E; auto).
  splits; auto; apply lex_rest; auto; congruence.
Qed.
End LEX.

(** ** The order on signatures *)
Lemma ole_total : total ole.
Proof. intros [x|] [y|]; cbn [ole]; auto. rewrite !Nat.leb_le. lia. Qed.
Lemma ole_trans : transitive ole.
Proof. intros [x|] [y|] [z|]; cbn [ole]; auto; try discriminate. rewrite !Nat.leb_le. lia. Qed.
Lemma ole_antisym : antisym ole.
Proof. intros [x|] [y|]; cbn [ole]; auto; try discriminate. rewrite !Nat.leb_le. intros. f_equal. lia. Qed.
Lemma leb_total : total Nat.leb. Proof. intros a b. rewrite !Nat.leb_le. lia. Qed.
Lemma leb_trans : transitive Nat.leb. Proof. intros a b c. rewrite !Nat.leb_le. lia. Qed.
Lemma leb_antisym : antisym Nat.leb. Proof. intros a b. rewrite !Nat.leb_le. lia. Qed.
Lemma trans_le_iff a b : trans_le a b = true <-> fst a < fst b \/ fst a = fst b /\ snd a <= snd b.
Proof. unfold trans_le. rewrite orb_true_iff, andb_true_iff, Nat.ltb_lt, Nat.eqb_eq, Nat.leb_le. tauto. Qed.
Lemma trans_le_total : total trans_le. Proof. intros a b. rewrite !trans_le_iff. lia. Qed.
Lemma trans_le_trans : transitive trans_le. Proof. intros a b c. rewrite !trans_le_iff. lia. Qed.
Lemma trans_le_antisym : antisym trans_le. Proof. intros [a b] [c d]. rewrite !trans_le_iff. cbn [fst snd]. intros. f_equal; lia. Qed.
Lemma trans_list_eqb_iff a b : trans_list_eqb a b = true <-> a = b.
Proof.
  split; [apply trans_list_eqb_ok|]. intros <-. induction a as [|x a IH]; auto. cbn [trans_list_eqb]. rewrite (proj2 (trans_eqb_ok x x) eq_refl), IH. reflexivity.
Qed.
Lemma succ_le_total : total succ_le.
Proof.
  intros a. induction a as [|x a IH]; intros [|y b]; cbn [succ_le]; auto. destruct (trans_eqb x y) eqn:E.
  - apply trans_eqb_ok in E. subst y. rewrite (proj2 (trans_eqb_ok x x) eq_refl). apply IH.
  - destruct (trans_eqb y x) eqn:E'; [apply trans_eqb_ok in E'; subst y; rewrite (proj2 (trans_eqb_ok x x) eq_refl) in E; discriminate|]. apply trans_le_total.
Qed.
Lemma succ_le_head x a y b : succ_le (x :: a) (y :: b) = true -> trans_le x y = true /\ (x = y -> succ_le a b = true).
Proof.
  cbn [succ_le]. destruct (trans_eqb x y) eqn:E.
  - apply trans_eqb_ok in E. subst y. intros H. split; auto. destruct (trans_le_total x x); auto.
  - intros H. split; auto. intros ->. rewrite (proj2 (trans_eqb_ok y y) eq_refl) in E. discriminate.
Qed.
Lemma succ_le_trans : transitive succ_le.
Proof.
  intros a. induction a as [|x a IH]; intros [|y b] [|z c]; auto; try (cbn [succ_le]; discriminate); try (cbn [succ_le]; auto; fail). intros H1 H2. apply succ_le_head in H1 as [L1 R1]. apply succ_le_head in H2 as [L2 R2].
  pose proof (trans_le_trans _ _ _ L1 L2) as L3. cbn [succ_le]. destruct (trans_eqb x z) eqn:E; auto. apply trans_eqb_ok in E. subst z. assert (x = y) by (now apply trans_le_antisym). subst y. eauto.
Qed.
Lemma succ_le_antisym : antisym succ_le.
Proof.
  intros a. induction a as [|x a IH]; intros [|y b]; auto; try (cbn [succ_le]; discriminate). intros H1 H2. apply succ_le_head in H1 as [L1 R1]. apply succ_le_head in H2 as [L2 R2]. assert (x = y) by (now apply trans_le_antisym). subst y. f_equal. auto.
Qed.

Definition by_state (a b : signature) : bool := sg_state a <=? sg_state b.
Definition by_succ : signature -> signature -> bool := lex sg_succ trans_list_eqb succ_le by_state.
Definition by_group : signature -> signature -> bool := lex sg_group Nat.eqb Nat.leb by_succ.
Lemma sig_le_lex a b : sig_le a b = lex sg_hg oeqb ole by_group a b.
Proof. reflexivity. Qed.
Lemma by_succ_total : total by_succ.
Proof. apply lex_total; [apply trans_list_eqb_iff|apply succ_le_total|]. intros a b. apply leb_total. Qed.
Lemma by_succ_trans : transitive by_succ.
Proof. apply lex_trans; [apply trans_list_eqb_iff|apply succ_le_total|apply succ_le_trans|apply succ_le_antisym|]. intros a b c. apply leb_trans. Qed.
Lemma by_group_total : total by_group.
Proof. apply lex_total; [apply Nat.eqb_eq|apply leb_total|apply by_succ_total]. Qed.
Lemma by_group_trans : transitive by_group.
Proof. apply lex_trans; [apply Nat.eqb_eq|apply leb_total|apply leb_trans|apply leb_antisym|apply by_succ_trans]. Qed.
Lemma sig_le_total : total sig_le.
Proof. intros a b. rewrite !sig_le_lex. apply lex_total; [apply oeqb_spec|apply ole_total|apply by_group_total]. Qed.
Lemma sig_le_trans : transitive sig_le.
Proof. intros a b c. rewrite !sig_le_lex. apply lex_trans; [apply oeqb_spec|apply ole_total|apply ole_trans|apply ole_antisym|apply by_group_trans]. Qed.
(** signatures between two signatures agree with them where these agree *)
Lemma between_hg a b c : sig_le a b = true -> sig_le b c = true -> sg_hg a = sg_hg c -> sg_hg b = sg_hg a.
Proof. rewrite !sig_le_lex. intros H1 H2 E. eapply (lex_between _ _ sg_hg oeqb ole by_group oeqb_spec ole_total ole_antisym) in E as (E & _ & _); eauto. Qed.
Lemma between_group a b c : sig_le a b = true -> sig_le b c = true -> sg_hg a = sg_hg c -> sg_group a = sg_group c -> sg_group b = sg_group a.
Proof.
  rewrite !sig_le_lex. intros H1 H2 E Eg. eapply (lex_between _ _ sg_hg oeqb ole by_group oeqb_spec ole_total ole_antisym) in E as (E & R1 & R2); eauto.
  eapply (lex_between _ _ sg_group Nat.eqb Nat.leb by_succ Nat.eqb_eq leb_total leb_antisym) in Eg as (Eg & _ & _); eauto.
Qed.
Lemma between_succ a b c : sig_le a b = true -> sig_le b c = true -> sg_hg a = sg_hg c -> sg_group a = sg_group c -> sg_succ a = sg_succ c -> sg_succ b = sg_succ a.
Proof.
  rewrite !sig_le_lex. intros H1 H2 E Eg Es. eapply (lex_between _ _ sg_hg oeqb ole by_group oeqb_spec ole_total ole_antisym) in E as (E & R1 & R2); eauto.
  eapply (lex_between _ _ sg_group Nat.eqb Nat.leb by_succ Nat.eqb_eq leb_total leb_antisym) in Eg as (Eg & R3 & R4); eauto.
  eapply (lex_between _ _ sg_succ trans_list_eqb succ_le by_state trans_list_eqb_iff succ_le_total succ_le_antisym) in Es as (Es & _ & _); eauto.
Qed.

(** ** Equal sets have equal sorted lists *)
Definition strictly (l : list trans) : Prop := StronglySorted (fun a b => trans_le a b = true /\ a <> b) l.
Lemma unique_strict l : sorted_by trans_le l -> strictly (unique l).
Proof.
  unfold sorted_by, strictly. induction 1 as [|x l Hl IH Hf]; [constructor|]. cbn [unique]. destruct l as [|y r]; [repeat constructor|]. destruct (trans_eqb x y) eqn:E; auto.
  constructor; auto. apply Forall_forall. intros z Hz. apply (unique_In (y :: r)) in Hz. rewrite Forall_forall in Hf. split; [apply Hf; exact Hz|]. intros <-.
  destruct Hz as [<-|Hz]; [rewrite (proj2 (trans_eqb_ok y y) eq_refl) in E; discriminate|]. inversion Hl; subst. rewrite Forall_forall in H2. pose proof (H2 x Hz) as A. pose proof (Hf y (or_introl eq_refl)) as B. assert (x = y) by (now apply trans_le_antisym). subst. rewrite (proj2 (trans_eqb_ok y y) eq_refl) in E. discriminate.
Qed.
Lemma sort_unique_strict l : strictly (sort_unique l).
Proof. apply unique_strict, sort_sorted; [apply trans_le_total|apply trans_le_trans]. Qed.
Lemma strict_ext : forall l l', strictly l -> strictly l' -> (forall x, In x l <-> In x l') -> l = l'.
Proof.
  unfold strictly. induction l as [|x l IH]; intros [|y l'] H H' Heq; auto.
  - exfalso. apply (proj2 (Heq y)). now left.
  - exfalso. apply (proj1 (Heq x)). now left.
  - inversion H; subst. inversion H'; subst. rewrite Forall_forall in *. assert (x = y).
    { destruct (proj1 (Heq x) (or_introl eq_refl)) as [E|Hx]; auto. destruct (proj2 (Heq y) (or_introl eq_refl)) as [E|Hy]; auto. apply trans_le_antisym; [apply H3; auto|apply H5; auto]. }
    subst y. f_equal. apply IH; auto. intros z. split; intros Hz.
    + destruct (proj1 (Heq z) (or_intror Hz)) as [E|]; auto. subst z. destruct (H3 x Hz). congruence.
    + destruct (proj2 (Heq z) (or_intror Hz)) as [E|]; auto. subst z. destruct (H5 x Hz). congruence.
Qed.
