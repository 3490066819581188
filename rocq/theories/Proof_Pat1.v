(** Systematic patterns: sets, sorted lists and the neighbour computations. *)
From Coq Require Import Sorting Permutation.
From Verif Require Import Outcome Spec_Task Spec_CausalGraph Spec_Patterns Model_MAS Model_CausalGraph Model_Patterns Proof_CausalGraph Proof_MAS1 Proof_MS6.
Import ListNotations.

Lemma set_insert_In x y s : In y (set_insert x s) <-> y = x \/ In y s.
Proof.
  unfold set_insert. destruct (existsb (Nat.eqb x) s) eqn:E; cbn [In]; [|intuition].
  apply existsb_exists in E as (z & Hz & Ez). apply Nat.eqb_eq in Ez. subst z. split; [auto|intros [-> |]; auto].
Qed.
Lemma insert_all_In y : forall xs s, In y (insert_all xs s) <-> In y xs \/ In y s.
Proof.
  unfold insert_all. induction xs as [|x xs IH]; intros s; cbn [fold_left In]; [tauto|]. rewrite IH, set_insert_In. intuition.
Qed.
Lemma erase_In x y s : In y (erase x s) <-> In y s /\ y <> x.
Proof. unfold erase. rewrite filter_In, negb_true_iff, Nat.eqb_neq. tauto. Qed.
Lemma erase_all_In y : forall p c, In y (fold_left (fun c v => erase v c) p c) <-> In y c /\ ~ In y p.
Proof.
  induction p as [|x p IH]; intros c; cbn [fold_left In]; [tauto|]. rewrite IH, erase_In. intuition.
Qed.

Lemma gather_ok (R : rel) n (P : nat -> nat -> Prop) :
  (forall u, u < n -> exists l, vget R u = Ok l /\ forall v, In v l <-> P u v) ->
  forall p c, (forall v, In v p -> v < n) ->
  exists c', fold_outcome (fun c v => let* l := vget R v in Ok (insert_all l c)) p c = Ok c' /\
    forall y, In y c' <-> In y c \/ exists v, In v p /\ P v y.
Proof.
  intros HR. induction p as [|x p IH]; intros c Hp; cbn [fold_outcome].
  - exists c. split; [easy|]. intros y. split; [auto|intros [|(v & [] & _)]; auto].
  - destruct (HR x) as (l & El & Hl); [apply Hp; now left|]. rewrite El. cbn [bind].
    destruct (IH (insert_all l c)) as (c' & E & Hc); [intros v Hv; apply Hp; now right|]. exists c'. split; [exact E|].
    intros y. rewrite Hc, insert_all_In, Hl. split.
    + intros [[H|H]|(v & H1 & H2)]; [right; exists x; split; [now left|auto]|auto|right; exists v; split; [now right|auto]].
    + intros [H|(v & [-> |H1] & H2)]; [auto|auto|right; eauto].
Qed.
Lemma drop_ok (R : rel) n (P : nat -> nat -> Prop) :
  (forall u, u < n -> exists l, vget R u = Ok l /\ forall v, In v l <-> P u v) ->
  forall p c, (forall v, In v p -> v < n) ->
  exists c', fold_outcome (fun c v => let c := erase v c in let* l := vget R v in Ok (fold_left (fun c x => erase x c) l c)) p c = Ok c' /\
    forall y, In y c' <-> In y c /\ ~ In y p /\ ~ exists v, In v p /\ P v y.
Proof.
  intros HR. induction p as [|x p IH]; intros c Hp; cbn [fold_outcome].
  - exists c. split; [easy|]. intros y. split; [|tauto]. intros H. splits; auto. intros (v & [] & _).
  - destruct (HR x) as (l & El & Hl); [apply Hp; now left|]. cbv zeta. rewrite El. cbn [bind].
    destruct (IH (fold_left (fun c x => erase x c) l (erase x c))) as (c' & E & Hc); [intros v Hv; apply Hp; now right|]. exists c'. split; [exact E|].
    intros y. rewrite Hc, erase_all_In, erase_In, Hl. cbn [In]. split.
    + intros (((H1 & H2) & H3) & H4 & H5). splits; auto.
      * intros [H|H]; [now apply H2|contradiction].
      * intros (v & [-> |H6] & H7); [contradiction|]. apply H5. eauto.
    + intros (H1 & H2 & H3). split; [split; [split; [exact H1|intros ->; apply H2; now left]|]|split].
      * intros H. apply H3. exists x. split; [now left|auto].
      * intros H. apply H2. now right.
      * intros (v & H4 & H5). apply H3. exists v. split; [now right|auto].
Qed.

(** * Sorted lists *)
Lemma disjoint_spec : forall p1 p2, StronglySorted lt p1 -> StronglySorted lt p2 ->
  (patterns_are_disjoint p1 p2 = true <-> forall x, In x p1 -> ~ In x p2).
Proof.
  induction p1 as [|a r1 IH1]; intros p2 S1 S2; [cbn; split; [intros _ x []|auto]|].
  apply StronglySorted_inv in S1 as [S1 F1]. rewrite Forall_forall in F1.
  induction p2 as [|b r2 IH2]; [cbn; split; [intros _ x _ []|auto]|].
  pose proof S2 as S2'. apply StronglySorted_inv in S2 as [S2 F2]. rewrite Forall_forall in F2.
  cbn [patterns_are_disjoint]. destruct (Nat.eqb_spec a b) as [-> |Hab].
  - split; [discriminate|]. intros H. exfalso. apply (H b); now left.
  - destruct (Nat.ltb_spec a b).
    + rewrite (IH1 (b :: r2) S1 S2'). cbn [In]. split.
      * intros H' x [-> |Hx] [E|Hy]; [lia|apply F2 in Hy; lia|apply (H' x Hx); auto|apply (H' x Hx); auto].
      * intros H' x Hx Hy. apply (H' x); auto.
    + change ((fix go (p2 : list nat) : bool := match p2 with [] => true | b :: r2 => if a =? b then false else if a <? b then patterns_are_disjoint r1 p2 else go r2 end) r2) with (patterns_are_disjoint (a :: r1) r2).
      rewrite (IH2 S2). cbn [In]. split.
      * intros H' x [-> |Hx] [E|Hy]; [lia|apply (H' x); auto|apply F1 in Hx; lia|apply (H' x); auto].
      * intros H' x Hx Hy. apply (H' x); auto.
Qed.
Lemma union_cons a r1 b r2 : union_pattern (a :: r1) (b :: r2) =
  if a <? b then a :: union_pattern r1 (b :: r2) else if b <? a then b :: union_pattern (a :: r1) r2 else a :: union_pattern r1 r2.
Proof. reflexivity. Qed.
Lemma union_In x : forall p1 p2, In x (union_pattern p1 p2) <-> In x p1 \/ In x p2.
Proof.
  induction p1 as [|a r1 IH1]; intros p2; [cbn; tauto|].
  induction p2 as [|b r2 IH2]; [cbn; tauto|]. rewrite union_cons.
  destruct (Nat.ltb_spec a b); [|destruct (Nat.ltb_spec b a)]; cbn [In]; [rewrite IH1|rewrite IH2|rewrite IH1; assert (a = b) by lia; subst b]; cbn [In]; tauto.
Qed.
Lemma union_sorted : forall p1 p2, StronglySorted lt p1 -> StronglySorted lt p2 -> StronglySorted lt (union_pattern p1 p2).
Proof.
  induction p1 as [|a r1 IH1]; intros p2 S1 S2; [exact S2|].
  pose proof S1 as S1'. apply StronglySorted_inv in S1 as [S1 F1]. rewrite Forall_forall in F1.
  induction p2 as [|b r2 IH2]; [exact S1'|].
  pose proof S2 as S2'. apply StronglySorted_inv in S2 as [S2 F2]. rewrite Forall_forall in F2. rewrite union_cons.
  destruct (Nat.ltb_spec a b); [|destruct (Nat.ltb_spec b a)]; constructor; auto; apply Forall_forall; intros x; rewrite union_In; cbn [In].
  - intros [Hx|[<- |Hx]]; [auto|auto|apply F2 in Hx; lia].
  - intros [[<- |Hx]|Hx]; [auto|apply F1 in Hx; lia|auto].
  - intros [Hx|Hx]; [auto|apply F2 in Hx; lia].
Qed.
Lemma union_length : forall p1 p2, (forall x, In x p1 -> ~ In x p2) -> length (union_pattern p1 p2) = length p1 + length p2.
Proof.
  induction p1 as [|a r1 IH1]; intros p2 D; [easy|].
  induction p2 as [|b r2 IH2]; [cbn; lia|]. rewrite union_cons.
  destruct (Nat.ltb_spec a b); [|destruct (Nat.ltb_spec b a)]; cbn [length].
  - rewrite IH1; [cbn; lia|]. intros x Hx. apply D. now right.
  - rewrite IH2; [cbn; lia|]. intros x Hx Hy. apply (D x Hx). now right.
  - exfalso. apply (D a); [now left|left; lia].
Qed.

Lemma sorted_ext : forall l l', StronglySorted lt l -> StronglySorted lt l' -> (forall x, In x l <-> In x l') -> l = l'.
Proof.
  induction l as [|a l IH]; intros [|b l'] S1 S2 H; auto.
  - exfalso. apply (proj2 (H b)). now left.
  - exfalso. apply (proj1 (H a)). now left.
  - apply StronglySorted_inv in S1 as [S1 F1], S2 as [S2 F2]. rewrite Forall_forall in F1, F2.
    assert (a = b) as <-.
    { destruct (proj1 (H a)) as [|Ha]; [now left|auto|]. destruct (proj2 (H b)) as [|Hb]; [now left|auto|]. apply F2 in Ha. apply F1 in Hb. lia. }
    f_equal. apply IH; auto. intros x. split; intros Hx.
    + destruct (proj1 (H x)) as [<- |]; [now right|apply F1 in Hx; lia|auto].
    + destruct (proj2 (H x)) as [<- |]; [now right|apply F2 in Hx; lia|auto].
Qed.
Lemma sorted_nodup l : StronglySorted lt l -> NoDup l.
Proof.
  induction l as [|a l IH]; intros S1; constructor; apply StronglySorted_inv in S1 as [S1 F1]; auto.
  intros H. rewrite Forall_forall in F1. apply F1 in H. lia.
Qed.
Lemma sort_length {A} (le : A -> A -> bool) l : length (sort le l) = length l.
Proof.
  assert (H : forall x r, length (insert le x r) = S (length r)).
  { intros x. induction r as [|y r IH]; cbn; auto. destruct (le x y); cbn; auto. }
  unfold sort. induction l as [|x l IH]; cbn; auto. now rewrite H, IH.
Qed.
(** Adding a new variable. *)
Lemma add_ok p v : StronglySorted lt p -> ~ In v p ->
  StronglySorted lt (sort Nat.leb (p ++ [v])) /\ length (sort Nat.leb (p ++ [v])) = S (length p) /\ forall x, In x (sort Nat.leb (p ++ [v])) <-> In x p \/ x = v.
Proof.
  intros S1 N. splits.
  - apply sort_lt. apply Permutation_NoDup with (v :: p); [apply Permutation_cons_append|]. constructor; auto. now apply sorted_nodup.
  - rewrite sort_length, app_length. cbn. lia.
  - intros x. rewrite sort_In, in_app_iff. cbn. intuition.
Qed.

(** * The number of patterns *)
Fixpoint sublists (l : list nat) : list (list nat) :=
  match l with [] => [[]] | x :: r => map (cons x) (sublists r) ++ sublists r end.
Lemma sublists_length l : length (sublists l) = 2 ^ length l.
Proof. induction l as [|x l IH]; cbn [sublists length]; auto. rewrite app_length, map_length, IH. cbn [Nat.pow]. lia. Qed.
Lemma sublists_In : forall l p, StronglySorted lt l -> StronglySorted lt p -> incl p l -> In p (sublists l).
Proof.
  induction l as [|x l IH]; intros p Sl Sp H.
  - destruct p as [|a p]; [now left|]. exfalso. apply (H a). now left.
  - apply StronglySorted_inv in Sl as [Sl F]. rewrite Forall_forall in F. cbn [sublists]. rewrite in_app_iff.
    destruct p as [|a p]; [right; apply IH; auto; intros y []|].
    pose proof Sp as Sp'. apply StronglySorted_inv in Sp as [Sp Fp]. rewrite Forall_forall in Fp.
    destruct (H a) as [<- |Ha]; [now left| |].
    + left. apply in_map, IH; auto. intros y Hy. destruct (H y) as [<- |]; [now right|apply Fp in Hy; lia|auto].
    + right. apply IH; auto. intros y Hy. destruct (H y Hy) as [<- |]; [|auto]. exfalso. apply F in Ha. destruct Hy as [-> |Hy]; [lia|apply Fp in Hy; lia].
Qed.
Lemma sorted_seq n : forall k, StronglySorted lt (seq k n).
Proof. induction n as [|n IH]; intros k; cbn; constructor; auto. apply Forall_forall. intros x Hx. apply in_seq in Hx. lia. Qed.
Lemma few_patterns t ps : NoDup ps -> (forall p, In p ps -> pattern_of t p) -> length ps <= 2 ^ length (t_vars t).
Proof.
  intros N H. rewrite <- (seq_length (length (t_vars t)) 0), <- sublists_length. apply NoDup_incl_length; auto.
  intros p Hp. destruct (H p Hp) as (_ & S1 & L). apply sublists_In; auto; [apply sorted_seq|]. intros v Hv. apply in_seq. specialize (L v Hv). lia.
Qed.
