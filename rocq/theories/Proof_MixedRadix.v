(** Mixed-radix numbers: the ranks of abstract states. *)
From Verif Require Import Outcome.

Fixpoint prodl (l : list nat) : nat := match l with [] => 1 | d :: r => d * prodl r end.
Fixpoint mults_from (m : nat) (doms : list nat) : list nat :=
  match doms with [] => [] | d :: r => m :: mults_from (m * d) r end.
Fixpoint horner (doms a : list nat) : nat :=
  match doms, a with d :: doms, x :: a => x + d * horner doms a | _, _ => 0 end.
Fixpoint dig (doms : list nat) (i : nat) : list nat :=
  match doms with [] => [] | d :: r => i mod d :: dig r (i / d) end.
Definition in_range (doms a : list nat) : Prop := Forall2 lt a doms.

Lemma prodl_app a b : prodl (a ++ b) = prodl a * prodl b.
Proof. induction a as [|x a IH]; cbn [app prodl]; [lia|rewrite IH; lia]. Qed.
Lemma prodl_pos doms : Forall (fun d => 0 < d) doms -> 0 < prodl doms.
Proof. induction 1 as [|d r H _ IH]; cbn [prodl]; [lia|nia]. Qed.

Lemma mults_nth doms : forall m i, i < length doms -> nth_error (mults_from m doms) i = Some (m * prodl (firstn i doms)).
Proof.
  induction doms as [|d r IH]; intros m i Hi; cbn [length] in Hi; [lia|].
  destruct i as [|i]; cbn [mults_from nth_error firstn prodl]; [f_equal; lia|]. rewrite IH by lia. f_equal. lia.
Qed.
Lemma mults_length doms : forall m, length (mults_from m doms) = length doms.
Proof. induction doms as [|d r IH]; intros m; cbn [mults_from length]; auto. Qed.

Lemma horner_lt doms a : in_range doms a -> horner doms a < prodl doms.
Proof. induction 1 as [|x d a doms Hx _ IH]; cbn [horner prodl]; [lia|]. nia. Qed.

Lemma dig_length doms : forall i, length (dig doms i) = length doms.
Proof. induction doms; intros i; cbn [dig length]; auto. Qed.
Lemma dig_range doms : Forall (fun d => 0 < d) doms -> forall i, in_range doms (dig doms i).
Proof. induction 1 as [|d r H _ IH]; intros i; cbn [dig]; constructor; [apply Nat.mod_upper_bound; lia|apply IH]. Qed.
Lemma horner_dig doms : Forall (fun d => 0 < d) doms -> forall i, i < prodl doms -> horner doms (dig doms i) = i.
Proof.
  induction 1 as [|d r H _ IH]; intros i Hi; cbn [dig horner prodl] in *; [lia|].
  rewrite IH by (apply Nat.div_lt_upper_bound; lia). pose proof (Nat.div_mod i d). lia.
Qed.
Lemma dig_horner doms a : in_range doms a -> dig doms (horner doms a) = a.
Proof.
  induction 1 as [|x d a doms Hx _ IH]; cbn [horner dig]; [reflexivity|].
  rewrite (Nat.mul_comm d), Nat.mod_add, Nat.mod_small by lia. rewrite Nat.div_add, Nat.div_small by lia. cbn [Nat.add]. now rewrite IH.
Qed.
Lemma dig_nth doms : Forall (fun d => 0 < d) doms -> forall i k d, nth_error doms k = Some d ->
  nth_error (dig doms i) k = Some ((i / prodl (firstn k doms)) mod d).
Proof.
  induction 1 as [|d0 r H Hr IH]; intros i k d Hk; [destruct k; discriminate|].
  destruct k as [|k]; cbn [nth_error dig firstn prodl] in *.
  - inversion Hk; subst. now rewrite Nat.div_1_r.
  - rewrite (IH _ _ _ Hk). f_equal. rewrite Nat.div_div; [reflexivity|lia|].
    assert (0 < prodl (firstn k r)); [|lia]. apply prodl_pos. apply Forall_forall. intros x Hx. rewrite Forall_forall in Hr. apply Hr.
    rewrite <- (firstn_skipn k r). apply in_or_app; auto.
Qed.

Lemma horner_upd doms : forall a i x y, length a = length doms -> nth_error a i = Some y ->
  (Z.of_nat (horner doms (upd a i x)) = Z.of_nat (horner doms a) + (Z.of_nat x - Z.of_nat y) * Z.of_nat (prodl (firstn i doms)))%Z.
Proof.
  induction doms as [|d r IH]; intros [|z a] i x y Hl Hi; cbn [length] in Hl; try lia; [destruct i; discriminate|].
  destruct i as [|i]; cbn [nth_error upd horner firstn prodl] in *.
  - inversion Hi; subst. lia.
  - specialize (IH a i x y ltac:(lia) Hi). lia.
Qed.

Lemma in_range_length doms a : in_range doms a -> length a = length doms.
Proof. induction 1; cbn; auto. Qed.
Lemma in_range_nth doms a i x d : in_range doms a -> nth_error a i = Some x -> nth_error doms i = Some d -> x < d.
Proof. intros H. revert i. induction H as [|y e a doms Hy _ IH]; intros [|i] Hx Hd; cbn [nth_error] in *; try discriminate; eauto. inversion Hx; inversion Hd; subst; auto. Qed.
Lemma in_range_intro doms a : length a = length doms -> (forall i x d, nth_error a i = Some x -> nth_error doms i = Some d -> x < d) -> in_range doms a.
Proof.
  revert a. induction doms as [|d r IH]; intros [|x a] Hl H; cbn [length] in Hl; try lia; constructor.
  - apply (H 0); reflexivity.
  - apply IH; [lia|]. intros i x' d' Hx Hd. apply (H (S i) x' d' Hx Hd).
Qed.
Lemma in_range_upd doms a i x d : in_range doms a -> nth_error doms i = Some d -> x < d -> in_range doms (upd a i x).
Proof.
  intros H Hd Hx. apply in_range_intro; [rewrite upd_length; now apply in_range_length|].
  intros j y e. rewrite upd_nth. destruct (Nat.eqb_spec i j) as [->|]; cbn [andb]; [|eauto using in_range_nth].
  destruct (j <? length a); [|eauto using in_range_nth]. intros Hy He. inversion Hy; subst. rewrite Hd in He; inversion He; subst; auto.
Qed.
