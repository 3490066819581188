(** Results of modelled code, and vector accesses.

    [Ok x]    normal result
    [UB]      undefined behaviour of the C++ code: an out-of-bounds vector access, a
              dereference of a null pointer, or a violated [assert] that release builds
              do not check but the following code relies on
    [Exit c]  controlled program exit with exit code [c]
    [NoFuel]  the fuel of a modelled loop was exhausted (never the result of a real run
              of terminating code; the theorems show it does not occur) *)
From Coq Require Export List Arith NArith ZArith Lia Bool.
Export ListNotations.

Inductive outcome (A : Type) : Type :=
| Ok (a : A)
| UB
| Exit (code : Z)
| NoFuel.
Arguments Ok {A} a.
Arguments UB {A}.
Arguments Exit {A} code.
Arguments NoFuel {A}.

Definition bind {A B} (m : outcome A) (k : A -> outcome B) : outcome B :=
  match m with
  | Ok a => k a
  | UB => UB
  | Exit c => Exit c
  | NoFuel => NoFuel
  end.

Notation "'let*' x := m 'in' k" := (bind m (fun x => k))
  (at level 200, x pattern, m at level 100, k at level 200, right associativity).

(** [vec[i] = x]; positions past the end are left alone (guarded by [vset]). *)
Fixpoint upd {A} (l : list A) (i : nat) (x : A) : list A :=
  match l, i with
  | [], _ => []
  | _ :: t, O => x :: t
  | h :: t, S j => h :: upd t j x
  end.

(** [vec[i]] as an rvalue. *)
Definition vget {A} (l : list A) (i : nat) : outcome A :=
  match nth_error l i with Some x => Ok x | None => UB end.

(** [vec[i] = x] with the bounds precondition made explicit. *)
Definition vset {A} (l : list A) (i : nat) (x : A) : outcome (list A) :=
  if i <? length l then Ok (upd l i x) else UB.

(** An [assert]ed precondition. *)
Definition guard (b : bool) : outcome unit := if b then Ok tt else UB.

Fixpoint fold_outcome {A B} (f : B -> A -> outcome B) (l : list A) (b : B) : outcome B :=
  match l with
  | [] => Ok b
  | x :: t => let* b' := f b x in fold_outcome f t b'
  end.

(* ---- lemmas ---- *)

Lemma upd_length {A} (l : list A) i x : length (upd l i x) = length l.
Proof. revert i; induction l as [|h t IH]; intros [|i]; simpl; auto. Qed.

Lemma upd_nth_eq {A} (l : list A) i x : i < length l -> nth_error (upd l i x) i = Some x.
Proof. revert i; induction l as [|h t IH]; intros [|i] H; simpl in *; try lia; auto.
       apply IH; lia. Qed.

Lemma upd_nth_neq {A} (l : list A) i j x : i <> j -> nth_error (upd l i x) j = nth_error l j.
Proof. revert i j; induction l as [|h t IH]; intros [|i] [|j] H; simpl; auto; try congruence. Qed.

Lemma upd_nth {A} (l : list A) i j x :
  nth_error (upd l i x) j = if (i =? j) && (i <? length l) then Some x else nth_error l j.
Proof.
  destruct (Nat.eqb_spec i j) as [->|Hne]; simpl.
  - destruct (Nat.ltb_spec j (length l)).
    + now apply upd_nth_eq.
    + rewrite (proj2 (nth_error_None l j)) by lia.
      apply nth_error_None; rewrite upd_length; lia.
  - now apply upd_nth_neq.
Qed.

Lemma upd_same {A} (l : list A) i x : nth_error l i = Some x -> upd l i x = l.
Proof. revert i; induction l as [|h t IH]; intros [|i] H; simpl in *; try congruence.
       f_equal; auto. Qed.

Lemma upd_app_l {A} (l1 l2 : list A) i x :
  i < length l1 -> upd (l1 ++ l2) i x = upd l1 i x ++ l2.
Proof. revert i; induction l1 as [|h t IH]; intros [|i] H; simpl in *; try lia; auto.
       f_equal; apply IH; lia. Qed.

Lemma upd_app_r {A} (l1 l2 : list A) i x :
  length l1 <= i -> upd (l1 ++ l2) i x = l1 ++ upd l2 (i - length l1) x.
Proof. revert i; induction l1 as [|h t IH]; intros i H; simpl in *.
       - now rewrite Nat.sub_0_r.
       - destruct i; [lia|]. simpl. f_equal; apply IH; lia. Qed.

Lemma upd_split {A} (l : list A) i x y :
  nth_error l i = Some y ->
  exists l1 l2, l = l1 ++ y :: l2 /\ length l1 = i /\ upd l i x = l1 ++ x :: l2.
Proof.
  intros H. destruct (nth_error_split _ _ H) as (l1 & l2 & -> & Hl).
  exists l1, l2; repeat split; auto.
  rewrite upd_app_r by lia. now rewrite Hl, Nat.sub_diag.
Qed.

Lemma In_upd {A} (l : list A) i x y : In y (upd l i x) -> y = x \/ In y l.
Proof. revert i; induction l as [|h t IH]; intros [|i]; simpl; auto; intros [H|H]; auto.
       destruct (IH _ H); auto. Qed.

Lemma vget_ok {A} (l : list A) i x : vget l i = Ok x <-> nth_error l i = Some x.
Proof. unfold vget; destruct (nth_error l i); split; congruence. Qed.

Lemma vget_some {A} (l : list A) i : i < length l -> exists x, nth_error l i = Some x /\ vget l i = Ok x.
Proof. intros H. unfold vget. destruct (nth_error l i) eqn:E; eauto.
       apply nth_error_None in E; lia. Qed.

Lemma vset_ok {A} (l : list A) i x l' : vset l i x = Ok l' <-> i < length l /\ l' = upd l i x.
Proof. unfold vset; destruct (Nat.ltb_spec i (length l)); split; intros H'.
       - inversion H'; auto. - destruct H' as [_ ->]; auto. - discriminate. - lia. Qed.

Lemma bind_ok {A B} (m : outcome A) (k : A -> outcome B) b :
  bind m k = Ok b -> exists a, m = Ok a /\ k a = Ok b.
Proof. destruct m; simpl; try discriminate; eauto. Qed.

Lemma guard_ok b : guard b = Ok tt <-> b = true.
Proof. destruct b; simpl; split; congruence. Qed.

Lemma nth_error_Some_lt {A} (l : list A) i x : nth_error l i = Some x -> i < length l.
Proof. intros H; apply nth_error_Some; congruence. Qed.

Lemma nth_error_ext {A} (l1 l2 : list A) :
  (forall i, nth_error l1 i = nth_error l2 i) -> l1 = l2.
Proof.
  revert l2; induction l1 as [|x t IH]; intros [|y t2] H; auto.
  - specialize (H 0); discriminate.
  - specialize (H 0); discriminate.
  - pose proof (H 0) as H0; simpl in H0; inversion H0; subst. f_equal.
    apply IH; intros i; exact (H (S i)).
Qed.

Ltac inv H := inversion H; subst; clear H.
Ltac bindinv H := apply bind_ok in H; destruct H as (?x & ?Hx & H).
Ltac splits := repeat match goal with |- _ /\ _ => split end.
