(** Edge open lists meet the contract lazy search relies on. *)
From Coq Require Import Permutation.
From Verif Require Import Outcome Spec_Plan Spec_OpenListContract Spec_LazyController Model_OpenList
  Model_Controller Model_Rng Model_Lazy Model_LazyController.

Lemma take_out_perm {A} (l : list A) : forall i x l', take_out l i = Some (x, l') -> Permutation (x :: l') l.
Proof.
  induction l as [|y l IH]; intros [|i] x l'; cbn [take_out]; try discriminate.
  - intros H; inv H. auto.
  - destruct (take_out l i) as [[z rest]|] eqn:E; [|discriminate]. intros H; inv H.
    rewrite perm_swap. constructor. eapply IH; eauto.
Qed.

Lemma take_out_some {A} (l : list A) : forall i, i < length l -> exists x l', take_out l i = Some (x, l').
Proof.
  induction l as [|y l IH]; intros [|i] H; cbn [take_out length] in *; try lia; eauto.
  destruct (IH i) as (x & l' & ->); [lia|]. eauto.
Qed.

Lemma shuffle_loop_perm {A} f r : forall k (l : list A), Permutation (fst (shuffle_loop f r k l)) l.
Proof.
  induction f as [|f IH]; intros k l; cbn [shuffle_loop]; auto.
  destruct l as [|x l]; auto. destruct (take_out (x :: l) (r k mod length (x :: l))) as [[y l']|] eqn:E; auto.
  destruct (shuffle_loop f r (S k) l') as [rest k'] eqn:Es. cbn [fst].
  rewrite <- (take_out_perm _ _ _ _ E). constructor. specialize (IH (S k) l'). now rewrite Es in IH.
Qed.

Lemma shuffle_perm {A} r k (l : list A) : Permutation (fst (shuffle r k l)) l.
Proof. apply shuffle_loop_perm. Qed.

Section Controller.
Variable T : TS.
Variable L : open_list (nat * nat).
Variable J : OL L -> Prop.
Variable ents : OL L -> list (nat * nat).
Variable evs : nat -> ts_state T -> nat -> option nat.
Variable boosting : list nat.
Variable preferred : ts_state T -> list nat.
Variable r : nat -> nat.
Hypothesis HL : ol_contract L J ents.

Notation ct := (lz_controller T L evs boosting preferred r).

Definition lzI (c : lstate L) : Prop := J (lk_open c) /\ lk_bad c = false.
Definition lz_entries (c : lstate L) : list (nat * nat) := ents (lk_open c).

Lemma lk_init_ok : lzI (lk_init L) /\ lz_entries (lk_init L) = [].
Proof. destruct (oc_init _ _ _ HL). unfold lzI; cbn. auto. Qed.

Lemma lz_controller_ok : (forall s, incl (preferred s) (ts_app T s)) -> lazy_ok ct lzI lz_entries.
Proof.
  intros Hp. constructor; unfold lquiet; cbn; auto.
  - intros c s g b [H1 H2]. destruct (check_progress (lk_min c) boosting (ctx T evs s g true)) as [p m].
    unfold lzI, lz_entries; cbn. destruct (p && b); auto. destruct (oc_boost _ _ _ HL _ H1). auto.
  - intros c l [H1 H2]. destruct (shuffle r (lk_rng c) l) as [l' k]. unfold lzI, lz_entries; cbn. auto.
  - intros c l _. pose proof (shuffle_perm r (lk_rng c) l) as P. destruct (shuffle r (lk_rng c) l) as [l' k]. exact P.
  - intros c s g p e [H1 H2].
    destruct (oc_insert _ _ _ HL (lk_open c) (ctx T evs s g p) e H1) as (q & -> & A & B).
    unfold lzI, lz_entries; cbn. auto.
  - intros c [H1 H2]. destruct (ol_empty L (lk_open c)) eqn:Ee.
    + intros _. now apply (oc_empty _ _ _ HL).
    + destruct (ol_remove_min L (lk_open c)) as [[]| | |]; discriminate.
  - intros c e c' [H1 H2]. destruct (ol_empty L (lk_open c)) eqn:Ee; [discriminate|].
    destruct (oc_remove _ _ _ HL _ H1 Ee) as (e0 & q' & -> & A & B).
    intros H; inv H. unfold lzI, lz_entries; cbn. auto.
Qed.

Lemma lz_controller_safe : ol_accepting L J ents ->
  (forall ev s g, evs ev s g = None -> ~ solvable_from T s) -> lazy_safe ct lzI lz_entries.
Proof.
  intros HA Hs. constructor; cbn; auto.
  - intros c s g [H1 H2] Hd. apply (oc_dead _ _ _ HL) in Hd. destruct Hd as [ev Hd]. eapply Hs; exact Hd.
  - intros c s g p e [H1 H2] Hsol.
    destruct (oc_insert _ _ _ HL (lk_open c) (ctx T evs s g p) e H1) as (q & Eq & A & B).
    rewrite Eq. unfold lz_entries; cbn.
    apply (HA (lk_open c) (ctx T evs s g p) e q H1); auto. intros ev Hn. exact (Hs ev s g Hn Hsol).
Qed.
End Controller.
