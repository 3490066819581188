(** Selection rule and fairness of the alternation open list. *)
From Coq Require Import Permutation.
From Verif Require Import Outcome Spec_OpenList Spec_OpenListContract Model_OpenList Proof_Controller.

Section Alt.
Context {E : Type}.
Variable Ls : list (open_list E).
Variable J : sub_states Ls -> Prop.
Variable ents : sub_states Ls -> list E.
Variable boost : Z.
Hypothesis HS : subs_ok Ls J ents.
Hypothesis Hne : Ls <> [].
Notation A := (alternation E Ls boost).

Definition altJ (q : alt_state Ls) : Prop := J (alt_subs q) /\ length (alt_prio q) = length Ls.

Lemma alt_select_spec (q : alt_state Ls) : altJ q -> ol_empty A q = false ->
  exists i p e s',
    alt_served q = Some i /\
    nth_error (subs_empty Ls (alt_subs q)) i = Some false /\
    nth_error (alt_prio q) i = Some p /\
    (forall j pj, nth_error (subs_empty Ls (alt_subs q)) j = Some false ->
       nth_error (alt_prio q) j = Some pj -> (p <= pj)%Z /\ (j < i -> (p < pj)%Z)) /\
    subs_remove Ls (alt_subs q) i = Ok (e, s') /\
    ol_remove_min A q = Ok (e, {| alt_subs := s'; alt_prio := upd (alt_prio q) i (p + 1)%Z |}).
Proof.
  intros [HJ Hl] Hemp. cbn [ol_empty alternation] in Hemp.
  assert (Hl' : length (alt_prio q) = length (subs_empty Ls (alt_subs q))) by (now rewrite subs_empty_length).
  pose proof (alt_best_spec (subs_empty Ls (alt_subs q)) (alt_prio q) 0 None Hl' ltac:(discriminate)) as H.
  destruct (alt_nonempty_selects _ _ Hl' Hemp) as (b & p & Eb & Hb & Hp).
  rewrite Eb in H. destruct H as (_ & H2 & _ & H4).
  destruct (subs_remove_ok _ _ _ HS _ _ HJ Hb) as (e & s' & Er & J' & P).
  exists b, p, e, s'. unfold alt_served. rewrite Eb. splits; auto.
  - intros j pj Hj Hpj. split; [eauto|]. intros Hlt. eapply H4; eauto.
  - cbn [ol_remove_min alternation]. rewrite Eb, Er. reflexivity.
Qed.

Definition term (pi pj : Z) : nat := Z.to_nat (Z.max 0 (pi - pj + 1)).
(** potential of all lists except the one at position [i] *)
Fixpoint pot (i k : nat) (pi : Z) (ps : list Z) : nat :=
  match ps with
  | [] => 0
  | p :: rest => (if k =? i then 0 else term pi p) + pot i (S k) pi rest
  end.

Lemma pot_upd i pi : forall ps k j p, nth_error ps j = Some p -> k + j <> i -> (p <= pi)%Z ->
  S (pot i k pi (upd ps j (p + 1)%Z)) = pot i k pi ps.
Proof.
  induction ps as [|a ps IH]; intros k [|j] p Hj Hne' Hle; try discriminate; cbn [upd pot].
  - cbn in Hj. inv Hj. destruct (Nat.eqb_spec k i); [lia|]. unfold term. lia.
  - cbn in Hj. rewrite <- (IH (S k) j p Hj) by lia. lia.
Qed.

Lemma pot_boost i pi pi' : (0 <= boost)%Z -> (pi' <= pi)%Z -> forall (Ms : list (open_list E)) ps k,
  pot i k pi' (boost_prios Ms ps boost) <= pot i k pi ps + length ps * Z.to_nat boost.
Proof.
  intros Hb Hpi. 
  assert (Hsame : forall ps k, pot i k pi' ps <= pot i k pi ps).
  { induction ps as [|p ps IH]; intros k; cbn [pot]; auto. specialize (IH (S k)).
    destruct (k =? i); unfold term; lia. }
  induction Ms as [|M Ms IH]; intros [|p ps] k; cbn [boost_prios].
  - cbn; lia.
  - specialize (Hsame (p :: ps) k). lia.
  - cbn; lia.
  - specialize (IH ps (S k)). cbn [pot length]. destruct (k =? i), (ol_only_pref M); unfold term; lia.
Qed.

Lemma boost_nth ps i p : (0 <= boost)%Z -> nth_error ps i = Some p -> length ps = length Ls ->
  exists p', nth_error (boost_prios Ls ps boost) i = Some p' /\ (p' <= p)%Z.
Proof.
  intros Hb. clear HS Hne J ents. revert ps i. induction Ls as [|M Ms IH]; intros [|a ps] [|i] H Hl; try discriminate; cbn in *.
  - inv H. destruct (ol_only_pref M); eexists; split; eauto; lia.
  - apply IH; auto.
Qed.

Definition potq (i : nat) (q : alt_state Ls) : nat :=
  match nth_error (alt_prio q) i with Some p => pot i 0 p (alt_prio q) | None => 0 end.

Lemma removals_bound i : (0 <= boost)%Z -> i < length Ls -> forall cs (q : alt_state Ls), altJ q ->
  (forall q', In q' (removals A q cs) ->
     nth_error (subs_empty Ls (alt_subs q')) i = Some false /\ alt_served q' <> Some i) ->
  length (removals A q cs) <= potq i q + num_boosts cs * (length Ls * Z.to_nat boost).
Proof.
  intros Hb Hi.
  pose proof (alternation_contract E Ls J ents boost HS Hne) as HA.
  induction cs as [|c cs IH]; intros q HJ Hall; [cbn; lia|].
  assert (Hgen : forall q', ol_step A q c = Ok q' -> altJ q' ->
     potq i q' + (match c with CRemove => 1 | _ => 0 end) <= potq i q + (match c with CBoost => 1 | _ => 0 end) * (length Ls * Z.to_nat boost) ->
     (forall q2, In q2 (removals A q' cs) -> In q2 (removals A q (c :: cs))) ->
     length (removals A q (c :: cs)) <= potq i q + num_boosts (c :: cs) * (length Ls * Z.to_nat boost)).
  { intros q' Hs HJ' Hpot Hin. specialize (IH q' HJ').
    assert (Hall' : forall q2, In q2 (removals A q' cs) ->
       nth_error (subs_empty Ls (alt_subs q2)) i = Some false /\ alt_served q2 <> Some i) by auto.
    specialize (IH Hall'). cbn [removals]. rewrite Hs.
    unfold num_boosts in *. destruct c; cbn [filter length] in *; lia. }
  destruct c as [x e| | |].
  - destruct (oc_insert _ _ _ HA q x e HJ) as (q' & E1 & J1 & _).
    apply (Hgen q'); auto.
    + unfold potq. assert (Ep : alt_prio q' = alt_prio q).
      { unfold ol_insert in E1. destruct (_ && _); [inv E1; auto|]. destruct (ol_dead A x); [inv E1; auto|].
        cbn [ol_do_insertion alternation] in E1. apply bind_ok in E1. destruct E1 as (s & _ & E1). inv E1. auto. }
      rewrite Ep. lia.
    + intros q2 Hin. cbn [removals]. cbn [ol_step]. now rewrite E1.
  - destruct (Hall q) as [H1 H2]; [cbn; auto|].
    assert (Hemp : ol_empty A q = false).
    { destruct (ol_empty A q) eqn:Ee; auto. cbn in Ee. rewrite forallb_forall in Ee.
      apply nth_error_In in H1. apply Ee in H1. discriminate. }
    destruct (alt_select_spec q HJ Hemp) as (b & p & e & s' & Hsv & Hbe & Hbp & Hmin & Hsr & Hrm).
    assert (Hb' : b <> i) by congruence.
    destruct HJ as [HJ Hl].
    destruct (nth_error (alt_prio q) i) as [pi|] eqn:Epi.
    2:{ apply nth_error_None in Epi. lia. }
    destruct (Hmin i pi H1 Epi) as [Hle _].
    eapply Hgen.
    + cbn [ol_step]. rewrite Hrm. reflexivity.
    + destruct (subs_remove_ok _ _ _ HS _ _ HJ Hbe) as (e2 & s2 & Er & J' & _).
      rewrite Hsr in Er. inv Er. split; cbn; auto. now rewrite upd_length.
    + unfold potq; cbn [alt_prio]. rewrite upd_nth_neq by auto. rewrite Epi.
      rewrite <- (pot_upd i pi (alt_prio q) 0 b p) by (auto; lia). lia.
    + intros q2 Hin. cbn [removals ol_step]. rewrite Hrm; cbn [bind]. cbn; auto.
  - eapply Hgen; [reflexivity| | |].
    + apply (oc_boost _ _ _ HA); auto.
    + unfold potq; cbn [ol_boost alternation alt_prio]. destruct HJ as [HJ Hl].
      destruct (nth_error (alt_prio q) i) as [pi|] eqn:Epi.
      2:{ apply nth_error_None in Epi. lia. }
      destruct (boost_nth _ _ _ Hb Epi Hl) as (p' & -> & Hle).
      pose proof (pot_boost i pi p' Hb Hle Ls (alt_prio q) 0) as P. rewrite Hl in P. lia.
    + intros q2 Hin. exact Hin.
  - eapply Hgen; [reflexivity| | |].
    + apply (oc_clear _ _ _ HA); auto.
    + unfold potq; cbn. lia.
    + intros q2 Hin. exact Hin.
Qed.

Lemma alternation_fair i (q : alt_state Ls) B : (0 <= boost)%Z -> i < length Ls -> altJ q ->
  exists N, forall cs, num_boosts cs <= B -> N < length (removals A q cs) ->
    (forall q', In q' (removals A q cs) -> nth_error (subs_empty Ls (alt_subs q')) i = Some false) ->
    exists q', In q' (removals A q cs) /\ alt_served q' = Some i.
Proof.
  intros Hb Hi HJ. exists (potq i q + B * (length Ls * Z.to_nat boost)). intros cs HB HN Hall.
  destruct (existsb (fun q' => match alt_served q' with Some j => j =? i | None => false end) (removals A q cs)) eqn:Ex.
  - apply existsb_exists in Ex. destruct Ex as (q' & Hin & Hs). exists q'. split; auto.
    destruct (alt_served q') as [j|]; [|discriminate]. apply Nat.eqb_eq in Hs. now subst.
  - exfalso. pose proof (removals_bound i Hb Hi cs q HJ) as P.
    assert (Hno : forall q', In q' (removals A q cs) ->
       nth_error (subs_empty Ls (alt_subs q')) i = Some false /\ alt_served q' <> Some i).
    { intros q' Hin. split; auto. intros Hs.
      assert (Hx : existsb (fun q' => match alt_served q' with Some j => j =? i | None => false end) (removals A q cs) = true).
      { apply existsb_exists. exists q'. split; auto. rewrite Hs. apply Nat.eqb_refl. }
      congruence. }
    specialize (P Hno). pose proof (Nat.mul_le_mono_r _ _ (length Ls * Z.to_nat boost) HB). lia.
Qed.
End Alt.

Lemma boost_prios_nth {E} (Ls : list (open_list E)) boost : forall ps i L p,
  nth_error Ls i = Some L -> nth_error ps i = Some p ->
  nth_error (boost_prios Ls ps boost) i = Some (if ol_only_pref L then p - boost else p)%Z.
Proof.
  induction Ls as [|M Ms IH]; intros [|a ps] [|i] L p HL Hp; try discriminate; cbn in *.
  - inv HL. inv Hp. destruct (ol_only_pref L); auto.
  - eauto.
Qed.

Lemma alternation_boost_spec E (Ls : list (open_list E)) boost (q : alt_state Ls) :
  alt_subs (ol_boost (alternation E Ls boost) q) = alt_subs q /\
  forall i L p, nth_error Ls i = Some L -> nth_error (alt_prio q) i = Some p ->
    nth_error (alt_prio (ol_boost (alternation E Ls boost) q)) i =
      Some (if ol_only_pref L then p - boost else p)%Z.
Proof. split; auto. intros. cbn. now apply boost_prios_nth. Qed.
