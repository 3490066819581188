(** Correctness of the match tree. *)
From Coq Require Import Sorted Permutation.
From Verif Require Import Outcome Spec_Task Model_PDB.

Section MT.
Variable doms : list nat.
Notation k := (length doms).

Inductive mwf : nat -> mtree -> Prop :=
| mwf_nil : forall lo, mwf lo MNil
| mwf_leaf : forall lo ops, mwf lo (MLeaf ops)
| mwf_node : forall lo ops v succ star d, lo <= v -> nth_error doms v = Some d -> length succ = d ->
    Forall (mwf (S v)) succ -> mwf (S v) star -> mwf lo (MNode ops v succ star).

Lemma mwf_weak lo lo' t : lo' <= lo -> mwf lo t -> mwf lo' t.
Proof. intros H Hw. inversion Hw; subst; econstructor; eauto; lia. Qed.

Variable val : nat -> outcome nat.
Variable a : nat -> nat.
Hypothesis Hval : forall v d, nth_error doms v = Some d -> val v = Ok (a v) /\ a v < d.

Lemma mget_node ops v succ star : mget val (MNode ops v succ star) =
  let* x := val v in let* c := vget succ x in let* l1 := mget val c in let* l2 := mget val star in Ok (ops ++ l1 ++ l2).
Proof.
  cbn [mget]. destruct (val v) as [x| | |]; cbn [bind]; auto.
  assert (G : forall l i, (fix at_pos (l : list mtree) (i : nat) : outcome (list nat) :=
                    match l, i with [], _ => UB | c :: _, O => mget val c | _ :: l, S i => at_pos l i end) l i = let* c := vget l i in mget val c).
  { induction l as [|c l IH]; intros [|i]; try reflexivity. rewrite IH. reflexivity. }
  rewrite G. unfold vget. destruct (nth_error succ x); reflexivity.
Qed.

Lemma mget_ok : forall m lo t, k - lo <= m -> mwf lo t -> exists l, mget val t = Ok l.
Proof.
  induction m as [|m IH]; intros lo t Hm Hw; inversion Hw as [|? ops|? ops v succ star d Hlo Hd Hl Hs Hst]; subst; try (eexists; reflexivity).
  - apply nth_error_Some_lt in Hd. lia.
  - pose proof (nth_error_Some_lt _ _ _ Hd) as Hlt. destruct (Hval v _ Hd) as [Ev Hav]. rewrite mget_node, Ev. cbn [bind].
    destruct (vget_some succ (a v) Hav) as (c & Ec & ->). cbn [bind].
    destruct (IH (S v) c ltac:(lia)) as [l1 ->]; [eapply Forall_forall; [exact Hs|]; eapply nth_error_In; eauto|].
    destruct (IH (S v) star ltac:(lia) Hst) as [l2 ->]. cbn [bind]. eauto.
Qed.

Definition pre_ok (f : fact) : Prop := exists d, nth_error doms (fst f) = Some d /\ snd f < d.
Definition matches (pres : list fact) : Prop := forall f, In f pres -> a (fst f) = snd f.
Definition fsorted (pres : list fact) : Prop := StronglySorted (fun f g => fst f < fst g) pres.

Definition mem (t : mtree) (o : nat) : Prop := exists l, mget val t = Ok l /\ In o l.

Lemma mem_node m ops v succ star d : k - v <= m -> nth_error doms v = Some d -> length succ = d ->
  Forall (mwf (S v)) succ -> mwf (S v) star -> forall o,
  mem (MNode ops v succ star) o <-> In o ops \/ mem (nth (a v) succ MNil) o \/ mem star o.
Proof.
  intros Hm Hd Hl Hs Hst o. unfold mem. rewrite mget_node. destruct (Hval v _ Hd) as [Ev Hav]. rewrite Ev. cbn [bind].
  assert (Hav' : a v < length succ) by lia. unfold vget. rewrite (nth_error_nth' succ MNil Hav'). cbn [bind].
  destruct (mget_ok k (S v) (nth (a v) succ MNil)) as [l1 E1]; [lia|eapply Forall_forall; [exact Hs|]; now apply nth_In|].
  destruct (mget_ok k (S v) star) as [l2 E2]; [lia|auto|]. rewrite E1, E2. cbn [bind]. split.
  - intros (l & E & Hi). inversion E; subst l. rewrite !in_app_iff in Hi. destruct Hi as [|[|]]; eauto 6.
  - intros H. exists (ops ++ l1 ++ l2). split; auto. rewrite !in_app_iff. destruct H as [|[(l & E & Hi)|(l & E & Hi)]]; auto; inversion E; subst; auto.
Qed.

Lemma mem_nil o : mem MNil o <-> False.
Proof. split; [intros (l & E & Hi); inversion E; subst; destruct Hi|intros []]. Qed.
Lemma mem_leaf ops o : mem (MLeaf ops) o <-> In o ops.
Proof. split; [intros (l & E & Hi); inversion E; subst; auto|intros H; exists ops; auto]. Qed.

Lemma minsert_spec op : forall fuel lo pres t, mwf lo t -> fsorted pres -> Forall pre_ok pres -> (forall f, In f pres -> lo <= fst f) ->
  k - lo < fuel ->
  exists t', minsert fuel doms op pres t = Ok t' /\ mwf lo t' /\
    forall o, mem t' o <-> mem t o \/ (o = op /\ matches pres).
Proof.
  induction fuel as [|fuel IH]; intros lo pres t Hw Hs Hok Hlo Hf; [lia|]. destruct pres as [|[v x] r]; cbn [minsert].
  - eexists. split; [reflexivity|].
    assert (Hm : matches []) by (intros f []).
    inversion Hw as [|? ops|? ops v succ star d Hlv Hd Hl Hsu Hst]; subst.
    + split; [constructor|]. intros o. rewrite mem_leaf, mem_nil. cbn [In]. intuition.
    + split; [constructor|]. intros o. rewrite !mem_leaf, in_app_iff. cbn [In]. intuition.
    + split; [econstructor; eauto|]. intros o. rewrite !(mem_node k) with (d := length succ) by (auto; lia). rewrite in_app_iff. cbn [In]. intuition.
  - inversion Hok as [|? ? (d & Hd & Hx) Hok']; subst. cbn [fst snd] in Hd, Hx. pose proof (nth_error_Some_lt _ _ _ Hd) as Hvk.
    inversion Hs as [|? ? Hs' Hall]; subst. specialize (Hlo (v, x) (or_introl eq_refl)) as Hlov. cbn [fst] in Hlov.
    rewrite (proj2 (vget_ok doms v d) Hd). cbn [bind].
    assert (Hrlo : forall f, In f r -> S v <= fst f).
    { intros f Hi. rewrite Forall_forall in Hall. specialize (Hall f Hi). cbn [fst] in Hall. lia. }
    assert (Hmatch : forall P, (P /\ matches r) /\ a v = x <-> P /\ matches ((v, x) :: r)).
    { intros Q. unfold matches. split.
      - intros [[HQ H] Ha]. split; auto. intros f [<-|Hi]; auto.
      - intros [HQ H]. splits; auto; [intros f Hi; apply H; now right|apply (H (v, x)); now left]. }
    (* the case in which the node tests [v] *)
    assert (Here : forall ops succ star, length succ = d -> Forall (mwf (S v)) succ -> mwf (S v) star ->
      exists t', (let* child := vget succ x in let* child := minsert fuel doms op r child in let* succ := vset succ x child in
        Ok (MNode ops v succ star)) = Ok t' /\ mwf lo t' /\
        forall o, mem t' o <-> mem (MNode ops v succ star) o \/ (o = op /\ matches ((v, x) :: r))).
    { intros ops succ star Hl Hsu Hst. assert (Hxl : x < length succ) by lia.
      unfold vget. rewrite (nth_error_nth' succ MNil Hxl). cbn [bind].
      assert (Hwc : mwf (S v) (nth x succ MNil)) by (eapply Forall_forall; [exact Hsu|]; now apply nth_In).
      destruct (IH (S v) r (nth x succ MNil) Hwc Hs' Hok' Hrlo) as (c' & Ec & Hwc' & Hm); [lia|]. rewrite Ec. cbn [bind].
      unfold vset. rewrite (proj2 (Nat.ltb_lt _ _) Hxl). cbn [bind]. eexists. split; [reflexivity|].
      assert (Hsu' : Forall (mwf (S v)) (upd succ x c')).
      { apply Forall_forall. intros y Hy. apply In_upd in Hy. destruct Hy as [->|Hy]; auto. rewrite Forall_forall in Hsu; auto. }
      split; [eapply mwf_node with (d := d); eauto; now rewrite upd_length|].
      intros o. rewrite !(mem_node k) with (d := d) by (auto; try rewrite upd_length; auto; lia).
      rewrite <- Hmatch.
      assert (En : nth (a v) (upd succ x c') MNil = if a v =? x then c' else nth (a v) succ MNil).
      { destruct (Hval v d Hd) as [_ Hav]. pose proof (upd_nth succ x (a v) c') as U. rewrite (nth_error_nth' (upd succ x c') MNil) in U by (rewrite upd_length; lia).
        rewrite (nth_error_nth' succ MNil) in U by lia. rewrite (proj2 (Nat.ltb_lt _ _) Hxl), andb_true_r in U. rewrite Nat.eqb_sym.
        destruct (Nat.eqb_spec x (a v)); cbn [andb] in U; congruence. }
      rewrite En. destruct (Nat.eqb_spec (a v) x) as [Ea|Ea].
      - rewrite Hm, Ea. tauto.
      - tauto. }
    assert (Hrep : forall y, In y (repeat MNil d) -> y = MNil) by (intros y Hy; now apply repeat_spec in Hy).
    assert (Hnew : forall ops star, mwf (S v) star -> forall o, mem (MNode ops v (repeat MNil d) star) o <-> In o ops \/ mem star o).
    { intros ops star Hst o. rewrite (mem_node k) with (d := d); auto; try (rewrite repeat_length; auto); try lia.
      - rewrite (Hrep (nth (a v) (repeat MNil d) MNil)); [rewrite mem_nil; tauto|]. apply nth_In. rewrite repeat_length. apply (Hval v d Hd).
      - apply Forall_forall. intros y Hy. rewrite (Hrep y Hy). constructor. }
    assert (Hrepw : Forall (mwf (S v)) (repeat MNil d)) by (apply Forall_forall; intros y Hy; rewrite (Hrep y Hy); constructor).
    destruct t as [|ops|ops v' succ star].
    + rewrite Nat.eqb_refl. destruct (Here [] (repeat MNil d) MNil) as (t' & E & Hw' & Hm); auto using repeat_length; [constructor|].
      exists t'. splits; auto. intros o. rewrite Hm, (Hnew [] MNil) by constructor. rewrite !mem_nil. cbn [In]. tauto.
    + rewrite Nat.eqb_refl. destruct (Here ops (repeat MNil d) MNil) as (t' & E & Hw' & Hm); auto using repeat_length; [constructor|].
      exists t'. splits; auto. intros o. rewrite Hm, (Hnew ops MNil) by constructor. rewrite mem_nil, mem_leaf. tauto.
    + inversion Hw as [| |? ? ? ? ? d' Hlv Hd' Hl Hsu Hst]; subst.
      destruct (Nat.ltb_spec v v') as [Hlt|Hge].
      * rewrite Nat.eqb_refl. assert (Hwt : mwf (S v) (MNode ops v' succ star)) by (eapply mwf_node; eauto).
        destruct (Here [] (repeat MNil d) (MNode ops v' succ star)) as (t' & E & Hw' & Hm); auto using repeat_length.
        exists t'. splits; auto. intros o. rewrite Hm, (Hnew [] _ Hwt). cbn [In]. tauto.
      * destruct (Nat.eqb_spec v' v) as [->|Hne].
        -- rewrite Hd in Hd'; inversion Hd'; subst d. apply Here; auto.
        -- assert (Hlo' : forall f, In f ((v, x) :: r) -> S v' <= fst f).
           { intros f [<-|Hi]; cbn [fst]; [lia|]. specialize (Hrlo f Hi). lia. }
           pose proof (nth_error_Some_lt _ _ _ Hd') as Hvk'.
           destruct (IH (S v') ((v, x) :: r) star Hst Hs Hok Hlo') as (s' & Es & Hws & Hm); [lia|]. match type of Es with ?l = _ => match goal with |- context [bind ?m _] => change m with l end end. rewrite Es. cbn [bind].
           eexists. split; [reflexivity|]. split; [eapply mwf_node; eauto|].
           intros o. rewrite !(mem_node k) with (d := length succ) by (auto; lia). rewrite Hm. tauto.
Qed.
End MT.

Lemma match_tree_spec pj ops : Forall (fun d => 0 < d) (pj_doms pj) ->
  (forall ao, In ao ops -> fsorted (ao_pre ao) /\ Forall (pre_ok (pj_doms pj)) (ao_pre ao)) ->
  exists mt, match_tree pj ops = Ok mt /\ mwf (pj_doms pj) 0 mt /\
    forall val a, (forall v d, nth_error (pj_doms pj) v = Some d -> val v = Ok (a v) /\ a v < d) ->
    forall o, mem val mt o <-> exists ao, nth_error ops o = Some ao /\ matches a (ao_pre ao).
Proof.
  intros Hpos Hok. unfold match_tree.
  assert (G : forall l i t, (forall ao, In ao l -> In ao ops) ->
     mwf (pj_doms pj) 0 t ->
     exists mt, fold_outcome (fun t io => minsert (S (length (pj_doms pj))) (pj_doms pj) (fst io) (ao_pre (snd io)) t) (combine (seq i (length l)) l) t = Ok mt /\
       mwf (pj_doms pj) 0 mt /\
       forall val a, (forall v d, nth_error (pj_doms pj) v = Some d -> val v = Ok (a v) /\ a v < d) ->
       forall o, mem val mt o <-> mem val t o \/ exists j ao, nth_error l j = Some ao /\ o = i + j /\ matches a (ao_pre ao)).
  { induction l as [|ao l IH]; intros i t Hin Hw.
    - exists t. splits; auto. intros val a Hv o. split; [auto|]. intros [|(j & ao & E & _)]; auto. destruct j; discriminate.
    - cbn [length seq combine fold_outcome fst snd]. destruct (Hok ao (Hin ao (or_introl eq_refl))) as [Hs Hp].
      assert (Hv0 : forall v d, nth_error (pj_doms pj) v = Some d -> (fun _ : nat => Ok 0) v = Ok ((fun _ : nat => 0) v) /\ (fun _ : nat => 0) v < d).
      { intros v d Hd. split; auto. rewrite Forall_forall in Hpos. apply Hpos. eapply nth_error_In; eauto. }
      destruct (minsert_spec (pj_doms pj) _ _ Hv0 i (S (length (pj_doms pj))) 0 (ao_pre ao) t Hw Hs Hp) as (t1 & E1 & Hw1 & _); [lia|lia|].
      rewrite E1. cbn [bind]. destruct (IH (S i) t1) as (mt & E & Hwm & Hm); auto; [intros; apply Hin; now right|].
      exists mt. splits; auto. intros val a Hv o. rewrite (Hm val a Hv o).
      destruct (minsert_spec (pj_doms pj) _ _ Hv i (S (length (pj_doms pj))) 0 (ao_pre ao) t Hw Hs Hp) as (t2 & E2 & _ & Hm2); [lia|lia|].
      rewrite E1 in E2; inversion E2; subst t2. rewrite Hm2. split.
      + intros [[H|[-> H]]|(j & ao' & Ej & -> & H)]; auto.
        * right. exists 0, ao. splits; auto; lia.
        * right. exists (S j), ao'. splits; auto; lia.
      + intros [H|(j & ao' & Ej & -> & H)]; auto. destruct j as [|j]; cbn [nth_error] in Ej.
        * inversion Ej; subst. left; right. split; auto; lia.
        * right. exists j, ao'. splits; auto; lia. }
  destruct (G ops 0 MNil) as (mt & E & Hw & Hm); auto; [constructor|]. exists mt. splits; auto.
  intros val a Hv o. rewrite (Hm val a Hv o), mem_nil. split.
  - intros [[]|(j & ao & Ej & -> & H)]. exists ao; auto.
  - intros (ao & Ej & H). right. exists o, ao. splits; auto.
Qed.
