(** Pattern databases, part 2: abstract operators are exactly the projected transitions. *)
From Coq Require Import Sorted Permutation.
From Verif Require Import Outcome Spec_Task Spec_Relaxation Spec_Projection Model_Task Proof_Task Model_PDB Proof_MixedRadix Proof_MatchTree Proof_PDB1.

Lemma fold_collect {A B} (f : list B -> A -> outcome (list B)) (Q : A -> B -> Prop) l :
  (forall i ops, In i l -> exists new, f ops i = Ok (ops ++ new) /\ forall b, In b new <-> Q i b) ->
  forall ops, exists new, fold_outcome f l ops = Ok (ops ++ new) /\ forall b, In b new <-> exists i, In i l /\ Q i b.
Proof.
  induction l as [|x l IH]; intros Hf ops; cbn [fold_outcome].
  - exists []. rewrite app_nil_r. split; auto. intros b. split; [intros []|intros (i & [] & _)].
  - destruct (Hf x ops (or_introl eq_refl)) as (n1 & E1 & H1). rewrite E1. cbn [bind].
    destruct (IH (fun i o H => Hf i o (or_intror H)) (ops ++ n1)) as (n2 & E2 & H2). rewrite E2. exists (n1 ++ n2). rewrite app_assoc. split; auto.
    intros b. rewrite in_app_iff, H1, H2. split.
    + intros [H|(i & Hi & H)]; [exists x; auto|exists i; auto]. split; auto. now left. split; auto. now right.
    + intros (i & [->|Hi] & H); [now left|right; eauto].
Qed.

(** A choice of old values for the effects without precondition. *)
Definition keeps (x : fact * nat) : bool := snd (fst x) =? snd x.
Definition cprev (z : list (fact * nat)) : list fact := map fst (filter keeps z).
Definition cpre (z : list (fact * nat)) : list fact := map (fun x => (fst (fst x), snd x)) (filter (fun x => negb (keeps x)) z).
Definition ceff (z : list (fact * nat)) : list fact := map fst (filter (fun x => negb (keeps x)) z).
Definition choice (doms : list nat) (ewp : list fact) (z : list (fact * nat)) : Prop :=
  map fst z = ewp /\ forall x, In x z -> pre_ok doms (fst (fst x), snd x).
Definition mk_abs (doms : list nat) (id cost : nat) (prev pre eff : list fact) : abs_op :=
  {| ao_id := id; ao_cost := cost; ao_pre := fsort (prev ++ eff); ao_hash := hsum doms pre eff |}.

Lemma cprev_cons v e i z : cprev (((v, e), i) :: z) = if i =? e then (v, i) :: cprev z else cprev z.
Proof. unfold cprev. cbn [filter]. change (keeps (v, e, i)) with (e =? i). rewrite Nat.eqb_sym. destruct (Nat.eqb_spec i e) as [->|]; reflexivity. Qed.
Lemma cpre_cons v e i z : cpre (((v, e), i) :: z) = if i =? e then cpre z else (v, i) :: cpre z.
Proof. unfold cpre. cbn [filter]. change (keeps (v, e, i)) with (e =? i). rewrite Nat.eqb_sym. destruct (Nat.eqb_spec i e) as [->|]; reflexivity. Qed.
Lemma ceff_cons v e i z : ceff (((v, e), i) :: z) = if i =? e then ceff z else (v, e) :: ceff z.
Proof. unfold ceff. cbn [filter]. change (keeps (v, e, i)) with (e =? i). rewrite Nat.eqb_sym. destruct (Nat.eqb_spec i e) as [->|]; reflexivity. Qed.

Section M.
Variable pj : projection.
Hypothesis Hm : pj_mults pj = mults_from 1 (pj_doms pj).
Notation doms := (pj_doms pj).

Lemma build_ok id cost prev pre eff : map fst pre = map fst eff -> NoDup (map fst (prev ++ eff)) -> (forall f, In f pre -> fst f < length doms) ->
  build_abstract_operator pj id cost prev pre eff = Ok (mk_abs doms id cost prev pre eff).
Proof.
  intros H1 H2 H3. unfold build_abstract_operator. rewrite adjacent_ok by now apply fsort_sorted. cbn [guard bind]. rewrite Hm, hash_effect_ok by auto. reflexivity.
Qed.

Lemma multiply_out_ok id cost : forall ewp prev pre eff ops,
  map fst pre = map fst eff -> NoDup (map fst (ewp ++ prev ++ eff)) -> (forall f, In f pre -> fst f < length doms) -> (forall f, In f ewp -> fst f < length doms) ->
  exists new, multiply_out pj id cost ewp prev pre eff ops = Ok (ops ++ new) /\
    forall ao, In ao new <-> exists z, choice doms ewp z /\ eff ++ ceff z <> [] /\ ao = mk_abs doms id cost (prev ++ cprev z) (pre ++ cpre z) (eff ++ ceff z).
Proof.
  induction ewp as [|[v e] r IH]; intros prev pre eff ops Hal Hnd Hp He.
  - cbn [multiply_out]. destruct eff as [|f0 eff0] eqn:Eeff.
    + exists []. rewrite app_nil_r. split; auto. intros ao. split; [intros []|]. intros (z & (Hz & _) & Hn & _). apply map_eq_nil in Hz. subst z. cbn in Hn. now exfalso.
    + rewrite <- Eeff in *. rewrite build_ok by auto. cbn [bind]. exists [mk_abs doms id cost prev pre eff]. split; auto. intros ao. cbn [In]. split.
      * intros [<-|[]]. exists []. split; [split; [reflexivity|intros x []]|]. cbn [cprev cpre ceff filter map]. rewrite !app_nil_r. split; [rewrite Eeff; discriminate|reflexivity].
      * intros (z & (Hz & _) & _ & ->). apply map_eq_nil in Hz. subst z. cbn [cprev cpre ceff filter map]. rewrite !app_nil_r. auto.
  - cbn [multiply_out]. assert (Hv : v < length doms) by (apply (He (v, e)); now left).
    unfold vget at 1. destruct (nth_error doms v) as [d|] eqn:Ed; [|apply nth_error_None in Ed; lia]. cbn [bind].
    set (Q := fun i ao => exists z, choice doms r z /\
       (if i =? e then eff ++ ceff z <> [] /\ ao = mk_abs doms id cost ((prev ++ [(v, i)]) ++ cprev z) (pre ++ cpre z) (eff ++ ceff z)
        else (eff ++ [(v, e)]) ++ ceff z <> [] /\ ao = mk_abs doms id cost (prev ++ cprev z) ((pre ++ [(v, i)]) ++ cpre z) ((eff ++ [(v, e)]) ++ ceff z))).
    cbn [app map fst] in Hnd.
    destruct (fold_collect (fun ops i => if i =? e then multiply_out pj id cost r (prev ++ [(v, i)]) pre eff ops
        else multiply_out pj id cost r prev (pre ++ [(v, i)]) (eff ++ [(v, e)]) ops) Q (seq 0 d)) with (ops := ops) as (new & E & Hnew).
    { intros i ops' _. unfold Q. destruct (i =? e) eqn:Ei.
      - apply IH; auto; [|intros; apply He; now right]. eapply Permutation_NoDup; [|exact Hnd].
        rewrite !map_app. cbn [map fst]. rewrite <- !app_assoc. cbn [app]. rewrite !app_assoc. apply Permutation_middle.
      - destruct (IH prev (pre ++ [(v, i)]) (eff ++ [(v, e)]) ops') as (new & E & H).
        + rewrite !map_app. cbn [map fst]. now rewrite Hal.
        + eapply Permutation_NoDup; [|exact Hnd]. rewrite !map_app. cbn [map fst]. rewrite !app_assoc. apply Permutation_cons_append.
        + intros f Hf. apply in_app_iff in Hf. destruct Hf as [Hf|[<-|[]]]; auto.
        + intros f Hf. apply He. now right.
        + exists new. split; auto. }
    exists new. split; [exact E|]. intros ao. rewrite Hnew. unfold Q. split.
    + intros (i & Hi & z & (Hz & Hc) & HQ). exists (((v, e), i) :: z). split; [split; [cbn [map fst]; now rewrite Hz|]|].
      { intros x [<-|Hx]; [|auto]. cbn [fst snd]. exists d. cbn [fst snd]. split; auto. apply in_seq in Hi. lia. }
      rewrite cprev_cons, cpre_cons, ceff_cons. destruct (i =? e); rewrite <- !app_assoc in HQ; cbn [app] in HQ; exact HQ.
    + intros (z & (Hz & Hc) & Hn & ->). destruct z as [|[f i] z]; [discriminate|]. cbn [map fst] in Hz. inversion Hz; subst f. exists i. split.
      { destruct (Hc ((v, e), i) (or_introl eq_refl)) as (d' & Hd' & Hi). cbn [fst snd] in *. apply in_seq. rewrite Ed in Hd'; inversion Hd'; subst. lia. }
      exists z. split; [split; [congruence|intros x Hx; apply Hc; now right]|].
      rewrite ceff_cons in Hn. rewrite cprev_cons, cpre_cons, ceff_cons. destruct (i =? e); rewrite <- !app_assoc; cbn [app]; auto.
Qed.
End M.

(** A transition of the projected operator. *)
Definition trans (Ppre Peff : list fact) (b a : list nat) : Prop :=
  length a = length b /\ (forall f, In f Ppre -> nth_error b (fst f) = Some (snd f)) /\
  (forall f, In f Peff -> nth_error a (fst f) = Some (snd f)) /\
  (forall v, ~ In v (map fst Peff) -> nth_error a v = nth_error b v).

Section E.
Variable doms : list nat.
Variables Ppre Peff : list fact.
Hypothesis Hpn : NoDup (map fst Ppre).
Hypothesis Hen : NoDup (map fst Peff).
Hypothesis Hpo : forall f, In f Ppre -> pre_ok doms f.
Hypothesis Heo : forall f, In f Peff -> pre_ok doms f.
Let eff0 := filter (hasv Ppre) Peff.
Let ewp0 := filter (fun f => negb (hasv Ppre f)) Peff.
Let pre0 := filter (hasv Peff) Ppre.
Let prev0 := filter (fun f => negb (hasv Peff f)) Ppre.
Hypothesis Hal : map fst pre0 = map fst eff0.

Definition abs_edge (a b : list nat) : Prop :=
  exists z, choice doms ewp0 z /\ eff0 ++ ceff z <> [] /\
    (forall f, In f ((prev0 ++ cprev z) ++ eff0 ++ ceff z) -> nth_error a (fst f) = Some (snd f)) /\
    b = changes (pre0 ++ cpre z) a.

Lemma cpre_ceff z : map fst (cpre z) = map fst (ceff z).
Proof. unfold cpre, ceff. rewrite !map_map. apply map_ext. reflexivity. Qed.
Lemma preA_effA z : map fst (pre0 ++ cpre z) = map fst (eff0 ++ ceff z).
Proof. rewrite !map_app. f_equal; [exact Hal|apply cpre_ceff]. Qed.

Lemma nodup_fst_inj (l : list fact) f g : NoDup (map fst l) -> In f l -> In g l -> fst f = fst g -> f = g.
Proof.
  induction l as [|h l IH]; intros Hn Hf Hg E; [destruct Hf|]. cbn [map] in Hn. inversion Hn as [|? ? Hh Hn']; subst.
  destruct Hf as [<-|Hf], Hg as [<-|Hg]; auto.
  - exfalso. apply Hh. rewrite E. now apply in_map.
  - exfalso. apply Hh. rewrite <- E. now apply in_map.
Qed.
Lemma nodup_filter_map (g : fact -> bool) l : NoDup (map fst l) -> NoDup (map fst (filter g l)).
Proof.
  induction l as [|h l IH]; cbn [filter map]; intros Hn; [constructor|]. inversion Hn as [|? ? Hh Hn']; subst. destruct (g h); cbn [map]; auto.
  constructor; auto. intros Hi. apply Hh. apply in_map_iff in Hi. destruct Hi as (x & Ex & Hx). apply filter_In in Hx. rewrite <- Ex. apply in_map. tauto.
Qed.
Lemma nodup_start : NoDup (map fst (ewp0 ++ prev0 ++ eff0)).
Proof.
  assert (HP : Permutation (map fst (ewp0 ++ prev0 ++ eff0)) (map fst Peff ++ map fst prev0)).
  { rewrite !map_app. eapply perm_trans; [apply Permutation_app_head, Permutation_app_comm|]. rewrite app_assoc. apply Permutation_app_tail.
    rewrite <- map_app. apply Permutation_map. unfold ewp0, eff0. clear. induction Peff as [|f l IH]; cbn [filter app]; auto. destruct (hasv Ppre f); cbn [negb app].
    - eapply perm_trans; [symmetry; apply Permutation_middle|]. now apply perm_skip.
    - now apply perm_skip. }
  eapply Permutation_NoDup; [symmetry; exact HP|]. clear HP.
  assert (Hd : forall x, In x (map fst Peff) -> ~ In x (map fst prev0)).
  { intros x Hx Hi. apply in_map_iff in Hi. destruct Hi as (f & <- & Hf). apply filter_In in Hf. destruct Hf as [_ Hf]. apply negb_true_iff in Hf.
    apply hasv_spec in Hx. congruence. }
  pose proof (nodup_filter_map (fun f => negb (hasv Peff f)) Ppre Hpn) as Hn2. fold prev0 in Hn2. revert Hd Hen. generalize (map fst Peff) as l. induction l as [|x l IH]; intros Hd Hn; [exact Hn2|].
  inversion Hn; subst. cbn [app]. constructor; [|apply IH; auto; intros; apply Hd; now right]. rewrite in_app_iff. intros [?|Hi]; [contradiction|]. now apply (Hd x (or_introl eq_refl)).
Qed.
Lemma choice_facts z : choice doms ewp0 z -> forall f, In f ewp0 <-> In f (cprev z) \/ In f (ceff z).
Proof.
  intros [<- _] f. unfold cprev, ceff. rewrite !in_map_iff. split.
  - intros (x & Ex & Hx). destruct (keeps x) eqn:K; [left|right]; exists x; split; auto; apply filter_In; split; auto. now rewrite K.
  - intros [(x & Ex & Hx)|(x & Ex & Hx)]; apply filter_In in Hx; exists x; tauto.
Qed.
Lemma in_Peff f : In f Peff <-> In f eff0 \/ In f ewp0.
Proof. unfold eff0, ewp0. rewrite !filter_In. destruct (hasv Ppre f); cbn [negb]; intuition discriminate. Qed.
Lemma in_Ppre f : In f Ppre <-> In f pre0 \/ In f prev0.
Proof. unfold pre0, prev0. rewrite !filter_In. destruct (hasv Peff f); cbn [negb]; intuition discriminate. Qed.
Lemma effA_sub z : choice doms ewp0 z -> forall f, In f (eff0 ++ ceff z) -> In f Peff.
Proof. intros Hz f Hf. rewrite in_Peff. apply in_app_iff in Hf. destruct Hf as [Hf|Hf]; auto. right. apply (choice_facts z Hz). auto. Qed.

Lemma cdisj z : choice doms ewp0 z -> Permutation (map fst (cprev z) ++ map fst (ceff z)) (map fst ewp0).
Proof.
  intros [Hz _]. rewrite <- Hz, <- map_app. apply Permutation_map. unfold cprev, ceff. rewrite <- map_app. apply Permutation_map.
  clear. induction z as [|x z IH]; cbn [filter app]; auto. destruct (keeps x); cbn [negb app].
  - now apply perm_skip.
  - eapply perm_trans; [symmetry; apply Permutation_middle|]. now apply perm_skip.
Qed.
Lemma nodup_A z : choice doms ewp0 z -> NoDup (map fst ((prev0 ++ cprev z) ++ eff0 ++ ceff z)).
Proof.
  intros Hz. eapply Permutation_NoDup; [|exact nodup_start]. rewrite !map_app. rewrite <- (cdisj z Hz).
  set (A := map fst prev0). set (B := map fst (cprev z)). set (C := map fst eff0). set (D := map fst (ceff z)).
  eapply perm_trans; [apply Permutation_app_comm|]. rewrite <- !app_assoc. apply Permutation_app_head. apply Permutation_app_swap_app.
Qed.
Lemma nodup_app_r {A} (l l' : list A) : NoDup (l ++ l') -> NoDup l'.
Proof. induction l; cbn [app]; intros H; auto. inversion H; auto. Qed.
Lemma nodup_preA z : choice doms ewp0 z -> NoDup (map fst (pre0 ++ cpre z)).
Proof.
  intros Hz. rewrite preA_effA. pose proof (nodup_A z Hz) as H. rewrite map_app in H. exact (nodup_app_r _ _ H).
Qed.
Lemma preA_ok z : choice doms ewp0 z -> forall f, In f (pre0 ++ cpre z) -> pre_ok doms f.
Proof.
  intros Hz f Hf. apply in_app_iff in Hf. destruct Hf as [Hf|Hf]; [apply Hpo, in_Ppre; auto|].
  unfold cpre in Hf. apply in_map_iff in Hf. destruct Hf as (x & <- & Hx). apply Hz. apply filter_In in Hx. tauto.
Qed.
Lemma pre_ok_lt f : pre_ok doms f -> fst f < length doms.
Proof. intros (d & Hd & _). eapply nth_error_Some_lt; eauto. Qed.

Lemma edge_trans a b : length a = length doms -> abs_edge a b -> trans Ppre Peff b a.
Proof.
  intros Hl (z & Hz & Hne & Ha & ->). 
  assert (Hin : forall f, In f (pre0 ++ cpre z) -> fst f < length a) by (intros f Hf; rewrite Hl; apply pre_ok_lt, (preA_ok z); auto).
  unfold trans. splits.
  - symmetry; apply changes_length.
  - intros f Hf. apply in_Ppre in Hf. destruct Hf as [Hf|Hf].
    + apply changes_in; auto; [now apply nodup_preA|apply in_app_iff; auto].
    + rewrite changes_other. { apply Ha. rewrite !in_app_iff. auto. }
      rewrite preA_effA. intros Hi. apply in_map_iff in Hi. destruct Hi as (g & Eg & Hg). apply (effA_sub z Hz) in Hg.
      apply filter_In in Hf. destruct Hf as [_ Hf]. apply negb_true_iff in Hf. assert (hasv Peff f = true); [|congruence]. apply hasv_spec. rewrite <- Eg. now apply in_map.
  - intros f Hf. apply in_Peff in Hf. apply Ha. rewrite !in_app_iff. destruct Hf as [Hf|Hf]; auto. apply (choice_facts z Hz) in Hf. tauto.
  - intros v Hv. rewrite changes_other; auto. rewrite preA_effA. intros Hi. apply Hv. apply in_map_iff in Hi. destruct Hi as (g & Eg & Hg). apply (effA_sub z Hz) in Hg. rewrite <- Eg. now apply in_map.
Qed.

Lemma trans_edge a b : in_range doms b -> trans Ppre Peff b a -> a <> b -> abs_edge a b.
Proof.
  intros Hr (Hl & Hp & He & Hu) Hne. set (z := map (fun f => (f, nth (fst f) b 0)) ewp0).
  assert (Hb : forall f, In f Peff -> nth_error b (fst f) = Some (nth (fst f) b 0)).
  { intros f Hf. apply nth_error_nth'. rewrite (in_range_length _ _ Hr). apply pre_ok_lt. auto. }
  assert (Hz : choice doms ewp0 z).
  { split; [unfold z; rewrite map_map; cbn [fst]; apply map_id|]. intros x Hx. unfold z in Hx. apply in_map_iff in Hx. destruct Hx as (f & <- & Hf). cbn [fst snd].
    assert (Hf' : In f Peff) by (apply in_Peff; auto). destruct (Heo f Hf') as (d & Hd & _). exists d. cbn [fst snd]. split; auto.
    eapply in_range_nth; eauto. }
  assert (Hkz : forall x, In x z -> In (fst x) ewp0 /\ snd x = nth (fst (fst x)) b 0).
  { intros x Hx. unfold z in Hx. apply in_map_iff in Hx. destruct Hx as (f & <- & Hf). auto. }
  assert (Hch : b = changes (pre0 ++ cpre z) a).
  { apply nth_error_ext. intros v. destruct (in_dec Nat.eq_dec v (map fst (pre0 ++ cpre z))) as [Hi|Hi].
    - apply in_map_iff in Hi. destruct Hi as (f & <- & Hf).
      rewrite changes_in; auto; [|now apply nodup_preA|intros g Hg; rewrite Hl, (in_range_length _ _ Hr); apply pre_ok_lt, (preA_ok z); auto].
      apply in_app_iff in Hf. destruct Hf as [Hf|Hf]; [apply Hp, in_Ppre; auto|]. unfold cpre in Hf. apply in_map_iff in Hf. destruct Hf as (x & <- & Hx). apply filter_In in Hx. destruct Hx as [Hx _].
      destruct (Hkz x Hx) as [Hx1 Hx2]. cbn [fst snd]. rewrite Hx2. apply Hb. apply in_Peff. auto.
    - rewrite changes_other by auto. destruct (in_dec Nat.eq_dec v (map fst Peff)) as [Hv|Hv]; [|symmetry; auto].
      apply in_map_iff in Hv. destruct Hv as (f & <- & Hf). rewrite (He f Hf). apply in_Peff in Hf. destruct Hf as [Hf|Hf].
      + exfalso. apply Hi. rewrite preA_effA. apply in_map, in_app_iff. auto.
      + pose proof Hf as Hf2. apply (choice_facts z Hz) in Hf2. destruct Hf2 as [Hf2|Hf2].
        * unfold cprev in Hf2. apply in_map_iff in Hf2. destruct Hf2 as (x & <- & Hx). apply filter_In in Hx. destruct Hx as [Hx K]. destruct (Hkz x Hx) as [_ E]. unfold keeps in K. apply Nat.eqb_eq in K.
          rewrite Hb by (apply in_Peff; auto). f_equal. exact (eq_trans (eq_sym E) (eq_sym K)).
        * exfalso. apply Hi. rewrite preA_effA. apply in_map, in_app_iff. auto. }
  exists z. splits; auto.
  - intros E. apply Hne. rewrite Hch. assert (E' : map fst (pre0 ++ cpre z) = []) by (rewrite preA_effA, E; reflexivity). apply map_eq_nil in E'. rewrite E'. reflexivity.
  - intros f Hf. rewrite !in_app_iff in Hf. destruct Hf as [[Hf|Hf]|Hf].
    + rewrite Hu; [apply Hp, in_Ppre; auto|]. apply filter_In in Hf. destruct Hf as [_ Hf]. apply negb_true_iff in Hf. intros Hi. apply hasv_spec in Hi. congruence.
    + apply He. apply in_Peff. right. apply (choice_facts z Hz). auto.
    + apply He. apply (effA_sub z Hz). apply in_app_iff. auto.
Qed.
End E.
