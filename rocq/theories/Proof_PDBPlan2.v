(** The plan computed with a pattern database is an optimal abstract plan. *)
From Coq Require Import Sorted Permutation.
From Verif Require Import Outcome Spec_Task Spec_Relaxation Spec_Projection Spec_PDBPlan Model_Task Proof_Task Model_PQ Model_Graph Model_PDB Model_PDBPlan
  Proof_Graph Proof_MixedRadix Proof_MatchTree Proof_PDB1 Proof_PDB2 Proof_PDB3 Proof_PDBPlan1.
Import ListNotations.

Lemma regress_gen_map pj ops mt i : regress pj ops mt i = (let* l := regress_gen pj ops mt i in Ok (map fst l)).
Proof.
  unfold regress, regress_gen. destruct (mget (unrank pj i) mt) as [ids| | |]; cbn [bind]; auto.
  assert (G : forall ids l, fold_outcome (fun es id => let* ao := vget ops id in let p := (Z.of_nat i + ao_hash ao)%Z in let* _ := guard (0 <=? p)%Z in Ok (es ++ [(Z.to_nat p, ao_cost ao)])) ids (map fst l) =
    (let* l := fold_outcome (fun es id => let* ao := vget ops id in let p := (Z.of_nat i + ao_hash ao)%Z in let* _ := guard (0 <=? p)%Z in Ok (es ++ [(Z.to_nat p, ao_cost ao, id)])) ids l in Ok (map fst l))).
  { clear ids. induction ids as [|id ids IH]; intros l; cbn [fold_outcome]; [reflexivity|]. destruct (vget ops id) as [ao| | |]; cbn [bind]; auto.
    destruct (guard (0 <=? Z.of_nat i + ao_hash ao)%Z) as [[]| | |]; cbn [bind]; auto. rewrite <- IH. now rewrite map_app. }
  exact (G ids []).
Qed.
Lemma regress_gen_in pj ops mt i ids l : mget (unrank pj i) mt = Ok ids -> regress_gen pj ops mt i = Ok l -> forall p w id, In (p, w, id) l ->
  exists ao, In id ids /\ nth_error ops id = Some ao /\ (Z.of_nat i + ao_hash ao = Z.of_nat p)%Z /\ w = ao_cost ao.
Proof.
  intros E. unfold regress_gen. rewrite E. cbn [bind].
  assert (G : forall xs l0 l, incl xs ids -> fold_outcome (fun es id => let* ao := vget ops id in let p := (Z.of_nat i + ao_hash ao)%Z in let* _ := guard (0 <=? p)%Z in Ok (es ++ [(Z.to_nat p, ao_cost ao, id)])) xs l0 = Ok l ->
    forall p w id, In (p, w, id) l -> In (p, w, id) l0 \/ exists ao, In id ids /\ nth_error ops id = Some ao /\ (Z.of_nat i + ao_hash ao = Z.of_nat p)%Z /\ w = ao_cost ao).
  { clear l. induction xs as [|x xs IH]; intros l0 l Hi H p w id Hin; cbn [fold_outcome] in H; [injection H as <-; auto|].
    unfold vget in H. destruct (nth_error ops x) as [ao|] eqn:Ex; [|discriminate]. cbn [bind] in H. destruct (Z.leb_spec 0 (Z.of_nat i + ao_hash ao)) as [Hz|Hz]; cbn [guard bind] in H; [|discriminate].
    destruct (IH _ _ (fun y Hy => Hi y (or_intror Hy)) H p w id Hin) as [H1|H1]; auto. apply in_app_iff in H1. destruct H1 as [H1|[H1|[]]]; auto.
    right. injection H1 as <- <- <-. exists ao. splits; auto; [apply Hi; now left|lia]. }
  intros H p w id Hin. destruct (G ids [] l (incl_refl _) H p w id Hin) as [[]|]; auto.
Qed.

Section T.
Variable t : task.
Hypothesis Ht : plain_task t.
Variable pat : list nat.
Hypothesis Hpat : pattern_ok t pat.
Notation doms := (pdoms t pat).
Variable cs : list nat.
Hypothesis Hcs : length cs = length (t_ops t).
Notation T := (project t pat cs).
Notation Ppre op := (proj_facts pat (op_pre op)).
Notation Peff op := (proj_facts pat (efacts op)).
Notation pj := (the_projection t pat).
Notation nth_op := (nth_op t cs).
Notation goal_ix := (goal_ix t pat cs).

Section Ops.
Variable ops : list abs_op.
Hypothesis Hops : forall ao, In ao ops <-> exists o op c, nth_op o op c /\ abs_of t pat o op c ao.
Variable mt : mtree.
Hypothesis Emt : match_tree pj ops = Ok mt.

Lemma ids_ok i : i < prodl doms -> exists ids, mget (unrank pj i) mt = Ok ids /\
  forall o, In o ids <-> exists ao, nth_error ops o = Some ao /\ matches (fun v => nth v (dig doms i) 0) (ao_pre ao).
Proof.
  intros Hi. destruct (match_tree_spec pj ops) as (mt' & E & Hwf & Hmem); [apply (pdoms_pos t Ht pat Hpat)|now apply (ao_wf t Ht pat Hpat cs)|].
  rewrite Emt in E; inversion E; subst mt'. clear E.
  assert (Hval : forall v d, nth_error (pj_doms pj) v = Some d -> unrank pj i v = Ok (nth v (dig doms i) 0) /\ nth v (dig doms i) 0 < d).
  { intros v d Hd. split; [eapply unrank_ok; eauto|]. eapply in_range_nth; [apply dig_range, (pdoms_pos t Ht pat Hpat)| |exact Hd]. eapply dig_in; eauto. }
  destruct (mget_ok _ _ _ Hval (length (pj_doms pj)) 0 mt ltac:(lia) Hwf) as [ids Eids]. exists ids. split; auto.
  intros o. rewrite <- (Hmem _ _ Hval o). unfold mem. split; [eauto|]. intros (l & El & Hl). rewrite Eids in El; inversion El; subst; auto.
Qed.

Lemma ao_trans ao i : In ao ops -> i < prodl doms -> matches (fun v => nth v (dig doms i) 0) (ao_pre ao) ->
  exists op b, nth_op (ao_id ao) op (ao_cost ao) /\ trans (Ppre op) (Peff op) b (dig doms i) /\ in_range doms b /\ (Z.of_nat i + ao_hash ao = Z.of_nat (horner doms b))%Z.
Proof.
  intros Hao Hi Hm. apply Hops in Hao. destruct Hao as (o & op & c & Hop & z & Hz & Hne & ->). cbn [mk_abs ao_cost ao_id] in *.
  destruct (ao_matches t Ht pat Hpat o op c i z (nth_error_In _ _ (proj1 Hop)) Hi Hz) as (_ & Hm2 & Hh2). pose proof (proj1 Hm2 Hm) as Hm9. destruct (Hh2 Hm9) as [Hr E].
  exists op. eexists. split; [exact Hop|]. split; [|split; [exact Hr|exact E]].
  destruct (op_data t Ht pat Hpat op (nth_error_In _ _ (proj1 Hop))) as (Hpl & Hn1 & Hn2 & Hk1 & Hk2 & Hal & _).
  apply (edge_trans doms); auto; [apply dig_length|]. exists z. splits; eauto.
Qed.
Lemma trans_ao o op c i b : nth_op o op c -> i < prodl doms -> in_range doms b -> trans (Ppre op) (Peff op) b (dig doms i) -> dig doms i <> b ->
  exists ao, In ao ops /\ matches (fun v => nth v (dig doms i) 0) (ao_pre ao) /\ (Z.of_nat i + ao_hash ao = Z.of_nat (horner doms b))%Z /\ ao_cost ao = c /\ ao_id ao = o.
Proof.
  intros Hop Hi Hb Htr Hne. destruct (op_data t Ht pat Hpat op (nth_error_In _ _ (proj1 Hop))) as (Hpl & Hn1 & Hn2 & Hk1 & Hk2 & Hal & _).
  destruct (trans_edge doms (Ppre op) (Peff op) Hn1 Hn2 Hk1 Hk2 Hal (dig doms i) b Hb Htr Hne) as (z & Hz & Hne2 & Ha & Eb).
  destruct (ao_matches t Ht pat Hpat o op c i z (nth_error_In _ _ (proj1 Hop)) Hi Hz) as (_ & Hm & Hh).
  eexists. split; [apply Hops; exists o, op, c; split; auto; exists z; splits; eauto|]. split; [apply Hm; exact Ha|].
  destruct (Hh Ha) as [_ E]. split; [|split; reflexivity]. etransitivity; [exact E|]. now rewrite Eb.
Qed.

(** The transitions from [i] to [j] in the projection. *)
Definition step_op (i j w o : nat) : Prop :=
  applicable T (dig doms i) o /\ progress T (dig doms i) o (dig doms j) /\ exists op, nth_error (t_ops T) o = Some op /\ op_cost op = w.

Lemma step_op_trans i j w o : step_op i j w o <-> exists op, nth_op o op w /\ trans (Ppre op) (Peff op) (dig doms i) (dig doms j).
Proof.
  unfold step_op. split.
  - intros (A & B & op' & E1 & E2). destruct (proj1 (proj_step t Ht pat Hpat cs o (dig doms i) (dig doms j) (dig_length _ _)) (conj A B)) as (op & c & Hop & Htr).
    exists op. assert (c = w). { apply (proj_nth t pat cs) in E1. destruct E1 as (op2 & c2 & Hop2 & ->). cbn [proj_op op_cost] in E2. destruct Hop as [_ H1], Hop2 as [_ H2]. congruence. }
    subst c. auto.
  - intros (op & Hop & Htr). destruct (proj2 (proj_step t Ht pat Hpat cs o (dig doms i) (dig doms j) (dig_length _ _)) (ex_intro _ op (ex_intro _ w (conj Hop Htr)))) as [A B].
    splits; auto. exists (proj_op pat op w). split; [apply (proj_nth t pat cs); eauto|reflexivity].
Qed.

Lemma equivalent_ok i j w : i < prodl doms -> j < prodl doms -> i <> j ->
  exists l, equivalent_ops pj ops mt i j w = Ok l /\ forall o, In o l <-> step_op i j w o.
Proof.
  intros Hi Hj Hne. destruct (ids_ok j Hj) as (ids & Eids & Hids). unfold equivalent_ops. rewrite Eids. cbn [bind].
  destruct (fold_collect (fun r id => let* ao := vget ops id in
      if (Z.of_nat j + ao_hash ao =? Z.of_nat i)%Z && (w =? ao_cost ao) then Ok (r ++ [ao_id ao]) else Ok r)
    (fun id o => exists ao, nth_error ops id = Some ao /\ (Z.of_nat j + ao_hash ao = Z.of_nat i)%Z /\ w = ao_cost ao /\ o = ao_id ao) ids) with (ops := @nil nat) as (l & E & H).
  { intros id r Hid. apply Hids in Hid. destruct Hid as (ao & Hao & Hm). unfold vget. rewrite Hao. cbn [bind].
    destruct (Z.eqb_spec (Z.of_nat j + ao_hash ao) (Z.of_nat i)) as [E1|E1], (Nat.eqb_spec w (ao_cost ao)) as [E2|E2]; cbn [andb].
    1: exists [ao_id ao]; split; [reflexivity|]; intros b; cbn [In]; split; [intros [<-|[]]; exists ao; auto|intros (ao' & Hao' & _ & _ & ->); left; congruence].
    all: exists []; rewrite app_nil_r; split; [reflexivity|]; intros b; split; [intros []|intros (ao' & Hao' & H1 & H2 & _); congruence]. }
  exists l. cbn [app] in E. split; [exact E|]. intros o. rewrite H. split.
  - intros (id & Hid & ao & Hao & Hz & -> & ->). apply Hids in Hid. destruct Hid as (ao' & Hao' & Hm). rewrite Hao in Hao'. injection Hao' as <-.
    destruct (ao_trans ao j (nth_error_In _ _ Hao) Hj Hm) as (op & b & Hop & Htr & Hb & Ez). apply step_op_trans. exists op. split; auto.
    assert (i = horner doms b) as -> by lia. now rewrite dig_horner.
  - intros Hs. apply step_op_trans in Hs. destruct Hs as (op & Hop & Htr).
    assert (Hd : dig doms j <> dig doms i). { intros Hd. apply Hne. pose proof (pdoms_pos t Ht pat Hpat) as Hpp. rewrite <- (horner_dig doms Hpp i Hi), <- (horner_dig doms Hpp j Hj). congruence. }
    destruct (trans_ao o op w j (dig doms i) Hop Hj (dig_range doms (pdoms_pos t Ht pat Hpat) i) Htr Hd) as (ao & Hin & Hm & Hz & Hc & Hid).
    apply In_nth_error in Hin. destruct Hin as [id Hin]. exists id. split; [apply Hids; eauto|]. exists ao. splits; auto. rewrite Hz, horner_dig; auto. apply (pdoms_pos t Ht pat Hpat).
Qed.

Variable shuffle : nat -> list nat -> list nat.
Variable choose : nat -> list nat -> nat.
Hypothesis Hshuffle : forall i l, Permutation (shuffle i l) l.
Hypothesis Hchoose : forall i l, l <> [] -> choose i l < length l.
Variable wildcard : bool.

Definition good_plan (a : state) (steps : list (list nat)) (c : nat) : Prop :=
  wildcard_plan T a steps c /\ (if wildcard then complete_steps T a steps else Forall (fun st => length st = 1) steps).

Lemma follow_ok EL d g rk : (forall i, i < prodl doms -> regress_gen pj ops mt i = Ok (EL i)) -> length d = prodl doms -> length g = prodl doms ->
  (forall s c, nth s d None = Some c -> rk s < prodl doms /\ (~ (s < prodl doms /\ goal_ix s) -> exists p, gen_edge EL d g s p /\ rk p < rk s)) ->
  (forall s, s < prodl doms -> goal_ix s -> nth s d None = Some 0) ->
  forall fuel i s c plan, rk s <= fuel -> nth s d None = Some c ->
  exists steps, follow shuffle choose fuel i pj (proj_facts pat (t_goal t)) ops mt g wildcard s plan = Ok (plan ++ steps) /\ good_plan (dig doms s) steps c.
Proof.
  intros HEL Hld Hlg Hgen Hgoal. induction fuel as [|fuel IH]; intros i s c plan Hrk Hs.
  - cbn [follow]. destruct (is_goal_ok t Ht pat Hpat cs s) as (b & -> & Hb). cbn [bind]. pose proof (dget_lt d s c Hs) as Hlt. rewrite Hld in Hlt. destruct b.
    + apply proj1 in Hb. specialize (Hb eq_refl). exists []. rewrite app_nil_r. split; auto. rewrite (Hgoal s Hlt Hb) in Hs. injection Hs as <-.
      split; [now constructor|]. destruct wildcard; constructor.
    + destruct (proj2 (Hgen s c Hs)) as (p & _ & Hp); [|lia]. intros [_ Hg]. apply Hb in Hg. discriminate.
  - cbn [follow]. destruct (is_goal_ok t Ht pat Hpat cs s) as (b & -> & Hb). cbn [bind]. pose proof (dget_lt d s c Hs) as Hlt. rewrite Hld in Hlt. destruct b.
    + apply proj1 in Hb. specialize (Hb eq_refl). exists []. rewrite app_nil_r. split; auto. rewrite (Hgoal s Hlt Hb) in Hs. injection Hs as <-.
      split; [now constructor|]. destruct wildcard; constructor.
    + destruct (proj2 (Hgen s c Hs)) as (p & (c0 & c' & w & id & E1 & E2 & E3 & E4 & E5) & Hp); [intros [_ Hg]; apply Hb in Hg; discriminate|].
      assert (c0 = c) by congruence. subst c0. pose proof (dget_lt d p c' E2) as Hpl. rewrite Hld in Hpl.
      destruct (ids_ok p Hpl) as (ids & Eids & Hids). destruct (regress_gen_in pj ops mt p ids (EL p) Eids (HEL p Hpl) s w id E5) as (ao & Hid & Hao & Hz & ->).
      apply Hids in Hid. destruct Hid as (ao' & Hao' & Hm). rewrite Hao in Hao'. injection Hao' as <-.
      unfold vget at 1. rewrite E4. cbn [bind]. unfold vget at 1. rewrite Hao. cbn [bind]. cbv zeta. replace (Z.of_nat s - ao_hash ao)%Z with (Z.of_nat p) by lia.
      rewrite (proj2 (Z.leb_le 0 (Z.of_nat p))) by lia. cbn [guard bind]. rewrite Nat2Z.id.
      assert (Hne : s <> p) by (intros ->; lia).
      destruct (equivalent_ok s p (ao_cost ao) Hlt Hpl Hne) as (l & -> & Hl). cbn [bind].
      assert (Hin : In (ao_id ao) l).
      { apply Hl. destruct (ao_trans ao p (nth_error_In _ _ Hao) Hpl Hm) as (op & b & Hop & Htr & Hbr & Ez). apply step_op_trans. exists op. split; auto.
        assert (s = horner doms b) as -> by lia. now rewrite dig_horner. }
      assert (Hl0 : l <> []) by (intros ->; destruct Hin).
      assert (Hst : exists step, (if wildcard then Ok (shuffle i l) else let* o := vget l (choose i l) in Ok [o]) = Ok step /\ step <> [] /\ (forall o, In o step -> In o l) /\
        (if wildcard then (forall o, In o l -> In o step) else length step = 1)).
      { destruct wildcard.
        - exists (shuffle i l). split; auto. pose proof (Hshuffle i l) as Hp1. splits; auto.
          + intros E. rewrite E in Hp1. apply Permutation_nil in Hp1. contradiction.
          + intros o. apply Permutation_in. auto.
          + intros o. apply Permutation_in. now symmetry.
        - destruct (nth_error l (choose i l)) as [o|] eqn:Eo; [|apply nth_error_None in Eo; pose proof (Hchoose i l Hl0); lia].
          unfold vget. rewrite Eo. cbn [bind]. exists [o]. splits; auto; [discriminate|]. intros o' [<-|[]]. eapply nth_error_In; eauto. }
      destruct Hst as (step & -> & Hs0 & Hs1 & Hs2). cbn [bind].
      destruct (IH (i + 1) p c' (plan ++ [step]) ltac:(lia) E2) as (steps & -> & Hw & Hx). exists (step :: steps). rewrite <- app_assoc. split; auto.
      split.
      * subst c. rewrite Nat.add_comm. apply wildcard_step with (b := dig doms p); auto. intros o Ho. apply Hl. auto.
      * destruct wildcard; [|constructor; auto]. apply complete_cons with (b := dig doms p) (w := ao_cost ao); auto.
        intros o. split; [intros Ho; apply Hl; auto|intros Ho; apply Hs2, Hl, Ho].
Qed.
End Ops.

Theorem compute_pdb_and_plan_ok P bag (HP : pq_contract P bag) q0 costs : bag q0 = [] -> fits t pat ->
  cs = match costs with [] => task_costs t | _ => costs end ->
  exists f0, forall fuel shuffle choose wildcard, f0 <= fuel -> (forall i l, Permutation (shuffle i l) l) -> (forall i l, l <> [] -> choose i l < length l) ->
    exists db plan, compute_pdb_and_plan P q0 shuffle choose fuel t pat costs wildcard = Ok (db, plan) /\
    compute_pdb P q0 fuel t pat costs = Ok db /\ db_pj db = the_projection t pat /\ length (db_dist db) = prodl doms /\
    (forall a, in_range doms a -> perfect_value T a (nth (horner doms a) (db_dist db) None)) /\
    match nth (horner doms (proj_state pat (t_init t))) (db_dist db) None with
    | Some c => good_plan wildcard (proj_state pat (t_init t)) plan c
    | None => plan = []
    end.
Proof.
  intros Hq0 Hf Ecs. destruct (v2i_ok t pat Hpat) as (v2i & Ev & Hv). destruct (ops_ok t Ht pat Hpat cs Hcs v2i costs Hv Ecs) as (ops & Eops & Hops).
  destruct (match_tree_spec pj ops) as (mt & Emt & _ & _); [apply (pdoms_pos t Ht pat Hpat)|now apply (ao_wf t Ht pat Hpat cs)|].
  destruct (init_ok t Ht pat Hpat cs P bag HP (seq 0 (prodl doms)) [] q0) as (d & q & gs & Ei & Hp & Hg & Hn & HF).
  set (EL := fun i => match regress_gen pj ops mt i with Ok l => l | _ => [] end).
  assert (HEL : forall i, i < prodl doms -> regress_gen pj ops mt i = Ok (EL i) /\ regress pj ops mt i = Ok (map fst (EL i))).
  { intros i Hi. destruct (regress_ok t Ht pat Hpat cs Hcs ops mt i Hops Emt Hi) as (es & Ees & _). unfold EL. rewrite regress_gen_map in *. destruct (regress_gen pj ops mt i); try discriminate. auto. }
  assert (HE2 : forall i j w, i < prodl doms -> (In (j, w) (map fst (EL i)) <-> edge_rel t pat cs i j w)).
  { intros i j w Hi. destruct (regress_ok t Ht pat Hpat cs Hcs ops mt i Hops Emt Hi) as (es & Ees & H). rewrite <- H. rewrite (proj2 (HEL i Hi)) in Ees. injection Ees as <-. tauto. }
  assert (Hguard : guard ((length costs =? 0) || (length costs =? length (t_ops t))) = Ok tt).
  { destruct costs; [reflexivity|]. rewrite <- Ecs, Hcs, Nat.eqb_refl, orb_true_r. reflexivity. }
  destruct (compute_pdb_ok t Ht pat Hpat cs Hcs P bag HP q0 costs Hq0 Hf Ecs) as (f1 & Hf1).
  set (f0 := S (length (bag q) + list_sum (map (fun s => length (map fst (EL s))) (seq 0 (prodl doms))))).
  exists (f0 + f1). intros fuel shuffle choose wildcard Hfuel Hsh Hch. destruct (Hf1 fuel ltac:(lia)) as (db & Edb & Epj & Hlen0 & Hperf).
  assert (Hlen : length d = prodl doms).
  { clear -HF. rewrite <- (seq_length (prodl doms) 0). symmetry. induction HF; cbn [length]; auto. }
  assert (Hd0 : forall s, s < prodl doms -> ((s < prodl doms /\ goal_ix s) /\ nth s d None = Some 0) \/ (~ (s < prodl doms /\ goal_ix s) /\ nth s d None = None)).
  { intros s Hs. assert (Hx : exists x, nth_error d s = Some x /\ ((goal_ix s /\ x = Some 0) \/ (~ goal_ix s /\ x = None))).
    { assert (G : forall l d', Forall2 (fun i x => (goal_ix i /\ x = Some 0) \/ (~ goal_ix i /\ x = None)) l d' -> forall k i, nth_error l k = Some i ->
        exists x, nth_error d' k = Some x /\ ((goal_ix i /\ x = Some 0) \/ (~ goal_ix i /\ x = None))).
      { clear. induction 1 as [|i0 x0 l d' H _ IH]; intros [|k] i Hk; cbn [nth_error] in *; try discriminate; [inversion Hk; subst; eauto|eauto]. }
      apply (G _ _ HF). rewrite (nth_error_nth' _ 0) by now rewrite seq_length. now rewrite seq_nth. }
    destruct Hx as (x & Hx & Hc). rewrite (nth_error_nth d s None Hx). destruct Hc as [[Hc ->]|[Hc ->]]; [left|right]; tauto. }
  destruct (dijkstra_gen_ok P bag HP (prodl doms) EL (regress pj ops mt) (regress_gen pj ops mt) (fun s Hs => proj2 (HEL s Hs)) (fun s Hs => proj1 (HEL s Hs)))
    with (src := fun i => i < prodl doms /\ goal_ix i) (fuel := fuel) (d := d) (q := q) as (dd & g & Edd & Edd2 & Hlg & rk & Hgf).
  - intros s j w Hs Hin. apply HE2 in Hin; auto. destruct Hin as (o & op & b & _ & _ & Hb & ->). now apply horner_lt.
  - tauto.
  - exact Hlen.
  - exact Hd0.
  - eapply Permutation_NoDup; [symmetry; exact Hp|]. rewrite Hq0. cbn [app]. specialize (Hn (seq_NoDup _ _)). clear -Hn. induction Hn as [|x l Hx _ IH]; cbn [map]; constructor; auto.
    intros Hi. apply in_map_iff in Hi. destruct Hi as (y & Ey & Hy). inversion Ey; subst; contradiction.
  - intros k s. assert (Hin : In (k, s) (bag q) <-> In (k, s) (map (pair 0) gs)).
    { rewrite Hq0 in Hp. cbn [app] in Hp. split; apply Permutation_in; [exact Hp|symmetry; exact Hp]. }
    rewrite Hin, in_map_iff. split.
    + intros (y & Ey & Hy). inversion Ey; subst. apply Hg in Hy. rewrite in_seq in Hy. split; auto. split; [lia|tauto].
    + intros [-> [Hs Hgs]]. exists s. split; auto. apply Hg. rewrite in_seq. split; [lia|auto].
  - unfold f0 in Hfuel. lia.
  - (* the database is the one without a plan *)
    pose proof Edb as Edb0. unfold compute_pdb in Edb. rewrite (new_projection_ok t Ht pat Hpat Hf) in Edb. cbn [bind] in Edb. rewrite Hguard in Edb. cbn [bind] in Edb.
    rewrite Ev in Edb. cbn [bind] in Edb. rewrite Eops in Edb. cbn [bind] in Edb. rewrite Emt in Edb. cbn [bind] in Edb. rewrite (goals_ok t Ht pat v2i Hv) in Edb. cbn [bind] in Edb.
    unfold compute_distances in Edb. cbn [the_projection pj_num] in Edb. fold (the_projection t pat) in Edb.
    match type of Ei with ?l = _ => match type of Edb with context [bind (bind ?m _) _] => change m with l in Edb end end. rewrite Ei in Edb. cbn [bind app] in Edb.
    rewrite Edd2 in Edb. cbn [bind] in Edb. injection Edb as <-. cbn [db_dist] in *.
    unfold compute_pdb_and_plan. rewrite (new_projection_ok t Ht pat Hpat Hf). cbn [bind]. rewrite Hguard. cbn [bind].
    rewrite Ev. cbn [bind]. rewrite Eops. cbn [bind]. rewrite Emt. cbn [bind]. rewrite (goals_ok t Ht pat v2i Hv). cbn [bind].
    unfold compute_distances_gen. cbn [the_projection pj_num]. fold (the_projection t pat).
    match type of Ei with ?l = _ => match goal with |- context [bind (bind ?m _) _] => change m with l end end. rewrite Ei. cbn [bind app].
    rewrite Edd. cbn [bind].
    assert (Hinit : state_ok t (t_init t)) by (destruct Ht as ((_ & _ & _ & H & _) & _); exact H).
    pose proof (proj_state_range t pat Hpat _ Hinit) as Hr.
    unfold compute_plan. rewrite (rank_ok t pat Hpat _ Hinit). cbn [bind]. rewrite dget_vget by (rewrite Hlen0; now apply horner_lt). cbn [bind].
    destruct (nth (horner doms (proj_state pat (t_init t))) dd None) as [c|] eqn:Ec.
    + destruct (follow_ok ops Hops mt Emt shuffle choose Hsh Hch wildcard EL dd g rk (fun i Hi => proj1 (HEL i Hi)) Hlen0 Hlg Hgf) with (fuel := prodl doms) (i := 0) (s := horner doms (proj_state pat (t_init t))) (c := c) (plan := @nil (list nat)) as (steps & Es & Hgp); auto.
      * intros s Hs Hgs. assert (Hd : s = horner doms (dig doms s)) by (rewrite horner_dig; auto; apply (pdoms_pos t Ht pat Hpat)).
        pose proof (Hperf (dig doms s) (dig_range doms (pdoms_pos t Ht pat Hpat) s)) as Hps. rewrite <- Hd in Hps. 
        assert (Hz : plan_costs_from T (dig doms s) 0) by (exists []; split; [exists (dig doms s); split; [constructor|exact Hgs]|reflexivity]).
        destruct (nth s dd None) as [cc|]; cbn [perfect_value] in Hps.
        -- destruct Hps as [_ Hmin]. specialize (Hmin 0 Hz). f_equal. lia.
        -- destruct Hz as (os & Hos & _). destruct (Hps os Hos).
      * pose proof (proj1 (Hgf _ _ Ec)). lia.
      * rewrite dig_horner in Hgp by auto. cbn [app] in Es. cbn [the_projection pj_num]. rewrite Es. cbn [bind]. exists {| db_pj := the_projection t pat; db_dist := dd |}, steps. cbn [db_dist]. splits; auto.
        rewrite Ec. auto.
    + cbn [bind]. exists {| db_pj := the_projection t pat; db_dist := dd |}, []. cbn [db_dist]. splits; auto. rewrite Ec. auto.
Qed.
End T.
