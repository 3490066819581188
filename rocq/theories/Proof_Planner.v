(** Eager search and A-star with concrete open lists. *)
From Coq Require Import Permutation.
From Verif Require Import Outcome Spec_Plan Spec_OpenList Spec_Controller Spec_OpenListContract
  Model_SearchSpace Model_OpenList Model_Eager Model_Controller Proof_OpenList Proof_Controller
  Proof_SearchSpace Proof_Eager Proof_EagerComplete Proof_EagerTerm Proof_AStar.

Section WithOpenList.
Variable T : TS.
Variable L : open_list nat.
Variable J : OL L -> Prop.
Variable ents : OL L -> list nat.
Variable evs : nat -> ts_state T -> nat -> option nat.
Variable boosting : list nat.
Variable preferred : ts_state T -> list nat.
Variable prune : ts_state T -> list nat -> list nat.
Variable cfg : eager_config.
Hypothesis Hwf : ts_wf T.
Hypothesis HL : ol_contract L J ents.
Notation ct := (ol_controller T L evs boosting preferred prune).

Lemma ol_eager_sound fuel plan st : (forall s ops, incl (prune s ops) ops) ->
  eager_search T ct cfg fuel (cs_init L) = Ok (SOLVED plan st) ->
  is_plan T plan /\
  (ec_cost_type cfg = NORMAL -> forall b, ec_bound cfg = Some b ->
     plan = [] \/ sum_cost (ts_cost T) plan < b).
Proof.
  intros Hp. destruct (cs_init_ok L J ents HL) as [A B].
  eapply (eager_sound T ct cfg _ _ Hwf (ol_controller_ok T L J ents evs boosting preferred prune HL Hp)); auto.
Qed.

Lemma ol_eager_complete fuel st : ol_accepting L J ents ->
  (forall ev s g, evs ev s g = None -> ~ solvable_from T s) ->
  (forall s ops, prune s ops = ops) ->
  ec_bound cfg = None \/ (ec_cost_type cfg = NORMAL /\ ec_reopen cfg = true) ->
  eager_search T ct cfg fuel (cs_init L) = Ok (FAILED st) ->
  forall os, is_plan T os -> exists b, ec_bound cfg = Some b /\ b <= sum_cost (ts_cost T) os.
Proof.
  intros HA Hs Hp Hm Hf. destruct (cs_init_ok L J ents HL) as [A B].
  eapply (eager_complete T ct cfg _ _ Hwf (ol_controller_ok T L J ents evs boosting preferred prune HL _)); eauto.
  Unshelve.
  2:{ intros s ops. rewrite Hp. apply incl_refl. }
  eapply ol_controller_safe; eauto. intros s ops. rewrite Hp. apply incl_refl.
Qed.

Lemma ol_eager_terminates : finite_space T -> (forall s ops, incl (prune s ops) ops) ->
  exists fuel r, eager_search T ct cfg fuel (cs_init L) = Ok r /\
    match r with IN_PROGRESS _ => False | _ => True end.
Proof.
  intros (univ & H1 & H2) Hp. destruct (cs_init_ok L J ents HL) as [A B].
  destruct (eager_terminates T ct cfg _ _ Hwf (ol_controller_ok T L J ents evs boosting preferred prune HL Hp)
    eq_refl univ H2 H1 _ A B) as (fuel & r & E & F).
  exists fuel, r. split; auto.
Qed.
End WithOpenList.

Section AStarRun.
Variable T : TS.
Variable h : ts_state T -> option nat.
Variable reliable : bool.
Variable cost_type : OperatorCost.
Variable unit_cost : bool.
Hypothesis Hwf : ts_wf T.

Lemma aI_init : aI reliable (cs_init (astar_open reliable)) /\ akents reliable (cs_init (astar_open reliable)) = [].
Proof.
  split; [split; [split|]|]; cbn; auto.
  - apply bqJ_init.
  - intros k e [].
Qed.

Section Bound.
Variable bound : option nat.
Notation cfg := (astar_config cost_type unit_cost bound).
Hypothesis Hadm : forall s, admissible_at T (adj T cfg) s (h s).
Hypothesis Hmode : bound = None \/ cost_type = NORMAL.

Lemma astar_solved_optimal fuel plan st :
  astar T h reliable cfg fuel = Ok (SOLVED plan st) ->
  is_plan T plan /\
  forall os, is_plan T os -> (forall b, bound = Some b -> sum_cost (ts_cost T) os < b) ->
    sum_cost (adj T cfg) plan <= sum_cost (adj T cfg) os.
Proof.
  intros Hs. destruct aI_init as [A B]. split.
  - eapply (eager_sound T (astar_controller T h reliable) cfg); [exact Hwf|apply astar_controller_ok|exact A|exact (f_equal (map fst) B)|exact Hs].
  - intros os Hos Hb.
    eapply (astar_optimal T (astar_controller T h reliable) cfg (aI reliable) (akents reliable) Hwf (astar_controller_ok T h reliable)); eauto.
    + eapply astar_controller_safe; eauto.
    + apply astar_controller_astar; auto.
Qed.

Lemma astar_failed_unsolvable fuel st :
  astar T h reliable cfg fuel = Ok (FAILED st) ->
  forall os, is_plan T os -> exists b, bound = Some b /\ b <= sum_cost (ts_cost T) os.
Proof.
  intros Hs. destruct aI_init as [A B].
  eapply (eager_complete T (astar_controller T h reliable) cfg); eauto.
  - apply astar_controller_ok.
  - eapply astar_controller_safe; eauto.
  - cbn. tauto.
  - exact (f_equal (map fst) B).
Qed.

Lemma astar_run : finite_space T ->
  exists n r, (forall fuel, n <= fuel -> astar T h reliable cfg fuel = Ok r) /\
    match r with IN_PROGRESS _ => False | _ => True end.
Proof.
  intros (univ & H1 & H2). destruct aI_init as [A B].
  destruct (eager_terminates T (astar_controller T h reliable) cfg _ _ Hwf (astar_controller_ok T h reliable)
    eq_refl univ H2 H1 _ A) as (n & r & E & F); [exact (f_equal (map fst) B)|].
  exists n, r. split; auto. intros fuel Hle. unfold astar, eager_search in *.
  destruct (eager_initialize T (astar_controller T h reliable) (cs_init (astar_open reliable))) as [st| | |]; cbn [bind] in *; try discriminate.
  replace fuel with (n + (fuel - n)) by lia. eapply loop_more; eauto.
Qed.
End Bound.

Lemma astar_finds_optimal :
  (forall s, admissible_at T (adj T (astar_config cost_type unit_cost None)) s (h s)) ->
  finite_space T -> (exists os, is_plan T os) ->
  exists n plan st,
    (forall fuel, n <= fuel -> astar T h reliable (astar_config cost_type unit_cost None) fuel = Ok (SOLVED plan st)) /\
    optimal_plan T (adj T (astar_config cost_type unit_cost None)) plan.
Proof.
  intros Hadm Hfin [os Hos]. destruct (astar_run None Hfin) as (n & r & Hr & Hf).
  specialize (Hr n (le_n n)) as Hn. destruct r as [st|st|plan st]; [destruct Hf| |].
  - exfalso. destruct (astar_failed_unsolvable None Hadm (or_introl eq_refl) n st Hn os Hos) as (b & H & _). discriminate.
  - exists n, plan, st. split; auto.
    destruct (astar_solved_optimal None Hadm (or_introl eq_refl) n plan st Hn) as [A B].
    split; auto. intros os' Hos'. apply B; auto. discriminate.
Qed.
End AStarRun.
