(** C24: iterated search. *)
From Verif Require Import Outcome Spec_Plan Spec_Iterated Model_SearchSpace Model_OpenList Model_Eager Model_Controller
  Model_Iterated Proof_Iterated Proof_Controller Proof_Planner Prop_Eager.

(** [phase_result ph st p]: [p] was found by one of the phases run so far, i.e. by the [k]-th
    started search with the bound it was given. *)
Definition phase_result (ph : phases) (st : it_state) (p : list nat) : Prop :=
  exists k i b, nth_error (it_trace st) k = Some (i, b, Some p) /\ ph_run ph k i b = Some p.

(** C24.  For all phases, options and step limits: the run has no undefined behaviour (in
    particular no dropped component is used again); the saved plans were found by phases,
    strictly decrease in cost and are below the bound; the stored plan is the last saved one,
    and no phase found a cheaper plan; if some phase found a plan below the bound, a plan is
    stored. *)
Theorem C24_best_plan_kept :
  forall (T : TS) (ph : phases) (cfg : it_config), 0 < ph_num ph ->
  forall fuel, exists r, it_search T ph cfg fuel = Ok r /\
  let st := result_state r in
  improving (sum_cost (ts_cost T)) (ic_bound cfg) (it_saved st) /\
  (forall p, In p (it_saved st) -> phase_result ph st p) /\
  it_plan st = (match rev (it_saved st) with p :: _ => Some p | [] => None end) /\
  (forall p, phase_result ph st p -> below (sum_cost (ts_cost T) p) (ic_bound cfg) ->
     exists q, it_plan st = Some q /\ sum_cost (ts_cost T) q <= sum_cost (ts_cost T) p).
Proof.
  intros T ph cfg Hn fuel. destruct (loop_good T ph cfg Hn fuel _ (init_IInv T ph cfg Hn)) as (r & E & Inv & _).
  exists r. split; [exact E|]. cbn zeta. split; [apply Inv|]. split; [|split].
  - intros p Hp. destruct (ii_saved _ _ _ _ Inv p Hp) as (i & b & Hin).
    apply In_nth_error in Hin. destruct Hin as [k Hk]. exists k, i, b. split; auto.
    symmetry. apply (ii_trace _ _ _ _ Inv _ _ _ _ Hk).
  - apply Inv.
  - intros p (k & i & b & Hk & _) Hb. apply (ii_cheapest _ _ _ _ Inv); auto. exists i, b. eapply nth_error_In; eauto.
Qed.
Print Assumptions C24_best_plan_kept.

(** C24.  What the status says: SOLVED returns the stored plan (or nothing is stored and all
    found plans violate the bound); FAILED means that no phase found a plan below the
    bound. *)
Theorem C24_status :
  forall (T : TS) (ph : phases) (cfg : it_config), 0 < ph_num ph ->
  forall fuel,
  match it_search T ph cfg fuel with
  | Ok (SOLVED plan st) =>
      (exists p, phase_result ph st p) /\
      (it_plan st = Some plan \/
       (it_plan st = None /\ forall p, phase_result ph st p -> ~ below (sum_cost (ts_cost T) p) (ic_bound cfg)))
  | Ok (FAILED st) => forall p, phase_result ph st p -> ~ below (sum_cost (ts_cost T) p) (ic_bound cfg)
  | Ok (IN_PROGRESS _) => True
  | _ => False
  end.
Proof.
  intros T ph cfg Hn fuel. destruct (loop_good T ph cfg Hn fuel _ (init_IInv T ph cfg Hn)) as (r & E & Inv & G).
  unfold it_search. rewrite E.
  assert (Hno : it_plan (result_state r) = None -> forall p, phase_result ph (result_state r) p -> ~ below (sum_cost (ts_cost T) p) (ic_bound cfg)).
  { intros Hp p (k & i & b & Hk & _) Hb. destruct (ii_cheapest _ _ _ _ Inv p) as (q & Hq & _); auto; [|congruence].
    exists i, b. eapply nth_error_In; eauto. }
  destruct r as [st|st|plan st]; auto; cbn [result_state] in *.
  - destruct G as (G & Hf). split.
    + apply (ii_found _ _ _ _ Inv) in Hf. destruct Hf as (p & i & b & Hin). exists p.
      apply In_nth_error in Hin. destruct Hin as [k Hk]. exists k, i, b. split; auto.
      symmetry. apply (ii_trace _ _ _ _ Inv _ _ _ _ Hk).
    + destruct G as [G|[G _]]; auto.
Qed.
Print Assumptions C24_status.

(** C24.  Passing the bound: every phase gets a bound at most the overall bound and at most
    the cost of every plan (below the bound) found before. *)
Theorem C24_bound_passed :
  forall (T : TS) (ph : phases) (cfg : it_config), 0 < ph_num ph -> ic_pass_bound cfg = true ->
  forall fuel r, it_search T ph cfg fuel = Ok r ->
  forall k i b res, nth_error (it_trace (result_state r)) k = Some (i, b, res) ->
  (forall x, ic_bound cfg = Some x -> exists y, b = Some y /\ y <= x) /\
  (forall k' i' b' p, k' < k -> nth_error (it_trace (result_state r)) k' = Some (i', b', Some p) ->
     below (sum_cost (ts_cost T) p) (ic_bound cfg) -> exists y, b = Some y /\ y <= sum_cost (ts_cost T) p).
Proof.
  intros T ph cfg Hn Hp fuel r E k i b res Hk.
  destruct (loop_good T ph cfg Hn fuel _ (init_IInv T ph cfg Hn)) as (r' & E' & Inv & _).
  unfold it_search in E. rewrite E in E'. inv E'.
  destruct (ii_trace _ _ _ _ Inv _ _ _ _ Hk) as (_ & _ & A & B). split; [exact (B Hp)|exact (A Hp)].
Qed.
Print Assumptions C24_bound_passed.

(** C24.  Plans are valid if the phases' plans are. *)
Theorem C24_plans_valid :
  forall (T : TS) (ph : phases) (cfg : it_config), 0 < ph_num ph ->
  (forall n i b p, ph_run ph n i b = Some p -> is_plan T p) ->
  forall fuel r, it_search T ph cfg fuel = Ok r ->
  (forall p, In p (it_saved (result_state r)) -> is_plan T p) /\
  (forall p, it_plan (result_state r) = Some p -> is_plan T p).
Proof.
  intros T ph cfg Hn Hv fuel r E. destruct (C24_best_plan_kept T ph cfg Hn fuel) as (r' & E' & _ & A & B & _).
  rewrite E in E'. inv E'.
  assert (H : forall p, In p (it_saved (result_state r')) -> is_plan T p).
  { intros p Hp. destruct (A p Hp) as (k & i & b & _ & Hr). eauto. }
  split; auto. intros p Hp. apply H. rewrite B in Hp. destruct (rev _) as [|q l] eqn:Er; inv Hp.
  apply in_rev. rewrite Er. cbn; auto.
Qed.
Print Assumptions C24_plans_valid.

(** C24.  Without repetition of the last phase there are at most as many phases as
    components; with it, iteration ends if every phase finds only plans strictly below the
    bound it was given and bounds are passed on. *)
Theorem C24_terminates :
  forall (T : TS) (ph : phases) (cfg : it_config), 0 < ph_num ph ->
  (ic_repeat_last cfg = false ->
     exists r, it_search T ph cfg (S (ph_num ph)) = Ok r /\ match r with IN_PROGRESS _ => False | _ => True end) /\
  (ic_pass_bound cfg = true ->
   (forall n i b p, ph_run ph n i b = Some p -> below (sum_cost (ts_cost T) p) b) ->
     exists fuel r, it_search T ph cfg fuel = Ok r /\ match r with IN_PROGRESS _ => False | _ => True end).
Proof.
  intros T ph cfg Hn. split.
  - exact (terminates_no_repeat T ph cfg Hn).
  - intros Hp Hr. exact (terminates_repeat T ph cfg Hn Hr Hp).
Qed.
Print Assumptions C24_terminates.

(** A component that runs A-star with the blind evaluator for [fuel] steps. *)
Definition astar_phase (T : TS) (fuel : nat) (b : option nat) : option (list nat) :=
  match astar T (fun s => Some 0) true (astar_config NORMAL false b) fuel with
  | Ok (SOLVED plan _) => Some plan
  | _ => None
  end.
Definition astar_phases (T : TS) (fuel num : nat) : phases :=
  {| ph_num := num; ph_bound := fun _ => None; ph_run := fun _ _ b => astar_phase T fuel b |}.

(** C24: repetition does not terminate in general, although A-star is sound (C19) and bounds
    are passed on.  If the initial state is a goal state, the empty plan (cost 0) is found
    first; the next search gets bound 0, finds the empty plan again because the goal test
    does not look at the bound, and the phase counts as successful, so it is repeated for
    ever (with the options of the LAMA configuration). *)
Definition goal_ts : TS := {|
  ts_state := nat; ts_eqb := Nat.eqb; ts_init := 0; ts_goal := fun s => s =? 0;
  ts_app := fun _ => []; ts_succ := fun s _ => s; ts_cost := fun _ => 1 |}.
Theorem C24_repeat_last_terminates_refuted :
  exists (T : TS) (ph : phases) (cfg : it_config),
    ts_wf T /\ finite_space T /\ ph = astar_phases T 5 1 /\ ic_pass_bound cfg = true /\
    forall fuel, exists st, it_search T ph cfg fuel = Ok (IN_PROGRESS st).
Proof.
  set (cfg := {| ic_pass_bound := true; ic_repeat_last := true; ic_continue_on_fail := true;
                 ic_continue_on_solve := true; ic_bound := None |}).
  exists goal_ts, (astar_phases goal_ts 5 1), cfg.
  split; [intros a b; apply Nat.eqb_eq|]. split.
  { exists [0]. split; [cbn; auto|]. intros s o _ []. }
  split; [reflexivity|]. split; [reflexivity|].
  assert (H : forall fuel n tr, 1 <= n -> exists st,
    it_loop goal_ts (astar_phases goal_ts 5 1) cfg fuel
      {| it_phase := n; it_last := true; it_best := Some 0; it_found := true; it_plan := Some [];
         it_alive := [true]; it_saved := [[]]; it_trace := tr |} = Ok (IN_PROGRESS st)).
  { induction fuel as [|f IH]; intros n tr Hn; cbn [it_loop]; [eexists; reflexivity|].
    destruct n as [|n]; [lia|].
    match goal with |- context [it_step ?a ?b ?c ?d] =>
      assert (E : exists tr', it_step a b c d = Ok (IN_PROGRESS
        {| it_phase := S (S n); it_last := true; it_best := Some 0; it_found := true; it_plan := Some [];
           it_alive := [true]; it_saved := [[]]; it_trace := tr' |}))
    end.
    { eexists. cbn. reflexivity. }
    destruct E as [tr' E]. rewrite E. cbn [bind]. apply IH. lia. }
  intros [|fuel]; [eexists; reflexivity|].
  destruct (H fuel 1 [(0, None, Some [])] (le_n 1)) as [st Hst]. exists st. rewrite <- Hst. reflexivity.
Qed.
Print Assumptions C24_repeat_last_terminates_refuted.

(** C24: with a bound that is not passed on, the run can report SOLVED without having stored
    a plan. *)
Theorem C24_solved_without_plan_refuted :
  exists (T : TS) (cfg : it_config) fuel plan st,
    it_search T (astar_phases T 30 1) cfg fuel = Ok (SOLVED plan st) /\ it_plan st = None.
Proof.
  exists ex_ts, {| ic_pass_bound := false; ic_repeat_last := false; ic_continue_on_fail := false;
                   ic_continue_on_solve := false; ic_bound := Some 5 |}, 5.
  eexists _, _. split; [vm_compute; reflexivity|reflexivity].
Qed.
Print Assumptions C24_solved_without_plan_refuted.

(** Phases of decreasing quality thresholds: the first finds a plan of cost 13, the second
    one of cost 9, the third fails; and the A-star phases satisfy the validity hypothesis. *)
Example C24_nonvacuous :
  (forall n i b p, ph_run (astar_phases ex_ts 30 2) n i b = Some p -> is_plan ex_ts p) /\
  exists st,
  it_search ex_ts
    {| ph_num := 2; ph_bound := fun _ => None;
       ph_run := fun n i b => match n with 0 => Some [1; 13; 34; 45] | _ => astar_phase ex_ts 30 b end |}
    {| ic_pass_bound := true; ic_repeat_last := true; ic_continue_on_fail := true;
       ic_continue_on_solve := true; ic_bound := Some 20 |} 10
  = Ok (SOLVED [2; 21; 13; 34; 45] st) /\
  it_saved st = [[1; 13; 34; 45]; [2; 21; 13; 34; 45]] /\ it_phase st = 3.
Proof.
  split.
  - intros n i b p. cbn [ph_run astar_phases]. unfold astar_phase.
    pose proof (C21_astar_optimal_below_bound ex_ts (fun _ => Some 0) true NORMAL false b ex_ts_wf) as H.
    destruct (astar _ _ _ _ 30) as [[st|st|plan st]| | |] eqn:E; try discriminate. intros Hp; inv Hp.
    specialize (H ltac:(intros s os _; exists 0; split; [auto|lia]) (or_intror eq_refl) 30).
    rewrite E in H. apply H.
  - eexists. split; [vm_compute; reflexivity|]. split; reflexivity.
Qed.
