(** C52: plan files.  C56: the exit code. *)
From Coq Require Import Ascii String List.
From Verif Require Import Outcome Spec_Format Spec_Task Spec_Relaxation Spec_CommandLine Spec_PlanFiles Spec_Plan Spec_Iterated
  Model_Parser Model_CommandLine Proof_CommandLine Model_Planner Proof_PlannerMain Model_TaskSpace Proof_TaskSpace
  Model_PQ Model_Relaxation Prop_Relaxation Proof_Planner Model_SearchSpace Model_OpenList Model_Eager Model_Controller Model_Iterated Prop_Parser Prop_CommandLine Prop_Eager Prop_Iterated Prop_Stubborn Prop_AStarTask.
Import ListNotations.
Local Open Scope nat_scope.

Lemma names_length input rt : read_root_task input = Ok rt -> length (rt_op_names rt) = length (t_ops (rt_task rt)).
Proof.
  intros E. destruct (C16_accepted_files_are_well_formed input rt E) as (s & _ & _ & (_ & R2 & _ & _ & _ & _ & _ & R3)).
  rewrite R2, R3. unfold source_task. cbn [t_ops]. rewrite !map_length. reflexivity.
Qed.

(** *** C52 *)

(** C52.  Saving plans one after the other (an anytime search, or several calls in a portfolio):
    with [k] plans saved before, the [i]-th plan goes to the file name.(k+i), which afterwards
    holds exactly the names of its operators and its cost; no other file is touched; and the
    next plan gets the next number. *)
Theorem C52_numbered_plans : forall writable input rt m fs plans,
  read_root_task input = Ok rt -> (forall p, In p plans -> in_range rt p) -> (forall n, writable n = true) ->
  exists fs', save_plans writable rt m fs plans =
      Ok (true, {| pm_name := pm_name m; pm_num := pm_num m + length plans; pm_portfolio := pm_portfolio m |}, fs') /\
    (forall i p, nth_error plans i = Some p -> exists c,
       fs' (plan_name (pm_name m) true (pm_num m + S i)) = Some c /\ plan_file (rt_task rt) (rt_op_names rt) p c) /\
    (forall x, (forall i, i < length plans -> x <> plan_name (pm_name m) true (pm_num m + S i)) -> fs' x = fs x).
Proof.
  intros writable input rt m fs plans E Hp Hw.
  destruct (save_plans_ok writable rt (names_length _ _ E) plans m fs Hp) as (fs' & A & B & C); auto.
  exists fs'. split; auto. split.
  - intros i p H. replace (pm_num m + S i) with (pm_num m + i + 1) by lia. auto.
  - intros x Hx. apply C. intros (i & Hi & ->). eapply Hx; eauto. f_equal. lia.
Qed.
Print Assumptions C52_numbered_plans.

(** File names of different plans differ. *)
Theorem C52_names_distinct : forall name i j, plan_name name true i = plan_name name true j -> i = j.
Proof. exact plan_name_inj. Qed.
Print Assumptions C52_names_distinct.

(** A run of the planner in which the task is read, the command line accepted and the search
    ends normally with result [r]. *)
Definition completes (construct : text -> outcome (root_task -> outcome run)) (args : list text) (input : text)
  (rt : root_task) (o : options (root_task -> outcome run)) (r : run) : Prop :=
  read_root_task input = Ok rt /\ parse_cmd_line construct args (is_unit_cost (t_ops (rt_task rt))) = Ok o /\
  args <> [] /\ exists alg, o_search o = Some alg /\ alg rt = Ok r.
(** The plans of the result consist of operators of the task. *)
Definition plans_in_range (rt : root_task) (r : run) : Prop :=
  (forall p, In p (run_saved r) -> in_range rt p) /\ (forall p, run_plan r = Some p -> in_range rt p).

Lemma planner_runs construct writable args input fs rt o r : completes construct args input rt o r ->
  exists alg, alg rt = Ok r /\ planner writable construct args input fs =
    run_search writable rt alg {| pm_name := o_filename o; pm_num := Z.to_nat (o_previous o); pm_portfolio := o_portfolio o |} fs.
Proof.
  intros (E & P & Hne & alg & Es & Er). exists alg. split; auto. destruct args as [|a rest]; [congruence|].
  destruct (parse_ok_first construct a rest _ o P) as [N1 N2].
  unfold planner.
  assert (G : (match rest with [] => true | _ => false end) && teq a "--internal-git-revision" = false).
  { destruct rest; auto. cbn [andb]. apply teq_false. auto. }
  rewrite G, (proj2 (teq_false a "--help") N1), E. cbn [bind catch]. rewrite P. cbn [catch]. rewrite Es. reflexivity.
Qed.

(** C52, whole runs.  A search that saves its plan at the end (all but iterated search): the
    plan is in the plan file - with the plain name, or numbered after the previous plans in a
    portfolio -, no other file is touched, and without a plan no file is. *)
Theorem C52_single_plan_run : forall construct writable args input fs rt o r,
  completes construct args input rt o r -> run_saved r = [] -> run_final r = true -> plans_in_range rt r ->
  (forall n, writable n = true) ->
  exists code fs', planner writable construct args input fs = Ok (code, fs') /\
    let name := plan_name (o_filename o) (o_portfolio o) (S (Z.to_nat (o_previous o))) in
    (forall x, x <> name -> fs' x = fs x) /\
    match run_plan r with
    | Some plan => exists c, fs' name = Some c /\ plan_file (rt_task rt) (rt_op_names rt) plan c
    | None => fs' name = fs name
    end.
Proof.
  intros construct writable args input fs rt o r Hc Hs Hf [_ Hp] Hw.
  destruct (planner_runs construct writable args input fs rt o r Hc) as (alg & Er & E). destruct Hc as (Hrt & _).
  rewrite E. unfold run_search. rewrite Er. cbn [catch]. rewrite Hs, Hf. cbn [save_plans bind].
  destruct (run_plan r) as [plan|].
  - destruct (save_plan_ok writable rt (names_length _ _ Hrt)
       {| pm_name := o_filename o; pm_num := Z.to_nat (o_previous o); pm_portfolio := o_portfolio o |} fs plan false) as (c & H1 & H2); auto.
    rewrite H2. cbn [bind]. cbn [pm_name pm_num pm_portfolio orb] in *. rewrite Nat.add_1_r.
    do 2 eexists. split; [reflexivity|]. cbn zeta. split.
    + intros x Hx. apply write_other. exact Hx.
    + exists c. split; auto. apply write_same.
  - cbn [bind]. do 2 eexists. split; [reflexivity|]. auto.
Qed.
Print Assumptions C52_single_plan_run.

(** C52, whole runs of iterated search ([st] is its final state): the improving plans are in
    name.(k+1), name.(k+2), ... in the order found, with strictly decreasing costs below the
    bound, and nothing else is touched. *)
Definition iterated_result (st : it_state) : run :=
  {| run_saved := it_saved st; run_plan := it_plan st; run_final := false |}.
Theorem C52_iterated_run : forall construct writable args input fs rt o init ph cfg fuel res,
  0 < ph_num ph -> it_search (task_space (rt_task rt) init) ph cfg fuel = Ok res ->
  completes construct args input rt o (iterated_result (result_state res)) ->
  plans_in_range rt (iterated_result (result_state res)) -> (forall n, writable n = true) ->
  let plans := it_saved (result_state res) in
  let name i := plan_name (o_filename o) true (Z.to_nat (o_previous o) + S i) in
  improving (plan_cost (rt_task rt)) (ic_bound cfg) plans /\
  exists code fs', planner writable construct args input fs = Ok (code, fs') /\
    (code = success <-> plans <> []) /\
    (forall i p, nth_error plans i = Some p -> exists c, fs' (name i) = Some c /\ plan_file (rt_task rt) (rt_op_names rt) p c) /\
    (forall x, (forall i, i < length plans -> x <> name i) -> fs' x = fs x).
Proof.
  intros construct writable args input fs rt o init ph cfg fuel res Hn Hi Hc [Hp _] Hw plans name.
  destruct (C24_best_plan_kept (task_space (rt_task rt) init) ph cfg Hn fuel) as (res' & Hi' & Himp & _ & Hpl & _).
  rewrite Hi in Hi'. injection Hi' as <-. split.
  - revert Himp. change (ts_cost (task_space (rt_task rt) init)) with (op_costs (rt_task rt)). fold plans.
    generalize (ic_bound cfg). clear. induction plans as [|p ps IH]; intros b H; [constructor|].
    inversion H as [|? ? ? H1 H2]; subst. rewrite space_cost in *. constructor; auto.
  - destruct (planner_runs construct writable args input fs rt o _ Hc) as (alg & Er & E). destruct Hc as (Hrt & _).
    set (m := {| pm_name := o_filename o; pm_num := Z.to_nat (o_previous o); pm_portfolio := o_portfolio o |}) in *.
    destruct (C52_numbered_plans writable input rt m fs plans Hrt Hp Hw) as (fs' & S1 & S2 & S3).
    rewrite E. unfold run_search. rewrite Er. cbn [catch iterated_result run_saved run_plan run_final]. fold plans. rewrite S1. cbn [bind].
    fold plans in Hpl.
    destruct (it_plan (result_state res)) as [q|] eqn:Eq; cbn [bind]; do 2 eexists; (split; [reflexivity|]); (split; [|split; [exact S2|exact S3]]).
    + split; auto. intros _ Hnil. rewrite Hnil in Hpl. discriminate.
    + unfold success, unsolved_incomplete. split; [discriminate|]. intros Hne. exfalso. apply Hne.
      destruct (rev plans) eqn:Er'; [|discriminate]. apply (f_equal (@rev _)) in Er'. rewrite rev_involutive in Er'. exact Er'.
Qed.
Print Assumptions C52_iterated_run.

(** *** C56 *)

(** C56.  Runs with a search that ends normally: exit code 0 if a plan was found, 12 if not. *)
Theorem C56_exit_code : forall construct writable args input fs rt o r,
  completes construct args input rt o r -> plans_in_range rt r -> (forall n, writable n = true) ->
  exists fs', planner writable construct args input fs = Ok (match run_plan r with Some _ => 0%Z | None => 12%Z end, fs').
Proof.
  intros construct writable args input fs rt o r Hc [Hp1 Hp2] Hw.
  destruct (planner_runs construct writable args input fs rt o r Hc) as (alg & Er & E). destruct Hc as (Hrt & _).
  set (m := {| pm_name := o_filename o; pm_num := Z.to_nat (o_previous o); pm_portfolio := o_portfolio o |}) in *.
  destruct (C52_numbered_plans writable input rt m fs (run_saved r) Hrt Hp1 Hw) as (fs' & S1 & S2 & S3).
  rewrite E. unfold run_search. rewrite Er. cbn [catch]. rewrite S1. cbn [bind].
  destruct (run_plan r) as [plan|]; [|cbn [bind]; eexists; reflexivity].
  destruct (run_final r); [|cbn [bind]; eexists; reflexivity].
  match goal with |- context [save_plan writable rt ?m' fs' plan false] =>
    destruct (save_plan_ok writable rt (names_length _ _ Hrt) m' fs' plan false) as (c & H1 & H2); auto end.
  rewrite H2. cbn [bind]. eexists. reflexivity.
Qed.
Print Assumptions C56_exit_code.

(** C56, conversely: exit code 0 of any run means that help or the revision was asked for or a
    plan was found (files may be unwritable here).  Searches and the option parser end with
    exit code 0 only normally. *)
Theorem C56_success_means_plan : forall construct writable args input fs fs',
  (forall s alg, construct s = Ok alg -> forall rt, alg rt <> Exit 0) -> (forall s, construct s <> Exit 0) ->
  planner writable construct args input fs = Ok (0%Z, fs') ->
  args = [str "--internal-git-revision"] \/ In (str "--help") args \/
  exists rt o r plan, completes construct args input rt o r /\ run_plan r = Some plan.
Proof.
  intros construct writable args input fs fs' Halg Hcon E. destruct args as [|a rest]; [discriminate|].
  unfold planner in E.
  destruct ((match rest with [] => true | _ => false end) && teq a "--internal-git-revision") eqn:G.
  { apply andb_true_iff in G as [G1 G2]. destruct rest; [|discriminate]. apply teq_spec in G2. left. congruence. }
  destruct (teq a "--help") eqn:Hh; [apply teq_spec in Hh; right; left; left; exact Hh|].
  destruct (read_root_task input) as [rt| |c|] eqn:Er; cbn [bind catch] in E; try discriminate.
  2:{ exfalso. destruct (C16_no_undefined_behaviour_partial input) as [[[rt' A]|A] [B|[B _]]]; rewrite Er in B; try congruence.
      rewrite A in B. injection B as ->. discriminate. }
  destruct (parse_cmd_line construct (a :: rest) (is_unit_cost (t_ops (rt_task rt)))) as [o| |c|] eqn:Ep; cbn [catch] in E; try discriminate.
  - right. right. destruct (o_search o) as [alg|] eqn:Es; [|discriminate].
    unfold run_search in E.
    assert (Hal : exists s, construct s = Ok alg).
    { pose proof Ep as Ep'. unfold parse_cmd_line in Ep'. cbn zeta in Ep'. apply bind_ok in Ep' as (args' & _ & Ep').
      apply C50_options in Ep' as (opts & _ & K & _). rewrite Es in K.
      destruct (searches opts) as [|s [|]]; [discriminate| |destruct K]. destruct K as (x & K1 & K2). exists s. congruence. }
    destruct Hal as (s & Hal).
    destruct (alg rt) as [r| |c|] eqn:Ea; cbn [catch] in E; try discriminate.
    2:{ injection E as -> _. exfalso. eapply Halg; eauto. }
    exists rt, o, r. destruct (run_plan r) as [plan|] eqn:Epl.
    + exists plan. split; auto. split; [exact Er|]. split; [exact Ep|]. split; [discriminate|]. exists alg. auto.
    + exfalso. apply bind_ok in E as ([[ok m'] f'] & _ & E). destruct ok; [|discriminate]. cbn [bind] in E. discriminate.
  - injection E as -> _. right. left. eapply parse_exit0; eauto.
Qed.
Print Assumptions C56_success_means_plan.

(** *** Exit codes of errors *)

(** C56.  A command line without arguments, a task file with an error, a command line with an
    error: exit code 33 (or 0 after --help), and no file is touched. *)
Theorem C56_errors : forall construct writable args input fs,
  planner writable construct [] input fs = Ok (33%Z, fs) /\
  (args <> [] -> args <> [str "--internal-git-revision"] -> hd [] args <> str "--help" ->
   (read_root_task input = Exit input_error -> planner writable construct args input fs = Ok (33%Z, fs)) /\
   (forall rt c, read_root_task input = Ok rt ->
      parse_cmd_line construct args (is_unit_cost (t_ops (rt_task rt))) = Exit c ->
      planner writable construct args input fs = Ok (c, fs))).
Proof.
  intros construct writable args input fs. split; [reflexivity|]. intros Hne Hg Hh. destruct args as [|a rest]; [congruence|]. cbn [hd] in Hh.
  assert (G : (match rest with [] => true | _ => false end) && teq a "--internal-git-revision" = false).
  { destruct rest; auto. cbn [andb]. apply teq_false. congruence. }
  unfold planner. rewrite G, (proj2 (teq_false a "--help") Hh). split.
  - intros ->. reflexivity.
  - intros rt c -> E. cbn [bind catch]. rewrite E. reflexivity.
Qed.
Print Assumptions C56_errors.

(** C56, the full claim "the planner always ends with an exit code" is false: a command line
    with options but without a search algorithm is accepted, and main() then calls search()
    through a null pointer (planner.cc:65). *)
Theorem C56_no_search_refuted : forall construct writable input rt fs, read_root_task input = Ok rt ->
  planner writable construct [str "--internal-plan-file"; str "my_plan"] input fs = UB.
Proof. intros construct writable input rt fs E. unfold planner. rewrite E. reflexivity. Qed.
Print Assumptions C56_no_search_refuted.

(** *** From the input file to the plan file *)

(** A-star as the search algorithm of a run (cost type and bound are the defaults). *)
Definition astar_algorithm (h : task -> state -> outcome (option nat)) (reliable : bool) (fuel : nat) (rt : root_task) : outcome run :=
  let t := rt_task rt in
  match Bool.bool_dec (state_okb (t_vars t) (t_init t)) true with
  | left H =>
      let* r := astar (task_space t (exist _ (t_init t) H)) (fun s => value_of (h t (proj1_sig s))) reliable (astar_config NORMAL false None) fuel in
      match r with
      | SOLVED plan _ => Ok {| run_saved := []; run_plan := Some plan; run_final := true |}
      | FAILED _ => Ok {| run_saved := []; run_plan := None; run_final := true |}
      | IN_PROGRESS _ => NoFuel
      end
  | right _ => UB
  end.

Lemma plan_in_range rt s plan : task_plan_from (rt_task rt) s plan -> in_range rt plan.
Proof.
  intros (s' & H & _). unfold in_range. induction H as [|s o s1 os s2 (op & Ho & _) _ _ IH]; constructor; auto.
  apply nth_error_Some. congruence.
Qed.

(** The whole planner with A-star and an admissible heuristic, on every input file (without
    derived variables): it ends with exit code 0 and writes an optimal plan of the task to the
    plan file, or it ends with exit code 12, the task has no plan and no file is touched. *)
Theorem C56_astar_from_input_to_plan_file : forall input rt h reliable,
  read_root_task input = Ok rt -> no_derived (rt_task rt) ->
  (forall s, state_ok (rt_task rt) s -> exists v, h (rt_task rt) s = Ok v /\
     forall os, task_plan_from (rt_task rt) s os -> exists x, v = Some x /\ x <= plan_cost (rt_task rt) os) ->
  exists f0, forall fuel, f0 <= fuel -> forall construct args o writable fs,
  parse_cmd_line construct args (is_unit_cost (t_ops (rt_task rt))) = Ok o ->
  o_search o = Some (astar_algorithm h reliable fuel) -> (forall n, writable n = true) ->
  exists code fs', planner writable construct args input fs = Ok (code, fs') /\
    let t := rt_task rt in
    let name := plan_name (o_filename o) (o_portfolio o) (S (Z.to_nat (o_previous o))) in
    (code = 0%Z /\ (exists plan c, task_plan_from t (t_init t) plan /\
         (forall os, task_plan_from t (t_init t) os -> plan_cost t plan <= plan_cost t os) /\
         fs' name = Some c /\ plan_file t (rt_op_names rt) plan c) /\
       (forall x, x <> name -> fs' x = fs x)) \/
    (code = 12%Z /\ (forall os, ~ task_plan_from t (t_init t) os) /\ forall x, fs' x = fs x).
Proof.
  intros input rt h rel Hrt Hnd Hh. set (t := rt_task rt) in *.
  destruct (C16_parsed_tasks_are_well_formed _ _ Hrt) as (Htk & _). fold t in Htk.
  assert (Hi : state_okb (t_vars t) (t_init t) = true) by (apply state_okb_spec; apply Htk).
  set (hh := fun (s : wstate t) => value_of (h t (proj1_sig s))).
  destruct (Bool.bool_dec (state_okb (t_vars t) (t_init t)) true) as [Hd|Hd] eqn:Ed; [|congruence].
  set (init := exist (fun s => state_okb (t_vars t) s = true) (t_init t) Hd : wstate t).
  assert (Hadm : forall s, admissible_at (task_space t init) (adj (task_space t init) (astar_config NORMAL false None)) s (hh s)).
  { intros s os H. apply (plan_iff t Htk Hnd init) in H. destruct (Hh _ (wstate_ok t s)) as (v & E & Hv).
    destruct (Hv os H) as (x & X & Y). exists x. unfold hh. rewrite E. split; [exact X|].
    change (adj (task_space t init) (astar_config NORMAL false None)) with (op_costs t). now rewrite space_cost. }
  destruct (astar_run (task_space t init) hh rel NORMAL false (space_wf t init) None (space_finite t init)) as (f0 & r & Hr & Hf).
  exists f0. intros fuel Hfuel construct args o writable fs Hp Hs Hw.
  pose proof (C21_astar_optimal_below_bound (task_space t init) hh rel NORMAL false None (space_wf t init) Hadm (or_introl eq_refl) fuel) as Hopt.
  rewrite (Hr fuel Hfuel) in Hopt.
  assert (Hrun : forall res, (match r with SOLVED plan _ => res = {| run_saved := []; run_plan := Some plan; run_final := true |}
     | FAILED _ => res = {| run_saved := []; run_plan := None; run_final := true |} | IN_PROGRESS _ => False end) ->
     completes construct args input rt o res).
  { intros res Hres. split; [exact Hrt|]. split; [exact Hp|]. split.
    - intros ->. injection Hp as <-. discriminate.
    - exists (astar_algorithm h rel fuel). split; [exact Hs|]. unfold astar_algorithm. cbv zeta. fold t. rewrite Ed.
      match goal with |- bind ?x _ = _ => change x with (astar (task_space t init) hh rel (astar_config NORMAL false None) fuel) end.
      rewrite (Hr fuel Hfuel). cbn [bind]. destruct r; [destruct Hres| |]; subst res; reflexivity. }
  destruct r as [st|st|plan st]; [destruct Hf| |].
  - specialize (Hrun _ eq_refl).
    assert (Hin : plans_in_range rt {| run_saved := []; run_plan := None; run_final := true |}) by (split; [intros p []|discriminate]).
    destruct (C56_exit_code construct writable args input fs rt o _ Hrun Hin Hw) as (fs' & E).
    destruct (C52_single_plan_run construct writable args input fs rt o _ Hrun eq_refl eq_refl Hin Hw) as (code & fs2 & E2 & K1 & K2).
    exists 12%Z, fs'. split; [exact E|]. right. rewrite E in E2. injection E2 as _ <-. split; [reflexivity|]. split.
    + intros os Hos. destruct (Hopt os) as (b & Hb & _); [|discriminate]. apply (plan_iff t Htk Hnd init init os). exact Hos.
    + intros x. cbn [run_plan] in K2. destruct (list_eq_dec ascii_dec x (plan_name (o_filename o) (o_portfolio o) (S (Z.to_nat (o_previous o))))) as [->|N]; auto.
  - specialize (Hrun _ eq_refl). destruct Hopt as [Hplan Hopt].
    assert (Hplan' : task_plan_from t (t_init t) plan) by (apply (plan_iff t Htk Hnd init init plan); exact Hplan).
    assert (Hin : plans_in_range rt {| run_saved := []; run_plan := Some plan; run_final := true |}).
    { split; [intros p []|]. intros p [= <-]. eapply plan_in_range. exact Hplan'. }
    destruct (C56_exit_code construct writable args input fs rt o _ Hrun Hin Hw) as (fs' & E).
    destruct (C52_single_plan_run construct writable args input fs rt o _ Hrun eq_refl eq_refl Hin Hw) as (code & fs2 & E2 & K1 & K2).
    exists 0%Z, fs'. split; [exact E|]. left. rewrite E in E2. injection E2 as _ <-. split; [reflexivity|]. split; [|exact K1].
    cbn [run_plan] in K2. destruct K2 as (c & Kc & Kf). exists plan, c. split; [exact Hplan'|]. split; [|split; auto].
    intros os Hos. specialize (Hopt os). change (adj (task_space t init) (astar_config NORMAL false None)) with (op_costs t) in Hopt.
    rewrite !space_cost in Hopt. apply Hopt; [|discriminate]. apply (plan_iff t Htk Hnd init init os). exact Hos.
Qed.
Print Assumptions C56_astar_from_input_to_plan_file.

(** A complete run: the task file, a command line, A-star with h^max. *)
Definition run_file (goal : string) : text := unlines
  ["begin_version"; "3"; "end_version"; "begin_metric"; "1"; "end_metric"; "2";
   "begin_variable"; "pos"; "-1"; "3"; "Atom a"; "Atom b"; "Atom c"; "end_variable";
   "begin_variable"; "flag"; "-1"; "2"; "Atom d"; "Atom e"; "end_variable"; "0";
   "begin_state"; "0"; "0"; "end_state";
   "begin_goal"; "1"; goal; "end_goal";
   "3"; "begin_operator"; "move a b"; "0"; "1"; "0 0 0 1"; "2"; "end_operator";
   "begin_operator"; "move a c"; "0"; "1"; "0 0 0 2"; "7"; "end_operator";
   "begin_operator"; "move b c"; "1"; "0 1"; "1"; "0 0 1 2"; "3"; "end_operator"; "0"]%string.
Definition run_h (t : task) (s : state) : outcome (option nat) := hmax list_pq t [] (repeat None (num_props t)) s.
Definition run_construct (s : text) : outcome (root_task -> outcome run) :=
  if teq s "astar(hmax())" then Ok (astar_algorithm run_h true 20) else Exit input_error.
Definition run_args : list text := map str ["--internal-plan-file"; "my_plan"; "--search"; "astar(hmax())"]%string.

Example C52_C56_nonvacuous :
  match planner (fun _ => true) run_construct run_args (run_file "0 2") (fun _ => None) with
  | Ok (code, fs) => code = 0%Z /\ fs (str "my_plan") = Some (unlines ["(move a b)"; "(move b c)"; "; cost = 5 (general cost)"]%string)
  | _ => False
  end /\
  match planner (fun _ => true) run_construct run_args (run_file "1 1") (fun _ => None) with
  | Ok (code, fs) => code = 12%Z /\ fs (str "my_plan") = None
  | _ => False
  end.
Proof. vm_compute. repeat split; reflexivity. Qed.

Lemma task_relax_ok t : task_ok t -> no_derived t -> relax_ok t.
Proof.
  intros (_ & Ho & _ & _ & Hg) [Hr _]. split; [|split; auto].
  - intros op H. rewrite Forall_forall in Ho. destruct (Ho op H) as (H1 & H2). split; auto.
    intros e He. rewrite Forall_forall in H2. split; apply H2; auto.
  - rewrite Hr. intros r [].
Qed.
(** The hypotheses of the end-to-end theorem hold for it. *)
Example C56_end_to_end_nonvacuous : exists rt, read_root_task (run_file "0 2") = Ok rt /\ no_derived (rt_task rt) /\
  (forall s, state_ok (rt_task rt) s -> exists v, run_h (rt_task rt) s = Ok v /\
     forall os, task_plan_from (rt_task rt) s os -> exists x, v = Some x /\ x <= plan_cost (rt_task rt) os).
Proof.
  destruct (read_root_task (run_file "0 2")) as [rt| | |] eqn:E; [|vm_compute in E; discriminate ..]. exists rt. split; [reflexivity|].
  assert (Hnd : no_derived (rt_task rt)) by (vm_compute in E; injection E as <-; split; [reflexivity|intros [|[|[|v]]]; reflexivity]).
  split; [exact Hnd|]. intros s Hs. eapply (C32_hmax_admissible list_pq); eauto.
  - apply list_pq_contract.
  - destruct (C16_parsed_tasks_are_well_formed _ _ E) as (Htk & _). now apply task_relax_ok.
  - apply repeat_length.
Qed.
