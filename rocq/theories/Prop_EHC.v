(** C23: enforced hill-climbing. *)
From Verif Require Import Outcome Spec_Plan Spec_Preferred Model_SearchSpace Model_OpenList Model_Eager Model_EHC
  Proof_EHC Prop_Eager.

(** C23.  For all (possibly path-dependent) evaluators whose preferred operators are
    applicable, all preferred-operator modes and cost types and every limit on the number of
    steps: the plan of a SOLVED enforced hill-climbing search is a plan of the task and
    cheaper than the bound unless it is empty. *)
Theorem C23_ehc_sound :
  forall (T : TS) (ct : ehc_controller T) (cfg : ehc_config),
  ts_wf T -> (forall c s, incl (fst (e_preferred ct c s)) (ts_app T s)) ->
  forall fuel c0 plan st,
  ehc_search T ct cfg fuel c0 = Ok (SOLVED plan st) ->
  is_plan T plan /\
  (forall b, ec_bound (eh_base cfg) = Some b -> plan = [] \/ sum_cost (ts_cost T) plan < b).
Proof.
  intros T ct cfg Hwf Happ fuel c0 plan st H.
  destruct (ehc_sound_gen T ct cfg Hwf Happ (fun _ _ => True) (fun _ _ _ _ _ => Logic.I) (fun _ _ _ _ => Logic.I) fuel c0 plan st H) as (A & B & _).
  auto.
Qed.
Print Assumptions C23_ehc_sound.

(** C23.  The run either makes progress or ends; it exits the process only if the initial
    state is evaluated as a dead end, with code 11 (unsolvable) exactly if the evaluator's
    dead ends are reliable and 12 (unsolved, incomplete) otherwise; it never has undefined
    behaviour. *)
Theorem C23_ehc_no_undefined_behaviour :
  forall (T : TS) (ct : ehc_controller T) (cfg : ehc_config),
  ts_wf T -> (forall c s, incl (fst (e_preferred ct c s)) (ts_app T s)) ->
  forall fuel c0,
  (exists r, ehc_search T ct cfg fuel c0 = Ok r) \/
  exists z, ehc_search T ct cfg fuel c0 = Exit z /\
    fst (e_eval ct (e_notify_initial ct c0 (ts_init T)) (ts_init T)) = None /\
    z = (if e_reliable ct then 11 else 12)%Z.
Proof. intros T ct cfg Hwf Happ fuel c0. exact (ehc_no_ub T ct cfg Hwf Happ fuel c0). Qed.
Print Assumptions C23_ehc_no_undefined_behaviour.

(** C23.  Pruning by preferred operators: every step of the plan uses an operator preferred
    in its state. *)
Theorem C23_prune_uses_only_preferred :
  forall (T : TS) h reliable preferred (cfg : ehc_config),
  ts_wf T -> (forall s, incl (preferred s) (ts_app T s)) ->
  eh_use_preferred cfg = true -> eh_usage cfg = PRUNE_BY_PREFERRED ->
  forall fuel plan st,
  ehc_search T (fun_controller T h reliable preferred) cfg fuel tt = Ok (SOLVED plan st) ->
  preferred_path T preferred (ts_init T) plan.
Proof.
  intros T h reliable preferred cfg Hwf Happ Hu _ fuel plan st H.
  destruct (ehc_sound_gen T (fun_controller T h reliable preferred) cfg Hwf (fun _ s => Happ s)
    (fun s o => In o (preferred s)) (fun _ _ _ _ Ho => Ho) ltac:(congruence) fuel tt plan st H) as (_ & _ & s & P).
  clear H. induction P; constructor; auto.
Qed.
Print Assumptions C23_prune_uses_only_preferred.

(** C61.  Ranking preferred operators first does the same: the open list is created with
    unsafe_pruning = false and pref_only = true, so edges of non-preferred operators are
    dropped.  Every step of a plan found in this mode is preferred ... *)
Theorem C61_rank_uses_only_preferred :
  forall (T : TS) h reliable preferred (cfg : ehc_config),
  ts_wf T -> (forall s, incl (preferred s) (ts_app T s)) ->
  eh_use_preferred cfg = true -> eh_usage cfg = RANK_PREFERRED_FIRST ->
  forall fuel plan st,
  ehc_search T (fun_controller T h reliable preferred) cfg fuel tt = Ok (SOLVED plan st) ->
  preferred_path T preferred (ts_init T) plan.
Proof.
  intros T h reliable preferred cfg Hwf Happ Hu _ fuel plan st H.
  destruct (ehc_sound_gen T (fun_controller T h reliable preferred) cfg Hwf (fun _ s => Happ s)
    (fun s o => In o (preferred s)) (fun _ _ _ _ Ho => Ho) ltac:(congruence) fuel tt plan st H) as (_ & _ & s & P).
  clear H. induction P; constructor; auto.
Qed.
Print Assumptions C61_rank_uses_only_preferred.

Definition C23_cfg (use : bool) (u : PreferredUsage) (b : option nat) : ehc_config :=
  {| eh_base := {| ec_reopen := false; ec_cost_type := NORMAL; ec_unit_cost := false; ec_bound := b |};
     eh_use_preferred := use; eh_usage := u |}.

(** ... and the search can fail although it explores everything reachable without preferred
    operators and would then find a plan. *)
Theorem C61_rank_preferred_first_refuted :
  exists (T : TS) h preferred fuel,
    ts_wf T /\ (forall s, incl (preferred s) (ts_app T s)) /\ (forall s, h s <> None) /\
    (exists plan st, ehc_search T (fun_controller T h true preferred) (C23_cfg false RANK_PREFERRED_FIRST None) fuel tt
       = Ok (SOLVED plan st)) /\
    (exists st, ehc_search T (fun_controller T h true preferred) (C23_cfg true RANK_PREFERRED_FIRST None) fuel tt
       = Ok (FAILED st)).
Proof.
  exists ex_ts, (fun s => Some (ex_star s)), (fun s => match s with 0 => [1] | 4 => [43] | _ => ts_app ex_ts s end), 20.
  split; [exact ex_ts_wf|]. split.
  { intros s o Ho. destruct s as [|[|[|[|[|s]]]]]; cbn in *; tauto. }
  split; [discriminate|].
  split; eexists; [eexists|]; vm_compute; reflexivity.
Qed.
Print Assumptions C61_rank_preferred_first_refuted.

Example C23_nonvacuous :
  ts_wf ex_ts /\
  (exists st, ehc_search ex_ts (fun_controller ex_ts (fun s => Some (ex_star s)) true (fun s => firstn 1 (ts_app ex_ts s)))
     (C23_cfg true PRUNE_BY_PREFERRED (Some 14)) 30 tt = Ok (SOLVED [1; 13; 34; 45] st)) /\
  (exists st, ehc_search ex_ts (fun_controller ex_ts (fun s => Some (ex_star s)) true (fun s => firstn 1 (ts_app ex_ts s)))
     (C23_cfg true RANK_PREFERRED_FIRST (Some 14)) 30 tt = Ok (SOLVED [1; 13; 34; 45] st)) /\
  (exists st, ehc_search ex_ts (fun_controller ex_ts (fun s => Some (ex_star s)) true (fun s => firstn 1 (ts_app ex_ts s)))
     (C23_cfg false PRUNE_BY_PREFERRED (Some 9)) 30 tt = Ok (FAILED st)).
Proof. split; [exact ex_ts_wf|]. repeat split; eexists; vm_compute; reflexivity. Qed.
