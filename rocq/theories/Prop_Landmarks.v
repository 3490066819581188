(** C54: landmark status tracking and the landmark heuristics. *)
From Coq Require Import QArith Qround Lqa.
From Verif Require Import Outcome Spec_Task Spec_Relaxation Spec_Landmarks Model_Task Model_Landmarks Proof_Task Proof_TaskCheck Proof_TaskSpace Proof_PerState2
  Proof_Landmarks1 Proof_Landmarks2 Proof_Landmarks3 Proof_Landmarks4 Proof_Landmarks5 Proof_LandmarksCheck.
Local Open Scope nat_scope.

Lemma bit_nth b i : i < length b -> forall x, nth_error b i = Some x <-> bit b i = x.
Proof.
  intros H x. unfold bit. rewrite (nth_error_nth' b false H). split; [intros [= ->]; auto|intros ->; auto].
Qed.

(** Whatever the search reports, in whatever order, status tracking works without error, and a
    landmark counts as past in a state exactly if it was reached on every path to the state that
    the search has reported step by step. *)
Theorem C54_past_exact : forall t g opt es, state_ok t (t_init t) -> graph_ok t g -> history t es ->
  exists st, notify_all t g opt es = Ok st /\
    forall s i l, nth_error g i = Some l ->
      (nth_error (past st s) i = Some true <-> forall os ss, known t es s os ss -> reached l ss) /\
      (nth_error (past st s) i = Some false <-> exists os ss, known t es s os ss /\ ~ reached l ss).
Proof.
  intros t g opt es Hi Hg Hh. destruct (notify_all_ok t g Hg opt es Hh Hi) as (st & E & HI). exists st. split; auto.
  intros s i l Hl. destruct (inv_len t g es st HI s) as [L1 _]. pose proof (node_lt g i l Hl) as Hlt.
  rewrite !bit_nth by lia. split; split.
  - intros Hb. eapply inv_past; eauto.
  - intros H. destruct (bit (past st s) i) eqn:E1; auto.
    destruct (inv_open t g es st HI s i l Hl E1) as (_ & os & ss & K & N). exfalso. eauto.
  - intros Hb. eapply inv_open; eauto.
  - intros (os & ss & K & N). destruct (bit (past st s) i) eqn:E1; auto. exfalso. apply N. eapply inv_past; eauto.
Qed.
Print Assumptions C54_past_exact.

(** With sound landmarks, a landmark is marked as future in a state only if every plan from the
    state makes it true at some step. *)
Theorem C54_future_sound : forall t g opt es st s i l os ss,
  state_ok t (t_init t) -> graph_ok t g -> sound t g -> history t es -> notify_all t g opt es = Ok st ->
  nth_error g i = Some l -> nth_error (future st s) i = Some true -> plan_run t s os ss ->
  exists k, added_by l ss k.
Proof.
  intros t g opt es st s i l os ss Hi Hg Hs Hh E Hl Hf P. destruct (notify_all_ok t g Hg opt es Hh Hi) as (st' & E' & HI).
  assert (st' = st) by congruence. subst st'. destruct (inv_len t g es st HI s) as [_ L2]. pose proof (node_lt g i l Hl) as Hlt.
  apply bit_nth in Hf; [|lia]. eapply inv_future; eauto.
Qed.
Print Assumptions C54_future_sound.

(** The estimates are defined for every state. *)
Theorem C54_estimates_total : forall t g opt alm rnd es st s,
  state_ok t (t_init t) -> graph_ok t g -> history t es -> rounding unit_roundoff rnd -> notify_all t g opt es = Ok st ->
  (exists r, heuristic rnd t g alm st s = Ok r) /\ exists r, sum_heuristic t g st s = Ok r.
Proof.
  intros t g opt alm rnd es st s Hi Hg Hh Hr E. destruct (notify_all_ok t g Hg opt es Hh Hi) as (st' & E' & HI).
  assert (st' = st) by congruence. subst st'. split.
  - eapply heuristic_total; eauto. unfold unit_roundoff. lra.
  - eapply sum_total; eauto.
Qed.
Print Assumptions C54_estimates_total.

(** Uniform cost partitioning with floating-point arithmetic never exceeds the cost of a plan, as
    long as (number of landmarks + 1) * (plan cost + 1) is at most 2^43. *)
Theorem C54_admissible : forall t g opt alm rnd es st s os0 ss0 os,
  state_ok t (t_init t) -> graph_ok t g -> sound t g -> history t es -> rounding unit_roundoff rnd ->
  notify_all t g opt es = Ok st -> known t es s os0 ss0 -> task_plan_from t s os ->
  (Z.of_nat (S (length g)) * Z.of_nat (S (plan_cost t os)) <= 2 ^ 43)%Z ->
  exists v, heuristic rnd t g alm st s = Ok (Some v) /\ (v <= Z.of_nat (plan_cost t os))%Z.
Proof.
  intros t g opt alm rnd es st s os0 ss0 os Hi Hg Hs Hh Hr E K P B. destruct (notify_all_ok t g Hg opt es Hh Hi) as (st' & E' & HI).
  assert (st' = st) by congruence. subst st'. assert (Hu : (0 <= unit_roundoff)%Q) by (unfold unit_roundoff; lra).
  destruct (heuristic_plan t g Hg es st Hh HI alm s rnd unit_roundoff Hu Hr os0 ss0 os Hs K P) as (v & Ev & Hv).
  exists v. split; auto. apply Hv. apply tolerable_double. auto.
Qed.
Print Assumptions C54_admissible.

(** With exact arithmetic there is no such bound. *)
Theorem C54_admissible_exact : forall t g opt alm es st s os0 ss0 os,
  state_ok t (t_init t) -> graph_ok t g -> sound t g -> history t es ->
  notify_all t g opt es = Ok st -> known t es s os0 ss0 -> task_plan_from t s os ->
  exists v, heuristic (fun x => x) t g alm st s = Ok (Some v) /\ (v <= Z.of_nat (plan_cost t os))%Z.
Proof.
  intros t g opt alm es st s os0 ss0 os Hi Hg Hs Hh E K P. destruct (notify_all_ok t g Hg opt es Hh Hi) as (st' & E' & HI).
  assert (st' = st) by congruence. subst st'.
  assert (Hr : rounding 0 (fun x => x)). { intros x. split; [intros H; split; [auto|lra]|auto]. }
  destruct (heuristic_plan t g Hg es st Hh HI alm s (fun x => x) 0%Q (Qle_refl _) Hr os0 ss0 os Hs K P) as (v & Ev & Hv).
  exists v. split; auto. apply Hv. apply tolerable_exact.
Qed.
Print Assumptions C54_admissible_exact.

(** Both heuristics report dead ends only for states without a plan. *)
Theorem C54_dead_ends : forall t g opt alm rnd es st s os0 ss0,
  state_ok t (t_init t) -> graph_ok t g -> sound t g -> history t es -> rounding unit_roundoff rnd ->
  notify_all t g opt es = Ok st -> known t es s os0 ss0 ->
  heuristic rnd t g alm st s = Ok None \/ sum_heuristic t g st s = Ok None ->
  forall os, ~ task_plan_from t s os.
Proof.
  intros t g opt alm rnd es st s os0 ss0 Hi Hg Hs Hh Hr E K H os P. destruct (notify_all_ok t g Hg opt es Hh Hi) as (st' & E' & HI).
  assert (st' = st) by congruence. subst st'. assert (Hu : (0 <= unit_roundoff)%Q) by (unfold unit_roundoff; lra). destruct H as [H|H].
  - destruct (heuristic_plan t g Hg es st Hh HI alm s rnd unit_roundoff Hu Hr os0 ss0 os Hs K P) as (v & Ev & _). congruence.
  - destruct (sum_plan t g Hg es st Hh HI s os0 ss0 os Hs K P) as (v & Ev). congruence.
Qed.
Print Assumptions C54_dead_ends.

(** A concrete case: fetch a key, go through a door, leave; going back drops the key. *)
Definition lv d : variable := {| vdom := d; vlayer := None; vdefault := 0 |}.
Definition lop pre eff c : operator := {| op_pre := pre; op_effs := map (fun f => {| eff_cond := []; eff_fact := f |}) eff; op_cost := c |}.
Definition lm_ex : task := {|
  t_vars := [lv 2; lv 3];
  t_ops := [lop [(1, 0)] [(0, 1)] 2; lop [(0, 1); (1, 0)] [(1, 1)] 3; lop [(1, 1)] [(1, 2)] 1; lop [(1, 1)] [(1, 0); (0, 0)] 1];
  t_rules := []; t_init := [0; 0]; t_goal := [(1, 2); (0, 1)] |}.
Definition mklm d at_ go fi po pa ch : landmark :=
  {| lm_disjunctive := d; lm_atoms := at_; lm_goal := go; lm_first := fi; lm_possible := po; lm_parents := pa; lm_children := ch |}.
Definition lg_ex : graph :=
  [mklm false [(0, 1)] true [0] [0] [] [(1, GreedyNecessary); (2, Natural)];
   mklm false [(1, 1)] false [1] [1] [(0, GreedyNecessary)] [(2, GreedyNecessary)];
   mklm false [(1, 2)] true [2] [2] [(0, Natural); (1, GreedyNecessary); (3, Reasonable)] [];
   mklm true [(1, 1); (1, 2)] false [1] [1] [] [(2, Reasonable)]].
Definition lm_history : list event :=
  [Initial; Transition [0; 0] 0 [1; 0]; Transition [1; 0] 1 [1; 1]; Transition [1; 1] 3 [0; 0]; Transition [1; 1] 2 [1; 2]].
Definition all_on : options := {| prog_goal := true; prog_gn := true; prog_r := true |}.
(** Rounds as badly as [rounding] allows. *)
Definition worst_rounding (x : Q) : Q := if Qle_bool x 0 then x else x + unit_roundoff * (x + 1).

Lemma lm_ex_ok : task_ok lm_ex.
Proof. apply task_okb_ok. reflexivity. Qed.
Lemma lm_ex_nd : no_derived lm_ex.
Proof. split; [reflexivity|]. intros [|[|v]]; cbn; auto. destruct v; reflexivity. Qed.
Lemma lm_ex_step s o op : nth_error (t_ops lm_ex) o = Some op -> progress lm_ex s o (apply_effects s (op_effs op)).
Proof. intros H. apply (progress_apply lm_ex lm_ex_nd s o op); auto. Qed.
Lemma worst_rounding_ok : rounding unit_roundoff worst_rounding.
Proof.
  intros x. unfold worst_rounding. assert (Hu : (0 <= unit_roundoff)%Q) by (unfold unit_roundoff; lra).
  destruct (Qle_bool x 0) eqn:E.
  - apply Qle_bool_iff in E. split; auto. intros H. split; auto. nra.
  - assert (0 < x)%Q. { apply Qnot_le_lt. intros H. apply Qle_bool_iff in H. congruence. } split; [|lra]. intros _. split; [nra|lra].
Qed.

Example C54_nonvacuous :
  task_ok lm_ex /\ graph_ok lm_ex lg_ex /\ sound lm_ex lg_ex /\ history lm_ex lm_history /\ rounding unit_roundoff worst_rounding /\
  known lm_ex lm_history [1; 1] [0; 1] [[0; 0]; [1; 0]; [1; 1]] /\ task_plan_from lm_ex [1; 1] [2] /\
  match notify_all lm_ex lg_ex all_on lm_history with
  | Ok st => map (past st) [[0; 0]; [1; 0]; [1; 1]; [1; 2]] =
               [[false; false; false; false]; [true; false; false; false]; [true; true; false; true]; [true; true; true; true]] /\
             map (future st) [[0; 0]; [1; 0]; [1; 1]; [1; 2]] =
               [[true; true; true; true]; [false; true; true; true]; [false; false; true; false]; [false; false; false; false]] /\
             map (heuristic worst_rounding lm_ex lg_ex true st) [[0; 0]; [1; 0]; [1; 1]; [1; 2]] =
               [Ok (Some 6); Ok (Some 4); Ok (Some 1); Ok (Some 0)]%Z /\
             map (heuristic worst_rounding lm_ex lg_ex false st) [[0; 0]; [1; 0]; [1; 1]; [1; 2]] =
               [Ok (Some 6); Ok (Some 4); Ok (Some 1); Ok (Some 0)]%Z /\
             map (sum_heuristic lm_ex lg_ex st) [[0; 0]; [1; 0]; [1; 1]; [1; 2]] =
               [Ok (Some 9); Ok (Some 7); Ok (Some 1); Ok (Some 0)]
  | _ => False
  end.
Proof.
  split; [apply lm_ex_ok|]. split; [apply graph_okb_ok; reflexivity|]. split.
  { apply (check_sound lm_ex lm_ex_nd lg_ex [[0; 0]; [1; 0]; [1; 1]; [1; 2]]
      [[[0; 0]]; [[0; 0]; [1; 0]]; [[0; 0]; [1; 0]; [1; 1]]; [[0; 0]; [1; 0]]]). vm_compute. reflexivity. }
  assert (App : forall s o, In o (app_ops lm_ex s) -> applicable lm_ex s o) by (intros s o; apply app_ops_spec).
  split.
  { intros p o s H. destruct H as [H|[H|[H|[H|[H|[]]]]]]; inv H; (split; [apply Proof_TaskCheck.state_okb_ok; reflexivity|]);
      (split; [apply App; cbn; auto|]); match goal with |- progress _ ?s ?o _ => apply (lm_ex_step s o _ eq_refl) end. }
  split; [apply worst_rounding_ok|]. split.
  { change (known lm_ex ([Initial; Transition [0; 0] 0 [1; 0]] ++ Transition [1; 0] 1 [1; 1] :: [Transition [1; 1] 3 [0; 0]; Transition [1; 1] 2 [1; 2]])
              [1; 1] ([0] ++ [1]) ([[0; 0]; [1; 0]] ++ [[1; 1]])). constructor.
    change (known lm_ex ([Initial] ++ Transition [0; 0] 0 [1; 0] :: []) [1; 0] ([] ++ [0]) ([[0; 0]] ++ [[1; 0]])). constructor.
    change (known lm_ex ([] ++ Initial :: []) (t_init lm_ex) [] [t_init lm_ex]). constructor. }
  split.
  { exists [1; 2]. split; [|apply all_holdb_spec; reflexivity]. econstructor; [apply App; cbn; auto|apply (lm_ex_step [1; 1] 2 _ eq_refl)|]. constructor. }
  vm_compute. auto.
Qed.

(** Paths whose steps were reported, but not in the order of the path, are not taken into account:
    the status of a state is not revised when its parent is reached again on another path. *)
Definition order_ex : task := {|
  t_vars := [lv 4];
  t_ops := [lop [(0, 0)] [(0, 1)] 1; lop [(0, 1)] [(0, 2)] 1; lop [(0, 2)] [(0, 3)] 1; lop [(0, 0)] [(0, 2)] 1];
  t_rules := []; t_init := [0]; t_goal := [(0, 3)] |}.
Definition order_history : list event :=
  [Initial; Transition [0] 0 [1]; Transition [1] 1 [2]; Transition [2] 2 [3]; Transition [0] 3 [2]].
Theorem C54_any_order_refuted : exists t g opt es st s i l os ss,
  task_ok t /\ graph_ok t g /\ history t es /\ notify_all t g opt es = Ok st /\ nth_error g i = Some l /\
  run t (t_init t) os ss /\ last ss (t_init t) = s /\ In Initial es /\
  (forall k x o y, nth_error ss k = Some x -> nth_error os k = Some o -> nth_error ss (S k) = Some y -> In (Transition x o y) es) /\
  nth_error (past st s) i = Some true /\ ~ reached l ss.
Proof.
  set (g := [mklm false [(0, 1)] false [0] [0] [] []]).
  assert (Hnd : no_derived order_ex) by (split; [reflexivity|]; intros [|[|v]]; cbn; auto).
  assert (St : forall s o op, nth_error (t_ops order_ex) o = Some op -> progress order_ex s o (apply_effects s (op_effs op))).
  { intros s o op H. apply (progress_apply order_ex Hnd s o op); auto. }
  assert (App : forall s o, In o (app_ops order_ex s) -> applicable order_ex s o) by (intros s o; apply app_ops_spec).
  assert (Hok : task_ok order_ex) by (apply task_okb_ok; reflexivity).
  assert (Hgk : graph_ok order_ex g) by (apply graph_okb_ok; reflexivity).
  assert (Hh : history order_ex order_history).
  { intros p o s H. destruct H as [H|[H|[H|[H|[H|[]]]]]]; inv H; (split; [apply Proof_TaskCheck.state_okb_ok; reflexivity|]);
      (split; [apply App; cbn; auto|]); match goal with |- progress _ ?s ?o _ => apply (St s o _ eq_refl) end. }
  assert (Hst : match notify_all order_ex g all_on order_history with Ok st => nth_error (past st [3]) 0 = Some true | _ => False end) by (vm_compute; reflexivity).
  destruct (notify_all order_ex g all_on order_history) as [st| | |] eqn:E; try contradiction.
  exists order_ex, g, all_on, order_history, st, [3], 0, (mklm false [(0, 1)] false [0] [0] [] []), [3; 2], [[0]; [2]; [3]]. splits; auto.
  - apply (run_cons order_ex [0] 3 [2]); [apply App; cbn; auto|apply (St [0] 3 _ eq_refl)|].
    apply (run_cons order_ex [2] 2 [3]); [apply App; cbn; auto|apply (St [2] 2 _ eq_refl)|]. constructor.
  - left; auto.
  - intros [|[|[|k]]] x o y Hx Ho Hy; cbn in Hx, Ho, Hy; inv Hx; inv Ho; inv Hy; cbn; auto 10.
  - intros (x & Hx & Tx). apply T_ok in Tx. destruct Hx as [<-|[<-|[<-|[]]]]; discriminate.
Qed.
Print Assumptions C54_any_order_refuted.
