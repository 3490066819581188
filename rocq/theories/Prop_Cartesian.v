(** C46: refinement of Cartesian abstractions. *)
From Verif Require Import Outcome Spec_Task Spec_Cartesian Model_Task Model_Cartesian Proof_TaskCheck Proof_Cartesian3 Proof_Cartesian4 Proof_Cartesian5 Proof_Cartesian6.

(** The abstractions that can be built: start with the trivial one; split any abstract state; mark
    all current states as goals at any time ([marked] tells whether this was done). *)
Inductive refined (t : task) : bool -> abstraction -> Prop :=
| refined_start : forall A, initial_abstraction t = Ok A -> refined t false A
| refined_split : forall marked A i x wanted A', refined t marked A -> legal_split t (view_of A) i x wanted ->
    refine A i x wanted = Ok A' -> refined t marked A'
| refined_mark : forall marked A, refined t marked A -> refined t true (mark_all_states_as_goals A).

Lemma refined_AI t marked A : cartesian_task t -> refined t marked A -> AI t marked A.
Proof.
  intros Ht H. induction H as [A E|marked A i x wanted A' _ IH Hl E|marked A _ IH].
  - destruct (initial_ok t Ht) as (A' & E' & HA & _). congruence.
  - destruct (refine_view t Ht _ _ IH i x wanted Hl) as (A'' & E' & HA & _). congruence.
  - eapply mark_ok; eauto.
Qed.

(** After any sequence of splits, the abstract states partition the states and lookup finds the
    block of every state; transitions and self-loops are exactly the induced ones; the initial
    state and all goal states are covered, and if the states were never marked as goals, only
    abstract states with goal states are goals. *)
Theorem C46_abstraction_exact : forall t marked A, cartesian_task t -> refined t marked A ->
  is_partition t (view_of A) /\ transitions_induced t (view_of A) /\ init_right t (view_of A) /\ goals_covered t (view_of A) /\
  (marked = false -> goals_exact t (view_of A)).
Proof.
  intros t marked A Ht H. pose proof (refined_AI t marked A Ht H) as HA. splits.
  - eapply partition_ok; eauto.
  - eapply transitions_ok; eauto.
  - eapply init_view; eauto.
  - eapply goals_cov; eauto.
  - eapply goals_ex; eauto.
Qed.
Print Assumptions C46_abstraction_exact.

(** Building the trivial abstraction and every legal split succeed, and a split divides the members
    of the abstract state by the value of the variable and leaves all others alone. *)
Theorem C46_splits_succeed : forall t, cartesian_task t ->
  (exists A, initial_abstraction t = Ok A /\ w_num (view_of A) = 1) /\
  forall marked A i x wanted, refined t marked A -> legal_split t (view_of A) i x wanted ->
    exists A', refine A i x wanted = Ok A' /\ split_right t (view_of A) (view_of A') i x wanted.
Proof.
  intros t Ht. split.
  - destruct (initial_ok t Ht) as (A & E & _ & Hn). eauto.
  - intros marked A i x wanted H Hl. pose proof (refined_AI t marked A Ht H) as HA.
    destruct (refine_view t Ht _ _ HA i x wanted Hl) as (A' & E & _ & Hs). eauto.
Qed.
Print Assumptions C46_splits_succeed.

(** The lists of incoming and outgoing transitions agree, and nothing is stored twice. *)
Theorem C46_transition_lists_consistent : forall t marked A, cartesian_task t -> refined t marked A ->
  let ts := ab_ts A in
  length (c_out ts) = length (ab_states A) /\ length (c_in ts) = length (ab_states A) /\ length (c_loops ts) = length (ab_states A) /\
  (forall u o v, (exists l, nth_error (c_in ts) v = Some l /\ In (o, u) l) <-> exists l, nth_error (c_out ts) u = Some l /\ In (o, v) l) /\
  (forall l, In l (c_out ts) \/ In l (c_in ts) -> NoDup l) /\ (forall l, In l (c_loops ts) -> NoDup l) /\ NoDup (ab_goals A).
Proof.
  intros t marked A Ht H ts. pose proof (refined_AI t marked A Ht H) as HA. destruct (ai_ts _ _ _ HA) as [(_ & _ & S1 & S2 & S3) I1 I2 I3 I4 I5 I6].
  fold ts in S1, S2, S3, I1, I2, I3, I4, I5, I6. splits; auto.
  - intros u o v. rewrite (nth_list (c_in ts) v), (nth_list (c_out ts) u). change (nth v (c_in ts) []) with (I ts v). change (nth u (c_out ts) []) with (O ts u). rewrite I1, I2. tauto.
  - intros l [Hl|Hl]; apply In_nth_error in Hl as [u Hu]; [specialize (I4 u); unfold O in I4|specialize (I5 u); unfold I in I5]; rewrite (nth_error_nth _ _ [] Hu) in *; auto.
  - intros l Hl. apply In_nth_error in Hl as [u Hu]. specialize (I6 u). unfold Lp in I6. now rewrite (nth_error_nth _ _ [] Hu) in I6.
  - apply (ai_gnd _ _ _ HA).
Qed.
Print Assumptions C46_transition_lists_consistent.

(** A concrete history: three splits, the second of them of two values at once. *)
Definition cart_ex : task := {|
  t_vars := [{| vdom := 4; vlayer := None; vdefault := 0 |}; {| vdom := 2; vlayer := None; vdefault := 0 |}];
  t_ops := [{| op_pre := [(0, 0)]; op_effs := [{| eff_cond := []; eff_fact := (0, 1) |}]; op_cost := 2 |};
            {| op_pre := [(0, 1)]; op_effs := [{| eff_cond := []; eff_fact := (0, 2) |}; {| eff_cond := []; eff_fact := (1, 1) |}]; op_cost := 3 |};
            {| op_pre := []; op_effs := [{| eff_cond := []; eff_fact := (0, 3) |}]; op_cost := 1 |};
            {| op_pre := [(1, 1)]; op_effs := [{| eff_cond := []; eff_fact := (1, 0) |}]; op_cost := 1 |}];
  t_rules := []; t_init := [0; 0]; t_goal := [(0, 3); (1, 1)] |}.
Lemma cart_ex_ok : cartesian_task cart_ex.
Proof.
  split; [apply task_okb_ok; reflexivity|]. split; [reflexivity|]. split; [intros x [<-|[<-|[]]]; reflexivity|]. split; [|repeat constructor; cbn; intuition lia].
  intros op [<-|[<-|[<-|[<-|[]]]]]; cbn; (split; [repeat constructor; cbn; intuition lia|intros e He; repeat destruct He as [<-|He]; try reflexivity; destruct He]).
Qed.
Definition cart_get (A : outcome abstraction) : abstraction :=
  match A with Ok A => A | _ => {| ab_ts := enlarge {| c_pre := []; c_post := []; c_in := []; c_out := []; c_loops := []; c_num_non_loops := 0; c_num_loops := 0 |};
    ab_cinit := []; ab_goal_facts := []; ab_nodes := []; ab_states := []; ab_init := 0; ab_goals := [] |} end.
Definition cart_A0 := Eval vm_compute in cart_get (initial_abstraction cart_ex).
Definition cart_A1 := Eval vm_compute in cart_get (refine cart_A0 0 1 [1]).
Definition cart_A2 := Eval vm_compute in cart_get (refine cart_A1 1 0 [3; 1]).
Definition cart_A3 := Eval vm_compute in cart_get (refine cart_A2 0 0 [0]).
(** Decides legality of a split of a concrete abstraction. *)
Lemma legal_by_tests t A i x wanted : i < length (ab_states A) -> wanted <> [] -> NoDup wanted ->
  (forall d, In d wanted -> cs_test (a_set (nth i (ab_states A) dflt)) x d = Ok true) -> (exists d, cs_test (a_set (nth i (ab_states A) dflt)) x d = Ok true /\ ~ In d wanted) ->
  legal_split t (view_of A) i x wanted.
Proof.
  intros H1 H2 H3 H4 (d & H5 & H6). unfold legal_split. cbn [w_num w_contains view_of fst snd]. splits; auto.
  - intros e He. exists (nth i (ab_states A) dflt). split; [now apply nth_error_nth'|auto].
  - exists d. split; auto. exists (nth i (ab_states A) dflt). split; [now apply nth_error_nth'|auto].
Qed.

Example C46_nonvacuous :
  cartesian_task cart_ex /\
  let A := cart_A3 in
    refined cart_ex false A /\ refined cart_ex true (mark_all_states_as_goals A) /\
    length (ab_states A) = 4 /\ ab_init A = 3 /\ ab_goals A = [2] /\
    map (fun s => abstract_state_id (ab_nodes A) s) [[0; 0]; [1; 0]; [2; 1]; [3; 1]; [0; 1]] = [Ok 3; Ok 0; Ok 1; Ok 2; Ok 1] /\
    c_out (ab_ts A) = [[(1, 1)]; [(0, 2); (2, 2); (3, 0); (3, 3)]; [(1, 1); (3, 0)]; [(0, 0); (2, 0)]].
Proof.
  split; [exact cart_ex_ok|].
  assert (R0 : refined cart_ex false cart_A0) by (apply refined_start; vm_compute; reflexivity).
  assert (R1 : refined cart_ex false cart_A1).
  { apply refined_split with (A := cart_A0) (i := 0) (x := 1) (wanted := [1]); [exact R0| |vm_compute; reflexivity].
    apply legal_by_tests; [cbn; lia|discriminate|repeat constructor; cbn; intuition lia|intros d [<-|[]]; reflexivity|]. exists 0. split; [reflexivity|cbn; intuition lia]. }
  assert (R2 : refined cart_ex false cart_A2).
  { apply refined_split with (A := cart_A1) (i := 1) (x := 0) (wanted := [3; 1]); [exact R1| |vm_compute; reflexivity].
    apply legal_by_tests; [cbn; lia|discriminate|repeat constructor; cbn; intuition lia|intros d [<-|[<-|[]]]; reflexivity|]. exists 0. split; [reflexivity|cbn; intuition lia]. }
  assert (R3 : refined cart_ex false cart_A3).
  { apply refined_split with (A := cart_A2) (i := 0) (x := 0) (wanted := [0]); [exact R2| |vm_compute; reflexivity].
    apply legal_by_tests; [cbn; lia|discriminate|repeat constructor; cbn; intuition lia|intros d [<-|[]]; reflexivity|]. exists 1. split; [reflexivity|cbn; intuition lia]. }
  cbv zeta. split; [exact R3|]. split; [eapply refined_mark; exact R3|]. splits; vm_compute; reflexivity.
Qed.
