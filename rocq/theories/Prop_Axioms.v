(** C13: derived variables. *)
From Verif Require Import Outcome Spec_Task Model_Task Model_Axioms Proof_Axioms.

(** For every well-formed task, building the evaluator succeeds, and evaluating any state
    succeeds and yields the one state that keeps the non-derived variables and gives each
    derived variable its value under the stratified semantics.  (A task without rules is
    not evaluated at all, so there the derived variables must hold their default values
    already, as they do in every reachable state.) *)
Theorem C13_evaluate_is_stratified_model : forall t, task_ok t ->
  exists ax, make_axeval t = Ok ax /\
  forall s, state_ok t s ->
    (t_rules t = [] -> forall v x, is_var t v x -> vlayer x <> None -> holds s (v, vdefault x)) ->
  exists s', evaluate ax s = Ok s' /\ state_ok t s' /\ stratified_model t s s' /\
    forall s'', state_ok t s'' -> stratified_model t s s'' -> s'' = s'.
Proof. exact evaluate_correct. Qed.
Print Assumptions C13_evaluate_is_stratified_model.

(** Two basic variables; three derived ones in two layers with recursion (2 and 3 support each
    other), negation (4 requires 2 to be at its default 0), and a repeated condition. *)
Definition ex_task : task := {|
  t_vars := [ {| vdom := 3; vlayer := None; vdefault := 0 |}; {| vdom := 2; vlayer := None; vdefault := 0 |};
              {| vdom := 2; vlayer := Some 0; vdefault := 0 |}; {| vdom := 2; vlayer := Some 0; vdefault := 0 |};
              {| vdom := 2; vlayer := Some 1; vdefault := 1 |} ];
  t_ops := [ {| op_pre := [(0, 0)]; op_effs := [ {| eff_cond := [(1, 0); (1, 0)]; eff_fact := (0, 1) |}; {| eff_cond := []; eff_fact := (1, 1) |}]; op_cost := 3 |};
             {| op_pre := [(4, 1)]; op_effs := [ {| eff_cond := []; eff_fact := (0, 2) |} ]; op_cost := 0 |} ];
  t_rules := [ {| r_body := [(3, 1); (1, 1)]; r_head := (2, 1) |}; {| r_body := [(2, 1)]; r_head := (3, 1) |};
               {| r_body := [(0, 1); (0, 1); (1, 1)]; r_head := (3, 1) |};
               {| r_body := [(2, 0); (1, 1)]; r_head := (4, 0) |} ];
  t_init := [0; 0; 0; 0; 1];
  t_goal := [(4, 0); (0, 2)]
|}.

Lemma fact_ok_ex f : (fst f <? 5) && (snd f <? nth (fst f) [3; 2; 2; 2; 2] 0) = true -> fact_ok ex_task f.
Proof.
  destruct f as [v d]. unfold fact_ok, is_var. cbn [fst snd].
  intros H. apply andb_true_iff in H. destruct H as [H1 H2]. apply Nat.ltb_lt in H1, H2.
  do 5 (destruct v as [|v]; [eexists; split; [reflexivity|exact H2]|]). lia.
Qed.

Lemma ex_task_ok : task_ok ex_task.
Proof.
  unfold task_ok. splits.
  - repeat constructor; cbn; try lia; intros H; congruence.
  - repeat constructor; try (apply fact_ok_ex; reflexivity).
  - assert (R : forall r, In r (t_rules ex_task) -> rule_ok ex_task r).
    { intros r Hr. cbn in Hr. unfold rule_ok.
      decompose [or] Hr; try contradiction; subst r; cbn [r_body r_head fst snd]; splits;
        try (repeat constructor; apply fact_ok_ex; reflexivity);
        (eexists; eexists; split; [reflexivity|]; split; [reflexivity|]; split; [discriminate|]);
        intros v d Hv x' k' Hx' Hk'; cbn in Hv; decompose [or] Hv; try contradiction;
        match goal with H : (_, _) = (_, _) |- _ => inv H end; cbn in Hx'; inv Hx'; cbn in Hk'; inv Hk'; cbn; split; lia. }
    apply Forall_forall; auto.
  - repeat constructor.
  - repeat constructor; apply fact_ok_ex; reflexivity.
Qed.

Example C13_nonvacuous :
  task_ok ex_task /\ state_ok ex_task [1; 1; 0; 0; 1] /\ state_ok ex_task [0; 1; 1; 1; 1] /\
  (let* ax := make_axeval ex_task in let* a := evaluate ax [1; 1; 0; 0; 1] in let* b := evaluate ax [0; 1; 1; 1; 1] in Ok (a, b))
    = Ok ([1; 1; 1; 1; 1], [0; 1; 0; 0; 0]).
Proof. splits; [apply ex_task_ok | repeat constructor | repeat constructor | vm_compute; reflexivity]. Qed.
