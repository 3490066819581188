(** C12: the successor generator. *)
From Verif Require Import Outcome Spec_Task Model_Task Model_SuccGen Proof_SuccGen Prop_Axioms.

(** For every well-formed task (operators may even repeat a precondition variable) and
    however the memory estimates decide between vector and hash switches: building the
    generator succeeds, and in every state it lists exactly the applicable operators, each once. *)
Theorem C12_generates_exactly_the_applicable_operators : forall use_hash t, task_ok t ->
  exists g, create use_hash t = Ok g /\
  forall s, state_ok t s ->
  exists ops, generate g s = Ok ops /\ NoDup ops /\ forall o, In o ops <-> applicable t s o.
Proof. exact create_ok. Qed.
Print Assumptions C12_generates_exactly_the_applicable_operators.

(** Operators sharing prefixes, with no precondition, with contradictory preconditions. *)
Definition ex_gen_task : task := {|
  t_vars := t_vars ex_task;
  t_ops := map (fun p => {| op_pre := p; op_effs := []; op_cost := 1 |})
             [ []; [(1, 0); (0, 1)]; [(0, 1)]; [(0, 0); (1, 1)]; [(0, 2); (2, 1)]; [(0, 0); (0, 1)]; [(1, 1)]; [(0, 1); (1, 0)] ];
  t_rules := []; t_init := [0; 0; 0; 0; 1]; t_goal := [(0, 1)] |}.

Example C12_nonvacuous : task_ok ex_gen_task /\ state_ok ex_gen_task [1; 0; 0; 0; 1] /\
  (let* g := create (fun _ _ => false) ex_gen_task in generate g [1; 0; 0; 0; 1]) = Ok [0; 2; 1; 7] /\
  (let* g := create (fun _ _ => true) ex_gen_task in generate g [0; 1; 0; 0; 1]) = Ok [0; 3; 6].
Proof.
  splits; try (vm_compute; reflexivity); [|repeat constructor].
  unfold task_ok. splits; try (repeat constructor; cbn; try lia; intros H; congruence).
  - repeat constructor; try (apply (fact_ok_ex (_, _)); reflexivity).
  - repeat constructor; apply (fact_ok_ex (_, _)); reflexivity.
Qed.
