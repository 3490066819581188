(** C60: the causal graph has exactly the arcs induced by the operators and rules. *)
From Verif Require Import Outcome Spec_Task Spec_CausalGraph Model_CausalGraph Proof_CausalGraph Prop_Axioms.
Import ListNotations.

(** For every well-formed task the construction succeeds, and for every variable each of the
    five neighbour lists is strictly increasing and contains exactly the right variables. *)
Theorem C60_causal_graph_exact : forall t, task_ok t ->
  exists cg, build_causal_graph t = Ok cg /\
  (length (g_pre_to_eff cg) = length (t_vars t) /\ length (g_eff_to_pre cg) = length (t_vars t) /\ length (g_eff_to_eff cg) = length (t_vars t) /\ length (g_successors cg) = length (t_vars t) /\ length (g_predecessors cg) = length (t_vars t)) /\
  forall u, u < length (t_vars t) -> exists l1 l2 l3 l4 l5,
    nth_error (g_pre_to_eff cg) u = Some l1 /\ lists l1 (fun v => pre_eff t u v) /\
    nth_error (g_eff_to_pre cg) u = Some l2 /\ lists l2 (fun v => pre_eff t v u) /\
    nth_error (g_eff_to_eff cg) u = Some l3 /\ lists l3 (fun v => eff_eff t u v) /\
    nth_error (g_successors cg) u = Some l4 /\ lists l4 (fun v => causal_arc t u v) /\
    nth_error (g_predecessors cg) u = Some l5 /\ lists l5 (fun v => causal_arc t v u).
Proof. exact build_exact. Qed.
Print Assumptions C60_causal_graph_exact.

(** The task with two-layer rules: its causal graph is non-trivial. *)
Example C60_nonvacuous : task_ok ex_task /\
  build_causal_graph ex_task = Ok
    {| g_pre_to_eff := [[1; 3]; [0; 2; 3; 4]; [3; 4]; [2]; [0]];
       g_eff_to_pre := [[1; 4]; [0]; [1; 3]; [0; 1; 2]; [1; 2]];
       g_eff_to_eff := [[1]; [0]; []; []; []];
       g_successors := [[1; 3]; [0; 2; 3; 4]; [3; 4]; [2]; [0]];
       g_predecessors := [[1; 4]; [0]; [1; 3]; [0; 1; 2]; [1; 2]] |}.
Proof. split; [exact ex_task_ok|vm_compute; reflexivity]. Qed.
