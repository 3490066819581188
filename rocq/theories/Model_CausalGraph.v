(** Model of src/search/task_utils/causal_graph.cc (construction of the causal graph).
    Not modelled: the cache of causal graphs per task object (187-194) and logging. *)
From Verif Require Import Outcome Spec_Task Model_MAS.
Import ListNotations.

(** causal_graph.cc:46-58 class IntRelationBuilder: one set of successors per element.  The
    unordered_set<int> is a duplicate-free list; its iteration order is irrelevant because
    compute_relation sorts. *)
Definition rel := list (list nat).
Definition set_insert (x : nat) (s : list nat) : list nat := if existsb (Nat.eqb x) s then s else x :: s.

(** causal_graph.cc:70-74 add_pair (an index outside the range is undefined behaviour; the
    range check of v is an assertion only). *)
Definition add_pair (r : rel) (u v : nat) : outcome rel :=
  let* s := vget r u in vset r u (set_insert v s).

(** causal_graph.cc:76-84 compute_relation. *)
Definition compute_relation (r : rel) : rel := map (sort Nat.leb) r.

(** causal_graph.cc:86-105 struct CausalGraphBuilder. *)
Record builder := { b_pre_eff : rel; b_eff_pre : rel; b_eff_eff : rel; b_succ : rel; b_pred : rel }.
Definition builder_new (n : nat) : builder :=
  {| b_pre_eff := repeat [] n; b_eff_pre := repeat [] n; b_eff_eff := repeat [] n;
     b_succ := repeat [] n; b_pred := repeat [] n |}.

(** causal_graph.cc:107-113 handle_pre_eff_arc. *)
Definition handle_pre_eff_arc (b : builder) (u v : nat) : outcome builder :=
  let* pe := add_pair (b_pre_eff b) u v in
  let* sc := add_pair (b_succ b) u v in
  let* ep := add_pair (b_eff_pre b) v u in
  let* pd := add_pair (b_pred b) v u in
  Ok {| b_pre_eff := pe; b_eff_pre := ep; b_eff_eff := b_eff_eff b; b_succ := sc; b_pred := pd |}.

(** causal_graph.cc:115-123 handle_eff_eff_edge. *)
Definition handle_eff_eff_edge (b : builder) (u v : nat) : outcome builder :=
  let* ee := add_pair (b_eff_eff b) u v in
  let* ee := add_pair ee v u in
  let* sc := add_pair (b_succ b) u v in
  let* sc := add_pair sc v u in
  let* pd := add_pair (b_pred b) u v in
  let* pd := add_pair pd v u in
  Ok {| b_pre_eff := b_pre_eff b; b_eff_pre := b_eff_pre b; b_eff_eff := ee; b_succ := sc; b_pred := pd |}.

(** causal_graph.cc:125-160 handle_operator, its three loops. *)
Definition pre_loop (op : operator) (b : builder) : outcome builder :=
  fold_outcome (fun b pre =>
    fold_outcome (fun b eff =>
      if negb (fst pre =? fst (eff_fact eff)) then handle_pre_eff_arc b (fst pre) (fst (eff_fact eff)) else Ok b)
      (op_effs op) b) (op_pre op) b.
Definition cond_loop (op : operator) (b : builder) : outcome builder :=
  fold_outcome (fun b eff =>
    fold_outcome (fun b (pre : fact) =>
      if negb (fst pre =? fst (eff_fact eff)) then handle_pre_eff_arc b (fst pre) (fst (eff_fact eff)) else Ok b)
      (eff_cond eff) b) (op_effs op) b.
Definition eff_loop (op : operator) (b : builder) : outcome builder :=
  fold_outcome (fun b i =>
    let* e1 := vget (op_effs op) i in
    fold_outcome (fun b j =>
      let* e2 := vget (op_effs op) j in
      if negb (fst (eff_fact e1) =? fst (eff_fact e2))
      then handle_eff_eff_edge b (fst (eff_fact e1)) (fst (eff_fact e2)) else Ok b)
      (seq (i + 1) (length (op_effs op) - (i + 1))) b)
    (seq 0 (length (op_effs op))) b.
Definition handle_operator (b : builder) (op : operator) : outcome builder :=
  let* b := pre_loop op b in
  let* b := cond_loop op b in
  eff_loop op b.

(** Rules are presented as operators (task_proxy.h OperatorProxy with is_an_axiom): the only
    precondition is on the derived variable itself (tasks/root_task.cc read_pre_post_axiom), the body
    is the condition of the only effect. *)
Definition rule_operator (r : rule) : operator :=
  {| op_pre := [(fst (r_head r), 1 - snd (r_head r))];
     op_effs := [ {| eff_cond := r_body r; eff_fact := r_head r |} ]; op_cost := 0 |}.

(** causal_graph.cc:163-185 CausalGraph::CausalGraph. *)
Record causal_graph := { g_pre_to_eff : rel; g_eff_to_pre : rel; g_eff_to_eff : rel;
                         g_successors : rel; g_predecessors : rel }.
Definition build_causal_graph (t : task) : outcome causal_graph :=
  let b := builder_new (length (t_vars t)) in
  let* b := fold_outcome handle_operator (t_ops t) b in
  let* b := fold_outcome handle_operator (map rule_operator (t_rules t)) b in
  Ok {| g_pre_to_eff := compute_relation (b_pre_eff b);
        g_eff_to_pre := compute_relation (b_eff_pre b);
        g_eff_to_eff := compute_relation (b_eff_eff b);
        g_predecessors := compute_relation (b_pred b);
        g_successors := compute_relation (b_succ b) |}.
