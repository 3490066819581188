(** Model of saturated cost partitioning over Cartesian abstractions
    (src/search/cartesian_abstractions/cost_saturation.cc, additive_cartesian_heuristic.cc,
    cartesian_heuristic_function.cc and compute_distances of abstract_search.cc).

    Simplifications: a cost is a natural number or infinite ([None] is INF); a saturated cost is an
    integer or minus infinity ([None] is -INF); sums are assumed not to overflow.  The limits on
    states, transitions, time and memory are arbitrary answers: [abort k] is the answer of the
    resource part of should_abort at its k-th call, and the run of the refinement algorithm for the
    k-th subtask ([cegar k]) is a parameter here (Model_CEGAR).  Failed assertions are [UB].
    Logging and statistics are left out. *)
From Verif Require Import Outcome Spec_Task Model_Task Model_PQ Model_Graph Model_Cartesian.

Notation cost := (option nat) (only parsing).

(* abstract_search.cc:176-181: transitions of infinite cost never improve a distance *)
Fixpoint finite_edges (costs : list cost) (tr : list (nat * nat)) : outcome (list (nat * nat)) :=
  match tr with
  | [] => Ok []
  | (op, target) :: r =>
      let* c := vget costs op in
      let* es := finite_edges costs r in
      Ok (match c with None => es | Some c => (target, c) :: es end)
  end.

Section QUEUE.
Variable P : pqueue.
Variable q0 : PQ P.                       (* the new, empty queue *)

(* abstract_search.cc:153-188; the fuel is the number of start states and transitions *)
Definition compute_distances (transitions : list (list (nat * nat))) (costs : list cost) (start_ids : list nat) : outcome dists :=
  let* d := fold_outcome (fun d s => vset d s (Some 0)) start_ids (repeat None (length transitions)) in
  let q := fold_left (fun q s => pq_push P q 0 s) start_ids q0 in
  dijkstra P (fun s => let* tr := vget transitions s in finite_edges costs tr)
    (S (length start_ids + list_sum (map (@length _) transitions))) d q.

(* max(saturated_costs[op_id], needed) *)
Definition raise_cost (sat : list (option Z)) (op : nat) (needed : Z) : outcome (list (option Z)) :=
  let* a := vget sat op in
  vset sat op (Some (match a with None => needed | Some a => Z.max a needed end)).

(* cost_saturation.cc:46-67 the body of the loop over states *)
Definition saturate_state (general : bool) (ts : tsystem) (g h : dists) (sat : list (option Z)) (s : nat) : outcome (list (option Z)) :=
  let* gv := vget g s in
  let* hv := vget h s in
  match gv, hv with
  | Some _, Some hv =>
      let* out := vget (c_out ts) s in
      let* sat := fold_outcome (fun sat (tr : nat * nat) =>
        let* succ_h := vget h (snd tr) in
        match succ_h with
        | None => Ok sat
        | Some succ_h => raise_cost sat (fst tr) (Z.of_nat hv - Z.of_nat succ_h)
        end) out sat in
      if general then let* ls := vget (c_loops ts) s in fold_outcome (fun sat op => raise_cost sat op 0%Z) ls sat
      else Ok sat
  | _, _ => Ok sat
  end.
(* cost_saturation.cc:34-80 *)
Definition compute_saturated_costs (general : bool) (ts : tsystem) (g h : dists) : outcome (list (option Z)) :=
  fold_outcome (saturate_state general ts g h) (seq 0 (length h))
    (repeat (if general then None else Some 0%Z) (length (c_pre ts))).

(* cost_saturation.cc:148-168 *)
Definition reduce_cost (remaining : cost) (saturated : option Z) : outcome cost :=
  match remaining, saturated with
  | None, _ => Ok None
  | Some _, None => Ok None
  | Some r, Some s => if (s <=? Z.of_nat r)%Z then Ok (Some (Z.to_nat (Z.of_nat r - s))) else UB
  end.
Fixpoint reduce_remaining_costs (remaining : list cost) (saturated : list (option Z)) : outcome (list cost) :=
  match remaining, saturated with
  | [], [] => Ok []
  | r :: rs, s :: ss => let* r := reduce_cost r s in let* rs := reduce_remaining_costs rs ss in Ok (r :: rs)
  | _, _ => UB
  end.

(* modified_goals_task.h, modified_goals_task.cc: the task with another goal *)
Definition with_goal (t : task) (gs : list fact) : task :=
  {| t_vars := t_vars t; t_ops := t_ops t; t_rules := t_rules t; t_init := t_init t; t_goal := gs |}.
(** A subtask and the conversion of states of the original task to it. *)
Record subtask := { st_task : task; st_conv : state -> outcome state }.
(* cartesian_heuristic_function.h; the hierarchy knows the subtask *)
Record hfunction := { hf_conv : state -> outcome state; hf_nodes : list node; hf_values : dists }.
(* cartesian_heuristic_function.cc:14-18, refinement_hierarchy.cc:78-82 *)
Definition get_value (f : hfunction) (s : state) : outcome cost :=
  let* s := hf_conv f s in
  let* id := abstract_state_id (hf_nodes f) s in
  vget (hf_values f) id.

(* cost_saturation.cc:176-182 *)
Fixpoint state_is_dead_end (fs : list hfunction) (s : state) : outcome bool :=
  match fs with
  | [] => Ok false
  | f :: r => let* v := get_value f s in match v with None => Ok true | Some _ => state_is_dead_end r s end
  end.

Section RUN.
Variable cegar : nat -> task -> list cost -> outcome abstraction.
Variable abort : nat -> bool.
Variable general : bool.
Variable t : task.                          (* the original task *)

(* cost_saturation.cc:118-124; [k] counts the calls *)
Definition should_abort (fs : list hfunction) (k : nat) : outcome bool :=
  if abort k then Ok true else state_is_dead_end fs (t_init t).

(* cost_saturation.cc:189-219 one round of the loop *)
Definition build_one (k : nat) (remaining : list cost) (st : subtask) : outcome (list cost * hfunction) :=
  let costs := remaining in
  let* A := cegar k (st_task st) costs in
  let* init_distances := compute_distances (c_out (ab_ts A)) costs [ab_init A] in
  let* goal_distances := compute_distances (c_in (ab_ts A)) costs (ab_goals A) in
  let* saturated := compute_saturated_costs general (ab_ts A) init_distances goal_distances in
  let* remaining := reduce_remaining_costs remaining saturated in
  Ok (remaining, {| hf_conv := st_conv st; hf_nodes := ab_nodes A; hf_values := goal_distances |}).

(* cost_saturation.cc:184-226; the state is the remaining costs, the functions and the counter *)
Definition sat_state : Type := list cost * list hfunction * nat.
Fixpoint build_abstractions (subtasks : list subtask) (x : sat_state) : outcome sat_state :=
  match subtasks with
  | [] => Ok x
  | st :: r =>
      let '(remaining, fs, k) := x in
      let* (remaining, f) := build_one k remaining st in
      let fs := fs ++ [f] in
      let* stop := should_abort fs k in
      if stop then Ok (remaining, fs, S k) else build_abstractions r (remaining, fs, S k)
  end.
(* cost_saturation.cc:127-133 *)
Fixpoint build_all (generators : list (list subtask)) (x : sat_state) : outcome sat_state :=
  match generators with
  | [] => Ok x
  | subtasks :: r =>
      let* x := build_abstractions subtasks x in
      let '(remaining, fs, k) := x in
      let* stop := should_abort fs k in
      if stop then Ok (remaining, fs, S k) else build_all r (remaining, fs, S k)
  end.
(* cost_saturation.cc:98-146 *)
Definition generate_heuristic_functions (generators : list (list subtask)) : outcome (list hfunction) :=
  let* x := build_all generators (map (fun op => Some (op_cost op)) (t_ops t), [], 0) in
  Ok (snd (fst x)).
End RUN.
End QUEUE.

(* additive_cartesian_heuristic.cc:46-58; [None] is DEAD_END *)
Fixpoint compute_heuristic (fs : list hfunction) (s : state) : outcome (option nat) :=
  match fs with
  | [] => Ok (Some 0)
  | f :: r => let* v := get_value f s in
              match v with
              | None => Ok None
              | Some v => let* sum := compute_heuristic r s in
                          Ok (match sum with None => None | Some sum => Some (v + sum) end)
              end
  end.
