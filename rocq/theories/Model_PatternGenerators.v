(** The greedy pattern generator (src/search/pdbs/pattern_generator_greedy.cc) and the random pattern
    generator (src/search/pdbs/pattern_generator_random.cc, random_pattern.cc, utils.cc).

    Shuffling is a parameter (its first argument tells the calls apart), and so is the clock:
    [expired i] says whether the time limit is reached at the i-th check.  Not modelled: logging. *)
From Verif Require Import Outcome Spec_Task Model_MAS Model_CausalGraph Model_MergeStrategy Model_Evaluators Model_Patterns.
Import ListNotations.

(** pattern_generator_greedy.cc:36-50 the loop; a signed overflow of size is undefined behaviour. *)
Fixpoint greedy_loop (fuel : nat) (t : task) (cg : causal_graph) (max_states : Z) (V : finder) (size : Z) (pattern : list nat) : outcome (list nat) :=
  match v_remaining V with
  | [] => Ok pattern
  | _ =>
      match fuel with
      | 0 => NoFuel
      | S fuel =>
          let* (v, V) := finder_next GoalCgLevel cg V in
          let* x := vget (t_vars t) v in
          let* fits := is_product_within_limit size (Z.of_nat (vdom x)) max_states in
          if negb fits then Ok pattern
          else
            let* _ := guard (size * Z.of_nat (vdom x) <=? INT_MAX)%Z in
            greedy_loop fuel t cg max_states V (size * Z.of_nat (vdom x)) (pattern ++ [v])
      end
  end.
(** pattern_generator_greedy.cc:28-53 compute_pattern; pattern_information.cc:12-16. *)
Definition greedy_pattern (max_states : Z) (t : task) : outcome (list nat) :=
  let* cg := build_causal_graph t in
  let* V := new_finder GoalCgLevel (fun l => l) t in
  let* p := greedy_loop (length (v_remaining V)) t cg max_states V 1 [] in
  validate_and_normalize_pattern (length (t_vars t)) (map Z.of_nat p).

(* utils/collections.h:21-26 sort_unique *)
Fixpoint unique_nats (l : list nat) : list nat :=
  match l with
  | [] => []
  | x :: r => match r with y :: _ => if x =? y then unique_nats r else x :: unique_nats r | [] => [x] end
  end.
(** utils.cc:82-100 compute_cg_neighbors. *)
Definition compute_cg_neighbors (t : task) (bidirectional : bool) : outcome (list (list nat)) :=
  let* cg := build_causal_graph t in
  fold_outcome (fun r v =>
    let* p := vget (g_predecessors cg) v in
    let* l := (if bidirectional then let* s := vget (g_successors cg) v in Ok (p ++ s) else Ok p) in
    Ok (r ++ [unique_nats (sort Nat.leb l)])) (seq 0 (length (t_vars t))) [].

Section Random.
Variable shuffle : nat -> list nat -> list nat.
Variable expired : nat -> bool.
(** random_pattern.cc:46-58 the loop over the neighbours: the first one that was not selected yet and
    fits, and the new size. *)
Fixpoint find_neighbor (t : task) (limit size : Z) (visited l : list nat) : outcome (option (nat * Z)) :=
  match l with
  | [] => Ok None
  | u :: r =>
      let* x := vget (t_vars t) u in
      let d := Z.of_nat (vdom x) in
      let* ok := (if negb (existsb (Nat.eqb u) visited) then is_product_within_limit size d limit else Ok false) in
      if ok : bool then let* _ := guard (size * d <=? INT_MAX)%Z in Ok (Some (u, size * d)%Z)
      else find_neighbor t limit size visited r
  end.
(** random_pattern.cc:39-63 the loop; visited_vars is a duplicate-free list. *)
Fixpoint random_loop (fuel i : nat) (t : task) (limit : Z) (nb : list (list nat)) (size : Z) (visited : list nat) (current : nat) : outcome (list nat) :=
  if expired i then Ok visited
  else
    match fuel with
    | 0 => NoFuel
    | S fuel =>
        let* l := vget nb current in
        let l := shuffle i l in
        let* nb := vset nb current l in
        let* x := find_neighbor t limit size visited l in
        match x with
        | None => Ok visited
        | Some (u, size) => random_loop fuel (i + 1) t limit nb size (set_insert u visited) u
        end
    end.
(** random_pattern.cc:28-68 generate_random_pattern. *)
Definition generate_random_pattern (limit : Z) (t : task) (goal : nat) (nb : list (list nat)) : outcome (list nat) :=
  let* x := vget (t_vars t) goal in
  let* vs := random_loop (length (t_vars t)) 0 t limit nb (Z.of_nat (vdom x)) [goal] goal in
  Ok (sort Nat.leb vs).
(** pattern_generator_random.cc:33-45 compute_pattern; [shuffle_goals]: utils.cc:56-62.  A task without
    goals is undefined behaviour. *)
Definition random_pattern (shuffle_goals : list fact -> list fact) (limit : Z) (bidirectional : bool) (t : task) : outcome (list nat) :=
  let* nb := compute_cg_neighbors t bidirectional in
  let* g := vget (shuffle_goals (t_goal t)) 0 in
  let* p := generate_random_pattern limit t (fst g) nb in
  validate_and_normalize_pattern (length (t_vars t)) (map Z.of_nat p).
End Random.
