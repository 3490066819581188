(** Model of stubborn-set pruning: pruning/stubborn_sets.{h,cc}, stubborn_sets_action_centric.{h,cc},
    stubborn_sets_simple.{h,cc} and stubborn_sets_atom_centric.{h,cc}.

    Facts and operators of a well-formed task are in range, so the tables indexed by facts
    (achievers, consumers, marked facts) are functions or sets of facts here.  Lazily computed
    interference lists are recomputed.  Stacks have their top at the front. *)
From Verif Require Import Outcome Spec_Task Model_Task Model_MAS.

Section Stubborn.
Variable t : task.
Definition num_operators : nat := length (t_ops t).

(* stubborn_sets.cc:28-44 *)
Definition s_pre (o : nat) : list fact :=
  match nth_error (t_ops t) o with Some op => sort trans_le (op_pre op) | None => [] end.
Definition s_eff (o : nat) : list fact :=
  match nth_error (t_ops t) o with Some op => sort trans_le (map eff_fact (op_effs op)) | None => [] end.
Definition s_goal : list fact := sort trans_le (t_goal t).                          (* 21-22 *)

(* stubborn_sets.cc:46-58: operators in ascending order, once per effect *)
Definition achievers (f : fact) : list nat :=
  flat_map (fun o => match nth_error (t_ops t) o with
                     | Some op => flat_map (fun e => if fact_eqb (eff_fact e) f then [o] else []) (op_effs op)
                     | None => [] end) (seq 0 num_operators).

(* stubborn_sets.h:65-72; no_fact is None *)
Definition find_unsatisfied (conds : list fact) (s : state) : option fact :=
  find (fun f => negb (holdsb s f)) conds.

(* stubborn_sets.cc:60-75 *)
Definition prune_with (stubborn : outcome (list bool)) (op_ids : list nat) : outcome (list nat) :=
  let* st := stubborn in
  fold_outcome (fun acc o => let* b := vget st o in Ok (if b : bool then acc ++ [o] else acc)) op_ids [].

(* ---------- action-centric ---------- *)
(* stubborn_sets_action_centric.cc:6-24 *)
Fixpoint contain_conflicting_fact (facts1 : list fact) : list fact -> bool :=
  fix go facts2 :=
    match facts1, facts2 with
    | f1 :: r1, f2 :: r2 =>
        if fst f1 <? fst f2 then contain_conflicting_fact r1 facts2
        else if fst f2 <? fst f1 then go r2
        else if negb (snd f1 =? snd f2) then true
        else contain_conflicting_fact r1 r2
    | _, _ => false
    end.
(* 44-54 *)
Definition can_disable (o1 o2 : nat) : bool := contain_conflicting_fact (s_eff o1) (s_pre o2).
Definition can_conflict (o1 o2 : nat) : bool := contain_conflicting_fact (s_eff o1) (s_eff o2).
(* 56-63: marks and pending operators *)
Definition enqueue (sq : list bool * list nat) (o : nat) : outcome (list bool * list nat) :=
  let* b := vget (fst sq) o in
  if b : bool then Ok sq
  else let* st := vset (fst sq) o true in Ok (st, o :: snd sq).
Definition enqueue_all := fold_outcome enqueue.

(* stubborn_sets_simple.h:18-22 *)
Definition interfere (o1 o2 : nat) : bool := can_disable o1 o2 || can_conflict o1 o2 || can_disable o2 o1.
(* stubborn_sets_simple.cc:22-39 *)
Definition interfering (o1 : nat) : list nat :=
  filter (fun o2 => negb (o1 =? o2) && interfere o1 o2) (seq 0 num_operators).
(* 41-53, 62-76 *)
Definition handle_simple (s : state) (o : nat) (sq : list bool * list nat) : outcome (list bool * list nat) :=
  match find_unsatisfied (s_pre o) s with
  | None => enqueue_all (interfering o) sq
  | Some f => enqueue_all (achievers f) sq
  end.
(* stubborn_sets_action_centric.cc:31-42 *)
Fixpoint loop_simple (s : state) (fuel : nat) (sq : list bool * list nat) : outcome (list bool) :=
  match snd sq with
  | [] => Ok (fst sq)
  | o :: q =>
      match fuel with
      | O => NoFuel
      | S f => let* sq := handle_simple s o (fst sq, q) in loop_simple s f sq
      end
  end.
(* stubborn_sets_simple.cc:55-60, with stubborn.assign(num_operators, false); the index no_fact of a goal state is
   undefined behaviour *)
Definition compute_simple (s : state) : outcome (list bool) :=
  match find_unsatisfied s_goal s with
  | None => UB
  | Some g =>
      let* sq := enqueue_all (achievers g) (repeat false num_operators, []) in
      loop_simple s num_operators sq
  end.
Definition prune_simple (s : state) (op_ids : list nat) : outcome (list nat) := prune_with (compute_simple s) op_ids.

(* ---------- atom-centric ---------- *)
(* stubborn_sets_atom_centric.h:7-16 *)
Inductive mark := MARKED_NONE | MARKED_ALL | MARKED (value : nat).
Inductive strategy := FAST_DOWNWARD | QUICK_SKIP | STATIC_SMALL | DYNAMIC_SMALL.
(* 24-45; marked facts, marks of variables and pending facts for producers and consumers *)
Record marks := { mk_facts : list fact; mk_vars : list mark; mk_queue : list fact }.
Record atom_state := { a_stub : list bool; a_prod : marks; a_cons : marks }.

Variable use_sibling_shortcut : bool.
Variable strat : strategy.

(* stubborn_sets_atom_centric.cc:42-61 *)
Definition consumers (f : fact) : list nat :=
  flat_map (fun o => match nth_error (t_ops t) o with
                     | Some op => flat_map (fun p => if fact_eqb p f then [o] else []) (op_pre op)
                     | None => [] end) (seq 0 num_operators).
Definition memf (f : fact) (l : list fact) : bool := existsb (fact_eqb f) l.
(* 68-80 *)
Definition enqueue_fact (m : marks) (f : fact) : marks :=
  if memf f (mk_facts m) then m
  else {| mk_facts := f :: mk_facts m; mk_vars := mk_vars m; mk_queue := f :: mk_queue m |}.
Definition dom_size (v : nat) : nat := match nth_error (t_vars t) v with Some x => vdom x | None => 0 end.
Definition set_mark (m : marks) (v : nat) (k : mark) : marks :=
  if use_sibling_shortcut then {| mk_facts := mk_facts m; mk_vars := upd (mk_vars m) v k; mk_queue := mk_queue m |} else m.
(* 82-111 and 113-130 *)
Definition enqueue_siblings (m : marks) (f : fact) : marks :=
  let k := if use_sibling_shortcut then nth (fst f) (mk_vars m) MARKED_NONE else MARKED_NONE in
  match k with
  | MARKED_NONE =>
      let m := fold_left (fun m d => if negb (d =? snd f) then enqueue_fact m (fst f, d) else m)
                 (seq 0 (dom_size (fst f))) m in
      set_mark m (fst f) (MARKED (snd f))
  | MARKED_ALL => m
  | MARKED d =>
      if negb (d =? snd f) then set_mark (enqueue_fact m (fst f, d)) (fst f) MARKED_ALL else m
  end.
(* 132-184: the fact with the smallest number [count] of achievers among the unsatisfied ones *)
Definition select_small (count : fact -> nat) (facts : list fact) (s : state) : option fact :=
  fst (fold_left (fun (best : option fact * option nat) f =>
    if negb (holdsb s f) then
      match snd best with
      | None => (Some f, Some (count f))      (* INT_MAX *)
      | Some c => if count f <? c then (Some f, Some (count f)) else best
      end
    else best) facts (None, None)).
Definition select_fact (facts : list fact) (s : state) (a : atom_state) : option fact :=
  match strat with
  | FAST_DOWNWARD => find_unsatisfied facts s
  | QUICK_SKIP =>
      match find (fun f => negb (holdsb s f) && memf f (mk_facts (a_prod a))) facts with
      | Some f => Some f
      | None => find_unsatisfied facts s
      end
  | STATIC_SMALL => select_small (fun f => length (achievers f)) facts s
  | DYNAMIC_SMALL => select_small (fun f => length (filter (fun o => negb (nth o (a_stub a) false)) (achievers f))) facts s
  end.
(* 186-189 *)
Definition enqueue_nes (s : state) (o : nat) (a : atom_state) : outcome atom_state :=
  match select_fact (s_pre o) s a with
  | None => UB
  | Some f => Ok {| a_stub := a_stub a; a_prod := enqueue_fact (a_prod a) f; a_cons := a_cons a |}
  end.
(* 191-203 *)
Definition enqueue_interferers (o : nat) (a : atom_state) : atom_state :=
  let p := fold_left enqueue_siblings (s_pre o) (a_prod a) in
  {| a_stub := a_stub a; a_prod := fold_left enqueue_siblings (s_eff o) p;
     a_cons := fold_left enqueue_siblings (s_eff o) (a_cons a) |}.
(* 242-252 *)
Definition handle_atom (s : state) (a : atom_state) (o : nat) : outcome atom_state :=
  let* b := vget (a_stub a) o in
  if b : bool then Ok a
  else
    let* st := vset (a_stub a) o true in
    let a := {| a_stub := st; a_prod := a_prod a; a_cons := a_cons a |} in
    match find_unsatisfied (s_pre o) s with
    | None => Ok (enqueue_interferers o a)
    | Some _ => enqueue_nes s o a
    end.
Definition pop (m : marks) (q : list fact) : marks := {| mk_facts := mk_facts m; mk_vars := mk_vars m; mk_queue := q |}.
(* 226-239 *)
Fixpoint loop_atom (s : state) (fuel : nat) (a : atom_state) : outcome (list bool) :=
  match mk_queue (a_prod a), mk_queue (a_cons a) with
  | [], [] => Ok (a_stub a)
  | f :: q, _ =>
      match fuel with
      | O => NoFuel
      | S n =>
          let* a := fold_outcome (handle_atom s) (achievers f) {| a_stub := a_stub a; a_prod := pop (a_prod a) q; a_cons := a_cons a |} in
          loop_atom s n a
      end
  | [], f :: q =>
      match fuel with
      | O => NoFuel
      | S n =>
          let* a := fold_outcome (handle_atom s) (consumers f) {| a_stub := a_stub a; a_prod := a_prod a; a_cons := pop (a_cons a) q |} in
          loop_atom s n a
      end
  end.
(* 205-224 *)
Definition no_marks (s : state) : marks := {| mk_facts := []; mk_vars := repeat MARKED_NONE (length s); mk_queue := [] |}.
Definition num_facts : nat := list_sum (map vdom (t_vars t)).
Definition compute_atom (s : state) : outcome (list bool) :=
  let a := {| a_stub := repeat false num_operators; a_prod := no_marks s; a_cons := no_marks s |} in
  match select_fact s_goal s a with
  | None => UB
  | Some g => loop_atom s (2 * num_facts) {| a_stub := a_stub a; a_prod := enqueue_fact (a_prod a) g; a_cons := a_cons a |}
  end.
Definition prune_atom (s : state) (op_ids : list nat) : outcome (list nat) := prune_with (compute_atom s) op_ids.
End Stubborn.
