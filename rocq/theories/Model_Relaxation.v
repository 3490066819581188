(** Model of the relaxation heuristics: heuristics/relaxation_heuristic.{h,cc},
    max_heuristic.{h,cc}, additive_heuristic.{h,cc}, ff_heuristic.{h,cc}.

    Integers are unbounded; the array pools are lists of lists; -1 is [None]. *)
From Verif Require Import Outcome Spec_Task Model_Task Model_PQ.

(* relaxation_heuristic.h:41-53, without the per-evaluation fields cost and
   unsatisfied_preconditions *)
Record uop := { u_pre : list nat; u_eff : nat; u_cost : nat; u_no : option nat }.

(* relaxation_heuristic.cc:60-68: first proposition of every variable *)
Fixpoint offsets (o : nat) (vars : list variable) : list nat :=
  match vars with [] => [] | x :: r => o :: offsets (o + vdom x) r end.
(* task_properties.cc get_num_facts *)
Definition num_props (t : task) : nat := list_sum (map vdom (t_vars t)).
(* relaxation_heuristic.cc:116-122; an unknown variable reads offset 0 here (undefined in the
   code, excluded by [relax_ok]) *)
Definition prop_id (t : task) (f : fact) : nat := nth (fst f) (offsets 0 (t_vars t)) 0 + snd f.

(* utils::sort_unique (utils/collections.h): ascending order, duplicates removed *)
Fixpoint su_insert (x : nat) (l : list nat) : list nat :=
  match l with
  | [] => [x]
  | y :: r => if x <? y then x :: l else if x =? y then l else y :: su_insert x r
  end.
Definition sort_unique (l : list nat) : list nat := fold_right su_insert [] l.

(* relaxation_heuristic.cc:137-166 for an operator (is_axiom() = false) *)
Definition unary_of_op (t : task) (o : nat) (op : operator) : list uop :=
  map (fun e => {| u_pre := sort_unique (map (prop_id t) (op_pre op) ++ map (prop_id t) (eff_cond e));
                   u_eff := prop_id t (eff_fact e); u_cost := op_cost op; u_no := Some o |}) (op_effs op).
(* relaxation_heuristic.cc:137-166 for an axiom: its only precondition is the other value of
   its head variable (root_task.cc:352-400, default_value_axioms_task.cc:316-328), its
   effect condition is the body, and it costs 0 (root_task.cc:489-492) *)
Definition unary_of_rule (t : task) (r : rule) : uop :=
  {| u_pre := sort_unique (prop_id t (fst (r_head r), 1 - snd (r_head r)) :: map (prop_id t) (r_body r));
     u_eff := prop_id t (r_head r); u_cost := 0; u_no := None |}.
Fixpoint unary_of_ops (t : task) (o : nat) (ops : list operator) : list uop :=
  match ops with [] => [] | op :: r => unary_of_op t o op ++ unary_of_ops t (S o) r end.
(* relaxation_heuristic.cc:79-84 *)
Definition unary_ops (t : task) : list uop :=
  unary_of_ops t 0 (t_ops t) ++ map (unary_of_rule t) (t_rules t).

(* ---- simplify, relaxation_heuristic.cc:168-322 ---- *)
Definition ukey : Type := (list nat * nat)%type.
Definition ukey_eqb (a b : ukey) : bool :=
  (if list_eq_dec Nat.eq_dec (fst a) (fst b) then true else false) && (snd a =? snd b).
(* std::pair's operator< on (cost, index), line 238 *)
Definition uval_ltb (a b : nat * nat) : bool := (fst a <? fst b) || ((fst a =? fst b) && (snd a <? snd b)).
(* lines 230-240: the hash map is an association list *)
Fixpoint ins_key (k : ukey) (v : nat * nat) (m : list (ukey * (nat * nat))) : list (ukey * (nat * nat)) :=
  match m with
  | [] => [(k, v)]
  | (k', v') :: r => if ukey_eqb k k' then (k', if uval_ltb v v' then v else v') :: r
                     else (k', v') :: ins_key k v r
  end.
Fixpoint find_key (k : ukey) (m : list (ukey * (nat * nat))) : option (nat * nat) :=
  match m with [] => None | (k', v) :: r => if ukey_eqb k k' then Some v else find_key k r end.
Definition key_of (u : uop) : ukey := (u_pre u, u_eff u).
(* lines 221-241; [i] is the index of the first operator in the list *)
Fixpoint index_ops (us : list uop) (i : nat) (m : list (ukey * (nat * nat))) : list (ukey * (nat * nat)) :=
  match us with
  | [] => m
  | u :: r => index_ops r (S i) (ins_key (key_of u) (u_cost u, i) m)
  end.
(* lines 299-302: the elements whose bit is set in the mask *)
Fixpoint masked (l : list nat) (mask : nat) : list nat :=
  match l with
  | [] => []
  | x :: r => if Nat.odd mask then x :: masked r (Nat.div2 mask) else masked r (Nat.div2 mask)
  end.
(* line 193 *)
Definition max_pre_to_test : nat := 5.
(* lines 253-312; [i] is get_op_id(op) *)
Definition is_dominated (m : list (ukey * (nat * nat))) (i : nat) (u : uop) : bool :=
  if negb (match find_key (key_of u) m with Some v => snd v =? i | None => false end) then true
  else if max_pre_to_test <? length (u_pre u) then false
  else existsb (fun mask => match find_key (masked (u_pre u) mask, u_eff u) m with
                            | Some v => fst v <=? u_cost u
                            | None => false
                            end) (seq 0 (2 ^ length (u_pre u) - 1)).
(* lines 314-316 remove_if, which tests every operator at its original position *)
Fixpoint remove_dominated (m : list (ukey * (nat * nat))) (us : list uop) (i : nat) : list uop :=
  match us with
  | [] => []
  | u :: r => if is_dominated m i u then remove_dominated m r (S i)
              else u :: remove_dominated m r (S i)
  end.
Definition simplify (us : list uop) : list uop := remove_dominated (index_ops us 0 []) us 0.

(* ---- a constructed heuristic, relaxation_heuristic.cc:50-110 ---- *)
Record rheur := { r_n : nat; r_ops : list uop; r_goals : list nat }.
Definition make_rheur (t : task) : rheur :=
  {| r_n := num_props t; r_ops := simplify (unary_ops t); r_goals := map (prop_id t) (t_goal t) |}.

(* lines 94-109: precondition_of of proposition [p] *)
Fixpoint pre_of_from (us : list uop) (i : nat) (p : nat) : list nat :=
  match us with
  | [] => []
  | u :: r => repeat i (count_occ Nat.eq_dec (u_pre u) p) ++ pre_of_from r (S i) p
  end.
Definition pre_of (us : list uop) (p : nat) : list nat := pre_of_from us 0 p.

(* ---- exploration ----
   The two heuristics differ in how an operator's cost grows with a precondition cost and in
   how the goal costs are combined. *)
Record rmode := { m_acc : nat -> nat -> nat -> nat;      (* base cost, current cost, new precondition cost *)
                  m_goal : nat -> nat -> nat }.
(* max_heuristic.cc:76-77 and 99 *)
Definition hmax_mode : rmode := {| m_acc := fun base cur c => Nat.max cur (base + c); m_goal := Nat.max |}.
(* additive_heuristic.h:51-59 increase_cost *)
Definition increase_cost (maxc cur c : nat) : nat := if maxc <? cur + c then maxc else cur + c.
(* additive_heuristic.cc:83 and 129, with MAX_COST_VALUE = [maxc] *)
Definition hadd_mode (maxc : nat) : rmode :=
  {| m_acc := fun _ cur c => increase_cost maxc cur c; m_goal := increase_cost maxc |}.

Section EXPLORE.
Variable P : pqueue.
Variable M : rmode.
Variable H : rheur.

(* Proposition::cost, reached_by; UnaryOperator::unsatisfied_preconditions, cost; the queue *)
Record xstate := {
  x_cost : list (option nat); x_by : list (option nat);
  x_unsat : list Z; x_ocost : list nat; x_q : PQ P }.

(* additive_heuristic.h:40-49; max_heuristic.h has the same without reached_by *)
Definition enqueue (st : xstate) (p c : nat) (op : option nat) : outcome xstate :=
  let* old := vget (x_cost st) p in
  if match old with None => true | Some o => c <? o end then
    let* cost' := vset (x_cost st) p (Some c) in
    let* by' := vset (x_by st) p op in
    Ok {| x_cost := cost'; x_by := by'; x_unsat := x_unsat st; x_ocost := x_ocost st;
          x_q := pq_push P (x_q st) c p |}
  else Ok st.

(* additive_heuristic.cc:41-57; reached_by keeps its old values [by0] *)
Fixpoint setup_ops (us : list uop) (i : nat) (st : xstate) : outcome xstate :=
  match us with
  | [] => Ok st
  | u :: r =>
      let* st' := (if (Z.of_nat (length (u_pre u)) =? 0)%Z then enqueue st (u_eff u) (u_cost u) (Some i) else Ok st) in
      setup_ops r (S i) st'
  end.
Definition setup (q0 : PQ P) (by0 : list (option nat)) : outcome xstate :=
  setup_ops (r_ops H) 0
    {| x_cost := repeat None (r_n H); x_by := by0;
       x_unsat := map (fun u => Z.of_nat (length (u_pre u))) (r_ops H);
       x_ocost := map u_cost (r_ops H); x_q := pq_clear P q0 |}.

(* additive_heuristic.cc:59-64; [I] are the propositions of the state *)
Definition setup_state (st : xstate) (I : list nat) : outcome xstate :=
  fold_outcome (fun st p => enqueue st p 0 None) I st.

(* additive_heuristic.cc:80-88 *)
Definition update_op (pc : nat) (st : xstate) (i : nat) : outcome xstate :=
  let* u := vget (r_ops H) i in
  let* oc := vget (x_ocost st) i in
  let* ocost' := vset (x_ocost st) i (m_acc M (u_cost u) oc pc) in
  let* n := vget (x_unsat st) i in
  let* _ := guard (0 <=? n - 1)%Z in
  let* unsat' := vset (x_unsat st) i (n - 1)%Z in
  let st' := {| x_cost := x_cost st; x_by := x_by st; x_unsat := unsat'; x_ocost := ocost'; x_q := x_q st |} in
  if (n - 1 =? 0)%Z then
    let* c := vget (x_ocost st') i in
    enqueue st' (u_eff u) c (Some i)
  else Ok st'.

(* is_goal, relaxation_heuristic.cc:73-77 *)
Definition is_goal_prop (p : nat) : bool := existsb (Nat.eqb p) (r_goals H).

(* additive_heuristic.cc:66-90 *)
Fixpoint explore (fuel : nat) (st : xstate) (unsolved : Z) : outcome xstate :=
  match fuel with
  | O => NoFuel
  | S fuel =>
      match pq_pop P (x_q st) with
      | None => Ok st
      | Some ((d, p), q) =>
          let st1 := {| x_cost := x_cost st; x_by := x_by st; x_unsat := x_unsat st; x_ocost := x_ocost st; x_q := q |} in
          let* c := vget (x_cost st) p in
          match c with
          | None => UB
          | Some pc =>
              let* _ := guard (pc <=? d) in
              if pc <? d then explore fuel st1 unsolved
              else
                let unsolved' := if is_goal_prop p then (unsolved - 1)%Z else unsolved in
                if is_goal_prop p && (unsolved' =? 0)%Z then Ok st1
                else let* st2 := fold_outcome (update_op pc) (pre_of (r_ops H) p) st1 in
                     explore fuel st2 unsolved'
          end
      end
  end.

(* additive_heuristic.cc:123-131: None is DEAD_END *)
Fixpoint goal_value (cost : list (option nat)) (gs : list nat) (total : nat) : outcome (option nat) :=
  match gs with
  | [] => Ok (Some total)
  | g :: r => let* c := vget cost g in
              match c with None => Ok None | Some c => goal_value cost r (m_goal M total c) end
  end.

(* additive_heuristic.cc:118-132 and max_heuristic.cc:86-102; fuel: every iteration pops an
   entry, every operator and every state fact pushes at most one *)
Definition compute (q0 : PQ P) (by0 : list (option nat)) (I : list nat) : outcome (xstate * option nat) :=
  let* st := setup q0 by0 in
  let* st := setup_state st I in
  let* st := explore (S (length (r_ops H) + length I)) st (Z.of_nat (length (r_goals H))) in
  let* h := goal_value (x_cost st) (r_goals H) 0 in
  Ok (st, h).

(* ---- relaxed plan and preferred operators, ff_heuristic.cc:23-50 (and
   additive_heuristic.cc:92-116, which does the same without the relaxed plan) ---- *)
Record mstate := { k_marked : list bool; k_plan : list bool; k_pref : list nat }.

(* algorithms/ordered_set.h: insert keeps the first occurrence (C11) *)
Definition set_preferred (l : list nat) (o : nat) : list nat := if existsb (Nat.eqb o) l then l else l ++ [o].

Fixpoint mark (fuel : nat) (st : xstate) (ms : mstate) (g : nat) : outcome mstate :=
  match fuel with
  | O => NoFuel
  | S fuel =>
      let* b := vget (k_marked ms) g in
      if b then Ok ms
      else
        let ms := {| k_marked := upd (k_marked ms) g true; k_plan := k_plan ms; k_pref := k_pref ms |} in
        let* by_g := vget (x_by st) g in
        match by_g with
        | None => Ok ms
        | Some i =>
            let* u := vget (r_ops H) i in
            let* (ms, pref) :=
              fold_outcome (fun (a : mstate * bool) p =>
                let* ms' := mark fuel st (fst a) p in
                let* bp := vget (x_by st) p in
                Ok (ms', snd a && match bp with None => true | Some _ => false end)) (u_pre u) (ms, true) in
            match u_no u with
            | None => Ok ms
            | Some o =>
                let* plan := vset (k_plan ms) o true in
                Ok {| k_marked := k_marked ms; k_plan := plan;
                      k_pref := if pref then set_preferred (k_pref ms) o else k_pref ms |}
            end
        end
  end.

(* ff_heuristic.cc:59-60; recursion depth: every nested call marks a new proposition *)
Definition mark_goals (st : xstate) (ms : mstate) : outcome mstate :=
  fold_outcome (mark (S (r_n H)) st) (r_goals H) ms.
End EXPLORE.
Arguments x_cost {P}. Arguments x_by {P}. Arguments x_unsat {P}. Arguments x_ocost {P}. Arguments x_q {P}.

(* additive_heuristic.cc:59-60: the propositions of the facts of a state *)
Fixpoint state_facts (s : state) (v : nat) : list fact :=
  match s with [] => [] | d :: r => (v, d) :: state_facts r (S v) end.
Definition state_props (t : task) (s : state) : list nat := map (prop_id t) (state_facts s 0).

(* max_heuristic.cc:86-102 *)
Definition hmax (P : pqueue) (t : task) (q0 : PQ P) (by0 : list (option nat)) (s : state) : outcome (option nat) :=
  let* (st, h) := compute P hmax_mode (make_rheur t) q0 by0 (state_props t s) in Ok h.
(* additive_heuristic.cc:134-142: value and preferred operators *)
Definition hadd (P : pqueue) (maxc : nat) (t : task) (q0 : PQ P) (by0 : list (option nat)) (s : state)
  : outcome (option nat * list nat) :=
  let H := make_rheur t in
  let* (st, h) := compute P (hadd_mode maxc) H q0 by0 (state_props t s) in
  match h with
  | None => Ok (None, [])
  | Some v =>
      let* ms := mark_goals P H st {| k_marked := repeat false (r_n H); k_plan := repeat false (length (t_ops t)); k_pref := [] |} in
      Ok (Some v, k_pref ms)
  end.
(* ff_heuristic.cc:62-69 *)
Fixpoint ff_cost (ops : list operator) (plan : list bool) : nat :=
  match ops, plan with
  | op :: r, b :: r' => (if b then op_cost op else 0) + ff_cost r r'
  | _, _ => 0
  end.
(* ff_heuristic.cc:52-70: value, preferred operators, and the relaxed plan that was summed up *)
Definition hff (P : pqueue) (maxc : nat) (t : task) (q0 : PQ P) (by0 : list (option nat)) (s : state)
  : outcome (option nat * list nat * list bool) :=
  let H := make_rheur t in
  let* (st, h) := compute P (hadd_mode maxc) H q0 by0 (state_props t s) in
  match h with
  | None => Ok (None, [], repeat false (length (t_ops t)))
  | Some _ =>
      let* ms := mark_goals P H st {| k_marked := repeat false (r_n H); k_plan := repeat false (length (t_ops t)); k_pref := [] |} in
      Ok (Some (ff_cost (t_ops t) (k_plan ms)), k_pref ms, k_plan ms)
  end.
